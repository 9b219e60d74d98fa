(** Model of BandLimitedSignal and RaisedCosine (analog_signal/zero_order_hold.py 85-185).
    [float] is idealised to [R]; the data are a one-dimensional array; numpy's nan or inf of a division by zero is [ArithmeticError]. *)
From Coq Require Import List Arith Bool ZArith Reals.
From Flocq Require Import Core.
From Verif Require Import Base SignalsMore.
Import ListNotations.
Open Scope R_scope.

Inductive kind : Type := Limited | Cosine.
Record hold : Type := mkHold { h_kind : kind; h_data : list R; h_ns : Z; h_T : R; h_BW : R; h_alpha : R }.
(** 92-100, 142-150: python's 2 / T *)
Definition hold_init (k : kind) (data : list R) (T alpha : R) (ns : Z) : result hold :=
  if Req_bool T 0 then Exn ZeroDivisionError else Ok (mkHold k data ns T (2 / T) alpha).
(** 105-106 and 155-159 *)
Definition impulse_response (s : hold) (t : R) : result R :=
  match h_kind s with
  | Limited => Ok (np_sinc (2 * h_BW s * t))
  | Cosine => let d := 1 - (4 * h_alpha s * h_BW s * t) * (4 * h_alpha s * h_BW s * t) in
      if Req_bool d 0 then Exn ArithmeticError else Ok (np_sinc (2 * h_BW s * t) * (cos (2 * PI * h_alpha s * h_BW s * t) / d))
  end.
(** 122-127, 175-180: one neighbour on each side per pass.  The pulses are evaluated at t - i T and t + i T, whatever the index. *)
Fixpoint neighbours (s : hold) (t : R) (index : nat) (is_ : list nat) (res : R) : result R :=
  match is_ with
  | [] => Ok res
  | i :: is_ =>
      bind (if Nat.ltb i index then bind (impulse_response s (t - INR i * h_T s)) (fun p => Ok (res + p * nth (index - i) (h_data s) 0)) else Ok res) (fun res =>
      bind (if Nat.ltb (index + i) (length (h_data s)) then bind (impulse_response s (t + INR i * h_T s)) (fun p => Ok (res + p * nth (index + i) (h_data s) 0)) else Ok res) (fun res =>
      neighbours s t index is_ res))
  end.
(** 108-128, 161-181; [int] truncates, [%] by an empty length raises *)
Definition evaluate (s : hold) (t : R) : result R :=
  match h_data s with
  | [] => Exn ZeroDivisionError
  | _ => let index := Z.to_nat (Ztrunc (t / h_T s) mod Z.of_nat (length (h_data s))) in
      neighbours s t index (seq 1 (Z.to_nat (h_ns s / 2 - 1))) (nth index (h_data s) 0)
  end.
