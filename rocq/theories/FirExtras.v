(** FIRFilter beyond the floating point filter: fixed point mode, coefficient count, convolution shaping, exported tables
    (/repo/src/cbadc/digital_estimator/fir_estimator.py). *)
From Coq Require Import List Lia Arith Bool ZArith Reals Lra.
From Flocq Require Import Core.
From Verif Require Import Base LinAlg Estimators FixedPoint.
Import ListNotations.

Definition Rring : cring := mkCring R 0%R 1%R Rplus Rmult Rminus Ropp RTheory.

Fixpoint mapM {A B} (f : A -> result B) (l : list A) : result (list B) :=
  match l with
  | [] => Ok []
  | a :: l => bind (f a) (fun b => bind (mapM f l) (fun bs => Ok (b :: bs)))
  end.

(** fir_estimator.py:175-198 with [fixed_point]: every coefficient goes through [float_to_fixed] (the code converts one
    L x M slice at a time inside the loops; the conversions are independent and all raise the same exception). *)
Definition fir_h_fixed (f : fxp) (c : @coef Rring) (K1 K2 : nat) : result (list (list (list Z))) :=
  mapM (mapM (mapM (float_to_fixed f))) (fir_h c K1 K2).

(** utilities.py:677-694 applied to the (float valued) accumulator, fir_estimator.py:250-251. *)
Definition acc_to_float (f : fxp) (v : R) : result R :=
  if Rlt_bool (IZR (fx_int_max f)) (Rabs v) then Exn ArithmeticError else Ok (v / fx_scale f)%R.

(** fir_estimator.py:217-254 in fixed point mode.  The integer table is multiplied with float controls, so everything before
    the final conversion is as in the floating point mode. *)
Definition f_next_fixed (f : fxp) (K3 M L ds : nat) (hz : list (list (list Z))) (offset : list Rring) (limit : Z)
  (st : @fst_ Rring) : result (list R) * @fst_ Rring :=
  match f_next K3 M L ds (map (map (map IZR)) hz : list (list (list Rring))) offset limit st with
  | (Ok res, st) => (mapM (acc_to_float f) res, st)
  | (Exn e, st) => (Exn e, st)
  end.

(** fir_estimator.py:420-428 [np.sum(self.h > 0)], [h] as list over k of L x M matrices. *)
Definition number_of_filter_coefficients (h : list (list (list R))) : nat :=
  length (filter (fun x => Rlt_bool 0 x) (concat (map (@concat R) h))).

(** fir_estimator.py:430-439 [self.h[:, ::-1, :]] *)
Definition impulse_response {K : cring} (h : list (list (list K))) : list (list (list K)) := rev h.

(** [np.convolve(a, v, mode="full")]: empty operands raise ValueError. *)
Section Conv.
Context {K : cring}.
Definition np_convolve (a v : list K) : result (list K) :=
  match a, v with
  | [], _ | _, [] => Exn ValueError
  | _, _ => Ok (map (fun i => ksum (S i) (fun j => rmul K (nth (i - j) a (r0 K)) (nth j v (r0 K)))) (seq 0 (length a + length v - 1)))
  end.

(** numpy assignment of a 1-D slice of length [len t] to a 1-D slice of length [K3]. *)
Definition assign1 (K3 : nat) (t : list K) : result (list K) :=
  if Nat.eqb (length t) K3 then Ok t else match t with [x] => Ok (repeat x K3) | _ => Exn ValueError end.

(** fir_estimator.py:305-325, for one pair (l, m): [col = self.h[l, :, m]]. *)
Definition convolve_col (K3 : nat) (filt col : list K) : result (list K) :=
  bind (np_convolve col filt) (fun temp =>
    if Nat.eqb (length temp) K3 then assign1 K3 temp
    else
      let mid := Nat.div (length temp) 2 in
      let half := Nat.div K3 2 in
      (* mid >= half because the full convolution is at least as long as h *)
      assign1 K3 (firstn (mid + half - (mid - half)) (skipn (mid - half) temp))).
End Conv.

(** fir_estimator.py:348-372 and 396-418: the token stream of the initialiser.  Brackets are [{] and [}] in C, [[] and []] in
    rust; numbers are kept abstract (formatting to 17 digits is not modelled). *)
Inductive tok (A : Type) := TOpen | TClose | TComma | TNum (a : A).
Arguments TOpen {A}. Arguments TClose {A}. Arguments TComma {A}. Arguments TNum {A} a.

Section Export.
Context {A : Type}.
Variable h : nat -> nat -> nat -> A.       (* h l k m *)
Variables L M K3 : nat.
(** [for k in range(K3-1): write(h[l,k,m] + ",")] then [write(h[l,-1,m])] and the closing bracket; [K3 >= 1]. *)
Definition emit_row (l m : nat) : list (tok A) :=
  [TOpen] ++ flat_map (fun k => [TNum (h l k m); TComma]) (seq 0 (K3 - 1)) ++ [TNum (h l (K3 - 1)%nat m); TClose].
Definition emit_plane (l : nat) : list (tok A) :=
  [TOpen] ++ flat_map (fun m => emit_row l m ++ if Nat.ltb m (M - 1) then [TComma] else []) (seq 0 M) ++ [TClose].
Definition emit_table : list (tok A) :=
  [TOpen] ++ flat_map (fun l => emit_plane l ++ if Nat.ltb l (L - 1) then [TComma] else []) (seq 0 L) ++ [TClose].
End Export.
