(** Model of [cbadc.digital_estimator.decimation_and_demodulation.decimate] (decimation_and_demodulation.py 6-19), with scipy.signal.resample by its definition for real arrays
    (rfft, the lowest bins kept, the bin at the new end doubled when both sizes allow it, irfft, scaled).  Exact reals; arrays of one or two dimensions. *)
From Coq Require Import List Arith Bool ZArith Reals.
From Coquelicot Require Import Complex.
From Verif Require Import Base AnalogSystem AnalogProofs IntegratorsProofs LinearOde CplxLin SignalsMore FirFreq Psd.
Import ListNotations.
Open Scope R_scope.

(** numpy's irfft(Y, num): the imaginary parts at the two ends are ignored *)
Definition irfft (num : nat) (Y : nat -> C) (j : nat) : R :=
  rsum (num / 2 + 1) (fun q => sides num q * fst (Cmult (Y q) (cis (2 * PI * INR q * INR j / INR num)))) / INR num.
(** the spectrum Y of scipy.signal.resample *)
Definition resample_bin (Nx num : nat) (x : nat -> R) (q : nat) : C :=
  let N := Nat.min num Nx in
  let X := if Nat.ltb q (N / 2 + 1) then rfft_bin Nx x q else RtoC 0 in
  if Nat.even N && Nat.eqb q (N / 2) then if Nat.ltb num Nx then Cmult (RtoC 2) X else if Nat.ltb Nx num then Cmult (RtoC (1 / 2)) X else X else X.
Definition resample (Nx num : nat) (x : nat -> R) (j : nat) : R := irfft num (resample_bin Nx num x) j * (INR num / INR Nx).
(** signal.shape[axis]; [true] for the last axis *)
Definition axis_of (a : arr) (axis : Z) : result (nat * bool) :=
  match a with
  | V x => if Z.eqb axis 0 || Z.eqb axis (-1) then Ok (length x, true) else Exn IndexError
  | Mx c rows => if Z.eqb axis 0 || Z.eqb axis (-2) then Ok (length rows, false) else if Z.eqb axis 1 || Z.eqb axis (-1) then Ok (c, true) else Exn IndexError
  end.
(** 19 *)
Definition decimate (a : arr) (DSR axis : Z) : result arr :=
  bind (axis_of a axis) (fun '(Nx, last) =>
  if Z.eqb DSR 0 then Exn ZeroDivisionError else
  let num := (Z.of_nat Nx / DSR)%Z in
  if Z.ltb num 1 then Exn ValueError else
  let num := Z.to_nat num in
  let along (x : list R) := map (resample Nx num (fun k => nth k x 0)) (seq 0 num) in
  Ok match a with
     | V x => V (along x)
     | Mx c rows => if last then Mx num (map along rows)
                    else Mx c (map (fun j => map (fun l => resample Nx num (fun k => nth l (nth k rows []) 0) j) (seq 0 c)) (seq 0 num))
     end).
