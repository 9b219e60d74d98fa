(** Model of [cbadc.utilities.compute_power_spectral_density], /repo/src/cbadc/utilities.py 322-352.
    [scipy.signal.welch] is taken by its documentation, over exact reals: segments of nperseg samples of the last axis with half overlap,
    mean of each segment removed (detrend='constant' is the default), window, rfft, one-sided density, average over the segments. *)
From Coq Require Import List Arith Bool ZArith Reals.
From Flocq Require Import Core.
From Coquelicot Require Import Complex.
From Verif Require Import Base AnalogSystem AnalogProofs IntegratorsProofs LinearOde CplxLin SignalsMore FirFreq.
Import ListNotations.
Open Scope R_scope.

(** arrays of one dimension, and of two with [c] columns *)
Inductive arr : Type := V (x : list R) | Mx (c : nat) (rows : list (list R)).
Definition arr_size (a : arr) : nat := match a with V x => length x | Mx c rows => length rows * c end.
Definition last_axis (a : arr) : nat := match a with V x => length x | Mx c _ => c end.
Definition map_rows (f : list R -> list R) (c' : nat) (a : arr) : arr := match a with V x => V (f x) | Mx _ rows => Mx c' (map f rows) end.

(** scipy.signal.get_window('blackman', n), the periodic window; ones for a single sample *)
Definition blackman (n k : nat) : R :=
  if Nat.leb n 1 then 1 else 42 / 100 - 1 / 2 * cos (2 * PI * INR k / INR n) + 8 / 100 * cos (2 * (2 * PI * INR k / INR n)).
Definition window_power (n : nat) : R := rsum n (fun k => blackman n k * blackman n k).
(** bins other than zero and, for even n, n / 2 stand for two frequencies *)
Definition sides (n q : nat) : R := if Nat.eqb q 0 || (Nat.even n && Nat.eqb q (n / 2)) then 1 else 2.
(** one segment: mean removed, windowed, transformed, scaled to a density *)
Definition detrended (n : nat) (x : nat -> R) (k : nat) : R := x k - rsum n x / INR n.
Definition periodogram (n : nat) (fs : R) (x : nat -> R) (q : nat) : R :=
  sides n q * ((Cmod (rfft_bin n (fun k => blackman n k * detrended n x k) q)) ^ 2 * (1 / (fs * window_power n))).
(** segments start every n - n // 2 samples *)
Definition step (n : nat) : nat := (n - n / 2)%nat.
Definition segments (K n : nat) : nat := ((K - n / 2) / step n)%nat.
Definition welch_row (n : nat) (fs : R) (x : list R) : list R :=
  map (fun q => rsum (segments (length x) n) (fun i => periodogram n fs (fun k => nth (i * step n + k) x 0) q) / INR (segments (length x) n)) (seq 0 (n / 2 + 1)).
(** scipy.signal.welch with window='blackman', noverlap=None, nfft=None, return_onesided=True, scaling='density': an empty array is returned as it is
    (frequencies of that shape are [[]] here); a longer nperseg than the axis is shortened to it, with a warning *)
Definition welch (a : arr) (nperseg : Z) (fs : R) : result (list R * arr) :=
  if Nat.eqb (arr_size a) 0 then Ok ([], a)
  else if Z.ltb nperseg 1 then Exn ValueError
  else let n := Nat.min (Z.to_nat nperseg) (last_axis a) in
    if Req_bool fs 0 then Exn ZeroDivisionError
    else bind (rfftfreq n (1 / fs)) (fun f => Ok (f, map_rows (welch_row n fs) (n / 2 + 1) a)).
(** utilities.py 339-352 *)
Definition compute_power_spectral_density (sequence : arr) (nperseg : Z) (fs : R) : result (list R * arr) :=
  let nperseg := Z.min nperseg (Z.of_nat (arr_size sequence)) in
  welch sequence nperseg fs.
