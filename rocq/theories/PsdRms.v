(** The window of [cbadc.utilities.snr_spectrum_computation_extended] (utilities.py 425-428): scipy.signal.windows.blackman(N), the symmetric window, by scipy's definition
    (general_cosine: weights 0.42, 0.5, 0.08 at linspace(-pi, pi, N); ones for a single sample).  Exact reals. *)
From Coq Require Import List Arith Bool Reals ZArith.
From Verif Require Import Base.
Import ListNotations.
Open Scope R_scope.
Definition blackman_sym (N : nat) : list R :=
  if Nat.leb N 1 then repeat 1 N
  else map (fun k => let fac := - PI + INR k * (2 * PI / INR (N - 1)) in 42 / 100 * cos (0 * fac) + 1 / 2 * cos (1 * fac) + 8 / 100 * cos (2 * fac)) (seq 0 N).
