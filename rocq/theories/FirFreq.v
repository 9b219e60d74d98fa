(** Model of FIRFilter.fir_filter_transfer_function, /repo/src/cbadc/digital_estimator/fir_estimator.py 288-303.
    np.fft.rfft and np.fft.rfftfreq are taken by their numpy documentation, over exact reals. *)
From Coq Require Import List Arith Bool ZArith Reals.
From Flocq Require Import Core.
From Coquelicot Require Import Complex.
From Verif Require Import Base CplxLin SignalsMore.
Import ListNotations.
Open Scope R_scope.

(** np.fft.rfft of n real samples: bin q of n // 2 + 1 *)
Definition rfft_bin (n : nat) (x : nat -> R) (q : nat) : C := csum n (fun k => RtoC (x k) * cis (- (2 * PI * INR q * INR k / INR n)))%C.
(** np.fft.rfftfreq(n, d): 1.0 / (n * d) times 0, ..., n // 2 *)
Definition rfftfreq (n : nat) (d : R) : result (list R) :=
  if Req_bool (INR n * d) 0 then Exn ZeroDivisionError else Ok (map (fun q => INR q * (1 / (INR n * d))) (seq 0 (n / 2 + 1))).
(** self.h[l, k, m]; the coefficients are a list over k of L x M matrices, as in Estimators.v *)
Definition coefficient (h : list (list (list R))) (l k m : nat) : R := nth m (nth l (nth k h []) []) 0.
(** fir_estimator.py 288-303: frequencies and response[l][q][m]; rfft raises for an empty axis *)
Definition fir_filter_transfer_function (L M K3 : nat) (h : list (list (list R))) (Ts : R) : result (list R * list (list (list C))) :=
  if Nat.eqb K3 0 then Exn ValueError
  else bind (rfftfreq K3 Ts) (fun f =>
    Ok (f, map (fun l => map (fun q => map (fun m => rfft_bin K3 (fun k => coefficient h l k m) q) (seq 0 M)) (seq 0 (K3 / 2 + 1))) (seq 0 L))).
