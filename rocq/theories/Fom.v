(** Figures of merit and unit conversions (/repo/src/cbadc/fom.py).  [float] is idealised to [R]; numpy's inf and nan are the
    error value [ArithmeticError]. *)
From Coq Require Import Bool Reals Lra.
From Flocq Require Import Core.
From Verif Require Import Base.
Open Scope R_scope.

(** [np.log10] on a positive argument *)
Definition log10 (x : R) : R := ln x / ln 10.
(** [x ** y] for a positive base *)
Definition ppow (x y : R) : R := exp (y * ln x).

(** fom.py:18-19 *)
Definition twenty_log_2 : R := 20 * log10 2.
Definition quantization_noise_offset : R := 20 * log10 (sqrt 6 / 2).
(** fom.py:22-36 *)
Definition snr_to_enob (SNR : R) : R := (SNR - quantization_noise_offset) / twenty_log_2.
(** fom.py:39-53; the logarithm of a non-positive number is -inf or nan *)
Definition snr_to_dB (snr : R) : result R := if Rle_bool snr 0 then Exn ArithmeticError else Ok (10 * log10 snr).
(** fom.py:56-70 *)
Definition snr_from_dB (snr : R) : R := ppow 10 (snr / 10).
(** fom.py:73-88 *)
Definition enob_to_snr (ENOB : R) : R := ENOB * twenty_log_2 + quantization_noise_offset.
(** fom.py:91-106 *)
Definition nyquist_frequency (fs : R) : R := fs / 2.
(** fom.py:109-126 *)
Definition osr_of (fs f_sig : R) : result R :=
  if Req_bool f_sig 0 then Exn ZeroDivisionError else Ok (nyquist_frequency fs / f_sig).
(** fom.py:129-150 *)
Definition FoM_W (P fs ENOB : R) : result R :=
  if Req_bool (fs * ppow 2 ENOB) 0 then Exn ZeroDivisionError else Ok (P / (fs * ppow 2 ENOB)).
(** fom.py:153-174 *)
Definition FoM_S (P fs SNR : R) : result R :=
  if Req_bool P 0 then Exn ZeroDivisionError
  else if Rle_bool (nyquist_frequency fs / P) 0 then Exn ArithmeticError
  else Ok (SNR + 10 * log10 (nyquist_frequency fs / P)).
(** fom.py:447-448, the SNDR limit set by a clock jitter of standard deviation [sigma] *)
Definition f_sigma_to_jitter_sndr (f sigma : R) : result R :=
  if Rle_bool (2 * PI * sigma * f) 0 then Exn ArithmeticError else Ok (- 20 * log10 (2 * PI * sigma * f)).
(** fom.py:450-452 *)
Definition FoMW_SNDR_to_p_fs (FoMW SNDR : R) : R := let ENOB := snr_to_enob SNDR in FoMW * ppow 2 ENOB.
(** fom.py:454-455 *)
Definition FoMS_SNDR_to_p_fs (FoMS SNDR : R) : R := ppow 10 (- (FoMS - SNDR) / 10) / 2.
