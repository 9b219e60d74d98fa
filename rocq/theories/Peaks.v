(** Model of [cbadc.utilities.find_n_sinusoidals], [find_sinusoidal], [snr_spectrum_computation] and [snr_spectrum_computation_extended] (355-519).
    A spectrum is a list of reals (a power spectral density); no nan.  Index arithmetic in Z. *)
From Coq Require Import List Arith Bool Reals ZArith.
From Flocq Require Import Core.
From Verif Require Import Base.
Import ListNotations.
Open Scope R_scope.

(** [np.argmax]: the first maximal entry; ValueError on an empty array *)
Fixpoint argmax_from (best : nat) (v : R) (i : nat) (l : list R) : nat :=
  match l with [] => best | x :: l => if Rlt_bool v x then argmax_from i x (S i) l else argmax_from best v (S i) l end.
Definition argmax (l : list R) : result nat := match l with [] => Exn ValueError | x :: l => Ok (argmax_from 0 x 1 l) end.
(** [np.arange(a, b)] *)
Definition arange (a b : Z) : list Z := map (fun k => (a + Z.of_nat k)%Z) (seq 0 (Z.to_nat (b - a))).
(** [np.clip(z, 0, size - 1)] *)
Definition clip (size : nat) (z : Z) : Z := Z.min (Z.of_nat size - 1) (Z.max 0 z).
(** [a[idx] = 0] for indices in range *)
Definition zero_at (idx : list Z) (l : list R) : list R := fold_left (fun l z => upd (Z.to_nat z) 0 l) idx l.
(** [np.unique] *)
Fixpoint uinsert (z : Z) (l : list Z) : list Z :=
  match l with [] => [z] | x :: l' => if Z.ltb z x then z :: l else if Z.eqb z x then l else x :: uinsert z l' end.
Definition unique (l : list Z) : list Z := fold_right uinsert [] l.
(** the loop of 479-499; [dist] is min_peak_dist *)
Fixpoint find_loop (n : nat) (mw dist : Z) (size : nat) (rem : list R) (indices : list Z) : result (list Z) :=
  match n with
  | O => Ok indices
  | S n =>
      bind (argmax (map Rabs rem)) (fun c =>
      let c := Z.of_nat c in
      let masked := map (clip size) (arange (c - mw / 2) (c + mw / 2)) in
      let remove := map (clip size) (arange (c - dist) (c + mw)) in
      find_loop n mw dist size (zero_at remove rem) (indices ++ masked))
  end.
(** 457-501; [n] negative is [n] zero *)
Definition find_n_sinusoidals (spectrum : list R) (n : nat) (mw : Z) (dist : option Z) : result (list Z) :=
  let dist := match dist with None => (mw / 2)%Z | Some d => d end in
  bind (find_loop n mw dist (length spectrum) spectrum []) (fun idx => Ok (unique idx)).
(** 504-519 *)
Definition find_sinusoidal (spectrum : list R) (mw : Z) : result (list Z) :=
  match find_n_sinusoidals spectrum 1 mw None with Exn IndexError => Ok [0%Z] | r => r end.

(** [spectrum[mask]] for an integer mask: negative indices count from the end *)
Definition take1 (l : list R) (z : Z) : result R :=
  let z' := if Z.ltb z 0 then (z + Z.of_nat (length l))%Z else z in
  if Z.ltb z' 0 then Exn IndexError else match nth_error l (Z.to_nat z') with Some v => Ok v | None => Exn IndexError end.
(** [np.sum(spectrum[mask])] *)
Definition masked_sum (l : list R) (mask : list Z) : result R :=
  fold_right (fun z r => bind r (fun r => bind (take1 l z) (fun v => Ok (v + r)))) (Ok 0) mask.
(** 355-380; [None] is [np.inf] *)
Definition snr_spectrum (l : list R) (signal_mask noise_mask : list Z) : result (option R) :=
  bind (masked_sum l noise_mask) (fun noise =>
  bind (masked_sum l signal_mask) (fun signal =>
  Ok (if Rlt_bool 0 noise then Some (signal / noise) else None))).
Record spec_info : Type := mkInfo { i_noise_rms : R; i_signal_rms : R; i_snr : R; i_CG : R; i_NG : R; i_thd : R; i_thd_n : R; i_sinad : R }.
Definition rmean (l : list R) : R := fold_right Rplus 0 l / INR (length l).
(** a division by zero gives inf or nan in numpy: [ArithmeticError] here; so does the root of a negative number *)
Definition rdiv (a b : R) : result R := if Req_bool b 0 then Exn ArithmeticError else Ok (a / b).
Definition rsqrt (a : R) : result R := if Rlt_bool a 0 then Exn ArithmeticError else Ok (sqrt a).
(** 383-454; [window] stands for [scipy.signal.windows.blackman(N)]; the default of harmonics_mask is [[0]].
    [spectrum.size] zero is a ZeroDivisionError at [fs / N]. *)
Definition snr_extended (window : nat -> list R) (l : list R) (signal_mask noise_mask : list Z) (harmonics_mask : option (list Z)) (fs : R) : result spec_info :=
  let harmonics_mask := match harmonics_mask with None => [0%Z] | Some h => h end in
  let N := length l in
  if Nat.eqb N 0 then Exn ZeroDivisionError else
  let f_bin := fs / INR N in
  let w := window N in
  let CG := rmean w in
  let NG := fold_right (fun v s => v * v + s) 0 w / INR N in
  bind (masked_sum l noise_mask) (fun noise =>
  bind (masked_sum l signal_mask) (fun signal =>
  bind (masked_sum l harmonics_mask) (fun harmonics =>
  bind (rdiv signal noise) (fun snr =>
  bind (rdiv (signal + noise + harmonics) (noise + harmonics)) (fun sinad =>
  bind (bind (rdiv harmonics signal) rsqrt) (fun thd =>
  bind (bind (rdiv (harmonics + noise) signal) rsqrt) (fun thd_n =>
  bind (bind (rdiv (signal * NG * f_bin) (CG * CG)) rsqrt) (fun signal_rms =>
  bind (rsqrt (noise * f_bin)) (fun noise_rms =>
  Ok (mkInfo noise_rms signal_rms snr CG NG thd thd_n sinad)))))))))).
