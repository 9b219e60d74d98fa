(** Power spectral density of a coherent sinusoid with an error that is only known to be bounded. *)
From Coq Require Import List Arith Bool ZArith Reals Lra Lia Permutation.
From Flocq Require Import Core.
From Coquelicot Require Import Complex.
From Verif Require Import Base LinAlg AnalogSystem AnalogProofs IntegratorsProofs LinearOde CplxLin SignalsMore SignalsMoreProofs EstimatorDecay FirFreq FirFreqProofs Psd PsdProofs.
Import ListNotations.
Open Scope R_scope.

Lemma rsum_minus n f g : rsum n (fun i => f i - g i) = rsum n f - rsum n g.
Proof. induction n; [rewrite !rsum_0; ring|]. rewrite !rsum_S, IHn. ring. Qed.
Lemma Cmod_sq z : Cmod z ^ 2 = fst z ^ 2 + snd z ^ 2.
Proof. unfold Cmod. apply pow2_sqrt. apply Rplus_le_le_0_compat; apply pow2_ge_0. Qed.
Lemma young_low a b e : 0 < e -> (1 - e) * a ^ 2 - (1 / e - 1) * b ^ 2 <= (a + b) ^ 2.
Proof.
  intros H. assert (Q : 0 <= (e * a + b) ^ 2 * / e) by (apply Rmult_le_pos; [apply pow2_ge_0|apply Rlt_le, Rinv_0_lt_compat, H]).
  replace ((e * a + b) ^ 2 * / e) with ((a + b) ^ 2 - ((1 - e) * a ^ 2 - (1 / e - 1) * b ^ 2)) in Q by (field; lra). lra.
Qed.
Lemma young_high a b e : 0 < e -> (a + b) ^ 2 <= (1 + e) * a ^ 2 + (1 + 1 / e) * b ^ 2.
Proof.
  intros H. assert (Q : 0 <= (e * a - b) ^ 2 * / e) by (apply Rmult_le_pos; [apply pow2_ge_0|apply Rlt_le, Rinv_0_lt_compat, H]).
  replace ((e * a - b) ^ 2 * / e) with ((1 + e) * a ^ 2 + (1 + 1 / e) * b ^ 2 - (a + b) ^ 2) in Q by (field; lra). lra.
Qed.
Lemma Cyoung_low a b e : 0 < e -> (1 - e) * Cmod a ^ 2 - (1 / e - 1) * Cmod b ^ 2 <= Cmod (a + b)%C ^ 2.
Proof. intros H. rewrite !Cmod_sq. destruct a as [a1 a2], b as [b1 b2]. cbn [fst snd Cplus]. assert (A := young_low a1 b1 e H). assert (B := young_low a2 b2 e H). lra. Qed.
Lemma Cyoung_high a b e : 0 < e -> Cmod (a + b)%C ^ 2 <= (1 + e) * Cmod a ^ 2 + (1 + 1 / e) * Cmod b ^ 2.
Proof. intros H. rewrite !Cmod_sq. destruct a as [a1 a2], b as [b1 b2]. cbn [fst snd Cplus]. assert (A := young_high a1 b1 e H). assert (B := young_high a2 b2 e H). lra. Qed.

Lemma bin_add n u e x q : (1 <= n)%nat -> (forall k, (k < n)%nat -> x k = u k + e k) ->
  rfft_bin n (fun k => blackman n k * detrended n x k) q = Cplus (rfft_bin n (fun k => blackman n k * detrended n u k) q) (rfft_bin n (fun k => blackman n k * detrended n e k) q).
Proof.
  intros H E. rewrite <- dft_add. apply dft_ext. intros k Hk. unfold detrended. rewrite (E k Hk), (rsum_ext n x (fun k => u k + e k) E), rsum_add. unfold Rdiv. ring.
Qed.
Lemma scale_pos n fs q : (1 <= n)%nat -> 0 < fs -> 0 < sides n q * (1 / (fs * window_power n)).
Proof. intros H F. apply Rmult_lt_0_compat; [apply sides_pos|]. apply Rdiv_lt_0_compat; [lra|]. apply Rmult_lt_0_compat; [exact F|now apply window_power_pos]. Qed.
Lemma periodogram_low n fs u e x q h : (1 <= n)%nat -> 0 < fs -> 0 < h -> (forall k, (k < n)%nat -> x k = u k + e k) ->
  (1 - h) * periodogram n fs u q - (1 / h - 1) * periodogram n fs e q <= periodogram n fs x q.
Proof.
  intros H F Hh E. unfold periodogram. rewrite (bin_add n u e x q H E). assert (S := scale_pos n fs q H F). set (U := rfft_bin _ _ _). set (V := rfft_bin n (fun k => blackman n k * detrended n e k) q). assert (Y := Cyoung_low U V h Hh).
  apply (Rmult_le_compat_r _ _ _ (Rlt_le _ _ S)) in Y. lra.
Qed.
Lemma periodogram_high n fs u e x q h : (1 <= n)%nat -> 0 < fs -> 0 < h -> (forall k, (k < n)%nat -> x k = u k + e k) ->
  periodogram n fs x q <= (1 + h) * periodogram n fs u q + (1 + 1 / h) * periodogram n fs e q.
Proof.
  intros H F Hh E. unfold periodogram. rewrite (bin_add n u e x q H E). assert (S := scale_pos n fs q H F). set (U := rfft_bin _ _ _). set (V := rfft_bin n (fun k => blackman n k * detrended n e k) q). assert (Y := Cyoung_high U V h Hh).
  apply (Rmult_le_compat_r _ _ _ (Rlt_le _ _ S)) in Y. lra.
Qed.
Section Rows.
Context (n : nat) (fs : R) (x u e : list R).
Hypotheses (N : (1 <= n <= length x)%nat) (F : 0 < fs) (Lu : length u = length x) (Le : length e = length x) (E : forall k, (k < length x)%nat -> nth k x 0 = nth k u 0 + nth k e 0).
Lemma row_low q h : (q <= n / 2)%nat -> 0 < h -> (1 - h) * nth q (welch_row n fs u) 0 - (1 / h - 1) * nth q (welch_row n fs e) 0 <= nth q (welch_row n fs x) 0.
Proof.
  intros Hq Hh. rewrite !welch_row_nth by exact Hq. rewrite Lu, Le. assert (P := segments_pos (length x) n N). assert (SI := segment_inside (length x) n). set (s := segments (length x) n) in *. assert (I : 0 < / INR s) by (apply Rinv_0_lt_compat, lt_0_INR; lia).
  unfold Rdiv at 1 3 4. rewrite <- !Rmult_assoc, <- Rmult_minus_distr_r. apply Rmult_le_compat_r; [lra|]. rewrite <- !rsum_scale. rewrite <- rsum_minus. apply rsum_le. intros i Hi. apply periodogram_low; [lia|exact F|exact Hh|]. intros k Hk. apply E. now apply SI.
Qed.
Lemma row_high q h : (q <= n / 2)%nat -> 0 < h -> nth q (welch_row n fs x) 0 <= (1 + h) * nth q (welch_row n fs u) 0 + (1 + 1 / h) * nth q (welch_row n fs e) 0.
Proof.
  intros Hq Hh. rewrite !welch_row_nth by exact Hq. rewrite Lu, Le. assert (P := segments_pos (length x) n N). assert (SI := segment_inside (length x) n). set (s := segments (length x) n) in *. assert (I : 0 < / INR s) by (apply Rinv_0_lt_compat, lt_0_INR; lia).
  unfold Rdiv at 1 2 4. rewrite <- !Rmult_assoc, <- Rmult_plus_distr_r. apply Rmult_le_compat_r; [lra|]. rewrite <- !rsum_scale. rewrite <- rsum_add. apply rsum_le. intros i Hi. apply periodogram_high; [lia|exact F|exact Hh|]. intros k Hk. apply E. now apply SI.
Qed.
Lemma row_alone q : (q <= n / 2)%nat -> nth q (welch_row n fs u) 0 = 0 -> nth q (welch_row n fs x) 0 <= nth q (welch_row n fs e) 0.
Proof.
  intros Hq Z. assert (H : forall h, 0 < h -> nth q (welch_row n fs x) 0 <= (1 + 1 / h) * nth q (welch_row n fs e) 0) by (intros h Hh; assert (R := row_high q h Hq Hh); rewrite Z in R; lra).
  assert (P : 0 <= nth q (welch_row n fs e) 0) by (apply welch_row_nonneg; [lia|exact F|exact Hq]).
  set (X := nth q (welch_row n fs x) 0) in *. set (Y := nth q (welch_row n fs e) 0) in *. destruct (Rle_lt_dec X Y) as [L|L]; [exact L|]. exfalso. destruct (Req_dec Y 0) as [Y0|Y0]; [specialize (H 1 ltac:(lra)); rewrite Y0 in *; lra|].
  specialize (H (2 * Y / (X - Y)) ltac:(apply Rdiv_lt_0_compat; lra)). replace ((1 + 1 / (2 * Y / (X - Y))) * Y) with (Y + (X - Y) / 2) in H by (field; lra). lra.
Qed.
End Rows.
(** an error of at most [d] has a power of at most [(2 d)^2] *)
Lemma row_bound n fs e d : (1 <= n <= length e)%nat -> 0 < fs -> (forall k, (k < length e)%nat -> Rabs (nth k e 0) <= d) -> sum_over (fun v => v) (welch_row n fs e) * (fs / INR n) <= 4 * d ^ 2.
Proof.
  intros N F B. rewrite welch_row_total by assumption. assert (P := segments_pos (length e) n N). assert (SI := segment_inside (length e) n). set (s := segments (length e) n) in *. assert (I : 0 < INR s) by (apply lt_0_INR; lia). assert (N0 : 0 < INR n) by (apply lt_0_INR; lia). assert (W := window_power_pos n ltac:(lia)).
  apply Rmult_le_reg_r with (INR s); [exact I|]. unfold Rdiv at 1. rewrite Rmult_assoc, Rinv_l, Rmult_1_r by lra. rewrite Rmult_comm, <- rsum_const. apply rsum_le. intros i Hi.
  assert (Bi : forall k, (k < n)%nat -> Rabs (nth (i * step n + k) e 0) <= d) by (intros k Hk; apply B, SI; assumption).
  assert (D : forall k, (k < n)%nat -> (detrended n (fun k => nth (i * step n + k) e 0) k) ^ 2 <= 4 * d ^ 2).
  { intros k Hk. unfold detrended. assert (M : Rabs (rsum n (fun k => nth (i * step n + k) e 0) / INR n) <= d).
    { unfold Rdiv. rewrite Rabs_mult, (Rabs_pos_eq (/ INR n)) by (apply Rlt_le, Rinv_0_lt_compat, N0). apply Rmult_le_reg_r with (INR n); [exact N0|]. rewrite Rmult_assoc, Rinv_l, Rmult_1_r by lra.
      eapply Rle_trans; [apply rsum_abs|]. rewrite (Rmult_comm d), <- rsum_const. apply rsum_le. exact Bi. }
    assert (V := Bi k Hk). apply Rabs_le_inv in V, M. set (v := nth _ _ _) in *. set (w := _ / INR n) in *. nra. }
  apply Rmult_le_reg_r with (window_power n); [exact W|]. unfold Rdiv. rewrite Rmult_assoc, Rinv_l, Rmult_1_r by lra. unfold window_power. rewrite <- rsum_scale. apply rsum_le. intros k Hk. rewrite Rpow_mult_distr. specialize (D k Hk). assert (Q := pow2_ge_0 (blackman n k)). nra.
Qed.
(** sums over a part of the bins *)
Lemma sum_over_perm {X} (f : X -> R) a b : Permutation a b -> sum_over f a = sum_over f b.
Proof. unfold sum_over. induction 1; cbn [fold_right]; [reflexivity|now rewrite IHPermutation|ring|congruence]. Qed.
Lemma sub_sum {X} (f : X -> R) : forall l l', (forall y, In y l' -> 0 <= f y) -> NoDup l -> incl l l' -> sum_over f l <= sum_over f l'.
Proof.
  induction l as [|y l IH]; intros l' P ND I.
  - unfold sum_over at 1. cbn [fold_right]. clear I. induction l' as [|y l' IH]; [apply Rle_refl|]. unfold sum_over in *. cbn [fold_right]. assert (0 <= f y) by (apply P; now left). assert (0 <= fold_right (fun t s => f t + s) 0 l') by (apply IH; intros; apply P; now right). lra.
  - inversion ND as [|? ? Ny ND']; subst. destruct (in_split y l' (I y ltac:(now left))) as (a & b & ->). assert (PM : Permutation (a ++ y :: b) (y :: a ++ b)) by (symmetry; apply Permutation_middle).
    rewrite (sum_over_perm f _ _ PM). unfold sum_over. cbn [fold_right]. apply Rplus_le_compat_l. apply IH; [|exact ND'|].
    + intros z Hz. apply P. eapply Permutation_in; [symmetry; exact PM|]. now right.
    + intros z Hz. assert (Q := I z ltac:(now right)). apply (Permutation_in _ PM) in Q. destruct Q as [->|Q]; [contradiction|exact Q].
Qed.
Lemma sum_nth (l : list R) : sum_over (fun q => nth q l 0) (seq 0 (length l)) = sum_over (fun v => v) l.
Proof. unfold sum_over. induction l as [|v l IH]; [reflexivity|]. cbn [length seq fold_right nth]. f_equal. rewrite <- IH, <- seq_shift. clear. induction (seq 0 (length l)); [reflexivity|]. cbn [map fold_right nth]. now rewrite IHl0. Qed.
Lemma sum_over_le {X} (f g : X -> R) l : (forall t, In t l -> f t <= g t) -> sum_over f l <= sum_over g l.
Proof. intros H. unfold sum_over. induction l; cbn [fold_right]; [lra|]. apply Rplus_le_compat; [apply H; now left|apply IHl; intros; apply H; now right]. Qed.
Lemma sum_over_lin {X} a b (f g : X -> R) l : sum_over (fun t => a * f t - b * g t) l = a * sum_over f l - b * sum_over g l.
Proof. unfold sum_over. induction l; cbn [fold_right]; [ring|]. rewrite IHl. ring. Qed.
