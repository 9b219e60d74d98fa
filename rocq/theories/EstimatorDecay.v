(** Estimates computed from finitely many decisions approach one common value, geometrically. *)
From Coq Require Import List Arith Lia Bool Reals Lra ZArith.
From Flocq Require Import Core.
From Coquelicot Require Import Complex.
From Verif Require Import Base LinAlg Estimators BatchProofs BatchRun FirProofs EstProps FirExtras AnalogSystem AnalogProofs Signals DigitalControl DigitalControlProofs ControlKinds
  Integrators IntegratorsProofs Simulator Stability LinearOde PreSim Zpk FilterCoeff FilterCoeffProofs FilterOde FilterRun RiccatiDecay.
Import ListNotations.
Open Scope R_scope.

(** the first [n] decisions of an endless stream *)
Definition prefix (s : nat -> list R) (n : nat) : list (list Rring) := map s (seq 0 n).
(** decisions of M controls, as the estimators take them: between 0 and 1 *)
Definition decisions (M : nat) (s : nat -> list R) : Prop := forall i, length (s i) = M /\ forall m, (m < M)%nat -> 0 <= nth m (s i) 0 <= 1.
(** two vectors of the same length differ by at most eps in each entry *)
Definition within (eps : R) (u v : list R) : Prop := length u = length v /\ forall i, (i < length u)%nat -> Rabs (nth i u 0 - nth i v 0) <= eps.

(** *** geometric tails *)
Lemma geo_tail rho n m : 0 <= rho < 1 -> rsum m (fun i => rho ^ (n + i)) <= rho ^ n / (1 - rho).
Proof.
  intros H. assert (E : rsum m (fun i => rho ^ (n + i)) = (rho ^ n - rho ^ (n + m)) / (1 - rho)).
  { induction m as [|m IH]; [rewrite rsum_0, Nat.add_0_r; field; lra|]. rewrite rsum_S, IH, <- plus_n_Sm. cbn [pow]. field. lra. }
  rewrite E. apply Rmult_le_compat_r; [left; apply Rinv_0_lt_compat; lra|]. assert (0 <= rho ^ (n + m)) by (apply pow_le; lra). lra.
Qed.
Lemma rsum_neg n (f : nat -> R) : rsum n (fun i => - f i) = - rsum n f.
Proof. induction n as [|n IH]; [rewrite !rsum_0; ring|]. rewrite !rsum_S, IH. ring. Qed.
Lemma rsum_split n m (f : nat -> R) : rsum (n + m) f = rsum n f + rsum m (fun i => f (n + i)%nat).
Proof. induction m as [|m IH]; [rewrite Nat.add_0_r, rsum_0; ring|]. rewrite <- plus_n_Sm, !rsum_S, IH. ring. Qed.
Lemma tail_le rho C (f : nat -> R) n m : 0 <= rho < 1 -> (forall i, Rabs (f i) <= C * rho ^ i) -> Rabs (rsum m (fun i => f (n + i)%nat)) <= C / (1 - rho) * rho ^ n.
Proof.
  intros H Hf. eapply Rle_trans; [apply rsum_abs|].
  apply Rle_trans with (rsum m (fun i => C * rho ^ (n + i))); [apply rsum_le; intros; apply Hf|]. rewrite rsum_scale.
  assert (C0 : 0 <= C) by (specialize (Hf O); cbn [pow] in Hf; assert (P := Rabs_pos (f O)); lra).
  apply Rle_trans with (C * (rho ^ n / (1 - rho))); [apply Rmult_le_compat_l; [exact C0|now apply geo_tail]|]. right. field. lra.
Qed.
Lemma series_lim rho C (f : nat -> R) : 0 <= rho < 1 -> (forall i, Rabs (f i) <= C * rho ^ i) ->
  exists y, forall n, Rabs (rsum n f - y) <= C / (1 - rho) * rho ^ n.
Proof.
  intros H Hf.
  assert (D : forall n m, (n <= m)%nat -> Rabs (rsum m f - rsum n f) <= C / (1 - rho) * rho ^ n).
  { intros n m L. replace m with (n + (m - n))%nat by lia. rewrite rsum_split. replace (_ + _ - _) with (rsum (m - n) (fun i => f (n + i)%nat)) by ring. now apply tail_le. }
  assert (C0 : 0 <= C) by (specialize (Hf O); cbn [pow] in Hf; assert (P := Rabs_pos (f O)); lra).
  set (B := C / (1 - rho)) in *. assert (B0 : 0 <= B) by (unfold B; apply Rmult_le_pos; [exact C0|left; apply Rinv_0_lt_compat; lra]).
  assert (CV : Cauchy_crit (fun n => rsum n f)).
  { intros eps He. destruct (pow_lt_1_zero rho ltac:(rewrite Rabs_right; lra) (eps / (B + 1)) ltac:(apply Rdiv_lt_0_compat; lra)) as [n0 Hn].
    exists n0. assert (W : forall n m, (n >= n0)%nat -> (n <= m)%nat -> R_dist (rsum m f) (rsum n f) < eps).
    { intros n m L1 L2. unfold R_dist. eapply Rle_lt_trans; [apply D; exact L2|]. specialize (Hn n L1). rewrite Rabs_right in Hn by (apply Rle_ge, pow_le; lra).
      apply Rle_lt_trans with (B * (eps / (B + 1))); [apply Rmult_le_compat_l; lra|]. apply Rlt_le_trans with ((B + 1) * (eps / (B + 1))); [apply Rmult_lt_compat_r; [apply Rdiv_lt_0_compat|]; lra|].
      right. field. lra. }
    intros n m L1 L2. destruct (Nat.le_ge_cases n m); [rewrite R_dist_sym|]; now apply W. }
  destruct (R_complete _ CV) as [y Hy]. exists y. intros n. apply Rnot_lt_le. intros Hlt.
  destruct (Hy (Rabs (rsum n f - y) - B * rho ^ n) ltac:(lra)) as [n1 Hn1]. specialize (Hn1 (Nat.max n n1) ltac:(lia)). unfold R_dist in Hn1.
  specialize (D n (Nat.max n n1) ltac:(lia)).
  assert (T : Rabs (rsum n f - y) <= Rabs (rsum (Nat.max n n1) f - rsum n f) + Rabs (rsum (Nat.max n n1) f - y)).
  { rewrite <- (Rabs_Ropp (rsum (Nat.max n n1) f - rsum n f)). replace (rsum n f - y) with (- (rsum (Nat.max n n1) f - rsum n f) + (rsum (Nat.max n n1) f - y)) by ring. apply Rabs_triang. }
  lra.
Qed.

(** *** lists and functions *)
Lemma app_ext n P x y i : (forall j, (j < n)%nat -> x j = y j) -> app n P x i = app n P y i.
Proof. intros H. apply rsum_ext. intros j Hj. now rewrite H. Qed.
Lemma power_ext n P k x y : (forall j, (j < n)%nat -> x j = y j) -> forall i, (i < n)%nat -> power n P k x i = power n P k y i.
Proof. intros H. induction k as [|k IH]; [exact H|]. intros i Hi. unfold power. cbn [Nat.iter nat_rect]. apply app_ext. exact IH. Qed.
Lemma mpow_mat (A : rmat) n k v : rows A = n -> cols A = n -> length v = n ->
  length (mpow (K := Rring) (mat_of A) k v) = n /\ forall i, (i < n)%nat -> nth i (mpow (K := Rring) (mat_of A) k v) 0 = power n (ent A) k (fun j => nth j v 0) i.
Proof.
  intros HR HC Lv. induction k as [|k [IL IV]]; [now split|]. cbn [mpow]. split.
  - rewrite (mv_length (K := Rring)). unfold mat_of. now rewrite map_length, seq_length.
  - intros i Hi. rewrite mv_mat by (rewrite ?HR, ?HC; auto). rewrite HC. unfold power. cbn [Nat.iter nat_rect]. apply rsum_ext. intros j Hj. rewrite IV by exact Hj. reflexivity.
Qed.
Lemma vsum_nth n m (f : nat -> list R) i : (forall k, length (f k) = n) -> (i < n)%nat ->
  length (vsum (K := Rring) n m f) = n /\ nth i (vsum (K := Rring) n m f) 0 = rsum m (fun k => nth i (f k) 0).
Proof.
  intros Lf Hi. induction m as [|m [IL IV]]; cbn [vsum].
  - split; [apply (vzero_length (K := Rring))|]. rewrite rsum_0. unfold vzero. now rewrite nth_repeat.
  - split; [rewrite (vadd_length (K := Rring)); transitivity (Nat.min n n); [f_equal; [exact IL|apply Lf]|apply Nat.min_id]|]. rewrite nth_vadd by (transitivity n; [exact IL|symmetry; apply Lf]). rewrite rsum_S. f_equal. exact IV.
Qed.

Section Shape.
Variables (S : asys Rring) (Af Ab Bf Bb WT : rmat).
Let c := to_coef S Af Ab Bf Bb WT.
Hypothesis SAf : rows Af = sN S /\ cols Af = sN S.
Hypothesis SAb : rows Ab = sN S /\ cols Ab = sN S.
Hypothesis SBf : rows Bf = sN S /\ cols Bf = sM S.
Hypothesis SBb : rows Bb = sN S /\ cols Bb = sM S.
Hypothesis SW : rows WT = sL S /\ cols WT = sN S.

Definition bv (B : rmat) (v : list R) (i : nat) : R := rsum (sM S) (fun m => ent B i m * nth m v 0).
Lemma part_nth (A B : rmat) (v : nat -> list R) m i : rows A = sN S -> cols A = sN S -> rows B = sN S -> cols B = sM S -> (forall k, length (v k) = sM S) -> (i < sN S)%nat ->
  nth i (vsum (K := Rring) (sN S) m (fun k => mpow (K := Rring) (mat_of A) k (mv (K := Rring) (mat_of B) (v k)))) 0 = rsum m (fun k => power (sN S) (ent A) k (bv B (v k)) i).
Proof.
  intros A1 A2 B1 B2 Lv Hi.
  assert (LB : forall k, length (mv (K := Rring) (mat_of B) (v k)) = sN S) by (intros; rewrite (mv_length (K := Rring)); unfold mat_of; now rewrite map_length, seq_length).
  destruct (vsum_nth (sN S) m (fun k => mpow (K := Rring) (mat_of A) k (mv (K := Rring) (mat_of B) (v k))) i) as [_ E]; [intros k; now apply mpow_mat|exact Hi|].
  rewrite E. apply rsum_ext. intros k _. destruct (mpow_mat A (sN S) k _ A1 A2 (LB k)) as [_ P]. rewrite P by exact Hi. clear E P.
  apply power_ext; [|exact Hi]. intros j Hj. rewrite mv_mat by (rewrite ?B1, ?B2; auto). now rewrite B2.
Qed.
Lemma part_len (A B : rmat) (v : nat -> list R) m : rows A = sN S -> rows B = sN S ->
  length (vsum (K := Rring) (sN S) m (fun k => mpow (K := Rring) (mat_of A) k (mv (K := Rring) (mat_of B) (v k)))) = sN S.
Proof.
  intros A1 B1. assert (LM : forall (X : rmat) u, length (mv (K := Rring) (mat_of X) u) = rows X) by (intros; rewrite (mv_length (K := Rring)); unfold mat_of; now rewrite map_length, seq_length).
  induction m as [|m IH]; cbn [vsum]; [apply (vzero_length (K := Rring))|]. rewrite (vadd_length (K := Rring)), IH.
  transitivity (Nat.min (sN S) (sN S)); [f_equal|apply Nat.min_id]. assert (LA : length (mat_of A) = sN S) by (unfold mat_of; now rewrite map_length, seq_length).
  etransitivity; [apply (mpow_length (K := Rring)); rewrite LM; etransitivity; [exact B1|symmetry; exact LA]|exact LA].
Qed.
Lemma window_nth z n m t l : (forall p, length (z p) = sM S) -> (l < sL S)%nat ->
  nth l (window_est c z n m t) 0 = rsum (sN S) (fun i => ent WT l i *
    (rsum m (fun k => power (sN S) (ent Ab) k (bv Bb (z (t + Z.of_nat k)%Z)) i) - rsum n (fun k => power (sN S) (ent Af) k (bv Bf (z (t - 1 - Z.of_nat k)%Z)) i))).
Proof.
  intros Lz Hl. destruct SAf, SAb, SBf, SBb, SW as [W1 W2]. unfold window_est, c, to_coef. cbn [cWT cN cAb cBb cAf cBf].
  assert (LB : length (vsum (K := Rring) (sN S) m (fun k => mpow (K := Rring) (mat_of Ab) k (mv (K := Rring) (mat_of Bb) (z (t + Z.of_nat k)%Z)))) = sN S) by now apply (part_len Ab Bb).
  assert (LF : length (vsum (K := Rring) (sN S) n (fun k => mpow (K := Rring) (mat_of Af) k (mv (K := Rring) (mat_of Bf) (z (t - 1 - Z.of_nat k)%Z)))) = sN S) by now apply (part_len Af Bf).
  rewrite mv_mat.
  - rewrite W2. apply rsum_ext. intros i Hi. f_equal. rewrite nth_vsub by exact (eq_trans LB (eq_sym LF)).
    f_equal; [apply (part_nth Ab Bb (fun k => z (t + Z.of_nat k)%Z))|apply (part_nth Af Bf (fun k => z (t - 1 - Z.of_nat k)%Z))]; auto.
  - rewrite (vsub_length (K := Rring)), W2. transitivity (Nat.min (sN S) (sN S)); [f_equal; [exact LB|exact LF]|apply Nat.min_id].
  - now rewrite W1.
Qed.
Lemma window_len z n m t : length (window_est c z n m t) = sL S.
Proof. destruct SW. unfold window_est. rewrite (mv_length (K := Rring)). unfold c, to_coef. cbn [cWT]. unfold mat_of. now rewrite map_length, seq_length. Qed.

(** *** bounds *)
Definition sizeB (B : rmat) : R := rsum (sN S) (fun i => rsum (sM S) (fun m => Rabs (ent B i m))).
Definition sizeW : R := rsum (sL S) (fun l => rsum (sN S) (fun i => Rabs (ent WT l i))).
Lemma bv_le B v : (forall m, (m < sM S)%nat -> Rabs (nth m v 0) <= 1) -> rsum (sN S) (fun i => Rabs (bv B v i)) <= sizeB B.
Proof.
  intros H. apply rsum_le. intros i _. eapply Rle_trans; [apply rsum_abs|]. apply rsum_le. intros m Hm. rewrite Rabs_mult.
  assert (P := Rabs_pos (ent B i m)). specialize (H m Hm). nra.
Qed.
Lemma sizeB_pos B : 0 <= sizeB B.
Proof. apply rsum_nonneg. intros. apply rsum_nonneg. intros. apply Rabs_pos. Qed.
Lemma sizeW_pos : 0 <= sizeW.
Proof. apply rsum_nonneg. intros. apply rsum_nonneg. intros. apply Rabs_pos. Qed.
Lemma rowW_le l : (l < sL S)%nat -> rsum (sN S) (fun i => Rabs (ent WT l i)) <= sizeW.
Proof. intros Hl. apply (term_le (sL S) (fun l => rsum (sN S) (fun i => Rabs (ent WT l i)))); [|exact Hl]. intros. apply rsum_nonneg. intros. apply Rabs_pos. Qed.
Definition bounded (z : Z -> list R) : Prop := forall p, length (z p) = sM S /\ forall m, (m < sM S)%nat -> Rabs (nth m (z p) 0) <= 1.

Lemma terms : forgets (sN S) (ent Af) -> forgets (sN S) (ent Ab) ->
  exists c0 rho, 0 <= c0 /\ 0 <= rho < 1 /\ forall v i q, (forall m, (m < sM S)%nat -> Rabs (nth m v 0) <= 1) -> (i < sN S)%nat ->
    Rabs (power (sN S) (ent Af) q (bv Bf v) i) <= c0 * rho ^ q /\ Rabs (power (sN S) (ent Ab) q (bv Bb v) i) <= c0 * rho ^ q.
Proof.
  intros (Kf & rf & Kf0 & Rf & Ff) (Kb & rb & Kb0 & Rb & Fb).
  set (rho := Rmax rf rb). assert (Hr : 0 <= rho < 1) by (unfold rho, Rmax; destruct (Rle_dec rf rb); lra).
  assert (Bd : forall P K r B, 0 <= K -> 0 <= r <= rho -> (forall x k i, (i < sN S)%nat -> Rabs (power (sN S) P k x i) <= K * r ^ k * rsum (sN S) (fun j => Rabs (x j))) ->
    forall v i q, (forall m, (m < sM S)%nat -> Rabs (nth m v 0) <= 1) -> (i < sN S)%nat -> Rabs (power (sN S) P q (bv B v) i) <= K * sizeB B * rho ^ q).
  { intros P K r B HK Hrr HP v i q Hv Hi. eapply Rle_trans; [apply HP; exact Hi|]. assert (X := bv_le B v Hv).
    assert (r ^ q <= rho ^ q) by (apply pow_incr; lra). assert (0 <= r ^ q) by (apply pow_le; lra).
    assert (X0 : 0 <= rsum (sN S) (fun j => Rabs (bv B v j))) by (apply rsum_nonneg; intros; apply Rabs_pos).
    replace (K * sizeB B * rho ^ q) with (K * rho ^ q * sizeB B) by ring. apply Rmult_le_compat; [apply Rmult_le_pos; lra|exact X0|apply Rmult_le_compat_l; lra|exact X]. }
  assert (F0 : 0 <= Kf * sizeB Bf) by (apply Rmult_le_pos; [exact Kf0|apply sizeB_pos]). assert (B0 : 0 <= Kb * sizeB Bb) by (apply Rmult_le_pos; [exact Kb0|apply sizeB_pos]).
  exists (Kf * sizeB Bf + Kb * sizeB Bb), rho. split; [lra|]. split; [exact Hr|]. intros v i q Hv Hi. assert (0 <= rho ^ q) by (apply pow_le; lra).
  assert (Xl := Rmax_l rf rb). assert (Xr := Rmax_r rf rb). fold rho in Xl, Xr.
  rewrite Rmult_plus_distr_r. assert (0 <= Kf * sizeB Bf * rho ^ q) by now apply Rmult_le_pos. assert (0 <= Kb * sizeB Bb * rho ^ q) by now apply Rmult_le_pos.
  assert (X := Bd _ Kf rf Bf Kf0 ltac:(lra) Ff v i q Hv Hi). assert (Y := Bd _ Kb rb Bb Kb0 ltac:(lra) Fb v i q Hv Hi). split; lra.
Qed.

Lemma weigh l D e (f : nat -> R) : (l < sL S)%nat -> 0 <= D * e -> (forall i, (i < sN S)%nat -> Rabs (f i) <= D * e) -> Rabs (rsum (sN S) (fun i => ent WT l i * f i)) <= sizeW * D * e.
Proof.
  intros Hl HD Hf. apply Rle_trans with (rsum (sN S) (fun i => (D * e) * Rabs (ent WT l i))).
  - eapply Rle_trans; [apply rsum_abs|]. apply rsum_le. intros i Hi. rewrite Rabs_mult, (Rmult_comm (D * e)). apply Rmult_le_compat_l; [apply Rabs_pos|now apply Hf].
  - rewrite rsum_scale. replace (sizeW * D * e) with (D * e * sizeW) by ring. apply Rmult_le_compat_l; [exact HD|now apply rowW_le].
Qed.

(** estimates with n past and m future decisions converge *)
Lemma window_conv : forgets (sN S) (ent Af) -> forgets (sN S) (ent Ab) ->
  exists C rho, 0 <= C /\ 0 <= rho < 1 /\
    forall z t k, bounded z -> exists y, length y = sL S /\ forall n m, (n <= k)%nat ->
      within (C * (rho ^ m + if Nat.ltb n k then rho ^ n else 0)) (window_est c z n m t) y.
Proof.
  intros FF FB. destruct (terms FF FB) as (c0 & rho & c00 & Hr & Tm).
  set (D := c0 / (1 - rho)). assert (D0 : 0 <= D) by (unfold D; apply Rmult_le_pos; [lra|left; apply Rinv_0_lt_compat; lra]).
  exists (sizeW * D), rho. split; [apply Rmult_le_pos; [apply sizeW_pos|exact D0]|]. split; [exact Hr|].
  intros z t k Hz.
  assert (Tf : forall i q, (i < sN S)%nat -> Rabs (power (sN S) (ent Af) q (bv Bf (z (t - 1 - Z.of_nat q)%Z)) i) <= c0 * rho ^ q) by (intros; apply Tm; [apply Hz|assumption]).
  assert (Tb : forall i q, (i < sN S)%nat -> Rabs (power (sN S) (ent Ab) q (bv Bb (z (t + Z.of_nat q)%Z)) i) <= c0 * rho ^ q) by (intros; apply Tm; [apply Hz|assumption]).
  assert (LM : forall N', (N' <= sN S)%nat -> exists yb : nat -> R, forall i m, (i < N')%nat -> Rabs (rsum m (fun q => power (sN S) (ent Ab) q (bv Bb (z (t + Z.of_nat q)%Z)) i) - yb i) <= D * rho ^ m).
  { induction N' as [|N' IH]; intros HN; [exists (fun _ => 0); intros; lia|]. destruct (IH ltac:(lia)) as [yb Hyb].
    destruct (series_lim rho c0 (fun q => power (sN S) (ent Ab) q (bv Bb (z (t + Z.of_nat q)%Z)) N') Hr (fun q => Tb N' q ltac:(lia))) as [y Hy].
    exists (fun i => if Nat.eqb i N' then y else yb i). intros i m Hi. destruct (Nat.eqb_spec i N') as [->|Ne]; [apply Hy|apply Hyb; lia]. }
  destruct (LM (sN S) (le_n _)) as [yb Hyb]. clear LM.
  set (yf := fun i => rsum k (fun q => power (sN S) (ent Af) q (bv Bf (z (t - 1 - Z.of_nat q)%Z)) i)).
  exists (map (fun l => rsum (sN S) (fun i => ent WT l i * (yb i - yf i))) (seq 0 (sL S))). split; [now rewrite map_length, seq_length|].
  intros n m Hn. split; [rewrite window_len, map_length, seq_length; reflexivity|]. rewrite window_len. intros l Hl.
  rewrite nth_seq_R by exact Hl. rewrite window_nth by (try exact Hl; intros; apply Hz). unfold Rminus at 1. rewrite <- rsum_neg, <- rsum_add.
  set (e := rho ^ m + if Nat.ltb n k then rho ^ n else 0). assert (0 <= rho ^ m) by (apply pow_le; lra). assert (0 <= rho ^ n) by (apply pow_le; lra).
  rewrite (rsum_ext (sN S) _ (fun i => ent WT l i * ((rsum m (fun q => power (sN S) (ent Ab) q (bv Bb (z (t + Z.of_nat q)%Z)) i) - yb i) +
    (yf i - rsum n (fun q => power (sN S) (ent Af) q (bv Bf (z (t - 1 - Z.of_nat q)%Z)) i))))) by (intros i _; set (w := ent WT l i); change R in (type of w); ring).
  apply weigh; [exact Hl|apply Rmult_le_pos; [exact D0|unfold e; destruct (Nat.ltb n k); lra]|].
  intros i Hi. eapply Rle_trans; [apply Rabs_triang|]. unfold e. rewrite Rmult_plus_distr_l. apply Rplus_le_compat; [apply Hyb; exact Hi|].
  unfold yf. replace k with (n + (k - n))%nat at 1 by lia. rewrite rsum_split. replace (_ + _ - _) with (rsum (k - n) (fun q => power (sN S) (ent Af) (n + q) (bv Bf (z (t - 1 - Z.of_nat (n + q))%Z)) i)) by ring.
  destruct (Nat.ltb_spec n k) as [L|L].
  - apply (tail_le rho c0 (fun q => power (sN S) (ent Af) q (bv Bf (z (t - 1 - Z.of_nat q)%Z)) i) n (k - n) Hr); intros q; now apply Tf.
  - replace (k - n)%nat with O by lia. rewrite rsum_0, Rabs_R0. lra.
Qed.

Lemma late_le rho C (f : nat -> R) b m : 0 <= rho < 1 -> 0 <= C -> (forall i, Rabs (f i) <= C * rho ^ i) -> (forall i, (i < b)%nat -> f i = 0) -> Rabs (rsum m f) <= C / (1 - rho) * rho ^ b.
Proof.
  intros H HC Hf Hz. assert (Z0 : forall n, (n <= b)%nat -> rsum n f = 0) by (intros n Hn; apply rsum_zero; intros; apply Hz; lia).
  destruct (Nat.le_gt_cases m b) as [L|L].
  - rewrite Z0, Rabs_R0 by exact L. apply Rmult_le_pos; [apply Rmult_le_pos; [exact HC|left; apply Rinv_0_lt_compat; lra]|apply pow_le; lra].
  - replace m with (b + (m - b))%nat by lia. rewrite rsum_split, Z0 by lia. rewrite Rplus_0_l. now apply tail_le.
Qed.

(** decisions that differ only at least a before and b after the instant do not matter much *)
Lemma window_local : forgets (sN S) (ent Af) -> forgets (sN S) (ent Ab) ->
  exists C rho, 0 <= C /\ 0 <= rho < 1 /\
    forall z z' t a b n m, bounded z -> bounded z' -> (forall p, (t - Z.of_nat a <= p < t + Z.of_nat b)%Z -> z p = z' p) ->
      within (C * (rho ^ a + rho ^ b)) (window_est c z n m t) (window_est c z' n m t).
Proof.
  intros FF FB. destruct (terms FF FB) as (c0 & rho & c00 & Hr & Tm).
  set (D := 2 * c0 / (1 - rho)). assert (D0 : 0 <= D) by (unfold D; apply Rmult_le_pos; [lra|left; apply Rinv_0_lt_compat; lra]).
  exists (sizeW * D), rho. split; [apply Rmult_le_pos; [apply sizeW_pos|exact D0]|]. split; [exact Hr|].
  intros z z' t a b n m Hz Hz' E. split; [now rewrite !window_len|]. rewrite window_len. intros l Hl. rewrite !window_nth by (try exact Hl; intros; first [apply Hz|apply Hz']).
  unfold Rminus at 1. rewrite <- rsum_neg, <- rsum_add. assert (0 <= rho ^ a) by (apply pow_le; lra). assert (0 <= rho ^ b) by (apply pow_le; lra).
  rewrite (rsum_ext (sN S) _ (fun i => ent WT l i * (rsum m (fun q => power (sN S) (ent Ab) q (bv Bb (z (t + Z.of_nat q)%Z)) i + - power (sN S) (ent Ab) q (bv Bb (z' (t + Z.of_nat q)%Z)) i) -
    rsum n (fun q => power (sN S) (ent Af) q (bv Bf (z (t - 1 - Z.of_nat q)%Z)) i + - power (sN S) (ent Af) q (bv Bf (z' (t - 1 - Z.of_nat q)%Z)) i))))
    by (intros i _; rewrite !rsum_add, !rsum_neg; set (w := ent WT l i); change R in (type of w); ring).
  apply weigh; [exact Hl|apply Rmult_le_pos; lra|]. intros i Hi. unfold Rminus. eapply Rle_trans; [apply Rabs_triang|]. rewrite Rabs_Ropp, Rmult_plus_distr_l, Rplus_comm.
  apply Rplus_le_compat.
  - apply late_le; [exact Hr|lra| |].
    + intros q. eapply Rle_trans; [apply Rabs_triang|]. rewrite Rabs_Ropp. destruct (Tm (z (t - 1 - Z.of_nat q)%Z) i q (proj2 (Hz _)) Hi) as [X _]. destruct (Tm (z' (t - 1 - Z.of_nat q)%Z) i q (proj2 (Hz' _)) Hi) as [Y _]. lra.
    + intros q Hq. rewrite E by lia. ring.
  - apply late_le; [exact Hr|lra| |].
    + intros q. eapply Rle_trans; [apply Rabs_triang|]. rewrite Rabs_Ropp. destruct (Tm (z (t + Z.of_nat q)%Z) i q (proj2 (Hz _)) Hi) as [_ X]. destruct (Tm (z' (t + Z.of_nat q)%Z) i q (proj2 (Hz' _)) Hi) as [_ Y]. lra.
    + intros q Hq. rewrite E by lia. ring.
Qed.

(** *** filter taps *)
Definition unitv (m : nat) : list R := map (fun j => if Nat.eqb j m then 1 else 0) (seq 0 (sM S)).
Lemma entry_of_mv (P : list (list R)) l m : wfm (K := Rring) (sL S) (sM S) P -> (l < sL S)%nat -> (m < sM S)%nat -> nth m (nth l P []) 0 = nth l (mv (K := Rring) P (unitv m)) 0.
Proof.
  intros [LP FP] Hl Hm. assert (Hl' : (l < length P)%nat) by (rewrite <- LP in Hl; exact Hl). unfold mv. etransitivity; [|apply (nth_indep (map (fun r => dot (K := Rring) r (unitv m)) P) (dot (K := Rring) [] (unitv m)) 0); rewrite map_length; exact Hl']. rewrite (map_nth (fun r => dot (K := Rring) r (unitv m)) P [] l).
  assert (Lr : length (nth l P []) = sM S) by (rewrite Forall_forall in FP; apply FP, nth_In; exact Hl').
  rewrite (dot_comm (K := Rring)). unfold unitv. rewrite dot_seq by exact Lr. cbn [Nat.add].
  rewrite (rsum_ext (sM S) _ (fun k => if Nat.eqb k m then nth k (nth l P []) 0 else 0)) by (intros k _; destruct (Nat.eqb k m); [apply Rmult_1_l|apply Rmult_0_l]).
  symmetry. now apply (rsum_single (sM S) m (fun k => nth k (nth l P []) 0)).
Qed.
Lemma unitv_le m j : Rabs (nth j (unitv m) 0) <= 1.
Proof.
  unfold unitv. destruct (Nat.lt_ge_cases j (sM S)) as [L|L].
  - rewrite nth_seq_R by exact L. destruct (Nat.eqb j m); rewrite ?Rabs_R1, ?Rabs_R0; lra.
  - rewrite nth_overflow by (rewrite map_length, seq_length; exact L). rewrite Rabs_R0. lra.
Qed.
Lemma tap_le (A B : rmat) rho c0 : rows A = sN S -> cols A = sN S -> rows B = sN S -> cols B = sM S -> 0 <= c0 -> 0 <= rho ->
  (forall v i q, (forall m, (m < sM S)%nat -> Rabs (nth m v 0) <= 1) -> (i < sN S)%nat -> Rabs (power (sN S) (ent A) q (bv B v) i) <= c0 * rho ^ q) ->
  forall q l m, (l < sL S)%nat -> (m < sM S)%nat -> Rabs (nth m (nth l (mm (K := Rring) (sM S) (mat_of WT) (mmpow (K := Rring) (sM S) (mat_of A) q (mat_of B))) []) 0) <= sizeW * c0 * rho ^ q.
Proof.
  intros A1 A2 B1 B2 C0 R0 H q l m Hl Hm. destruct SW as [W1 W2].
  assert (WA : wfm (K := Rring) (sN S) (sN S) (mat_of A)) by (rewrite <- A1 at 1; rewrite <- A2; apply mat_of_wf).
  assert (WB : wfm (K := Rring) (sN S) (sM S) (mat_of B)) by (rewrite <- B1; rewrite <- B2; apply mat_of_wf).
  assert (WW : wfm (K := Rring) (sL S) (sN S) (mat_of WT)) by (rewrite <- W1; rewrite <- W2; apply mat_of_wf).
  assert (WP := mmpow_wf (K := Rring) (sN S) (sM S) (mat_of A) q (mat_of B) WA WB).
  assert (LU : length (unitv m) = sM S) by (unfold unitv; now rewrite map_length, seq_length).
  assert (LBu : length (mv (K := Rring) (mat_of B) (unitv m)) = sN S) by (rewrite (mv_length (K := Rring)); apply WB).
  rewrite entry_of_mv; [|eapply (mm_wf (K := Rring)); eassumption|exact Hl|exact Hm].
  rewrite (mv_mm (K := Rring) (sN S) (sM S)) by exact WP. rewrite (mv_mmpow (K := Rring) (sN S) (sM S)) by assumption.
  destruct (mpow_mat A (sN S) q _ A1 A2 LBu) as [LP PV].
  rewrite mv_mat; [|rewrite W2; exact LP|now rewrite W1]. rewrite W2.
  apply weigh; [exact Hl|apply Rmult_le_pos; [exact C0|now apply pow_le]|]. intros i Hi. rewrite PV by exact Hi.
  rewrite (power_ext (sN S) (ent A) q _ (bv B (unitv m))); [apply H; [intros; apply unitv_le|exact Hi]| |exact Hi].
  intros j Hj. rewrite mv_mat by (rewrite ?B1, ?B2; auto). now rewrite B2.
Qed.
Lemma mopp_nth (P : list (list R)) l m : nth m (nth l (mopp (K := Rring) P) []) 0 = - nth m (nth l P []) 0.
Proof.
  revert l. induction P as [|r P IH]; intros [|l]; cbn; try (destruct m; symmetry; apply Ropp_0); [|apply IH].
  clear IH. revert m. induction r as [|x r IHr]; intros [|m]; cbn; try (symmetry; apply Ropp_0); [reflexivity|apply IHr].
Qed.
Lemma taps : forgets (sN S) (ent Af) -> forgets (sN S) (ent Ab) ->
  exists C rho, 0 <= C /\ 0 <= rho < 1 /\ forall K1 K2 l m, (l < sL S)%nat -> (m < sM S)%nat ->
    (forall q, (q < K1)%nat -> Rabs (nth m (nth l (nth (K1 - 1 - q) (fir_h c K1 K2) []) []) 0) <= C * rho ^ q) /\
    (forall q, (q < K2)%nat -> Rabs (nth m (nth l (nth (K1 + q) (fir_h c K1 K2) []) []) 0) <= C * rho ^ q) /\
    (forall q, (q < K2)%nat -> Rabs (nth m (nth l (nth q (iir_h c K2) []) []) 0) <= C * rho ^ q).
Proof.
  intros FF FB. destruct (terms FF FB) as (c0 & rho & c00 & Hr & Tm). destruct SAf, SAb, SBf, SBb.
  exists (sizeW * c0), rho. split; [apply Rmult_le_pos; [apply sizeW_pos|exact c00]|]. split; [exact Hr|]. intros K1 K2 l m Hl Hm.
  destruct (fir_h_spec c K1 K2) as (_ & Hlo & Hhi). destruct (iir_h_spec c K2) as (_ & Hi).
  assert (TB : forall q, Rabs (nth m (nth l (mm (K := Rring) (sM S) (mat_of WT) (mmpow (K := Rring) (sM S) (mat_of Ab) q (mat_of Bb))) []) 0) <= sizeW * c0 * rho ^ q)
    by (intros q; apply tap_le; auto; try lra; intros; now apply Tm).
  split; [|split].
  - intros q Hq. rewrite Hlo by lia. replace (K1 - 1 - (K1 - 1 - q))%nat with q by lia. unfold c, to_coef. cbn [cM cWT cAf cBf].
    rewrite mopp_nth, Rabs_Ropp. apply tap_le; auto; try lra. intros; now apply Tm.
  - intros q Hq. rewrite Hhi by exact Hq. apply TB.
  - intros q Hq. rewrite Hi by exact Hq. apply TB.
Qed.
End Shape.
