(** The power spectral density: offsets and gains, total power, coherent sinusoids. *)
From Coq Require Import List Arith Bool ZArith Reals Lra Lia.
From Flocq Require Import Core.
From Coquelicot Require Import Complex.
From Verif Require Import Base LinAlg AnalogSystem AnalogProofs IntegratorsProofs LinearOde CplxLin SignalsMore SignalsMoreProofs EstimatorDecay FirFreq FirFreqProofs Psd.
Import ListNotations.
Open Scope R_scope.

Lemma rsum_const n (c : R) : rsum n (fun _ => c) = INR n * c.
Proof. induction n; [rewrite rsum_0; cbn; ring|]. rewrite rsum_S, IHn, S_INR. ring. Qed.
(** *** sums over a full turn *)
Definition turns (n : nat) (z : Z) : C := csum n (fun k => cis (2 * PI * IZR z * INR k / INR n)).
Lemma turns_pos n z : (0 < z < Z.of_nat n)%Z -> turns n z = RtoC 0.
Proof.
  intros H. assert (N : INR n <> 0) by (apply not_0_INR; lia). unfold turns. rewrite (csum_ext _ _ (fun k => cis (INR k * (2 * PI * INR (Z.to_nat z) / INR n)))).
  - apply geometric; [apply small_turn; lia|apply turn; lia].
  - intros k _. f_equal. rewrite (INR_IZR_INZ (Z.to_nat z)), Z2Nat.id by lia. field. exact N.
Qed.
Lemma turns_opp n z : turns n (- z) = Cconj (turns n z).
Proof. unfold turns. rewrite csum_conj. apply csum_ext. intros k _. rewrite cis_conj. f_equal. rewrite opp_IZR. unfold Rdiv. ring. Qed.
Lemma turns_0 n : turns n 0 = RtoC (INR n).
Proof.
  unfold turns. rewrite (csum_ext _ _ (fun _ => RtoC 1)).
  - rewrite csum_R. f_equal. rewrite rsum_const. ring.
  - intros k _. replace (2 * PI * 0 * INR k / INR n) with 0 by (unfold Rdiv; ring). apply cis_0.
Qed.
Lemma turns_eq n z : (Z.abs z < Z.of_nat n)%Z -> turns n z = RtoC (if Z.eqb z 0 then INR n else 0).
Proof.
  intros H. destruct (Z.eqb_spec z 0) as [->|E]; [apply turns_0|]. destruct (Z.lt_ge_cases 0 z) as [P|P]; [apply turns_pos; lia|].
  rewrite <- (Z.opp_involutive z), turns_opp, turns_pos by lia. apply Cconj_R.
Qed.

(** *** the window *)
Lemma cos_cis a : RtoC (cos a) = ((cis a + cis (- a)) * RtoC (1 / 2))%C.
Proof. unfold cis, RtoC, Cplus, Cmult. cbn [fst snd]. rewrite cos_neg, sin_neg. f_equal; field. Qed.
Definition weight (z : Z) : R := if Z.eqb z 0 then 42 / 100 else if Z.eqb (Z.abs z) 1 then - (1 / 4) else if Z.eqb (Z.abs z) 2 then 4 / 100 else 0.
Definition window_at (n : nat) (z : Z) : C := csum n (fun k => RtoC (blackman n k) * cis (2 * PI * IZR z * INR k / INR n))%C.
Lemma window_turns n z : (2 <= n)%nat -> window_at n z = (RtoC (42 / 100) * turns n z - RtoC (1 / 4) * (turns n (z + 1) + turns n (z - 1)) + RtoC (4 / 100) * (turns n (z + 2) + turns n (z - 2)))%C.
Proof.
  intros Hn. assert (N : INR n <> 0) by (apply not_0_INR; lia). unfold turns. rewrite <- !csum_add, <- !csum_scale, <- csum_sub, <- csum_add. apply csum_ext. intros k _. unfold blackman. replace (Nat.leb n 1) with false by (symmetry; apply Nat.leb_gt; lia).
  set (a := 2 * PI * INR k / INR n). set (b := 2 * PI * IZR z * INR k / INR n).
  replace (2 * PI * IZR (z + 1) * INR k / INR n) with (b + a) by (unfold a, b; rewrite plus_IZR; field; exact N).
  replace (2 * PI * IZR (z - 1) * INR k / INR n) with (b + - a) by (unfold a, b; rewrite minus_IZR; field; exact N).
  replace (2 * PI * IZR (z + 2) * INR k / INR n) with (b + 2 * a) by (unfold a, b; rewrite plus_IZR; field; exact N).
  replace (2 * PI * IZR (z - 2) * INR k / INR n) with (b + - (2 * a)) by (unfold a, b; rewrite minus_IZR; field; exact N).
  rewrite <- !cis_mult. rewrite RtoC_plus, RtoC_minus, !RtoC_mult, !cos_cis.
  replace (RtoC (1 / 4)) with (RtoC (1 / 2) * RtoC (1 / 2))%C by (rewrite <- RtoC_mult; f_equal; field).
  replace (RtoC (4 / 100)) with (RtoC (8 / 100) * RtoC (1 / 2))%C by (rewrite <- RtoC_mult; f_equal; field). ring.
Qed.
Lemma window_bins n z : (Z.abs z + 2 < Z.of_nat n)%Z -> window_at n z = RtoC (INR n * weight z).
Proof.
  intros H. rewrite window_turns by lia. rewrite !turns_eq by lia. unfold weight. rewrite <- !RtoC_plus, <- !RtoC_mult, <- RtoC_minus, <- RtoC_plus. f_equal.
  destruct (Z.eqb_spec z 0), (Z.eqb_spec (z + 1) 0), (Z.eqb_spec (z - 1) 0), (Z.eqb_spec (z + 2) 0), (Z.eqb_spec (z - 2) 0), (Z.eqb_spec (Z.abs z) 1), (Z.eqb_spec (Z.abs z) 2); try lia; field.
Qed.
Lemma window_power_eq n : (5 <= n)%nat -> window_power n = INR n * (3046 / 10000).
Proof.
  intros Hn. assert (N : INR n <> 0) by (apply not_0_INR; lia). unfold window_power.
  assert (E : RtoC (rsum n (fun k => blackman n k * blackman n k)) = (RtoC (42 / 100) * window_at n 0 - RtoC (1 / 4) * (window_at n 1 + window_at n (-1)) + RtoC (4 / 100) * (window_at n 2 + window_at n (-2)))%C).
  { rewrite <- csum_R. unfold window_at. rewrite <- !csum_add, <- !csum_scale, <- csum_sub, <- csum_add. apply csum_ext. intros k _. rewrite RtoC_mult.
    set (w := RtoC (blackman n k)) at 2 3 4 5 6 7. set (a := 2 * PI * INR k / INR n). transitivity (RtoC (blackman n k) * w)%C; [reflexivity|].
    unfold blackman. replace (Nat.leb n 1) with false by (symmetry; apply Nat.leb_gt; lia). fold a.
    replace (2 * PI * 0 * INR k / INR n) with 0 by (field; exact N). rewrite cis_0.
    replace (2 * PI * 1 * INR k / INR n) with a by (unfold a; field; exact N).
    replace (2 * PI * -1 * INR k / INR n) with (- a) by (unfold a; field; exact N).
    replace (2 * PI * 2 * INR k / INR n) with (2 * a) by (unfold a; field; exact N).
    replace (2 * PI * -2 * INR k / INR n) with (- (2 * a)) by (unfold a; field; exact N).
    rewrite RtoC_plus, RtoC_minus, !RtoC_mult, !cos_cis.
    replace (RtoC (1 / 4)) with (RtoC (1 / 2) * RtoC (1 / 2))%C by (rewrite <- RtoC_mult; f_equal; field).
    replace (RtoC (4 / 100)) with (RtoC (8 / 100) * RtoC (1 / 2))%C by (rewrite <- RtoC_mult; f_equal; field). ring. }
  rewrite !window_bins in E by lia. cbn [weight Z.eqb Z.abs] in E. rewrite <- !RtoC_plus, <- !RtoC_mult, <- RtoC_minus, <- RtoC_plus in E. apply RtoC_inj in E. rewrite E. unfold weight. cbn. field.
Qed.
Lemma blackman_nonneg n k : 0 <= blackman n k.
Proof.
  unfold blackman. destruct (Nat.leb n 1); [lra|]. set (a := 2 * PI * INR k / INR n). assert (B := COS_bound a). rewrite cos_2a_cos. nra.
Qed.
Lemma window_power_pos n : (1 <= n)%nat -> 0 < window_power n.
Proof.
  intros Hn. unfold window_power. destruct (Nat.le_gt_cases n 1) as [L|L].
  - assert (n = 1)%nat by lia. subst. rewrite rsum_S, rsum_0. unfold blackman. cbn. lra.
  - apply rsum_pos with 1%nat; [intros i _; apply Rmult_le_pos; apply blackman_nonneg|lia|]. assert (P : 0 < blackman n 1); [|nra].
    unfold blackman. replace (Nat.leb n 1) with false by (symmetry; apply Nat.leb_gt; lia). assert (T := small_turn n 1 ltac:(lia)).
    set (a := 2 * PI * INR 1 / INR n) in *. assert (B := COS_bound a). rewrite cos_2a_cos. destruct (Req_dec (cos a) 1) as [E|E]; [|nra]. exfalso. apply T. unfold cis. rewrite E. unfold RtoC. f_equal.
    assert (S := sin2_cos2 a). unfold Rsqr in S. rewrite E in S. nra.
Qed.

(** *** offsets and gains *)
Lemma detrended_affine n a b x k : (1 <= n)%nat -> detrended n (fun i => a * x i + b) k = a * detrended n x k.
Proof. intros H. assert (N : INR n <> 0) by (apply not_0_INR; lia). unfold detrended. rewrite rsum_add, rsum_scale, rsum_const. field. exact N. Qed.
Lemma dft_scale n a x q : rfft_bin n (fun k => a * x k) q = (RtoC a * rfft_bin n x q)%C.
Proof. unfold rfft_bin. rewrite <- csum_scale. apply csum_ext. intros k _. rewrite RtoC_mult. ring. Qed.
Lemma periodogram_affine n fs a b x y q : (1 <= n)%nat -> (forall k, (k < n)%nat -> y k = a * x k + b) -> periodogram n fs y q = a ^ 2 * periodogram n fs x q.
Proof.
  intros H E. unfold periodogram. rewrite (dft_ext _ _ (fun k => a * (blackman n k * detrended n x k))).
  - rewrite dft_scale, Cmod_mult, Cmod_R, Rpow_mult_distr, pow2_abs. ring.
  - intros k Hk. assert (D : detrended n y k = detrended n (fun i => a * x i + b) k) by (unfold detrended; rewrite (E k Hk), (rsum_ext n y (fun i => a * x i + b)) by (intros; now apply E); reflexivity).
    rewrite D, detrended_affine by exact H. ring.
Qed.
Lemma sides_pos n q : 0 < sides n q.
Proof. unfold sides. destruct (_ || _); lra. Qed.
Lemma periodogram_nonneg n fs x q : (1 <= n)%nat -> 0 < fs -> 0 <= periodogram n fs x q.
Proof.
  intros H F. unfold periodogram. apply Rmult_le_pos; [apply Rlt_le, sides_pos|]. apply Rmult_le_pos; [apply pow2_ge_0|]. apply Rlt_le, Rdiv_lt_0_compat; [lra|]. apply Rmult_lt_0_compat; [exact F|now apply window_power_pos].
Qed.

(** *** total power *)
Lemma rsum_S_l n f : rsum (S n) f = f O + rsum n (fun i => f (S i)).
Proof. induction n; [rewrite rsum_S, !rsum_0; ring|]. rewrite rsum_S, IHn, (rsum_S n). ring. Qed.
Lemma rsum_rev n f : rsum n (fun i => f (n - 1 - i)%nat) = rsum n f.
Proof.
  induction n; [now rewrite !rsum_0|]. rewrite rsum_S_l, rsum_S, <- IHn, Rplus_comm. f_equal; [|f_equal; lia]. apply rsum_ext. intros i Hi. f_equal. lia.
Qed.
Lemma fold_sides n f : (1 <= n)%nat -> (forall q, (1 <= q < n)%nat -> f (n - q)%nat = f q) -> rsum (n / 2 + 1) (fun q => sides n q * f q) = rsum n f.
Proof.
  intros Hn Hf. assert (D := Nat.div_mod n 2 ltac:(lia)). assert (U := Nat.mod_upper_bound n 2 ltac:(lia)). set (h := (n / 2)%nat) in *.
  assert (Hh : (2 * h)%nat = n \/ (2 * h + 1)%nat = n) by lia. destruct Hh as [Hh|Hh].
  - destruct h as [|h']; [lia|]. assert (Ev : Nat.even n = true) by (rewrite <- Hh; apply Nat.even_spec; now exists (S h')).
    replace (S h' + 1)%nat with (S (S h')) by lia. rewrite rsum_S_l, rsum_S. replace (rsum n f) with (f O + (rsum h' (fun i => f (S i)) + (f (S h') + rsum h' (fun i => f (S h' + S i)%nat)))).
    2: { rewrite <- Hh. replace (2 * S h')%nat with (S (h' + S h')) by lia. rewrite rsum_S_l, rsum_split, rsum_S_l. rewrite Nat.add_0_r. reflexivity. }
    assert (S0 : sides n 0 = 1) by reflexivity. assert (Sh : sides n (S h') = 1) by (unfold sides; rewrite Ev; replace (n / 2)%nat with (S h') by (apply Nat.div_unique with 0%nat; lia); rewrite Nat.eqb_refl, orb_true_r; reflexivity).
    rewrite S0, Sh. rewrite (rsum_ext h' (fun i => sides n (S i) * f (S i)) (fun i => f (S i) + f (S i))).
    2: { intros i Hi. unfold sides. replace (n / 2)%nat with (S h') by (apply Nat.div_unique with 0%nat; lia). rewrite (proj2 (Nat.eqb_neq (S i) 0)), (proj2 (Nat.eqb_neq (S i) (S h'))), andb_false_r by lia. cbn [orb]. ring. }
    rewrite rsum_add. rewrite (rsum_ext h' (fun i => f (S h' + S i)%nat) (fun i => f (S (h' - 1 - i)))).
    2: { intros i Hi. rewrite <- Hf by lia. f_equal. lia. }
    rewrite (rsum_rev h' (fun i => f (S i))). ring.
  - assert (Ev : Nat.even n = false) by (rewrite <- Hh, <- Nat.negb_odd; replace (Nat.odd (2 * h + 1)) with true; [reflexivity|symmetry; apply Nat.odd_spec; now exists h]).
    replace (h + 1)%nat with (S h) by lia. rewrite rsum_S_l. replace (rsum n f) with (f O + (rsum h (fun i => f (S i)) + rsum h (fun i => f (S (h + i))))).
    2: { rewrite <- Hh. replace (2 * h + 1)%nat with (S (h + h)) by lia. rewrite rsum_S_l, rsum_split. reflexivity. }
    assert (S0 : sides n 0 = 1) by reflexivity. rewrite S0. rewrite (rsum_ext h (fun i => sides n (S i) * f (S i)) (fun i => f (S i) + f (S i))).
    2: { intros i Hi. unfold sides. rewrite Ev. cbn. ring. }
    rewrite rsum_add. rewrite (rsum_ext h (fun i => f (S (h + i))) (fun i => f (S (h - 1 - i)))).
    2: { intros i Hi. rewrite <- Hf by lia. f_equal. lia. }
    rewrite (rsum_rev h (fun i => f (S i))). ring.
Qed.
Lemma Cmod2 z : RtoC (Cmod z ^ 2) = (z * Cconj z)%C.
Proof. unfold Cmod. rewrite pow2_sqrt by (apply Rplus_le_le_0_compat; apply pow2_ge_0). destruct z as [a b]. unfold RtoC, Cmult, Cconj. cbn [fst snd]. f_equal; ring. Qed.
Lemma Cmod_conj z : Cmod (Cconj z) = Cmod z.
Proof. unfold Cmod, Cconj. f_equal. cbn [fst snd]. ring. Qed.
Lemma dft_mirror n x q : (1 <= q < n)%nat -> rfft_bin n x (n - q)%nat = Cconj (rfft_bin n x q).
Proof.
  intros H. assert (N : INR n <> 0) by (apply not_0_INR; lia). unfold rfft_bin. rewrite csum_conj. apply csum_ext. intros k Hk. rewrite Cconj_mul, Cconj_R, cis_conj. f_equal. rewrite Ropp_involutive, minus_INR by lia.
  rewrite <- (cis_turns (- (2 * PI * (INR n - INR q) * INR k / INR n)) k). f_equal. field. exact N.
Qed.
Lemma parseval n x : (1 <= n)%nat -> rsum n (fun q => Cmod (rfft_bin n x q) ^ 2) = INR n * rsum n (fun k => x k ^ 2).
Proof.
  intros H. apply RtoC_inj. rewrite <- csum_R, (csum_ext _ _ (fun q => rfft_bin n x q * Cconj (rfft_bin n x q))%C) by (intros; apply Cmod2).
  transitivity (csum n (fun q => csum n (fun k => RtoC (x k) * (rfft_bin n x q * cis (2 * PI * INR q * INR k / INR n))))%C).
  { apply csum_ext. intros q _. unfold rfft_bin at 2. rewrite csum_conj, <- csum_scale. apply csum_ext. intros k _. rewrite Cconj_mul, Cconj_R, cis_conj, Ropp_involutive. ring. }
  rewrite csum_swap. rewrite (csum_ext _ _ (fun k => RtoC (INR n) * RtoC (x k ^ 2))%C).
  - now rewrite csum_scale, csum_R, <- RtoC_mult.
  - intros k Hk. rewrite csum_scale, inversion by exact Hk. rewrite <- !RtoC_mult. f_equal. ring.
Qed.
Lemma periodogram_total n fs x : (1 <= n)%nat -> 0 < fs ->
  rsum (n / 2 + 1) (fun q => periodogram n fs x q) * (fs / INR n) = rsum n (fun k => (blackman n k * detrended n x k) ^ 2) / window_power n.
Proof.
  intros H F. assert (N : INR n <> 0) by (apply not_0_INR; lia). assert (W := window_power_pos n H). unfold periodogram.
  rewrite (rsum_ext _ _ (fun q => (1 / (fs * window_power n)) * (sides n q * Cmod (rfft_bin n (fun k => blackman n k * detrended n x k) q) ^ 2))) by (intros; ring).
  rewrite rsum_scale, (fold_sides n (fun q => Cmod (rfft_bin n (fun k => blackman n k * detrended n x k) q) ^ 2)).
  - rewrite parseval by exact H. field. repeat split; lra.
  - exact H.
  - intros q Hq. rewrite dft_mirror by exact Hq. now rewrite Cmod_conj.
Qed.

(** *** coherent sinusoids *)
Lemma tone_mean n m A p : (0 < m < n)%nat -> rsum n (fun k => A * cos (2 * PI * INR m * INR k / INR n + p)) = 0.
Proof.
  intros H. apply RtoC_inj. rewrite <- csum_R. rewrite (csum_ext _ _ (fun k => RtoC (A / 2) * cis p * cis (2 * PI * IZR (Z.of_nat m) * INR k / INR n) + RtoC (A / 2) * cis (- p) * cis (2 * PI * IZR (- Z.of_nat m) * INR k / INR n))%C).
  - rewrite csum_add, !csum_scale. fold (turns n (Z.of_nat m)). fold (turns n (- Z.of_nat m)). rewrite !turns_eq by lia.
    replace (Z.eqb (Z.of_nat m) 0) with false by (symmetry; apply Z.eqb_neq; lia). replace (Z.eqb (- Z.of_nat m) 0) with false by (symmetry; apply Z.eqb_neq; lia). ring.
  - intros k _. rewrite RtoC_mult, cos_cis. rewrite <- INR_IZR_INZ, opp_IZR, <- INR_IZR_INZ.
    replace (2 * PI * - INR m * INR k / INR n) with (- (2 * PI * INR m * INR k / INR n)) by (unfold Rdiv; ring). rewrite Ropp_plus_distr, <- !cis_mult.
    replace (RtoC (A / 2)) with (RtoC A * RtoC (1 / 2))%C by (rewrite <- RtoC_mult; f_equal; field). ring.
Qed.
Lemma tone_bin n m A p q : (3 <= m)%nat -> (2 * m + 4 < n)%nat -> (q <= n / 2)%nat ->
  rfft_bin n (fun k => blackman n k * (A * cos (2 * PI * INR m * INR k / INR n + p))) q = (RtoC (A / 2 * INR n * weight (Z.of_nat m - Z.of_nat q)) * cis p)%C.
Proof.
  intros H3 Hm Hq. assert (D := Nat.div_mod n 2 ltac:(lia)). assert (N : INR n <> 0) by (apply not_0_INR; lia).
  transitivity (RtoC (A / 2) * cis p * window_at n (Z.of_nat m - Z.of_nat q) + RtoC (A / 2) * cis (- p) * window_at n (- Z.of_nat m - Z.of_nat q))%C.
  - unfold window_at, rfft_bin. rewrite <- !csum_scale, <- csum_add. apply csum_ext. intros k _. rewrite !RtoC_mult, cos_cis.
    set (a := 2 * PI * INR m * INR k / INR n). set (b := 2 * PI * INR q * INR k / INR n).
    replace (2 * PI * IZR (Z.of_nat m - Z.of_nat q) * INR k / INR n) with (a + - b) by (unfold a, b; rewrite minus_IZR, <- !INR_IZR_INZ; field; exact N).
    replace (2 * PI * IZR (- Z.of_nat m - Z.of_nat q) * INR k / INR n) with (- a + - b) by (unfold a, b; rewrite minus_IZR, opp_IZR, <- !INR_IZR_INZ; field; exact N).
    rewrite Ropp_plus_distr, <- !cis_mult. replace (RtoC (A / 2)) with (RtoC A * RtoC (1 / 2))%C by (rewrite <- RtoC_mult; f_equal; field). ring.
  - rewrite !window_bins by lia. assert (Z0 : weight (- Z.of_nat m - Z.of_nat q) = 0).
    { unfold weight. rewrite (proj2 (Z.eqb_neq (- Z.of_nat m - Z.of_nat q) 0)), (proj2 (Z.eqb_neq (Z.abs (- Z.of_nat m - Z.of_nat q)) 1)), (proj2 (Z.eqb_neq (Z.abs (- Z.of_nat m - Z.of_nat q)) 2)) by lia. reflexivity. }
    rewrite Z0, !RtoC_mult. ring.
Qed.

(** the amplitude, phase and bin of a sinusoid *)
Record sinusoid : Type := mkS { s_bin : nat; s_amp : R; s_phase : R }.
Definition sum_over {X} (f : X -> R) (l : list X) : R := fold_right (fun t s => f t + s) 0 l.
Definition at_sample (n : nat) (k : nat) (t : sinusoid) : R := s_amp t * cos (2 * PI * INR (s_bin t) * INR k / INR n + s_phase t).
Definition in_band (n : nat) (t : sinusoid) : Prop := (3 <= s_bin t)%nat /\ (2 * s_bin t + 4 < n)%nat.
(** the part of its power a sinusoid has d bins away from its own *)
Definition share (d : Z) : R := weight d ^ 2 / (3046 / 10000).
Definition apart (t u : sinusoid) : Prop := (5 <= Z.abs (Z.of_nat (s_bin t) - Z.of_nat (s_bin u)))%Z.
Lemma weight_far d : (2 < Z.abs d)%Z -> weight d = 0.
Proof. intros H. unfold weight. now rewrite (proj2 (Z.eqb_neq d 0)), (proj2 (Z.eqb_neq (Z.abs d) 1)), (proj2 (Z.eqb_neq (Z.abs d) 2)) by lia. Qed.
Lemma sum_over_ext {X} (f g : X -> R) l : (forall t, In t l -> f t = g t) -> sum_over f l = sum_over g l.
Proof. intros H. unfold sum_over. induction l as [|t l IH]; [reflexivity|]. cbn [fold_right]. rewrite H by (now left). rewrite IH; [reflexivity|]. intros u Hu. apply H. now right. Qed.
Lemma sum_over_zero {X} (f : X -> R) l : (forall t, In t l -> f t = 0) -> sum_over f l = 0.
Proof. intros H. rewrite (sum_over_ext f (fun _ => 0) l H). unfold sum_over. clear. induction l; cbn [fold_right]; lra. Qed.
Lemma sum_over_scale {X} c (f : X -> R) l : sum_over (fun t => c * f t) l = c * sum_over f l.
Proof. unfold sum_over. induction l; cbn [fold_right]; [ring|]. rewrite IHl. ring. Qed.
Lemma sum_over_rsum {X} n (f : X -> nat -> R) l : rsum n (fun k => sum_over (fun t => f t k) l) = sum_over (fun t => rsum n (f t)) l.
Proof. unfold sum_over. induction l; cbn [fold_right]; [apply rsum_zero; reflexivity|]. now rewrite rsum_add, IHl. Qed.
(** transform of the windowed sum: one term at most *)
Definition csum_over {X} (f : X -> C) (l : list X) : C := fold_right (fun t s => Cplus (f t) s) (RtoC 0) l.
Lemma tones_bin n q l : Forall (in_band n) l -> (q <= n / 2)%nat ->
  rfft_bin n (fun k => blackman n k * sum_over (at_sample n k) l) q = csum_over (fun t => RtoC (s_amp t / 2 * INR n * weight (Z.of_nat (s_bin t) - Z.of_nat q)) * cis (s_phase t))%C l.
Proof.
  intros F Hq. induction F as [|t l [H3 Hm] F IH].
  - cbn. unfold rfft_bin. apply csum_zero. intros k _. rewrite Rmult_0_r. ring.
  - cbn [sum_over csum_over fold_right]. rewrite <- (tone_bin n (s_bin t) (s_amp t) (s_phase t) q H3 Hm Hq). fold (csum_over (fun t => RtoC (s_amp t / 2 * INR n * weight (Z.of_nat (s_bin t) - Z.of_nat q)) * cis (s_phase t))%C l). rewrite <- IH, <- dft_add. apply dft_ext. intros k _. unfold sum_over, at_sample. cbn [fold_right]. ring.
Qed.
Lemma tones_mod n q l : Forall (in_band n) l -> ForallOrdPairs apart l -> (q <= n / 2)%nat ->
  Cmod (rfft_bin n (fun k => blackman n k * sum_over (at_sample n k) l) q) ^ 2 = sum_over (fun t => (s_amp t / 2 * INR n * weight (Z.of_nat (s_bin t) - Z.of_nat q)) ^ 2) l.
Proof.
  intros F P Hq. rewrite tones_bin by assumption. clear F. induction P as [|t l A P IH]; [cbn; rewrite Cmod_0; ring|]. unfold csum_over, sum_over in *. cbn [fold_right].
  destruct (Z.lt_ge_cases 2 (Z.abs (Z.of_nat (s_bin t) - Z.of_nat q))) as [L|L].
  - rewrite (weight_far _ L), !Rmult_0_r, Cmult_0_l, Cplus_0_l, IH. ring.
  - assert (Z0 : forall u, In u l -> weight (Z.of_nat (s_bin u) - Z.of_nat q) = 0).
    { intros u Hu. rewrite Forall_forall in A. specialize (A u Hu). unfold apart in A. apply weight_far. lia. }
    fold (sum_over (fun t => (s_amp t / 2 * INR n * weight (Z.of_nat (s_bin t) - Z.of_nat q)) ^ 2) l). rewrite (sum_over_zero (fun t => (s_amp t / 2 * INR n * weight (Z.of_nat (s_bin t) - Z.of_nat q)) ^ 2) l) by (intros u Hu; rewrite (Z0 u Hu); ring).
    replace (fold_right _ (RtoC 0) l) with (RtoC 0).
    + rewrite Cplus_0_r, Cmod_mult, Cmod_R, cis_mod, Rmult_1_r, pow2_abs. ring.
    + symmetry. clear - Z0. induction l as [|u l IH]; [reflexivity|]. cbn [fold_right]. rewrite IH by (intros v Hv; apply Z0; now right). rewrite Z0 by (now left). rewrite Rmult_0_r. ring.
Qed.
Lemma tones_periodogram n fs c l x q : 0 < fs -> Forall (in_band n) l -> ForallOrdPairs apart l -> (q <= n / 2)%nat -> (5 <= n)%nat -> (forall k, (k < n)%nat -> x k = c + sum_over (at_sample n k) l) ->
  periodogram n fs x q * (fs / INR n) = sum_over (fun t => s_amp t ^ 2 / 2 * share (Z.of_nat (s_bin t) - Z.of_nat q)) l.
Proof.
  intros Hf F P Hq H5 E. assert (N : INR n <> 0) by (apply not_0_INR; lia). assert (D := Nat.div_mod n 2 ltac:(lia)).
  rewrite (periodogram_affine n fs 1 c (fun k => sum_over (at_sample n k) l)) by (try lia; intros k Hk; rewrite (E k Hk); ring).
  unfold periodogram. rewrite (dft_ext n _ (fun k => blackman n k * sum_over (at_sample n k) l)).
  2: { intros k _. f_equal. unfold detrended. rewrite (sum_over_rsum n (fun t k => at_sample n k t)), (sum_over_zero (fun t => rsum n (fun k => at_sample n k t))); [unfold Rdiv; rewrite Rmult_0_l; apply Rminus_0_r|]. intros t Ht. rewrite Forall_forall in F. destruct (F t Ht). apply tone_mean. lia. }
  rewrite tones_mod by assumption. rewrite window_power_eq by lia. unfold share.
  transitivity (sides n q / 2 * sum_over (fun t => s_amp t ^ 2 / 2 * (weight (Z.of_nat (s_bin t) - Z.of_nat q) ^ 2 / (3046 / 10000))) l).
  - rewrite (sum_over_ext _ (fun t => (INR n ^ 2 * (3046 / 10000) / 2) * (s_amp t ^ 2 / 2 * (weight (Z.of_nat (s_bin t) - Z.of_nat q) ^ 2 / (3046 / 10000)))) l) by (intros; field). rewrite sum_over_scale. field. split; [exact N|lra].
  - rewrite <- sum_over_scale. apply sum_over_ext. intros t Ht. rewrite Forall_forall in F. destruct (F t Ht) as [H3 Hm]. destruct (Z.lt_ge_cases 2 (Z.abs (Z.of_nat (s_bin t) - Z.of_nat q))) as [L|L]; [rewrite (weight_far _ L); field|].
    assert (S2 : sides n q = 2). { unfold sides. rewrite (proj2 (Nat.eqb_neq q 0)) by lia. cbn [orb]. destruct (Nat.even n) eqn:Ev; [|reflexivity]. apply Nat.even_spec in Ev. destruct Ev as [h Eh]. rewrite (proj2 (Nat.eqb_neq q (n / 2))); [reflexivity|]. assert (U := Nat.mod_upper_bound n 2 ltac:(lia)). lia. }
    rewrite S2. field.
Qed.
Lemma at_shift n s k t : (1 <= n)%nat -> at_sample n (s + k) t = at_sample n k (mkS (s_bin t) (s_amp t) (2 * PI * INR (s_bin t) * INR s / INR n + s_phase t)).
Proof. intros H. assert (N : INR n <> 0) by (apply not_0_INR; lia). unfold at_sample. cbn. do 2 f_equal. rewrite plus_INR. field. exact N. Qed.
Definition delayed n s t := mkS (s_bin t) (s_amp t) (2 * PI * INR (s_bin t) * INR s / INR n + s_phase t).
Lemma sum_over_map {X Y} (g : X -> Y) (f : Y -> R) l : sum_over f (map g l) = sum_over (fun t => f (g t)) l.
Proof. unfold sum_over. induction l; cbn [map fold_right]; [reflexivity|now rewrite IHl]. Qed.
Lemma apart_delayed n s l : ForallOrdPairs apart l -> ForallOrdPairs apart (map (delayed n s) l).
Proof. induction 1 as [|t l A P IH]; cbn [map]; constructor; [|exact IH]. rewrite Forall_map. exact A. Qed.
Lemma tones_segment n fs c l x s q : 0 < fs -> Forall (in_band n) l -> ForallOrdPairs apart l -> (q <= n / 2)%nat -> (5 <= n)%nat -> (forall k, (k < n)%nat -> x (s + k)%nat = c + sum_over (at_sample n (s + k)) l) ->
  periodogram n fs (fun k => x (s + k)%nat) q * (fs / INR n) = sum_over (fun t => s_amp t ^ 2 / 2 * share (Z.of_nat (s_bin t) - Z.of_nat q)) l.
Proof.
  intros Hf F P Hq H5 E. rewrite (tones_periodogram n fs c (map (delayed n s) l)); try assumption.
  - rewrite sum_over_map. reflexivity.
  - rewrite Forall_map. exact F.
  - now apply apart_delayed.
  - intros k Hk. rewrite (E k Hk). f_equal. rewrite sum_over_map. apply sum_over_ext. intros t _. apply at_shift. lia.
Qed.

(** *** rows *)
Lemma segments_pos K n : (1 <= n <= K)%nat -> (1 <= segments K n)%nat.
Proof. intros H. unfold segments, step. assert (D := Nat.div_mod n 2 ltac:(lia)). assert (U := Nat.mod_upper_bound n 2 ltac:(lia)). apply Nat.div_le_lower_bound; lia. Qed.
Lemma segment_inside K n i k : (1 <= n <= K)%nat -> (i < segments K n)%nat -> (k < n)%nat -> (i * step n + k < K)%nat.
Proof.
  intros H Hi Hk. unfold segments in Hi. assert (D := Nat.div_mod n 2 ltac:(lia)). assert (U := Nat.mod_upper_bound n 2 ltac:(lia)). assert (S1 : (1 <= step n)%nat) by (unfold step; lia).
  assert (M := Nat.mul_div_le (K - n / 2) (step n) ltac:(lia)). assert (Q : (i * step n + step n <= K - n / 2)%nat) by nia. unfold step in *. nia.
Qed.
Lemma welch_row_nth n fs x q : (q <= n / 2)%nat -> nth q (welch_row n fs x) 0 = rsum (segments (length x) n) (fun i => periodogram n fs (fun k => nth (i * step n + k) x 0) q) / INR (segments (length x) n).
Proof.
  intros H. unfold welch_row. set (f := fun q => _ / _). rewrite (nth_indep _ 0 (f O)) by (rewrite map_length, seq_length; lia). rewrite map_nth, seq_nth by lia. reflexivity.
Qed.
Lemma welch_row_length n fs x : length (welch_row n fs x) = (n / 2 + 1)%nat.
Proof. unfold welch_row. now rewrite map_length, seq_length. Qed.
Lemma welch_row_affine n fs a b x : (1 <= n <= length x)%nat -> welch_row n fs (map (fun v => a * v + b) x) = map (fun p => a ^ 2 * p) (welch_row n fs x).
Proof.
  intros H. unfold welch_row. rewrite map_map, map_length. apply map_ext. intros q. set (s := segments (length x) n). unfold Rdiv. rewrite <- Rmult_assoc. f_equal. rewrite <- rsum_scale. apply rsum_ext. intros i Hi.
  apply periodogram_affine with b; [lia|]. intros k Hk. assert (L := segment_inside (length x) n i k H Hi Hk). rewrite (nth_indep _ 0 (a * 0 + b)) by (rewrite map_length; exact L). now rewrite (map_nth (fun v => a * v + b)).
Qed.
Lemma welch_row_nonneg n fs x q : (1 <= n <= length x)%nat -> 0 < fs -> (q <= n / 2)%nat -> 0 <= nth q (welch_row n fs x) 0.
Proof.
  intros H F Hq. rewrite welch_row_nth by exact Hq. apply Rmult_le_pos; [apply rsum_nonneg; intros; apply periodogram_nonneg; [lia|exact F]|]. apply Rlt_le, Rinv_0_lt_compat, lt_0_INR. assert (P := segments_pos (length x) n H). lia.
Qed.
Lemma welch_row_total n fs x : (1 <= n <= length x)%nat -> 0 < fs ->
  sum_over (fun v => v) (welch_row n fs x) * (fs / INR n) =
  rsum (segments (length x) n) (fun i => rsum n (fun k => (blackman n k * detrended n (fun k => nth (i * step n + k) x 0) k) ^ 2) / window_power n) / INR (segments (length x) n).
Proof.
  intros H F. assert (P := segments_pos (length x) n H). set (s := segments (length x) n) in *. assert (N : INR s <> 0) by (apply not_0_INR; lia).
  rewrite (rsum_ext s (fun i => _ / window_power n) (fun i => (fs / INR n) * rsum (n / 2 + 1) (fun q => periodogram n fs (fun k => nth (i * step n + k) x 0) q))) by (intros i _; rewrite <- (periodogram_total n fs) by (try lia; exact F); apply Rmult_comm).
  rewrite rsum_scale. unfold welch_row. fold s. unfold sum_over. rewrite (rsum_swap s (n / 2 + 1)). unfold Rdiv at 2. 
  transitivity (rsum (n / 2 + 1) (fun q => / INR s * rsum s (fun i => periodogram n fs (fun k => nth (i * step n + k) x 0) q)) * (fs / INR n)).
  - f_equal. unfold rsum at 2. generalize (seq 0 (n / 2 + 1)). intros l. induction l as [|q l IH]; [reflexivity|]. cbn [map fold_right]. rewrite IH. unfold Rdiv. f_equal. apply Rmult_comm.
  - rewrite rsum_scale. field. split; apply not_0_INR; lia.
Qed.
Lemma welch_row_tones n fs c l x q : (5 <= n <= length x)%nat -> 0 < fs -> Forall (in_band n) l -> ForallOrdPairs apart l -> (q <= n / 2)%nat -> (forall k, (k < length x)%nat -> nth k x 0 = c + sum_over (at_sample n k) l) ->
  nth q (welch_row n fs x) 0 * (fs / INR n) = sum_over (fun t => s_amp t ^ 2 / 2 * share (Z.of_nat (s_bin t) - Z.of_nat q)) l.
Proof.
  intros H F B A Hq E. rewrite welch_row_nth by exact Hq. assert (P := segments_pos (length x) n ltac:(lia)). assert (SI := segment_inside (length x) n). set (s := segments (length x) n) in *. assert (N : INR s <> 0) by (apply not_0_INR; lia). assert (N' : INR n <> 0) by (apply not_0_INR; lia).
  transitivity (rsum s (fun i => (fs / INR n) * periodogram n fs (fun k => nth (i * step n + k) x 0) q) / INR s); [rewrite rsum_scale; field; split; assumption|].
  rewrite (rsum_ext s _ (fun _ => sum_over (fun t => s_amp t ^ 2 / 2 * share (Z.of_nat (s_bin t) - Z.of_nat q)) l)); [rewrite rsum_const; field; exact N|].
  intros i Hi. rewrite Rmult_comm. apply (tones_segment n fs c l (fun k => nth k x 0) (i * step n) q); try assumption; [lia|]. intros k Hk. apply E. apply SI; [lia|exact Hi|exact Hk].
Qed.
