(** The discrete Fourier transform: inversion, and estimates of sinusoidal and of periodic control signals. *)
From Coq Require Import List Arith Bool ZArith Reals Lra Lia.
From Flocq Require Import Core.
From Coquelicot Require Import Complex.
From Verif Require Import Base LinAlg Estimators BatchProofs BatchRun FirProofs FirExtras AnalogSystem AnalogProofs IntegratorsProofs LinearOde CplxLin SignalsMore SignalsMoreProofs EstimatorDecay FilterRun ToneResponse FirFreq.
Import ListNotations.
Open Scope R_scope.

Lemma cis_0 : cis 0 = RtoC 1.
Proof. unfold cis. now rewrite cos_0, sin_0. Qed.
Lemma cis_conj a : Cconj (cis a) = cis (- a).
Proof. unfold cis, Cconj. cbn [fst snd]. now rewrite cos_neg, sin_neg. Qed.
Lemma cis_turns a k : cis (a + 2 * INR k * PI) = cis a.
Proof. unfold cis. now rewrite cos_period, sin_period. Qed.
Lemma cis_turns_neg a k : cis (a - 2 * INR k * PI) = cis a.
Proof. rewrite <- (cis_turns (a - 2 * INR k * PI) k). f_equal. ring. Qed.
Lemma cis_not_1 a : 0 < a < 2 * PI -> cis a <> RtoC 1.
Proof.
  intros H E. apply (f_equal fst) in E. cbn in E. replace a with (2 * (a / 2)) in E by field. rewrite cos_2a_sin in E.
  assert (P : 0 < sin (a / 2)) by (apply sin_gt_0; lra). nra.
Qed.
(** a full turn in n equal steps, other than multiples of one, sums to zero *)
Lemma geometric n a : cis a <> RtoC 1 -> cis (INR n * a) = RtoC 1 -> csum n (fun q => cis (INR q * a)) = RtoC 0.
Proof.
  intros N E. assert (G : ((cis a - 1) * csum n (fun q => cis (INR q * a)) = cis (INR n * a) - 1)%C).
  { clear E. induction n; [cbn [csum INR]; rewrite Rmult_0_l, cis_0; ring|]. cbn [csum]. rewrite Cmult_plus_distr_l, IHn.
    rewrite S_INR, Rmult_plus_distr_r, Rmult_1_l, <- cis_mult. ring. }
  rewrite E in G. replace (RtoC 1 - 1)%C with (RtoC 0) in G by ring.
  destruct (Ceq_dec (csum n (fun q => cis (INR q * a))) (RtoC 0)) as [Z|Z]; [exact Z|]. exfalso. revert G. apply Cmult_neq_0; [|exact Z]. intros Q. apply N. transitivity (cis a - 1 + 1)%C; [ring|]. rewrite Q. ring.
Qed.

Lemma turn n q : (1 <= n)%nat -> cis (INR n * (2 * PI * INR q / INR n)) = RtoC 1.
Proof. intros H. assert (N : INR n <> 0) by (apply not_0_INR; lia). replace (INR n * (2 * PI * INR q / INR n)) with (0 + 2 * INR q * PI) by (field; exact N). now rewrite cis_turns, cis_0. Qed.
Lemma small_turn n d : (0 < d < n)%nat -> cis (2 * PI * INR d / INR n) <> RtoC 1.
Proof.
  intros H. assert (D : 0 < INR d) by (apply lt_0_INR; lia). assert (E : INR d < INR n) by (apply lt_INR; lia). assert (P := PI_RGT_0). apply cis_not_1. split.
  - apply Rdiv_lt_0_compat; [|lra]. apply Rmult_lt_0_compat; lra.
  - apply Rmult_lt_reg_r with (INR n); [lra|]. unfold Rdiv. rewrite Rmult_assoc, Rinv_l, Rmult_1_r by lra. apply Rmult_lt_compat_l; lra.
Qed.
(** all n bins of the transform of a real sequence, from the n // 2 + 1 that rfft returns *)
Definition bin (n : nat) (half : nat -> C) (q : nat) : C := if Nat.leb q (n / 2) then half q else Cconj (half (n - q)%nat).
Lemma bin_full n x half q : (q < n)%nat -> (forall q, (q <= n / 2)%nat -> half q = rfft_bin n x q) -> bin n half q = rfft_bin n x q.
Proof.
  intros Hq H. unfold bin. destruct (Nat.leb_spec q (n / 2)) as [L|L]; [now apply H|].
  assert (D := Nat.div_mod n 2 ltac:(lia)). assert (M := Nat.mod_upper_bound n 2 ltac:(lia)). rewrite H by lia. unfold rfft_bin. rewrite csum_conj. apply csum_ext. intros k Hk.
  rewrite Cconj_mul, Cconj_R, cis_conj. f_equal. rewrite Ropp_involutive, minus_INR by lia. assert (N : INR n <> 0) by (apply not_0_INR; lia).
  rewrite <- (cis_turns (- (2 * PI * INR q * INR k / INR n)) k). f_equal. field. exact N.
Qed.
Lemma inversion n x k : (k < n)%nat -> csum n (fun q => rfft_bin n x q * cis (2 * PI * INR q * INR k / INR n))%C = RtoC (INR n * x k).
Proof.
  intros Hk. assert (N : INR n <> 0) by (apply not_0_INR; lia). unfold rfft_bin.
  transitivity (csum n (fun q => csum n (fun j => RtoC (x j) * cis (INR q * (2 * PI * (INR k - INR j) / INR n))))%C).
  { apply csum_ext. intros q _. rewrite Cmult_comm, <- csum_scale. apply csum_ext. intros j _. rewrite Cmult_assoc, (Cmult_comm _ (RtoC (x j))), <- Cmult_assoc, cis_mult. do 2 f_equal. field. exact N. }
  rewrite csum_swap. transitivity (csum n (fun j => if Nat.eqb j k then RtoC (INR n * x j) else RtoC 0)); [|now apply csum_single].
  apply csum_ext. intros j Hj. rewrite csum_scale. destruct (Nat.eqb_spec j k) as [->|E].
  - rewrite (csum_ext _ _ (fun _ => RtoC 1)).
    + rewrite csum_R. replace (rsum n (fun _ => 1)) with (INR n); [rewrite RtoC_mult; ring|]. clear. induction n; [rewrite rsum_0; reflexivity|]. now rewrite rsum_S, S_INR, IHn.
    + intros q _. replace (INR q * (2 * PI * (INR k - INR k) / INR n)) with 0 by (field; exact N). apply cis_0.
  - destruct (Nat.lt_ge_cases j k) as [Q|Q].
    + rewrite <- minus_INR by lia. rewrite geometric; [ring|apply small_turn; lia|apply turn; lia].
    + rewrite (csum_ext _ _ (fun q => Cconj (cis (INR q * (2 * PI * INR (j - k) / INR n))))).
      * rewrite <- csum_conj, geometric; [rewrite Cconj_R; ring|apply small_turn; lia|apply turn; lia].
      * intros q _. rewrite cis_conj. f_equal. rewrite minus_INR by lia. field. exact N.
Qed.

(** *** estimates *)
(** the value of decision m in sample t, as the estimator uses it *)
Definition value (xs : list (list R)) (t m : nat) : R := 2 * nth m (nth t xs []) 0 - 1.
Lemma vsum_nth' n m (f : nat -> list R) i : (forall k, (k < m)%nat -> length (f k) = n) -> (i < n)%nat ->
  length (vsum (K := Rring) n m f) = n /\ nth i (vsum (K := Rring) n m f) 0 = rsum m (fun k => nth i (f k) 0).
Proof.
  intros Lf Hi. set (g := fun k => if Nat.ltb k m then f k else repeat 0 n).
  assert (E : forall k, (k < m)%nat -> g k = f k) by (intros k Hk; unfold g; destruct (Nat.ltb_spec k m); [reflexivity|lia]).
  replace (vsum (K := Rring) n m f) with (vsum (K := Rring) n m g) by (apply (vsum_ext (K := Rring)); exact E).
  rewrite <- (rsum_ext m (fun k => nth i (g k) 0)) by (intros k Hk; now rewrite E). apply vsum_nth; [|exact Hi].
  intros k. unfold g. destruct (Nat.ltb_spec k m); [now apply Lf|apply repeat_length].
Qed.
Lemma vsum_len n m (f : nat -> list R) : (forall k, (k < m)%nat -> length (f k) = n) -> length (vsum (K := Rring) n m f) = n.
Proof.
  induction m as [|m IH]; intros H; cbn [vsum]; [apply (vzero_length (K := Rring))|]. rewrite (vadd_length (K := Rring)). transitivity (Nat.min n n); [|apply Nat.min_id]. f_equal; [apply IH; intros; apply H; lia|apply H; lia].
Qed.
Lemma dot_nth : forall n (a b : list R), length a = n -> length b = n -> dot (K := Rring) a b = rsum n (fun i => nth i a 0 * nth i b 0).
Proof.
  assert (Sl : forall n g, rsum (S n) g = g O + rsum n (fun i => g (S i))).
  { induction n; intros g; [rewrite rsum_S, !rsum_0; ring|]. rewrite rsum_S, IHn, (rsum_S n). ring. }
  induction n; intros [|x a] [|y b] La Lb; try discriminate; [reflexivity|]. cbn [dot]. rewrite IHn by (cbn in *; lia). rewrite Sl. reflexivity.
Qed.
Lemma mv_nth (A : list (list R)) v L M i : wfm (K := Rring) L M A -> length v = M -> (i < L)%nat -> nth i (mv (K := Rring) A v) 0 = rsum M (fun m => nth m (nth i A []) 0 * nth m v 0).
Proof.
  intros [LA FA] Lv Hi. unfold mv. rewrite (nth_indep _ 0 (dot (K := Rring) [] v)) by (rewrite map_length; exact (eq_ind_r (fun k => (i < k)%nat) Hi LA)).
  rewrite (map_nth (fun r => dot (K := Rring) r v)). apply dot_nth; [|exact Lv]. rewrite Forall_forall in FA. apply FA. apply nth_In. exact (eq_ind_r (fun k => (i < k)%nat) Hi LA).
Qed.
Lemma value_ctl M (xs : list (list R)) t m : Forall (fun x => length x = M) xs -> (t < length xs)%nat -> (m < M)%nat ->
  length (zsig (K := Rring) M xs (Z.of_nat t)) = M /\ nth m (zsig (K := Rring) M xs (Z.of_nat t)) 0 = value xs t m.
Proof.
  intros F Ht Hm. destruct (nth_error xs t) as [x|] eqn:E; [|apply nth_error_None in E; lia]. rewrite (zsig_nth (K := Rring) M xs t x E).
  assert (Lx : length x = M) by (rewrite Forall_forall in F; apply F; eapply nth_error_In; exact E).
  assert (En : nth t xs [] = x) by (now apply nth_error_nth). unfold value. rewrite En. unfold pm1. split; [now rewrite map_length|].
  rewrite (nth_indep _ 0 ((fun v => rsub Rring (rmul Rring (radd Rring (r1 Rring) (r1 Rring)) v) (r1 Rring)) 0)) by (rewrite map_length; exact (eq_ind_r (fun k => (m < k)%nat) Hm Lx)).
  rewrite (map_nth (fun v => rsub Rring (rmul Rring (radd Rring (r1 Rring) (r1 Rring)) v) (r1 Rring))). cbn. ring.
Qed.
(** the coefficients have the shape (L, K3, M) *)
Definition shaped (L M K3 : nat) (h : list (list (list R))) : Prop := length h = K3 /\ Forall (wfm (K := Rring) L M) h.
(** what [FIRFilter.__next__] returns in call j, once K3 samples were read, without downsampling *)
Lemma fir_estimate L M K3 h (offset : list R) limit (xs : list (list R)) e n j : (1 <= K3)%nat -> shaped L M K3 h -> length offset = L -> Forall (fun x => length x = M) xs ->
  e = SrcObj StopIteration \/ e = SrcGen RuntimeError \/ e = SrcObj RuntimeError -> (j < n)%nat -> (K3 <= j + 1 <= length xs)%nat -> (limit = 0 \/ Z.of_nat (j + 1) <= limit)%Z ->
  exists v, nth_error (fst (Estimators.calls (f_next (K := Rring) K3 M L 1 h offset limit) n (f_init (K := Rring) K3 M (mkSrc (K := Rring) xs e)))) j = Some (Ok v) /\ length v = L /\
    forall l, (l < L)%nat -> nth l v 0 = rsum M (fun m => rsum K3 (fun k => coefficient h l k m * value xs (j + 1 - K3 + k) m)) + nth l offset 0.
Proof.
  intros HK [LH FH] LO Fx He Hj HJ HL. destruct (fir_run (K := Rring) K3 M L 1 h offset limit xs e ltac:(lia) Fx He n j Hj) as [G _].
  eexists. split; [apply G; unfold fgood; rewrite Nat.mul_1_r; replace (S j) with (j + 1)%nat by lia; split; [exact (proj2 HJ)|exact HL]|]. clear G.
  rewrite Nat.mul_1_r. replace (S j) with (j + 1)%nat by lia. set (b := fbuf (K := Rring) K3 M xs (j + 1)).
  assert (Lb : length b = K3) by (unfold b, fbuf; now rewrite map_length, seq_length).
  assert (Nb : forall k, (k < K3)%nat -> nth k b [] = zsig (K := Rring) M xs (Z.of_nat (j + 1 - K3 + k))).
  { intros k Hk. unfold b, fbuf. rewrite (nth_indep _ [] (zsig (K := Rring) M xs (Z.of_nat (j + 1) + Z.of_nat 0 - Z.of_nat K3)%Z)) by (rewrite map_length, seq_length; exact Hk).
    rewrite (map_nth (fun k => zsig (K := Rring) M xs (Z.of_nat (j + 1) + Z.of_nat k - Z.of_nat K3)%Z)), seq_nth by exact Hk. f_equal. lia. }
  assert (FL : Forall (fun m => length m = L) h) by (eapply Forall_impl; [|exact FH]; intros A [Q _]; exact Q).
  assert (Wk : forall k, (k < K3)%nat -> wfm (K := Rring) L M (nth k h [])) by (intros k Hk; rewrite Forall_forall in FH; apply FH, nth_In; lia).
  assert (ET : tensordot (K := Rring) L h b = vsum (K := Rring) L K3 (fun k => mv (K := Rring) (nth k h []) (nth k b []))).
  { rewrite (tensordot_vsum (K := Rring) L h b) by (first [exact FL | exact (eq_trans LH (eq_sym Lb))]). exact (f_equal (fun K => vsum (K := Rring) L K (fun k => mv (K := Rring) (nth k h []) (nth k b []))) LH). }
  rewrite ET. clear ET.
  assert (LM : forall k, (k < K3)%nat -> length (mv (K := Rring) (nth k h []) (nth k b [])) = L) by (intros k Hk; rewrite (mv_length (K := Rring)); apply (Wk k Hk)).
  assert (LV : length (vsum (K := Rring) L K3 (fun k => mv (K := Rring) (nth k h []) (nth k b []))) = L).
  { now apply vsum_len. }
  split; [rewrite (vadd_length (K := Rring)); transitivity (Nat.min L L); [f_equal; assumption|apply Nat.min_id]|]. intros l Hl.
  rewrite nth_vadd by (transitivity L; [exact LV|now symmetry]). f_equal. eapply eq_trans; [exact (proj2 (vsum_nth' L K3 (fun k => mv (K := Rring) (nth k h []) (nth k b [])) l LM Hl))|]. rewrite rsum_swap. apply rsum_ext. intros k Hk.
  destruct M as [|M'].
  - rewrite (mv_nth _ _ L 0 l (Wk k Hk)); [now rewrite !rsum_0| |exact Hl]. rewrite Nb by exact Hk. destruct (nth_error xs (j + 1 - K3 + k)) as [x|] eqn:E; [|apply nth_error_None in E; lia].
    rewrite (zsig_nth (K := Rring) _ xs _ x E). unfold pm1. rewrite map_length. rewrite Forall_forall in Fx. apply Fx. eapply nth_error_In; exact E.
  - rewrite (mv_nth _ _ L (S M') l (Wk k Hk)); [|rewrite Nb by exact Hk; apply (proj1 (value_ctl (S M') xs (j + 1 - K3 + k) 0 Fx ltac:(lia) ltac:(lia)))|exact Hl].
    apply rsum_ext. intros m Hm. unfold coefficient. f_equal. rewrite Nb by exact Hk. apply (value_ctl (S M') xs (j + 1 - K3 + k) m Fx); lia.
Qed.

(** *** sinusoidal control signals *)
Lemma tone_re w c t : tone w c t = fst (c * cis (w * t))%C.
Proof. unfold tone, cis. destruct c. reflexivity. Qed.
Lemma fst_csum n f : fst (csum n f) = rsum n (fun i => fst (f i)).
Proof. induction n; [reflexivity|]. cbn [csum]. now rewrite rsum_S, <- IHn. Qed.
Lemma tone_csum w n (f : nat -> C) t : tone w (csum n f) t = rsum n (fun i => tone w (f i) t).
Proof. induction n; [apply tone_0|]. cbn [csum]. now rewrite tone_add, IHn, rsum_S. Qed.
(** a shift in time is a factor of the phasor *)
Lemma tone_shift w c t s : tone w c (t + s) = tone w (c * cis (w * s))%C t.
Proof. rewrite !tone_re. f_equal. rewrite <- Cmult_assoc, cis_mult. do 2 f_equal. ring. Qed.
Lemma tone_filter K3 Ts q (h : nat -> R) c t : (1 <= K3)%nat -> Ts <> 0 ->
  rsum K3 (fun k => h k * tone (2 * PI * (INR q * (1 / (INR K3 * Ts)))) c (t + INR k * Ts)) = tone (2 * PI * (INR q * (1 / (INR K3 * Ts)))) (Cconj (rfft_bin K3 h q) * c)%C t.
Proof.
  intros HK HT. assert (N : INR K3 <> 0) by (apply not_0_INR; lia). unfold rfft_bin. rewrite csum_conj, Cmult_comm, <- csum_scale, tone_csum. apply rsum_ext. intros k _.
  rewrite tone_shift, <- tone_scale. f_equal. rewrite Cconj_mul, Cconj_R, cis_conj. rewrite Cmult_assoc, (Cmult_comm (RtoC (h k)) c), <- !Cmult_assoc. 
  f_equal. f_equal. f_equal. field. split; assumption.
Qed.

(** *** periodic control signals *)
Lemma csum_S_l n g : csum (S n) g = (g O + csum n (fun i => g (S i)))%C.
Proof. induction n; [cbn; ring|]. change (csum (S (S n)) g) with (csum (S n) g + g (S n))%C. rewrite IHn. cbn [csum]. ring. Qed.
Lemma csum_shift n g k : (k < n)%nat -> (forall t, (t + 1 < n)%nat -> g (t + n)%nat = g t) -> csum n (fun i => g (i + k)%nat) = csum n g.
Proof.
  intros Hk P. induction k as [|k IH]; [apply csum_ext; intros; f_equal; lia|]. rewrite <- IH by lia.
  assert (E : (csum (S n) (fun i => g (i + k)%nat) = g k + csum n (fun i => g (i + S k)%nat))%C).
  { rewrite csum_S_l. apply (f_equal2 Cplus); [reflexivity|]. apply csum_ext. intros. f_equal. lia. }
  cbn [csum] in E. rewrite <- (P k ltac:(lia)) in E. replace (n + k)%nat with (k + n)%nat in E by lia.
  transitivity (g (k + n)%nat + csum n (fun i => g (i + S k)%nat) - g (k + n)%nat)%C; [ring|]. rewrite <- E. ring.
Qed.
Lemma periodic_filter n (h z : nat -> R) q : (1 <= n)%nat -> (forall t, (t + 1 < n)%nat -> z (t + n)%nat = z t) ->
  csum n (fun i => RtoC (rsum n (fun k => (h k * z (i + k)%nat)%R)) * cis (- (2 * PI * INR q * INR i / INR n))%R)%C = (Cconj (rfft_bin n h q) * rfft_bin n z q)%C.
Proof.
  intros Hn P. assert (N : INR n <> 0) by (apply not_0_INR; lia). set (g := fun t => (RtoC (z t) * cis (- (2 * PI * INR q * INR t / INR n)))%C).
  transitivity (csum n (fun k => Cconj (RtoC (h k) * cis (- (2 * PI * INR q * INR k / INR n))) * csum n (fun i => g (i + k)%nat))%C).
  - transitivity (csum n (fun i => csum n (fun k => Cconj (RtoC (h k) * cis (- (2 * PI * INR q * INR k / INR n))) * g (i + k)%nat))%C).
    + apply csum_ext. intros i _. rewrite <- csum_R, Cmult_comm, <- csum_scale. apply csum_ext. intros k _. unfold g. rewrite Cconj_mul, Cconj_R, cis_conj, RtoC_mult.
      rewrite plus_INR. replace (cis (- (2 * PI * INR q * INR i / INR n))) with (cis (- - (2 * PI * INR q * INR k / INR n)) * cis (- (2 * PI * INR q * (INR i + INR k) / INR n)))%C; [ring|].
      rewrite cis_mult. f_equal. field. exact N.
    + rewrite csum_swap. apply csum_ext. intros k _. now rewrite csum_scale.
  - rewrite (csum_ext n _ (fun k => rfft_bin n z q * Cconj (RtoC (h k) * cis (- (2 * PI * INR q * INR k / INR n))))%C).
    + rewrite csum_scale, <- csum_conj. unfold rfft_bin. ring.
    + intros k Hk. rewrite (csum_shift n g k Hk); [unfold rfft_bin; fold g; ring|]. intros t Ht. unfold g. rewrite P by exact Ht. f_equal. rewrite plus_INR.
      rewrite <- (cis_turns (- (2 * PI * INR q * (INR t + INR n) / INR n)) q). f_equal. field. exact N.
Qed.
Lemma dft_const n c q : (q < n)%nat -> rfft_bin n (fun _ => c) q = if Nat.eqb q 0 then RtoC (INR n * c) else RtoC 0.
Proof.
  intros Hq. assert (N : INR n <> 0) by (apply not_0_INR; lia). unfold rfft_bin. rewrite csum_scale. rewrite (csum_ext _ _ (fun k => Cconj (cis (INR k * (2 * PI * INR q / INR n))))).
  2:{ intros k _. rewrite cis_conj. f_equal. field. exact N. }
  rewrite <- csum_conj. destruct (Nat.eqb_spec q 0) as [->|E].
  - rewrite (csum_ext _ _ (fun _ => RtoC 1)) by (intros; rewrite <- cis_0; f_equal; cbn [INR]; field; exact N). rewrite csum_R, Cconj_R, <- RtoC_mult. f_equal. rewrite Rmult_comm. f_equal.
    clear. induction n; [apply rsum_0|]. now rewrite rsum_S, S_INR, IHn.
  - rewrite geometric; [rewrite Cconj_R; ring|apply small_turn; lia|apply turn; lia].
Qed.
Lemma dft_add n x y q : rfft_bin n (fun k => x k + y k) q = (rfft_bin n x q + rfft_bin n y q)%C.
Proof. unfold rfft_bin. rewrite <- csum_add. apply csum_ext. intros. rewrite RtoC_plus. ring. Qed.
Lemma dft_sum n m x q : rfft_bin n (fun k => rsum m (fun i => x i k)) q = csum m (fun i => rfft_bin n (x i) q).
Proof.
  induction m; cbn [csum]; [unfold rfft_bin; apply csum_zero; intros; rewrite rsum_0; ring|]. rewrite <- IHm, <- dft_add. apply csum_ext. intros. now rewrite rsum_S.
Qed.
Lemma dft_ext n x y q : (forall k, (k < n)%nat -> x k = y k) -> rfft_bin n x q = rfft_bin n y q.
Proof. intros H. apply csum_ext. intros k Hk. now rewrite H. Qed.
