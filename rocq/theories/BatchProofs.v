(** Proofs about BatchEstimator: the windowed Wiener recursion, counts and end-of-stream behaviour. *)
From Coq Require Import List Lia Arith Ring Bool ZArith.
From Verif Require Import Base LinAlg Estimators.
Import ListNotations.

Lemma nth_upd_same {A} i (v d : A) l : i < length l -> nth i (upd i v l) d = v.
Proof. intros H. rewrite nth_upd, Nat.eqb_refl. apply Nat.ltb_lt in H. now rewrite H. Qed.
Lemma nth_upd_other {A} i j (v d : A) l : i <> j -> nth j (upd i v l) d = nth j l d.
Proof. intros H. rewrite nth_upd. apply Nat.eqb_neq in H. now rewrite H. Qed.
Lemma upd_upd {A} i (v w : A) l : upd i v (upd i w l) = upd i v l.
Proof. revert i; induction l; intros [|i]; simpl; auto. now rewrite IHl. Qed.
Lemma upd_nth_id {A} i (d : A) l : upd i (nth i l d) l = l.
Proof. revert i; induction l; intros [|i]; simpl; auto. now rewrite IHl. Qed.
Lemma upd_app_mid {A} (l1 l2 : list A) v x : upd (length l1) v (l1 ++ x :: l2) = l1 ++ v :: l2.
Proof. induction l1; simpl; auto. now rewrite IHl1. Qed.
Lemma firstn_upd_ge {A} i (v : A) n l : (n <= i)%nat -> firstn n (upd i v l) = firstn n l.
Proof.
  revert i n; induction l as [|x l IH]; intros i n H; destruct n; destruct i; simpl; auto; try lia. f_equal. apply IH. lia.
Qed.
Lemma firstn_S_nth {A} n (l : list A) d : (n < length l)%nat -> firstn (S n) l = firstn n l ++ [nth n l d].
Proof.
  revert n; induction l as [|x l IH]; intros n H; simpl in *; [lia|]. destruct n; simpl; auto. f_equal. apply IH. lia.
Qed.
Lemma nth_map_seq {A} (f : nat -> A) a n i d : (i < n)%nat -> nth i (map f (seq a n)) d = f (a + i)%nat.
Proof.
  intros H. rewrite (nth_indep _ d (f O)) by (now rewrite map_length, seq_length). rewrite map_nth. f_equal. now apply seq_nth.
Qed.
Lemma fold_left_rev {A B} (f : B -> A -> B) l i : fold_left f (rev l) i = fold_right (fun a b => f b a) i l.
Proof. induction l; simpl; auto. rewrite fold_left_app. simpl. now rewrite IHl. Qed.

Section Est.
Context {K : cring}.
Add Ring Kring : (rth K).
Notation vec := (list K).
Notation mat := (list (list K)).
Notation coef := (@coef K).
Notation source := (@source K).

(** Shapes of the coefficient matrices, as enforced by the [reshape] calls (batch_estimator.py:261-275). *)
Definition coef_wf (c : coef) : Prop :=
  wfm (cN c) (cN c) (cAf c) /\ wfm (cN c) (cN c) (cAb c) /\ wfm (cN c) (cM c) (cBf c) /\ wfm (cN c) (cM c) (cBb c)
  /\ wfm (cL c) (cN c) (cWT c).

(** Specification: the estimate is a difference of two explicit finite sums. [d] is the +-1 valued control signal. *)
Definition lookback_sum (c : coef) (d : nat -> vec) (n : nat) : vec :=
  vsum (cN c) n (fun i => mpow (cAf c) i (mv (cBf c) (d (n - 1 - i)))).
Definition lookahead_sum (c : coef) (d : nat -> vec) (n m : nat) : vec :=
  vsum (cN c) m (fun i => mpow (cAb c) i (mv (cBb c) (d (n + i)))).
Definition wiener (c : coef) (d : nat -> vec) (n m : nat) : vec :=
  mv (cWT c) (vsub (lookahead_sum c d n m) (lookback_sum c d n)).

Section Rec.
Variable c : coef.
Hypothesis Hwf : coef_wf c.
Variable d : nat -> vec.

Fixpoint Fd (n : nat) : vec :=
  match n with O => vzero (cN c) | S n => vadd (mv (cAf c) (Fd n)) (mv (cBf c) (d n)) end.
Fixpoint Bd (a m : nat) : vec :=
  match m with O => vzero (cN c) | S m => vadd (mv (cAb c) (Bd (S a) m)) (mv (cBb c) (d a)) end.

Lemma wf_lengths : length (cAf c) = cN c /\ length (cAb c) = cN c /\ length (cBf c) = cN c /\ length (cBb c) = cN c /\ length (cWT c) = cL c.
Proof. destruct Hwf as ((?&_)&(?&_)&(?&_)&(?&_)&(?&_)). auto. Qed.

Lemma Fd_length n : length (Fd n) = cN c.
Proof. destruct wf_lengths as (H1&H2&H3&H4&H5). destruct n; simpl; [apply vzero_length|]. rewrite vadd_length, !mv_length. lia. Qed.
Lemma Bd_length a m : length (Bd a m) = cN c.
Proof. destruct wf_lengths as (H1&H2&H3&H4&H5). destruct m; simpl; [apply vzero_length|]. rewrite vadd_length, !mv_length. lia. Qed.

Lemma Bd_sum m : forall a, Bd a m = lookahead_sum c d a m.
Proof.
  destruct wf_lengths as (H1&H2&H3&H4&H5).
  unfold lookahead_sum. induction m as [|m IH]; intros a; [reflexivity|].
  assert (HL : forall a' i, length (mpow (cAb c) i (mv (cBb c) (d (a' + i)))) = cN c).
  { intros a' i. rewrite mpow_length; [assumption|]. rewrite mv_length. congruence. }
  rewrite vsum_S_l by (intros; apply HL). cbn [Bd]. rewrite IH, mv_vsum by (intros; apply HL).
  rewrite vadd_comm. simpl mpow at 1. rewrite Nat.add_0_r. f_equal. rewrite H2. apply vsum_ext. intros i Hi. cbn [mpow].
  now rewrite Nat.add_succ_r.
Qed.

Lemma Fd_sum n : Fd n = lookback_sum c d n.
Proof.
  destruct wf_lengths as (H1&H2&H3&H4&H5).
  unfold lookback_sum. induction n as [|n IH]; [reflexivity|].
  assert (HL : forall b i, length (mpow (cAf c) i (mv (cBf c) (d b))) = cN c).
  { intros b i. rewrite mpow_length; [assumption|]. rewrite mv_length. congruence. }
  rewrite vsum_S_l by (intros; apply HL). cbn [Fd]. rewrite IH, mv_vsum by (intros; apply HL).
  rewrite vadd_comm. simpl mpow at 1. replace (S n - 1 - 0) with n by lia. f_equal. rewrite H1. apply vsum_ext. intros i Hi. cbn [mpow].
  do 4 f_equal. lia.
Qed.
End Rec.

Section Batch.
Variable c : coef.
Hypothesis Hwf : coef_wf c.
Variables K1 K2 : nat.
Hypothesis HK1 : (1 <= K1)%nat.
Let K3 := (K1 + K2)%nat.

Lemma b_lookahead_spec buf mean : (K1 < length mean)%nat ->
  b_lookahead c K1 K2 buf mean
  = upd K1 (fold_right (fun k m => vadd (mv (cAb c) m) (mv (cBb c) (nth k buf []))) (nth K1 mean []) (seq K1 K2)) mean.
Proof.
  intros HL. unfold b_lookahead. rewrite fold_left_rev. generalize (seq K1 K2) as ks.
  induction ks as [|k ks IH]; cbn [fold_right].
  - now rewrite upd_nth_id.
  - rewrite IH. rewrite nth_upd_same by assumption. now rewrite upd_upd.
Qed.

Lemma b_forward_spec buf mean : length mean = (K1 + 1)%nat ->
  forall n, (n <= K1)%nat ->
  forall m t, fold_left (fun '(mean, tf) k2 =>
      let temp := vadd (mv (cAf c) (nth k2 mean [])) (mv (cBf c) (nth k2 buf [])) in
      if Nat.ltb k2 (K1 - 1) then (upd (k2 + 1) temp mean, tf) else (mean, temp)) (seq 0 n) (mean, vzero (cN c)) = (m, t) ->
  let G := fix G (k : nat) : vec := match k with O => nth 0 mean [] | S k => vadd (mv (cAf c) (G k)) (mv (cBf c) (nth k buf [])) end in
  length m = (K1 + 1)%nat /\ (forall i, (i <= n)%nat -> (i <= K1 - 1)%nat -> nth i m [] = G i) /\ nth K1 m [] = nth K1 mean []
  /\ (n = K1 -> t = G K1).
Proof.
  intros HL. induction n as [|n IH]; intros Hn m t.
  - cbn [seq fold_left]. intros [= <- <-]. cbv zeta. repeat split; auto; [|lia]. intros i Hi _. now replace i with O by lia.
  - rewrite seq_S, fold_left_app. cbn [fold_left plus].
    destruct (fold_left _ (seq 0 n) _) as [m' t'] eqn:E. specialize (IH ltac:(lia) _ _ eq_refl).
    cbv zeta in IH |- *. set (G := fix G (k : nat) : vec := _) in *. destruct IH as (IL & IG & IK & _).
    destruct (Nat.ltb_spec n (K1 - 1)) as [Hlt|Hge]; intros [= <- <-].
    + rewrite upd_length. split; [assumption|]. split; [|split; [|lia]].
      * intros i Hi Hi2. destruct (Nat.eq_dec i (S n)) as [->|Hne].
        -- rewrite Nat.add_1_r, nth_upd_same by lia. cbn [G]. rewrite IG by lia. reflexivity.
        -- rewrite nth_upd_other by lia. apply IG; lia.
      * rewrite nth_upd_other by lia. assumption.
    + split; [assumption|]. split; [|split; [assumption|]].
      * intros i Hi Hi2. apply IG; lia.
      * intros _. replace K1 with (S n) by lia. cbn [G]. rewrite IG by lia. reflexivity.
Qed.

Lemma b_backward_spec buf : forall n a mean est, (a + n = K1)%nat -> length mean = (K1 + 1)%nat -> length est = K1 ->
  let r := fold_left (fun '(mean, est) k3 =>
      let temp := vadd (mv (cAb c) (nth (k3 + 1) mean [])) (mv (cBb c) (nth k3 buf [])) in
      (upd k3 temp mean, upd k3 (mv (cWT c) (vsub temp (nth k3 mean []))) est)) (rev (seq a n)) (mean, est) in
  let G i := fold_right (fun k m => vadd (mv (cAb c) m) (mv (cBb c) (nth k buf []))) (nth K1 mean []) (seq i (K1 - i)) in
  length (fst r) = (K1 + 1)%nat /\ length (snd r) = K1
  /\ (forall i, (a <= i <= K1)%nat -> nth i (fst r) [] = G i)
  /\ (forall i, (i < a)%nat -> nth i (fst r) [] = nth i mean [])
  /\ (forall i, (a <= i < K1)%nat -> nth i (snd r) [] = mv (cWT c) (vsub (G i) (nth i mean []))).
Proof.
  induction n as [|n IH]; intros a mean est Ha HL HE.
  - cbn [seq rev fold_left fst snd]. cbv zeta. repeat split; auto; [|lia]. intros i Hi. replace i with K1 by lia.
    now rewrite Nat.sub_diag.
  - specialize (IH (S a) mean est ltac:(lia) HL HE). cbv zeta in IH |- *. cbn [seq rev]. rewrite fold_left_app. cbn [fold_left].
    destruct (fold_left _ (rev (seq (S a) n)) _) as [m e]. cbn [fst snd] in *. destruct IH as (I1 & I2 & I3 & I4 & I5).
    rewrite !upd_length.
    assert (EG : fold_right (fun k m => vadd (mv (cAb c) m) (mv (cBb c) (nth k buf []))) (nth K1 mean []) (seq a (K1 - a))
      = vadd (mv (cAb c) (nth (a + 1) m [])) (mv (cBb c) (nth a buf []))).
    { rewrite I3 by lia. replace (K1 - a)%nat with (S (K1 - (a + 1))) by lia. cbn [seq fold_right]. now rewrite Nat.add_1_r. }
    split; [assumption|]. split; [assumption|]. split; [|split].
    + intros i Hi. destruct (Nat.eq_dec i a) as [->|Hne].
      * rewrite nth_upd_same by lia. now rewrite EG.
      * rewrite nth_upd_other by lia. apply I3. lia.
    + intros i Hi. rewrite nth_upd_other by lia. apply I4. lia.
    + intros i Hi. destruct (Nat.eq_dec i a) as [->|Hne].
      * rewrite nth_upd_same by lia. rewrite <- EG, I4 by lia. reflexivity.
      * rewrite nth_upd_other by lia. apply I5. lia.
Qed.

(** Backward accumulation over a list of samples *)
Lemma Bd_fold d a : forall n i m0,
  fold_right (fun k m => vadd (mv (cAb c) m) (mv (cBb c) (nth k (map d (seq a K3)) []))) m0 (seq i n)
  = fold_right (fun k m => vadd (mv (cAb c) m) (mv (cBb c) (if Nat.ltb k K3 then d (a + k)%nat else []))) m0 (seq i n).
Proof.
  induction n as [|n IH]; intros i m0; cbn [seq fold_right]; [reflexivity|]. rewrite IH. do 2 f_equal.
  destruct (Nat.ltb_spec i K3); [now rewrite nth_map_seq|]. apply nth_overflow. now rewrite map_length, seq_length.
Qed.

Lemma Bd_seq d a : forall n i, (i + n <= K3)%nat ->
  fold_right (fun k m => vadd (mv (cAb c) m) (mv (cBb c) (nth k (map d (seq a K3)) []))) (vzero (cN c)) (seq i n)
  = Bd c d (a + i) n.
Proof.
  induction n as [|n IH]; intros i Hi; cbn [seq fold_right Bd]; [reflexivity|]. rewrite IH by lia.
  rewrite nth_map_seq by lia. now rewrite Nat.add_succ_r.
Qed.

Lemma Bd_seq_app d a : forall n i p, (i + n + p <= K3)%nat ->
  fold_right (fun k m => vadd (mv (cAb c) m) (mv (cBb c) (nth k (map d (seq a K3)) []))) (Bd c d (a + i + n) p) (seq i n)
  = Bd c d (a + i) (n + p).
Proof.
  induction n as [|n IH]; intros i p Hi; cbn [seq fold_right Bd plus].
  - now rewrite Nat.add_0_r.
  - replace (a + i + S n)%nat with (a + S i + n)%nat by lia. rewrite IH by lia.
    rewrite nth_map_seq by lia. now rewrite Nat.add_succ_r.
Qed.

(** One batch computed on a full buffer that holds samples [a .. a+K3). *)
Lemma b_compute_spec d a st : b_cnt st = K3 -> b_buf st = map d (seq a K3) -> length (b_mean st) = (K1 + 1)%nat -> length (b_est st) = K1 ->
  nth 0 (b_mean st) [] = Fd c d a -> nth K1 (b_mean st) [] = vzero (cN c) ->
  exists mean est, b_compute c K1 K2 st
    = Ok (mkB (b_src st) (b_iter st) (b_ptr st) (b_stop st) (map d (seq (a + K1) K2) ++ map d (seq a K1)) K2 mean est)
  /\ length mean = (K1 + 1)%nat /\ length est = K1 /\ nth 0 mean [] = Fd c d (a + K1) /\ nth K1 mean [] = vzero (cN c)
  /\ forall k, (k < K1)%nat -> nth k est [] = mv (cWT c) (vsub (Bd c d (a + k) (K3 - k)) (Fd c d (a + k))).
Proof.
  intros Hc Hb Hlm Hle H0 HKm. unfold b_compute. fold K3. rewrite Hc, Nat.ltb_irrefl.
  rewrite b_lookahead_spec by lia. rewrite HKm, Hb.
  rewrite Bd_seq by (unfold K3; lia).
  set (mean1 := upd K1 _ _).
  assert (HL1 : length mean1 = (K1 + 1)%nat) by (unfold mean1; now rewrite upd_length).
  assert (E1K : nth K1 mean1 [] = Bd c d (a + K1) K2) by (unfold mean1; apply nth_upd_same; lia).
  assert (E10 : nth 0 mean1 [] = Fd c d a) by (unfold mean1; rewrite nth_upd_other by lia; assumption).
  unfold b_forward. destruct (fold_left _ (seq 0 K1) _) as [mean2 tf] eqn:EF.
  pose proof (b_forward_spec _ _ HL1 K1 (le_n _) _ _ EF) as HF. cbv zeta in HF. set (G := fix G (k : nat) : vec := _) in HF.
  assert (EG : forall k, (k <= K1)%nat -> G k = Fd c d (a + k)).
  { induction k as [|k IHk]; intros Hk; cbn [G]; [now rewrite E10, Nat.add_0_r|]. rewrite IHk by lia.
    rewrite nth_map_seq by (unfold K3; lia). rewrite Nat.add_succ_r. reflexivity. }
  destruct HF as (HL2 & HG2 & HK2' & HT). specialize (HT eq_refl). rewrite EG in HT by lia. subst tf.
  pose proof (b_backward_spec (map d (seq a K3)) K1 0 mean2 (b_est st) ltac:(lia) HL2 Hle) as HB. cbv zeta in HB.
  unfold b_backward. destruct (fold_left _ (rev (seq 0 K1)) _) as [mean3 est].
  cbn [fst snd] in HB. destruct HB as (B1 & B2 & B3 & B4 & B5).
  eexists _, est. split.
  - f_equal. f_equal.
    + unfold roll. rewrite map_length, seq_length. destruct (Nat.eq_dec K2 0) as [HZ|HZ].
      * unfold K3. rewrite HZ, Nat.add_0_r, Nat.mod_same by lia. cbn [skipn firstn seq map]. now rewrite app_nil_r.
      * rewrite Nat.mod_small by (unfold K3; lia). unfold K3. rewrite seq_app, map_app.
        rewrite skipn_app, skipn_all2 by (rewrite map_length, seq_length; lia).
        rewrite firstn_app, firstn_all2 by (rewrite map_length, seq_length; lia).
        rewrite map_length, seq_length, Nat.sub_diag. cbn [skipn firstn app]. now rewrite app_nil_r.
    + unfold K3. lia.
  - rewrite !upd_length. split; [assumption|]. split; [assumption|]. split; [|split].
    + rewrite nth_upd_other by lia. apply nth_upd_same. lia.
    + apply nth_upd_same. rewrite upd_length. lia.
    + intros k Hk. rewrite B5 by lia. rewrite HK2', E1K.
      pose proof (Bd_seq_app d a (K1 - k) k K2 ltac:(unfold K3; lia)) as HX.
      replace (a + k + (K1 - k))%nat with (a + K1)%nat in HX by lia. rewrite HX.
      rewrite HG2 by lia. rewrite EG by lia. do 3 f_equal. unfold K3; lia.
Qed.
End Batch.
End Est.
