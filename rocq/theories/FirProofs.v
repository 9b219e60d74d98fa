(** Proofs about FIRFilter and IIRFilter: closed forms, counts, agreement. *)
From Coq Require Import List Lia Arith Ring Bool ZArith.
From Verif Require Import Base LinAlg Estimators BatchProofs BatchRun.
Import ListNotations.

Lemma skipn_seq_map {A} (f : nat -> A) a n m : (m <= n)%nat -> skipn m (map f (seq a n)) = map f (seq (a + m) (n - m)).
Proof.
  intros H. replace n with (m + (n - m))%nat at 1 by lia. rewrite seq_app, map_app, skipn_app.
  rewrite skipn_all2 by (rewrite map_length, seq_length; lia). rewrite map_length, seq_length, Nat.sub_diag. reflexivity.
Qed.
Lemma firstn_seq_map {A} (f : nat -> A) a n m : (m <= n)%nat -> firstn m (map f (seq a n)) = map f (seq a m).
Proof.
  intros H. replace n with (m + (n - m))%nat at 1 by lia. rewrite seq_app, map_app, firstn_app.
  rewrite firstn_all2 by (rewrite map_length, seq_length; lia). rewrite map_length, seq_length, Nat.sub_diag. cbn [firstn]. apply app_nil_r.
Qed.

Section Est.
Context {K : cring}.
Add Ring Kring : (rth K).
Notation vec := (list K).
Notation mat := (list (list K)).
Notation coef := (@coef K).
Notation source := (@source K).

(** Specification: the +-1 signal on Z, zero before the start of the stream. *)
Definition zsig (M : nat) (xs : list vec) (p : Z) : vec :=
  if (p <? 0)%Z then vzero M else nth (Z.to_nat p) (map ctl xs) (vzero M).
Lemma zsig_pm1 (M : nat) (xs : list vec) (p : Z) :
  zsig M xs p = if (p <? 0)%Z then vzero M else nth (Z.to_nat p) (map pm1 xs) (vzero M).
Proof. unfold zsig. now rewrite map_pm1_ctl. Qed.

(** Specification of a windowed estimate centred at time [t] (lookahead m samples t..t+m-1, lookback n samples t-1..t-n). *)
Definition window_est (c : coef) (z : Z -> vec) (n m : nat) (t : Z) : vec :=
  mv (cWT c) (vsub (vsum (cN c) m (fun i => mpow (cAb c) i (mv (cBb c) (z (t + Z.of_nat i)%Z))))
                   (vsum (cN c) n (fun i => mpow (cAf c) i (mv (cBf c) (z (t - 1 - Z.of_nat i)%Z))))).

Lemma tensordot_vsum L (h : list mat) (buf : list vec) : length h = length buf -> Forall (fun m => length m = L) h ->
  tensordot L h buf = vsum L (length h) (fun k => mv (nth k h []) (nth k buf [])).
Proof.
  unfold tensordot. revert buf. induction h as [|m h IH]; intros [|b buf] HL HF; try discriminate; [reflexivity|].
  inversion HF as [|? ? Hm HF']; subst. cbn [map2 fold_right length]. rewrite IH by (simpl in HL; auto; lia).
  rewrite vsum_S_l; [reflexivity|]. intros i Hi. rewrite mv_length. destruct i; [reflexivity|]. cbn [nth].
  destruct (Nat.lt_ge_cases i (length h)) as [H1|H1].
  - rewrite Forall_forall in HF'. apply HF'. now apply nth_In.
  - exfalso. lia.
Qed.

(** matrix powers applied to a matrix *)
Fixpoint mmpow (M : nat) (A : mat) (i : nat) (B : mat) : mat :=
  match i with O => B | S i => mm M A (mmpow M A i B) end.
Lemma mmpow_wf N M A i B : wfm N N A -> wfm N M B -> wfm N M (mmpow M A i B).
Proof. intros HA HB. induction i; simpl; auto. eapply mm_wf; eauto. Qed.
Lemma mv_mmpow N M A i B v : wfm N N A -> wfm N M B -> mv (mmpow M A i B) v = mpow A i (mv B v).
Proof.
  intros HA HB. induction i; simpl; auto. rewrite (mv_mm N M); [now rewrite IHi|]. now apply mmpow_wf.
Qed.
Lemma mmpow_S_r M A i B : mmpow M A (S i) B = mmpow M A i (mm M A B).
Proof. induction i; simpl; auto. now rewrite <- IHi. Qed.

Section H.
Variable c : coef.
Hypothesis Hwf : coef_wf c.

(** ascending coefficient loop (lookahead), shared by FIR and IIR *)
Lemma up_loop : forall n a h temp, (a + n <= length h)%nat ->
  let r := fold_left (fun '(h, temp2) k2 => (upd k2 (mm (cM c) (cWT c) temp2) h, mm (cM c) (cAb c) temp2)) (seq a n) (h, temp) in
  length (fst r) = length h
  /\ (forall k, (a <= k < a + n)%nat -> nth k (fst r) [] = mm (cM c) (cWT c) (mmpow (cM c) (cAb c) (k - a) temp))
  /\ (forall k, (k < a)%nat \/ (a + n <= k)%nat -> nth k (fst r) [] = nth k h []).
Proof.
  induction n as [|n IH]; intros a h temp Ha; cbv zeta.
  - cbn [seq fold_left fst]. repeat split; auto. lia.
  - cbn [seq fold_left]. specialize (IH (S a) (upd a (mm (cM c) (cWT c) temp) h) (mm (cM c) (cAb c) temp)).
    rewrite upd_length in IH. specialize (IH ltac:(lia)). cbv zeta in IH. destruct IH as (I1 & I2 & I3).
    split; [assumption|]. split.
    + intros k Hk. destruct (Nat.eq_dec k a) as [->|Hne].
      * rewrite I3 by lia. rewrite nth_upd_same by lia. now rewrite Nat.sub_diag.
      * rewrite I2 by lia. replace (k - a)%nat with (S (k - S a)) by lia. now rewrite mmpow_S_r.
    + intros k Hk. rewrite I3 by lia. apply nth_upd_other. lia.
Qed.

Lemma down_loop K1 : forall n a h, (a + n = K1)%nat -> (K1 <= length h)%nat ->
  let r := fold_left (fun '(h, temp1) k1 => (upd k1 (mopp (mm (cM c) (cWT c) temp1)) h, mm (cM c) (cAf c) temp1))
             (rev (seq a n)) (h, cBf c) in
  snd r = mmpow (cM c) (cAf c) n (cBf c) /\ length (fst r) = length h
  /\ (forall k, (a <= k < K1)%nat -> nth k (fst r) [] = mopp (mm (cM c) (cWT c) (mmpow (cM c) (cAf c) (K1 - 1 - k) (cBf c))))
  /\ (forall k, (k < a)%nat \/ (K1 <= k)%nat -> nth k (fst r) [] = nth k h []).
Proof.
  induction n as [|n IH]; intros a h Ha HL; cbv zeta.
  - cbn [seq rev fold_left fst snd]. repeat split; auto. lia.
  - cbn [seq rev]. rewrite fold_left_app. specialize (IH (S a) h ltac:(lia) HL). cbv zeta in IH. cbn [fold_left].
    destruct (fold_left _ (rev (seq (S a) n)) _) as [h' t']. cbn [fst snd] in *. destruct IH as (I0 & I1 & I2 & I3).
    rewrite upd_length. split; [now rewrite I0|]. split; [assumption|]. split.
    + intros k Hk. destruct (Nat.eq_dec k a) as [->|Hne].
      * rewrite nth_upd_same by lia. rewrite I0. do 3 f_equal. lia.
      * rewrite nth_upd_other by lia. apply I2. lia.
    + intros k Hk. rewrite nth_upd_other by lia. apply I3. lia.
Qed.

Lemma fir_h_spec K1 K2 : length (fir_h c K1 K2) = (K1 + K2)%nat /\
  (forall k, (k < K1)%nat -> nth k (fir_h c K1 K2) [] = mopp (mm (cM c) (cWT c) (mmpow (cM c) (cAf c) (K1 - 1 - k) (cBf c)))) /\
  (forall k, (k < K2)%nat -> nth (K1 + k) (fir_h c K1 K2) [] = mm (cM c) (cWT c) (mmpow (cM c) (cAb c) k (cBb c))).
Proof.
  unfold fir_h. pose proof (down_loop K1 K1 0 (repeat (repeat (vzero (cM c)) (cL c)) (K1 + K2)) ltac:(lia)) as HD.
  rewrite repeat_length in HD. specialize (HD ltac:(lia)). cbv zeta in HD.
  destruct (fold_left _ (rev (seq 0 K1)) _) as [h1 t1]. cbn [fst snd] in HD. destruct HD as (_ & D1 & D2 & D3).
  pose proof (up_loop K2 K1 h1 (cBb c) ltac:(lia)) as HU. cbv zeta in HU.
  destruct (fold_left _ (seq K1 K2) _) as [h2 t2]. cbn [fst] in HU. destruct HU as (U1 & U2 & U3).
  split; [congruence|]. split.
  - intros k Hk. rewrite U3 by lia. apply D2. lia.
  - intros k Hk. rewrite U2 by lia. do 2 f_equal. lia.
Qed.

Lemma iir_h_spec K2 : length (iir_h c K2) = K2 /\
  (forall k, (k < K2)%nat -> nth k (iir_h c K2) [] = mm (cM c) (cWT c) (mmpow (cM c) (cAb c) k (cBb c))).
Proof.
  unfold iir_h. pose proof (up_loop K2 0 (repeat (repeat (vzero (cM c)) (cL c)) K2) (cBb c)) as HU.
  rewrite repeat_length in HU. specialize (HU ltac:(lia)). cbv zeta in HU. destruct HU as (U1 & U2 & U3). split; [assumption|].
  intros k Hk. rewrite U2 by lia. do 2 f_equal. lia.
Qed.

Lemma h_rows (h : list mat) : (forall k, (k < length h)%nat -> length (nth k h []) = cL c) -> Forall (fun m => length m = cL c) h.
Proof.
  intros H. apply Forall_forall. intros m Hm. destruct (In_nth _ _ [] Hm) as (k & Hk & <-). auto.
Qed.

(** tensordot of the FIR coefficients with a window *)
Lemma fir_window K1 K2 (w : nat -> vec) :
  tensordot (cL c) (fir_h c K1 K2) (map w (seq 0 (K1 + K2)))
  = mv (cWT c) (vsub (vsum (cN c) K2 (fun i => mpow (cAb c) i (mv (cBb c) (w (K1 + i)%nat))))
                     (vsum (cN c) K1 (fun i => mpow (cAf c) i (mv (cBf c) (w (K1 - 1 - i)%nat))))).
Proof.
  destruct (wf_lengths c Hwf) as (H1&H2&H3&H4&H5). destruct Hwf as (W1 & W2 & W3 & W4 & W5).
  destruct (fir_h_spec K1 K2) as (HL & Hlo & Hhi).
  assert (HLf : forall b i, length (mpow (cAf c) i (mv (cBf c) b)) = cN c).
  { intros b i. rewrite mpow_length; [assumption|]. rewrite mv_length. congruence. }
  assert (HLb : forall b i, length (mpow (cAb c) i (mv (cBb c) b)) = cN c).
  { intros b i. rewrite mpow_length; [assumption|]. rewrite mv_length. congruence. }
  rewrite tensordot_vsum.
  2:{ now rewrite HL, map_length, seq_length. }
  2:{ apply h_rows. rewrite HL. intros k Hk. destruct (Nat.lt_ge_cases k K1).
      - rewrite Hlo by assumption. unfold mopp, mm. now rewrite !map_length.
      - replace k with (K1 + (k - K1))%nat by lia. rewrite Hhi by lia. unfold mm. now rewrite map_length. }
  rewrite HL, vsum_app.
  2:{ intros k Hk. rewrite mv_length. destruct (Nat.lt_ge_cases k K1).
      - rewrite Hlo by assumption. unfold mopp, mm. now rewrite !map_length.
      - replace k with (K1 + (k - K1))%nat by lia. rewrite Hhi by lia. unfold mm. now rewrite map_length. }
  rewrite mv_vsub by (rewrite !vsum_length; auto). rewrite vsub_vadd, vadd_comm. f_equal.
  - rewrite mv_vsum by auto. rewrite H5. apply vsum_ext. intros i Hi. rewrite Hhi by lia.
    rewrite nth_map_seq by lia. cbn [plus]. rewrite (mv_mm (cN c) (cM c)) by (now apply mmpow_wf). now rewrite (mv_mmpow (cN c)).
  - rewrite mv_vsum by auto. rewrite H5, vsum_vopp. rewrite vsum_rev.
    + apply vsum_ext. intros i Hi. rewrite Hlo by lia. rewrite nth_map_seq by lia. cbn [plus]. rewrite mv_mopp. f_equal.
      rewrite (mv_mm (cN c) (cM c)) by (now apply mmpow_wf). rewrite (mv_mmpow (cN c)) by assumption. do 2 f_equal. lia.
    + intros i Hi. rewrite mv_length, Hlo by lia. unfold mopp, mm. now rewrite !map_length.
Qed.

Lemma iir_window K2 (w : nat -> vec) :
  tensordot (cL c) (iir_h c K2) (map w (seq 0 K2))
  = mv (cWT c) (vsum (cN c) K2 (fun i => mpow (cAb c) i (mv (cBb c) (w i)))).
Proof.
  destruct (wf_lengths c Hwf) as (H1&H2&H3&H4&H5). destruct Hwf as (W1 & W2 & W3 & W4 & W5).
  destruct (iir_h_spec K2) as (HL & Hhi).
  assert (HLb : forall b i, length (mpow (cAb c) i (mv (cBb c) b)) = cN c).
  { intros b i. rewrite mpow_length; [assumption|]. rewrite mv_length. congruence. }
  rewrite tensordot_vsum.
  2:{ now rewrite HL, map_length, seq_length. }
  2:{ apply h_rows. rewrite HL. intros k Hk. rewrite Hhi by lia. unfold mm. now rewrite map_length. }
  rewrite HL. rewrite mv_vsum by auto. rewrite H5. apply vsum_ext. intros i Hi. rewrite Hhi by lia.
  rewrite nth_map_seq by lia. cbn [plus]. rewrite (mv_mm (cN c) (cM c)) by (now apply mmpow_wf). now rewrite (mv_mmpow (cN c)).
Qed.
End H.

Lemma zsig_nth M xs t x : nth_error xs t = Some x -> zsig M xs (Z.of_nat t) = pm1 x.
Proof.
  intros H. rewrite ?zsig_pm1. destruct (Z.ltb_spec (Z.of_nat t) 0); [lia|]. rewrite Nat2Z.id.
  assert (t < length xs)%nat by (apply nth_error_Some; congruence).
  rewrite (nth_indep _ _ (pm1 [])) by (now rewrite map_length). rewrite map_nth. f_equal.
  rewrite (nth_error_some_nth _ _ []) in H by assumption. congruence.
Qed.

(** *** FIR runs *)
Section FIRrun.
Variables (K3 M L ds : nat).
Hypothesis Hds : (1 <= ds <= K3)%nat.
Variable h : list mat.
Variable offset : vec.
Variable limit : Z.
Variable xs : list vec.
Hypothesis Hxs : Forall (fun x => length x = M) xs.
Variable e : src_end.
Hypothesis He : e = SrcObj StopIteration \/ e = SrcGen RuntimeError \/ e = SrcObj RuntimeError.

(** buffer after [t] samples were read *)
Notation z := (zsig M xs).
Definition fbuf (t : nat) : list vec := map (fun k => z (Z.of_nat t + Z.of_nat k - Z.of_nat K3)%Z) (seq 0 K3).

Lemma f_read_ok : forall n t, (t + n <= length xs)%nat ->
  f_read M n (mkSrc (skipn t xs) e) = (Ok (map (fun k => z (Z.of_nat (t + k))) (seq 0 n)), mkSrc (skipn (t + n) xs) e).
Proof.
  induction n as [|n IH]; intros t Ht; cbn [f_read seq map]; [now rewrite Nat.add_0_r|].
  destruct (nth_error xs t) as [x|] eqn:E; [|apply nth_error_None in E; lia].
  assert (Hsk : skipn t xs = x :: skipn (S t) xs).
  { clear - E. revert xs E. induction t; intros [|y ys] E; simpl in *; try discriminate; [congruence|]. now apply IHt. }
  unfold src_next. cbn [s_items s_end]. rewrite Hsk.
  assert (Hx : length x = M). { rewrite Forall_forall in Hxs. apply Hxs. eapply nth_error_In; eauto. }
  rewrite row_ok by (now rewrite pm1_length). rewrite IH by lia. rewrite Nat.add_succ_r. f_equal. f_equal. f_equal.
  - rewrite Nat.add_0_r. symmetry. now apply zsig_nth.
  - rewrite <- seq_shift, map_map. apply map_ext. intros k. do 2 f_equal. lia.
Qed.

Definition fdead_src (s : source) : Prop :=
  s_items s = [] /\ (s_end s = SrcObj StopIteration \/ s_end s = SrcGen RuntimeError \/ s_end s = SrcObj RuntimeError).

Lemma f_read_short : forall n t, (t <= length xs)%nat -> (length xs < t + n)%nat ->
  exists ex s', f_read M n (mkSrc (skipn t xs) e) = (Exn ex, s') /\ (ex = RuntimeError \/ ex = StopIteration) /\ fdead_src s'.
Proof.
  induction n as [|n IH]; intros t Ht Hs; [lia|]. cbn [f_read].
  destruct (nth_error xs t) as [x|] eqn:E.
  - assert (Hsk : skipn t xs = x :: skipn (S t) xs).
    { clear - E. revert xs E. induction t; intros [|y ys] E; simpl in *; try discriminate; [congruence|]. now apply IHt. }
    unfold src_next. cbn [s_items s_end]. rewrite Hsk.
    assert (Hx : length x = M). { rewrite Forall_forall in Hxs. apply Hxs. eapply nth_error_In; eauto. }
    rewrite row_ok by (now rewrite pm1_length).
    assert (t < length xs)%nat by (apply nth_error_Some; congruence).
    destruct (IH (S t)) as (ex & s' & Hr & Hex & Hd); [lia|lia|]. rewrite Hr. eauto.
  - apply nth_error_None in E. rewrite skipn_all2 by lia. unfold src_next. cbn [s_items s_end].
    destruct He as [->|[->| ->]]; do 2 eexists; (split; [reflexivity|]); unfold fdead_src; cbn; auto.
Qed.

Definition fdead (st : fst_) : Prop :=
  (limit <> 0 /\ limit < f_iter st + Z.of_nat ds)%Z \/ fdead_src (f_src st).

Lemma fdead_step st : fdead st -> exists st', f_next K3 M L ds h offset limit st = (Exn StopIteration, st') /\ fdead st'.
Proof.
  intros Hd. unfold f_next.
  destruct (_ && _)%bool eqn:E.
  - eexists. split; [reflexivity|]. left. cbn [f_iter]. apply andb_true_iff in E. destruct E as [E1 E2].
    apply negb_true_iff, Z.eqb_neq in E1. apply Z.ltb_lt in E2. lia.
  - assert (Hs : fdead_src (f_src st)).
    { destruct Hd as [[H1 H2]|Hd]; [|assumption]. exfalso. apply andb_false_iff in E.
      rewrite negb_false_iff, Z.eqb_eq, Z.ltb_ge in E. lia. }
    destruct Hs as [Hi Hend]. destruct ds as [|n]; [lia|]. cbn [f_read]. unfold src_next. rewrite Hi.
    destruct Hend as [E1|[E1|E1]]; rewrite E1; eexists; (split; [reflexivity|]); right; unfold fdead_src; cbn; auto.
Qed.

Definition fgood (i : nat) : Prop := (S i * ds <= length xs)%nat /\ (limit = 0 \/ Z.of_nat (S i * ds) <= limit)%Z.

Record finv (i : nat) (st : fst_) : Prop := mkFinv {
  fv_src : f_src st = mkSrc (skipn (i * ds) xs) e;
  fv_le : (i * ds <= length xs)%nat;
  fv_iter : f_iter st = Z.of_nat (i * ds);
  fv_buf : f_buf st = fbuf (i * ds) }.

Lemma f_step i st : finv i st ->
  (fgood i -> exists st', f_next K3 M L ds h offset limit st = (Ok (vadd (tensordot L h (fbuf (S i * ds))) offset), st') /\ finv (S i) st')
  /\ (~ fgood i -> exists st', f_next K3 M L ds h offset limit st = (Exn StopIteration, st') /\ fdead st').
Proof.
  intros [Vs Vl Vi Vb]. unfold f_next, fgood. rewrite Vs, Vi, Vb.
  replace (Z.of_nat (i * ds) + Z.of_nat ds)%Z with (Z.of_nat (S i * ds)) by lia.
  destruct (_ && _)%bool eqn:E.
  - apply andb_true_iff in E. destruct E as [E1 E2]. apply negb_true_iff, Z.eqb_neq in E1. apply Z.ltb_lt in E2.
    split; [intros [_ H]; lia|]. intros _. eexists. split; [reflexivity|]. left. cbn [f_iter]. lia.
  - apply andb_false_iff in E. rewrite negb_false_iff, Z.eqb_eq, Z.ltb_ge in E.
    destruct (Nat.le_gt_cases (S i * ds) (length xs)) as [Hle|Hgt].
    + rewrite f_read_ok by lia. destruct (Nat.ltb_spec K3 ds); [lia|].
      split; [|intros Hn; exfalso; apply Hn; split; [assumption|lia]]. intros _.
      assert (EB : firstn (K3 - ds) (roll ds (fbuf (i * ds))) ++ map (fun k => z (Z.of_nat (i * ds + k))) (seq 0 ds) = fbuf (S i * ds)).
      { unfold roll, fbuf. rewrite map_length, seq_length.
        set (f := fun k : nat => zsig M xs (Z.of_nat (i * ds) + Z.of_nat k - Z.of_nat K3)).
        assert (ER : firstn (K3 - ds) (skipn (ds mod K3) (map f (seq 0 K3)) ++ firstn (ds mod K3) (map f (seq 0 K3))) = map f (seq ds (K3 - ds))).
        { destruct (Nat.eq_dec ds K3) as [->|Hne].
          - rewrite Nat.sub_diag. reflexivity.
          - rewrite Nat.mod_small by lia. rewrite skipn_seq_map, firstn_app by lia. cbn [plus].
            rewrite firstn_all2 by (rewrite map_length, seq_length; lia). rewrite map_length, seq_length, Nat.sub_diag.
            cbn [firstn]. apply app_nil_r. }
        rewrite ER.
        assert (E3 : seq 0 K3 = seq 0 (K3 - ds) ++ seq (0 + (K3 - ds)) ds) by (rewrite <- seq_app; f_equal; lia).
        rewrite E3, map_app. f_equal.
        - rewrite <- (Nat.add_0_r ds) at 1.
          assert (ES : seq (ds + 0) (K3 - ds) = map (fun k => (ds + k)%nat) (seq 0 (K3 - ds))).
          { clear. generalize O as a. induction (K3 - ds)%nat as [|n IH]; intros a; cbn [seq map]; [reflexivity|]. f_equal.
            rewrite <- IH. f_equal. lia. }
          rewrite ES, map_map. apply map_ext. intros k. unfold f. f_equal. lia.
        - assert (ES : seq (0 + (K3 - ds)) ds = map (fun k => (K3 - ds + k)%nat) (seq 0 ds)).
          { clear. cbn [plus]. rewrite <- (Nat.add_0_r (K3 - ds)) at 1. generalize (K3 - ds)%nat as b. generalize O as a.
            induction ds as [|n IH]; intros a b; cbn [seq map]; [reflexivity|]. f_equal. rewrite <- IH. f_equal. lia. }
          rewrite ES, map_map. apply map_ext. intros k. f_equal. lia. }
      rewrite EB. eexists. split; [reflexivity|]. constructor; cbn [f_src f_iter f_buf]; auto. f_equal. f_equal. lia.
    + destruct (f_read_short ds (i * ds)) as (ex & s' & Hr & Hex & Hd); [lia|lia|]. rewrite Hr.
      split; [lia|]. intros _. destruct Hex as [->| ->]; eexists; (split; [reflexivity|]); right; assumption.
Qed.

Lemma finv_init : finv 0 (f_init K3 M (mkSrc xs e)).
Proof.
  constructor; cbn [f_init f_src f_iter f_buf Nat.mul skipn]; auto; [lia|].
  unfold fbuf. apply (list_ext _ _ []).
  - now rewrite repeat_length, map_length, seq_length.
  - rewrite repeat_length. intros k Hk. rewrite nth_repeat_lt, nth_map_seq by assumption. rewrite ?zsig_pm1.
    destruct (Z.ltb_spec (Z.of_nat 0 + Z.of_nat (0 + k) - Z.of_nat K3) 0); [reflexivity|lia].
Qed.

Lemma fgood_mono i i' : (i <= i')%nat -> fgood i' -> fgood i.
Proof. intros H [H1 H2]. unfold fgood. nia. Qed.

End FIRrun.

(** Generic run lemma for machines with an invariant, a set of good calls and absorbing dead states. *)
Lemma machine_run {S R} (next : S -> result R * S) (inv : nat -> S -> Prop) (dead : S -> Prop) (good : nat -> Prop) (outp : nat -> R) :
  (forall i, good i \/ ~ good i) -> (forall i i', (i <= i')%nat -> good i' -> good i) ->
  (forall i st, inv i st -> (good i -> exists st', next st = (Ok (outp i), st') /\ inv (i + 1)%nat st')
                            /\ (~ good i -> exists st', next st = (Exn StopIteration, st') /\ dead st')) ->
  (forall st, dead st -> exists st', next st = (Exn StopIteration, st') /\ dead st') ->
  forall n i st, inv i st -> forall k, (k < n)%nat ->
    (good (i + k)%nat -> nth_error (fst (calls next n st)) k = Some (Ok (outp (i + k)%nat)))
    /\ (~ good (i + k)%nat -> nth_error (fst (calls next n st)) k = Some (Exn StopIteration)).
Proof.
  intros Hdec Hmono Hstep Hdead.
  assert (HD : forall n st, dead st -> forall k, (k < n)%nat -> nth_error (fst (calls next n st)) k = Some (Exn StopIteration)).
  { induction n as [|n IH]; intros st Hd k Hk; [lia|]. cbn [calls]. destruct (Hdead st Hd) as (st' & E & Hd'). rewrite E.
    specialize (IH st' Hd'). destruct (calls next n st') as [rs s]. cbn [fst] in *. destruct k; [reflexivity|]. cbn [nth_error]. apply IH. lia. }
  induction n as [|n IH]; intros i st Hinv k Hk; [lia|]. cbn [calls]. destruct (Hstep i st Hinv) as [HG HB].
  destruct (Hdec i) as [Hg|Hg].
  - destruct (HG Hg) as (st' & E & Hinv'). rewrite E. specialize (IH (i + 1)%nat st' Hinv').
    destruct (calls next n st') as [rs s]. cbn [fst] in *. destruct k as [|k].
    + rewrite Nat.add_0_r. cbn [nth_error]. split; [auto|contradiction].
    + cbn [nth_error]. specialize (IH k ltac:(lia)). replace (i + Datatypes.S k)%nat with (i + 1 + k)%nat by lia. exact IH.
  - destruct (HB Hg) as (st' & E & Hd). rewrite E. specialize (HD n st' Hd). destruct (calls next n st') as [rs s]. cbn [fst] in *.
    split.
    + intros Hgk. exfalso. apply Hg. eapply Hmono; [|eassumption]. lia.
    + intros _. destruct k; [reflexivity|]. cbn [nth_error]. apply HD. lia.
Qed.

Lemma fir_run K3 M L ds h offset limit xs e : (1 <= ds <= K3)%nat -> Forall (fun x => length x = M) xs ->
  e = SrcObj StopIteration \/ e = SrcGen RuntimeError \/ e = SrcObj RuntimeError ->
  forall n k, (k < n)%nat ->
  let rs := fst (calls (f_next K3 M L ds h offset limit) n (f_init K3 M (mkSrc xs e))) in
  (fgood ds limit xs k -> nth_error rs k = Some (Ok (vadd (tensordot L h (fbuf K3 M xs (S k * ds))) offset)))
  /\ (~ fgood ds limit xs k -> nth_error rs k = Some (Exn StopIteration)).
Proof.
  intros Hds Hxs He n k Hk. cbv zeta.
  apply (machine_run (f_next K3 M L ds h offset limit) (finv K3 M ds xs e) (fdead ds limit) (fgood ds limit xs)
           (fun i => vadd (tensordot L h (fbuf K3 M xs (S i * ds))) offset)) with (i := 0%nat); auto.
  - intros i. unfold fgood. destruct (Nat.le_gt_cases (S i * ds) (length xs)); [|right; lia].
    destruct (Z.eq_dec limit 0); [left; auto|]. destruct (Z.le_gt_cases (Z.of_nat (S i * ds)) limit); [left; auto|right; lia].
  - intros i i' Hi. unfold fgood. nia.
  - intros i st Hinv. rewrite Nat.add_1_r. now apply f_step.
  - intros st. now apply fdead_step.
  - now apply finv_init.
Qed.

(** *** IIR runs *)
Section IIRrun.
Variable c : coef.
Hypothesis Hwf : coef_wf c.
Variables K2 ds : nat.
Hypothesis HK2 : (1 <= K2)%nat.
Hypothesis Hds : (1 <= ds)%nat.
Variable limit : Z.
Variable xs : list vec.
Hypothesis Hxs : Forall (fun x => length x = cM c) xs.
Variable e : src_end.
Hypothesis He : e = SrcObj StopIteration \/ e = SrcGen RuntimeError \/ e = SrcObj RuntimeError.
Notation z := (zsig (cM c) xs).

Definition ibuf (t : nat) : list vec := map (fun k => z (Z.of_nat t + Z.of_nat k - Z.of_nat K2)%Z) (seq 0 K2).
Fixpoint imean (t : nat) : vec :=
  match t with O => vzero (cN c)
  | S t => vadd (mv (cAf c) (imean t)) (mv (cBf c) (z (Z.of_nat t + 1 - Z.of_nat K2)%Z)) end.

Lemma imean_sum t : imean t = vsum (cN c) t (fun i => mpow (cAf c) i (mv (cBf c) (z (Z.of_nat t - Z.of_nat K2 - Z.of_nat i)%Z))).
Proof using Hwf.
  clear ds HK2 Hds He Hxs.
  destruct (wf_lengths c Hwf) as (H1&H2&H3&H4&H5).
  induction t as [|t IH]; [reflexivity|].
  assert (HL : forall b i, length (mpow (cAf c) i (mv (cBf c) b)) = cN c).
  { intros b i. rewrite mpow_length; [assumption|]. rewrite mv_length. congruence. }
  rewrite vsum_S_l by (intros; apply HL). cbn [imean]. rewrite IH, mv_vsum by (intros; apply HL).
  rewrite vadd_comm. f_equal; [cbn [mpow]; do 2 f_equal; lia|]. rewrite H1. apply vsum_ext. intros i Hi. cbn [mpow].
  do 4 f_equal. lia.
Qed.

Record iinv (t : nat) (st : ist) : Prop := mkIinv {
  iv_src : i_src st = mkSrc (skipn t xs) e;
  iv_le : (t <= length xs)%nat;
  iv_iter : i_iter st = Z.of_nat t;
  iv_buf : i_buf st = ibuf t;
  iv_mean : i_mean st = imean t }.

Definition idead (st : ist) : Prop :=
  (limit <> 0 /\ limit < i_iter st + 1)%Z \/ fdead_src (i_src st).

Definition iout (t : nat) : vec := vadd (tensordot (cL c) (iir_h c K2) (ibuf (S t))) (vopp (mv (cWT c) (imean t))).
Definition can_read (t : nat) : Prop := (S t <= length xs)%nat /\ (limit = 0 \/ Z.of_nat (S t) <= limit)%Z.

Lemma idead_step fuel st : idead st -> exists st', i_next_fuel c K2 ds limit (S fuel) st = (Exn StopIteration, st') /\ idead st'.
Proof.
  intros Hd. cbn [i_next_fuel]. destruct (_ && _)%bool eqn:E.
  - eexists. split; [reflexivity|]. left. cbn [i_iter]. apply andb_true_iff in E. destruct E as [E1 E2].
    apply negb_true_iff, Z.eqb_neq in E1. apply Z.ltb_lt in E2. lia.
  - assert (Hs : fdead_src (i_src st)).
    { destruct Hd as [[H1 H2]|Hd]; [|assumption]. exfalso. apply andb_false_iff in E.
      rewrite negb_false_iff, Z.eqb_eq, Z.ltb_ge in E. lia. }
    destruct Hs as [Hi Hend]. unfold src_next. rewrite Hi.
    destruct Hend as [E1|[E1|E1]]; rewrite E1; eexists; (split; [reflexivity|]); right; unfold fdead_src; cbn; auto.
Qed.

Lemma i_step fuel t st : iinv t st ->
  (can_read t -> exists st', iinv (S t) st' /\
      i_next_fuel c K2 ds limit (S fuel) st
      = if (Nat.eqb (t mod ds) 0) then (Ok (iout t), st') else i_next_fuel c K2 ds limit fuel st')
  /\ (~ can_read t -> exists st', i_next_fuel c K2 ds limit (S fuel) st = (Exn StopIteration, st') /\ idead st').
Proof.
  intros [Vs Vl Vi Vb Vm]. unfold can_read. cbn [i_next_fuel]. rewrite Vs, Vi, Vb, Vm.
  replace (Z.of_nat t + 1)%Z with (Z.of_nat (S t)) by lia.
  destruct (_ && _)%bool eqn:E.
  { apply andb_true_iff in E. destruct E as [E1 E2]. apply negb_true_iff, Z.eqb_neq in E1. apply Z.ltb_lt in E2.
    split; [lia|]. intros _. eexists. split; [reflexivity|]. left. cbn [i_iter]. lia. }
  apply andb_false_iff in E. rewrite negb_false_iff, Z.eqb_eq, Z.ltb_ge in E.
  unfold src_next. cbn [s_items s_end]. destruct (nth_error xs t) as [x|] eqn:En.
  - assert (Hsk : skipn t xs = x :: skipn (S t) xs).
    { clear - En. revert xs En. induction t; intros [|y ys] E; simpl in *; try discriminate; [congruence|]. now apply IHt. }
    assert (Ht : (t < length xs)%nat) by (apply nth_error_Some; congruence).
    split; [|intros Hn; exfalso; apply Hn; split; [lia|lia]]. intros _. rewrite Hsk.
    assert (HLb : length (roll 1 (ibuf t)) = K2).
    { unfold roll. rewrite app_length, firstn_length, skipn_length. unfold ibuf. rewrite map_length, seq_length.
      destruct (Nat.eq_dec K2 1) as [->|]; [reflexivity|]. rewrite Nat.mod_small by lia. lia. }
    rewrite HLb. destruct K2 as [|last] eqn:EK; [lia|].
    assert (Hx : length x = cM c). { rewrite Forall_forall in Hxs. apply Hxs. eapply nth_error_In; eauto. }
    rewrite row_ok by (now rewrite pm1_length).
    assert (EB : upd last (pm1 x) (roll 1 (ibuf t)) = ibuf (S t)).
    { rewrite <- (zsig_nth (cM c) xs t x En). apply (list_ext _ _ []).
      - rewrite upd_length, HLb. unfold ibuf. now rewrite map_length, seq_length.
      - rewrite upd_length, HLb. intros k Hk. unfold ibuf at 2. rewrite EK, nth_map_seq by lia.
        destruct (Nat.eq_dec k last) as [->|Hne].
        + rewrite nth_upd_same by lia. f_equal. lia.
        + rewrite nth_upd_other by lia. unfold roll, ibuf. rewrite map_length, seq_length, EK.
          rewrite Nat.mod_small by lia. rewrite skipn_seq_map by lia.
          rewrite app_nth1 by (rewrite map_length, seq_length; lia). rewrite nth_map_seq by lia. f_equal. lia. }
    rewrite EB.
    assert (E0 : nth 0 (ibuf (S t)) [] = z (Z.of_nat t + 1 - Z.of_nat (S last))%Z).
    { unfold ibuf. rewrite EK, nth_map_seq by lia. f_equal. lia. }
    rewrite E0. destruct (Nat.eqb_spec ds 0); [lia|].
    eexists. split.
    2:{ replace (Z.of_nat (S t) - 1)%Z with (Z.of_nat t) by lia. rewrite <- Nat2Z.inj_mod.
        replace (Z.of_nat (t mod ds) =? 0)%Z with (Nat.eqb (t mod ds) 0).
        2:{ destruct (Nat.eqb_spec (t mod ds) 0), (Z.eqb_spec (Z.of_nat (t mod ds)) 0); auto; lia. }
        unfold iout. rewrite EK. reflexivity. }
    constructor; cbn [i_src i_iter i_buf i_mean]; auto.
  - apply nth_error_None in En. rewrite skipn_all2 by lia. split; [lia|]. intros _.
    destruct He as [E1|[E1|E1]]; rewrite E1; eexists; (split; [reflexivity|]); right; unfold fdead_src; cbn; auto.
Qed.

Lemma i_skip : forall m fuel t st, iinv t st -> (m < fuel)%nat -> ((t + m) mod ds = 0)%nat ->
  (forall i, (i < m)%nat -> ((t + i) mod ds <> 0)%nat) ->
  (can_read (t + m) -> exists st', i_next_fuel c K2 ds limit fuel st = (Ok (iout (t + m)), st') /\ iinv (S (t + m)) st')
  /\ (~ can_read (t + m) -> exists st', i_next_fuel c K2 ds limit fuel st = (Exn StopIteration, st') /\ idead st').
Proof.
  induction m as [|m IH]; intros fuel t st Hinv Hf Hz Hnz; (destruct fuel as [|fuel]; [lia|]).
  - rewrite Nat.add_0_r in *. destruct (i_step fuel t st Hinv) as [HG HB]. split; [|exact HB].
    intros Hc. destruct (HG Hc) as (st' & Hinv' & E). rewrite Hz in E. cbn [Nat.eqb] in E. eauto.
  - destruct (i_step fuel t st Hinv) as [HG HB].
    assert (Hmono : can_read (t + S m) -> can_read t) by (unfold can_read; lia).
    assert (Hdec : can_read t \/ ~ can_read t).
    { unfold can_read. destruct (Nat.le_gt_cases (S t) (length xs)); [|right; lia].
      destruct (Z.eq_dec limit 0); [left; auto|]. destruct (Z.le_gt_cases (Z.of_nat (S t)) limit); [left; auto|right; lia]. }
    destruct Hdec as [Hc|Hc].
    + destruct (HG Hc) as (st' & Hinv' & E). specialize (Hnz 0%nat ltac:(lia)) as Hn0. rewrite Nat.add_0_r in Hn0.
      rewrite (proj2 (Nat.eqb_neq _ _) Hn0) in E. rewrite E.
      specialize (IH fuel (S t) st' Hinv' ltac:(lia)). replace (S t + m)%nat with (t + S m)%nat in IH by lia. apply IH; auto.
      intros i Hi. replace (S t + i)%nat with (t + S i)%nat by lia. apply Hnz. lia.
    + split; [intros H; exfalso; auto|]. intros _. apply HB. assumption.
Qed.

(** after [j] delivered outputs, how many samples were read *)
Definition nread (j : nat) : nat := match j with O => 0 | S j => S (j * ds) end.

Lemma iinv_init : iinv 0 (i_init c K2 (mkSrc xs e)).
Proof.
  constructor; cbn [i_init i_src i_iter i_buf i_mean skipn imean]; auto; [lia|].
  unfold ibuf. apply (list_ext _ _ []).
  - now rewrite repeat_length, map_length, seq_length.
  - rewrite repeat_length. intros k Hk. rewrite nth_repeat_lt, nth_map_seq by assumption. rewrite ?zsig_pm1.
    destruct (Z.ltb_spec (Z.of_nat 0 + Z.of_nat (0 + k) - Z.of_nat K2) 0); [reflexivity|lia].
Qed.

Lemma iir_run n k : (k < n)%nat ->
  let rs := fst (calls (i_next c K2 ds limit) n (i_init c K2 (mkSrc xs e))) in
  (can_read (k * ds) -> nth_error rs k = Some (Ok (iout (k * ds))))
  /\ (~ can_read (k * ds) -> nth_error rs k = Some (Exn StopIteration)).
Proof.
  intros Hk. cbv zeta.
  apply (machine_run (i_next c K2 ds limit) (fun j => iinv (nread j)) idead (fun j => can_read (j * ds)) (fun j => iout (j * ds)))
    with (i := 0%nat); auto.
  - intros i. unfold can_read. destruct (Nat.le_gt_cases (S (i * ds)) (length xs)); [|right; lia].
    destruct (Z.eq_dec limit 0); [left; auto|]. destruct (Z.le_gt_cases (Z.of_nat (S (i * ds))) limit); [left; auto|right; lia].
  - intros i i' Hi. unfold can_read. nia.
  - intros j st Hinv. unfold i_next.
    assert (HS : exists m, (m < S ds)%nat /\ (nread j + m = j * ds)%nat /\ (forall i, (i < m)%nat -> ((nread j + i) mod ds <> 0)%nat)).
    { destruct j as [|j].
      - exists 0%nat. cbn [nread]. repeat split; lia.
      - exists (ds - 1)%nat. cbn [nread]. split; [lia|]. split; [lia|]. intros i Hi.
        replace (S (j * ds) + i)%nat with ((S i) + j * ds)%nat by lia. rewrite Nat.mod_add by lia. rewrite Nat.mod_small by lia. lia. }
    destruct HS as (m & Hm & Hjm & Hnz).
    destruct (i_skip m (S ds) (nread j) st Hinv Hm) as [HG HB]; auto.
    { rewrite Hjm. apply Nat.mod_mul. lia. }
    rewrite Hjm in HG, HB. split; [|exact HB]. rewrite Nat.add_1_r. cbn [nread]. exact HG.
  - intros st. unfold i_next. apply idead_step.
  - cbn [nread]. apply iinv_init.
Qed.

Lemma iout_window t : iout t = window_est c z t K2 (Z.of_nat t + 1 - Z.of_nat K2)%Z.
Proof using Hwf.
  clear ds HK2 Hds He Hxs.
  destruct (wf_lengths c Hwf) as (H1&H2&H3&H4&H5).
  unfold iout, window_est, ibuf. rewrite iir_window by assumption.
  assert (HL : forall b i, length (mpow (cAf c) i (mv (cBf c) b)) = cN c).
  { intros b i. rewrite mpow_length; [assumption|]. rewrite mv_length. congruence. }
  assert (HLb : forall b i, length (mpow (cAb c) i (mv (cBb c) b)) = cN c).
  { intros b i. rewrite mpow_length; [assumption|]. rewrite mv_length. congruence. }
  rewrite mv_vsub by (rewrite !vsum_length; auto). rewrite vsub_vadd. f_equal.
  - f_equal. apply vsum_ext. intros i Hi. do 3 f_equal. lia.
  - f_equal. f_equal. rewrite imean_sum. apply vsum_ext. intros i Hi. do 3 f_equal. lia.
Qed.
End IIRrun.

Lemma fbuf_window c K1 K2 xs t : coef_wf c ->
  tensordot (cL c) (fir_h c K1 K2) (fbuf (K1 + K2) (cM c) xs t)
  = window_est c (zsig (cM c) xs) K1 K2 (Z.of_nat t - Z.of_nat K2)%Z.
Proof.
  intros Hwf. unfold fbuf. rewrite fir_window by assumption. unfold window_est. f_equal. f_equal.
  - apply vsum_ext. intros i Hi. do 3 f_equal. lia.
  - apply vsum_ext. intros i Hi. do 3 f_equal. lia.
Qed.
End Est.
