(** Proofs about the digital control model. *)
From Coq Require Import List Lia Arith Bool ZArith Reals Lra Psatz.
From Flocq Require Import Core.
From Verif Require Import Base Signals DigitalControl.
Import ListNotations.
Open Scope R_scope.

(** *** Heap *)
Definition i8 (h : heap) (a : nat) : bool := a_int8 (nth a h (mkArr false [])).
Definition same_shape (h h' : heap) : Prop :=
  length h' = length h /\ forall a, i8 h' a = i8 h a /\ length (rd_arr h' a) = length (rd_arr h a).

Lemma same_shape_refl : forall h, same_shape h h.
Proof. split; auto. Qed.
Lemma same_shape_trans : forall h1 h2 h3, same_shape h1 h2 -> same_shape h2 h3 -> same_shape h1 h3.
Proof. intros h1 h2 h3 [A B] [C D]. split; [congruence|]. intros a. destruct (B a), (D a). split; congruence. Qed.

Lemma store_nth : forall h a m v a', nth a' (store h a m v) (mkArr false []) =
  if (a' =? a)%nat && (a <? length h)%nat then mkArr (i8 h a) (upd m (cast (i8 h a) v) (rd_arr h a)) else nth a' h (mkArr false []).
Proof.
  intros. unfold store. rewrite nth_upd. fold (i8 h a). fold (rd_arr h a). rewrite (Nat.eqb_sym a a').
  now destruct (Nat.eqb_spec a' a); subst.
Qed.
Lemma store_shape : forall h a m v, same_shape h (store h a m v).
Proof.
  intros. split; [unfold store; now rewrite upd_length|]. intros a'. unfold i8 at 1, rd_arr at 1. rewrite store_nth.
  destruct (Nat.eqb_spec a' a); cbn [andb]; [subst|now split]. destruct (a <? length h)%nat; [|now split].
  cbn [a_int8 a_vals]. split; [reflexivity|]. now rewrite upd_length.
Qed.
Lemma store_frame : forall h a m v a', a' <> a -> nth a' (store h a m v) (mkArr false []) = nth a' h (mkArr false []).
Proof. intros. rewrite store_nth. destruct (Nat.eqb_spec a' a); [contradiction|reflexivity]. Qed.
Lemma rd_store : forall h a m v a' m', rd (store h a m v) a' m' =
  if (a' =? a)%nat && (m' =? m)%nat && (a <? length h)%nat && (m <? length (rd_arr h a))%nat then cast (i8 h a) v else rd h a' m'.
Proof.
  intros. unfold rd at 1, rd_arr at 1. rewrite store_nth. destruct (Nat.eqb_spec a' a); cbn [andb]; [subst|reflexivity].
  destruct (a <? length h)%nat; rewrite ?andb_false_r, ?andb_true_r; cbn [a_vals andb]; [|reflexivity].
  rewrite nth_upd. rewrite (Nat.eqb_sym m m'). destruct (Nat.eqb_spec m' m); [subst; cbn [andb]; now destruct (_ <? _)%nat|reflexivity].
Qed.
Lemma rd_store_eq : forall h a m v, (a < length h)%nat -> (m < length (rd_arr h a))%nat -> rd (store h a m v) a m = cast (i8 h a) v.
Proof.
  intros. rewrite rd_store, !Nat.eqb_refl. destruct (Nat.ltb_spec a (length h)); [|lia].
  destruct (Nat.ltb_spec m (length (rd_arr h a))); [reflexivity|lia].
Qed.
Lemma rd_store_ne : forall h a m v a' m', a' <> a \/ m' <> m -> rd (store h a m v) a' m' = rd h a' m'.
Proof. intros. rewrite rd_store. destruct (Nat.eqb_spec a' a), (Nat.eqb_spec m' m); cbn [andb]; auto. destruct H; contradiction. Qed.

(** *** One update *)
Definition wf (d : dc) (h : heap) : Prop :=
  (d_s d < length h /\ d_dec d < length h /\ d_old d < length h)%nat /\
  (d_s d <> d_dec d /\ d_s d <> d_old d /\ d_dec d <> d_old d) /\
  (length (rd_arr h (d_s d)) = d_M d /\ length (rd_arr h (d_dec d)) = d_M d /\ length (rd_arr h (d_old d)) = d_M d) /\
  i8 h (d_dec d) = false /\ i8 h (d_old d) = false /\ length (d_resp d) = d_M d /\ length (d_offsets d) = d_M d.
Lemma wf_shape : forall d h h', wf d h -> same_shape h h' -> wf d h'.
Proof.
  intros d h h' (A & B & (C1 & C2 & C3) & D & E & F & G) [S1 S2]. unfold wf. rewrite S1.
  repeat rewrite (proj1 (S2 _)). repeat rewrite (proj2 (S2 _)). auto 12.
Qed.

Definition raw (d : dc) (m : nat) (x : R) : R :=
  match d_kind d with KBin => if Rle_bool (nth m (d_offsets d) 0) x then 1 else 0 | KMulti ls => quantize (nth m ls 0%nat) x end.
Definition newdec (d : dc) (m : nat) (s : R) : R :=
  match d_kind d with KBin => 2 * s - 1 | KMulti _ => 2 * s - 1 + nth m (d_offsets d) 0 end.

(** What happens to control [m]: [on] whether it is updated. *)
Definition post1 (d : dc) (x : R) (h h' : heap) (m : nat) (on : bool) : Prop :=
  if on then
    rd h' (d_s d) m = cast (i8 h (d_s d)) (raw d m x) /\ rd h' (d_dec d) m = newdec d m (rd h' (d_s d) m) /\
    rd h' (d_old d) m = match d_kind d with KBin => rd h (d_dec d) m | KMulti _ => rd h (d_old d) m end
  else rd h' (d_s d) m = rd h (d_s d) m /\ rd h' (d_dec d) m = rd h (d_dec d) m /\ rd h' (d_old d) m = rd h (d_old d) m.
Definition frame (d : dc) (h h' : heap) : Prop :=
  forall a, a <> d_s d -> a <> d_dec d -> a <> d_old d -> nth a h' (mkArr false []) = nth a h (mkArr false []).

Lemma update1_spec : forall d t st m h, wf d h -> (m < d_M d)%nat -> (m < length st)%nat ->
  exists h', dc_update1 d t st m h = (Ok tt, h') /\ same_shape h h' /\ frame d h h' /\
    (forall a m', m' <> m -> rd h' a m' = rd h a m') /\ post1 d (nth m st 0) h h' m (on_phase (d_clk d) (d_resp d) m t).
Proof.
  intros d t st m h ((A1 & A2 & A3) & (B1 & B2 & B3) & (C1 & C2 & C3) & D1 & D2 & _) Hm Hst.
  assert (S0 : same_shape h h) by apply same_shape_refl. unfold dc_update1.
  destruct (on_phase (d_clk d) (d_resp d) m t).
  2:{ exists h. split; [reflexivity|]. split; [apply same_shape_refl|]. split; [intros a _ _ _; reflexivity|]. split; [auto|]. cbn. auto. }
  rewrite (nth_error_nth' st 0 Hst). set (x := nth m st 0).
  assert (S : forall h1 a v, same_shape h h1 -> same_shape h (store h1 a m v)) by (intros; eapply same_shape_trans; [eassumption|apply store_shape]).
  assert (L : forall h1 a v, same_shape h h1 -> (a < length h)%nat -> length (rd_arr h a) = d_M d -> rd (store h1 a m v) a m = cast (i8 h a) v).
  { intros h1 a v [S1 S2] Ha Hl. rewrite rd_store_eq; [|lia|rewrite (proj2 (S2 a)); lia]. now rewrite (proj1 (S2 a)). }
  destruct (d_kind d) eqn:EK.
  - eexists. split; [reflexivity|]. set (h1 := store h (d_s d) m _). set (h2 := store h1 (d_old d) m _). set (h3 := store h2 (d_dec d) m _).
    assert (S1 : same_shape h h1) by apply store_shape. assert (S2 : same_shape h h2) by (now apply S). assert (S3 : same_shape h h3) by (now apply S).
    split; [assumption|]. split; [intros a N1 N2 N3; unfold h3, h2, h1; now rewrite !store_frame by auto|].
    split; [intros a m' N; unfold h3, h2, h1; now rewrite !rd_store_ne by auto|].
    unfold post1. rewrite EK. unfold raw, newdec. rewrite EK.
    assert (E1 : rd h1 (d_s d) m = cast (i8 h (d_s d)) (if Rle_bool (nth m (d_offsets d) 0) x then 1 else 0)) by (apply L; auto).
    assert (E2 : rd h2 (d_s d) m = rd h1 (d_s d) m) by (apply rd_store_ne; auto).
    assert (E3 : rd h3 (d_s d) m = rd h1 (d_s d) m) by (rewrite <- E2; apply rd_store_ne; auto).
    rewrite E3. split; [assumption|]. split.
    + unfold h3 at 1. rewrite L by auto. rewrite D1, E2. reflexivity.
    + unfold h3. rewrite rd_store_ne by auto. unfold h2. rewrite L by auto. rewrite D2. cbn [cast].
      unfold h1. apply rd_store_ne. auto.
  - eexists. split; [reflexivity|]. set (h1 := store h (d_s d) m _). set (h3 := store h1 (d_dec d) m _).
    assert (S1 : same_shape h h1) by apply store_shape. assert (S3 : same_shape h h3) by (now apply S).
    split; [assumption|]. split; [intros a N1 N2 N3; unfold h3, h1; now rewrite !store_frame by auto|].
    split; [intros a m' N; unfold h3, h1; now rewrite !rd_store_ne by auto|].
    unfold post1. rewrite EK. unfold raw, newdec. rewrite EK.
    assert (E1 : rd h1 (d_s d) m = cast (i8 h (d_s d)) (quantize (nth m levels 0%nat) x)) by (apply L; auto).
    assert (E3 : rd h3 (d_s d) m = rd h1 (d_s d) m) by (apply rd_store_ne; auto).
    rewrite E3. split; [assumption|]. split.
    + unfold h3 at 1. rewrite L by auto. now rewrite D1.
    + unfold h3, h1. now rewrite !rd_store_ne by auto.
Qed.

Lemma loop_spec : forall d t st ms h, wf d h -> NoDup ms -> (forall m, In m ms -> (m < d_M d)%nat /\ (m < length st)%nat) ->
  exists h', loopM (dc_update1 d t st) ms h = (Ok tt, h') /\ same_shape h h' /\ frame d h h' /\
    (forall a m', ~ In m' ms -> rd h' a m' = rd h a m') /\
    (forall m, In m ms -> post1 d (nth m st 0) h h' m (on_phase (d_clk d) (d_resp d) m t)).
Proof.
  intros d t st ms. induction ms as [|m ms IH]; intros h W ND Hms.
  - exists h. split; [reflexivity|]. split; [apply same_shape_refl|]. split; [intros a _ _ _; reflexivity|]. split; [auto|]. intros m [].
  - destruct (Hms m) as [H1 H2]; [now left|]. destruct (update1_spec d t st m h W H1 H2) as (h1 & E1 & S1 & F1 & O1 & P1).
    apply NoDup_cons_iff in ND. destruct ND as [ND1 ND2].
    destruct (IH h1) as (h2 & E2 & S2 & F2 & O2 & P2); [eapply wf_shape; eauto|assumption|intros; apply Hms; now right|].
    exists h2. cbn [loopM]. rewrite E1. split; [assumption|]. split; [eapply same_shape_trans; eauto|].
    split; [intros a N1 N2 N3; rewrite F2 by assumption; auto|].
    split; [intros a m' N; rewrite O2 by (intros G; apply N; now right); apply O1; intros ->; apply N; now left|].
    assert (T : forall k, In k ms -> k <> m) by (intros k Hk ->; contradiction).
    intros k [<-|Hk].
    + unfold post1 in *. rewrite !(O2 _ m) by assumption. assumption.
    + specialize (P2 k Hk). unfold post1 in *. rewrite !(O1 _ k) in P2 by auto. now rewrite (proj1 (proj2 S1 _)) in P2.
Qed.

Lemma dc_update_spec : forall d t st h, wf d h -> (d_M d <= length st)%nat ->
  exists h', dc_update d t st h = (Ok tt, h') /\ same_shape h h' /\ frame d h h' /\
    (forall m, (m < d_M d)%nat -> post1 d (nth m st 0) h h' m (on_phase (d_clk d) (d_resp d) m t)).
Proof.
  intros d t st h W Hl. destruct (loop_spec d t st (seq 0 (d_M d)) h W) as (h' & E & S & F & _ & P).
  - apply seq_NoDup.
  - intros m Hm. apply in_seq in Hm. lia.
  - exists h'. split; [exact E|]. split; [assumption|]. split; [assumption|]. intros m Hm. apply P. apply in_seq. lia.
Qed.

(** *** Reset *)
Lemma app_nth_old : forall h l a, (a < length h)%nat -> nth a (h ++ l) (mkArr false []) = nth a h (mkArr false []).
Proof. intros. now apply app_nth1. Qed.
Lemma app_nth_new : forall h l i, nth (length h + i) (h ++ l) (mkArr false []) = nth i l (mkArr false []).
Proof. intros. rewrite app_nth2 by lia. now replace (length h + i - length h)%nat with i by lia. Qed.

Lemma dc_reset_spec : forall d h, wf d h -> exists d' h', dc_reset d 0 h = (Ok tt, (d', h')) /\ wf d' h' /\
  (exists l, h' = h ++ l) /\ d_clk d' = d_clk d /\ d_M d' = d_M d /\ d_resp d' = d_resp d /\ d_tdelay d' = d_tdelay d /\
  d_offsets d' = d_offsets d /\ d_kind d' = d_kind d /\ d_old d' = d_old d /\ i8 h' (d_s d') = true /\
  (length h <= d_s d' /\ length h <= d_dec d')%nat /\
  rd_arr h' (d_s d') = repeat 0 (d_M d) /\ rd_arr h' (d_dec d') = repeat 0 (d_M d) /\ rd_arr h' (d_old d') = rd_arr h (d_old d).
Proof.
  intros d h (A & B & C & D1 & D2 & E1 & E2). unfold dc_reset. rewrite Req_bool_true by reflexivity. cbn [negb].
  do 2 eexists. split; [reflexivity|]. unfold wf. cbn [d_clk d_M d_resp d_tdelay d_offsets d_kind d_s d_dec d_old].
  set (l := [_; _]). unfold i8, rd_arr in *.
  assert (N0 : nth (length h) (h ++ l) (mkArr false []) = mkArr true (repeat 0 (d_M d))) by (rewrite <- (Nat.add_0_r (length h)) at 1; rewrite app_nth_new; reflexivity).
  rewrite N0, app_nth_new, (app_nth_old h l (d_old d)) by apply A. cbn [nth l a_vals a_int8]. rewrite app_length, repeat_length. cbn [length l].
  intuition; try lia. now exists l.
Qed.

(** *** Histories *)
Definition long (d : dc) (o : op) : Prop := match o with OUpd _ st => (d_M d <= length st)%nat | OReset => True end.
(** The phase test, stated with real arithmetic only. *)
Definition matches (d : dc) (m : nat) (t : R) : Prop :=
  let t0 := w_t0 (nth m (d_resp d) (WStep 0 0)) in Rabs (t - t0) <= ck_tt (d_clk d) / 2 + 1 / 100000 * Rabs t0.
Definition hits (d : dc) (m : nat) (o : op) : Prop := match o with OUpd t _ => matches d m t | OReset => False end.
Lemma on_phase_true : forall d m t, matches d m t -> on_phase (d_clk d) (d_resp d) m t = true.
Proof. intros. unfold on_phase, allclose. now apply Rle_bool_true. Qed.
Lemma on_phase_false : forall d m t, ~ matches d m t -> on_phase (d_clk d) (d_resp d) m t = false.
Proof. intros d m t H. unfold on_phase, allclose. apply Rle_bool_false. unfold matches in H. lra. Qed.

(** The parameters that no call changes. *)
Definition same_par (d d' : dc) : Prop :=
  d_clk d' = d_clk d /\ d_M d' = d_M d /\ d_resp d' = d_resp d /\ d_tdelay d' = d_tdelay d /\ d_offsets d' = d_offsets d /\
  d_kind d' = d_kind d /\ d_old d' = d_old d.
Lemma same_par_refl : forall d, same_par d d.
Proof. repeat split. Qed.
Lemma same_par_trans : forall a b c, same_par a b -> same_par b c -> same_par a c.
Proof. intros a b c H1 H2. unfold same_par in *. intuition congruence. Qed.

Lemma step_ok : forall d h o, wf d h -> long d o -> exists d' h', dc_step o (d, h) = (Ok tt, (d', h')) /\ wf d' h' /\ same_par d d' /\
  (length h <= length h')%nat.
Proof.
  intros d h [t st|] W L; cbn [dc_step fst snd].
  - destruct (dc_update_spec d t st h W L) as (h' & E & S & _). rewrite E. exists d, h'. split; [reflexivity|].
    split; [eapply wf_shape; eauto|]. split; [apply same_par_refl|]. destruct S. lia.
  - destruct (dc_reset_spec d h W) as (d' & h' & E & W' & (l & ->) & H). exists d', (h ++ l). split; [assumption|]. split; [assumption|].
    split; [unfold same_par; intuition|]. rewrite app_length. lia.
Qed.
Lemma long_par : forall d d' o, same_par d d' -> long d o -> long d' o.
Proof. intros d d' [t st|] (_ & E & _) H; cbn in *; auto. now rewrite E. Qed.
Lemma hits_par : forall d d' m o, same_par d d' -> hits d' m o -> hits d m o.
Proof. intros d d' m [t st|] (E1 & _ & E3 & _) H; cbn in *; auto. unfold matches in *. now rewrite E1, E3 in H. Qed.

Lemma run_app : forall {S O} (step : O -> S -> result unit * S) l1 l2 s s1,
  run_ops step l1 s = (Ok tt, s1) -> run_ops step (l1 ++ l2) s = run_ops step l2 s1.
Proof.
  intros S O step l1. induction l1 as [|o l1 IH]; intros l2 s s1 H; cbn in *; [now inversion H|].
  destruct (step o s) as [[[]|e] s']; [now apply IH|discriminate].
Qed.

Lemma run_ok : forall ops d h, wf d h -> Forall (long d) ops ->
  exists d' h', run_ops dc_step ops (d, h) = (Ok tt, (d', h')) /\ wf d' h' /\ same_par d d' /\ (length h <= length h')%nat.
Proof.
  induction ops as [|o ops IH]; intros d h W HL.
  - exists d, h. split; [reflexivity|]. split; [assumption|]. split; [apply same_par_refl|lia].
  - apply Forall_cons_iff in HL. destruct HL as [H1 H2]. destruct (step_ok d h o W H1) as (d1 & h1 & E1 & W1 & P1 & L1).
    destruct (IH d1 h1 W1) as (d2 & h2 & E2 & W2 & P2 & L2).
    { revert H2. apply Forall_impl. intros a. now apply long_par. }
    exists d2, h2. cbn [run_ops]. rewrite E1. split; [assumption|]. split; [assumption|]. split; [eapply same_par_trans; eauto|lia].
Qed.

(** Operations that do not hit [m] and contain no reset leave the three entries of control [m] as they are. *)
Definition entries (d : dc) (h : heap) (m : nat) : R * R * R := (rd h (d_s d) m, rd h (d_dec d) m, rd h (d_old d) m).
Lemma run_quiet : forall ops d h m, wf d h -> Forall (long d) ops -> (m < d_M d)%nat ->
  (forall o, In o ops -> ~ hits d m o /\ o <> OReset) ->
  exists h', run_ops dc_step ops (d, h) = (Ok tt, (d, h')) /\ entries d h' m = entries d h m /\ same_shape h h'.
Proof.
  induction ops as [|o ops IH]; intros d h m W HL Hm Hq.
  - exists h. split; [reflexivity|]. split; [reflexivity|apply same_shape_refl].
  - apply Forall_cons_iff in HL. destruct HL as [H1 H2]. destruct (Hq o) as [Q1 Q2]; [now left|]. destruct o as [t st|]; [|contradiction].
    cbn [run_ops dc_step fst snd]. destruct (dc_update_spec d t st h W H1) as (h1 & E & S & F & P). rewrite E.
    specialize (P m Hm). rewrite (on_phase_false d m t Q1) in P. cbn in P.
    destruct (IH d h1 m) as (h' & E' & Q & S'); [eapply wf_shape; eauto|assumption|assumption|intros; apply Hq; now right|].
    exists h'. split; [assumption|]. split; [rewrite Q; unfold entries; now destruct P as (-> & -> & ->)|eapply same_shape_trans; eauto].
Qed.
(** The old decision survives resets as well. *)
Lemma run_old : forall ops d h m, wf d h -> Forall (long d) ops -> (m < d_M d)%nat -> (forall o, In o ops -> ~ hits d m o) ->
  exists d' h', run_ops dc_step ops (d, h) = (Ok tt, (d', h')) /\ rd h' (d_old d') m = rd h (d_old d) m.
Proof.
  induction ops as [|o ops IH]; intros d h m W HL Hm Hq.
  - exists d, h. split; reflexivity.
  - apply Forall_cons_iff in HL. destruct HL as [H1 H2]. assert (Q1 : ~ hits d m o) by (apply Hq; now left).
    cbn [run_ops]. destruct (step_ok d h o W H1) as (d1 & h1 & E1 & W1 & P1 & _). rewrite E1.
    destruct (IH d1 h1 m W1) as (d2 & h2 & E2 & R2).
    + revert H2. apply Forall_impl. intros a. now apply long_par.
    + destruct P1 as (_ & -> & _). assumption.
    + intros o' Ho' Hh. apply (Hq o'); [now right|]. eapply hits_par; eauto.
    + exists d2, h2. split; [assumption|]. rewrite R2. destruct o as [t st|]; cbn [dc_step fst snd] in E1.
      * destruct (dc_update_spec d t st h W H1) as (h1' & E & S & F & P). rewrite E in E1. inversion E1; subst d1 h1'.
        specialize (P m Hm). rewrite (on_phase_false d m t Q1) in P. apply P.
      * destruct (dc_reset_spec d h W) as (d' & h' & E & H). rewrite E in E1. inversion E1; subst d' h'.
        unfold rd. now destruct H as (_ & _ & _ & _ & _ & _ & _ & _ & _ & _ & _ & _ & _ & ->).
Qed.

(** *** Construction *)
Lemma dc_init_ok : forall h clk M resp tdelay off d h', dc_init h clk M resp tdelay off = Ok (d, h') ->
  wf d h' /\ d_M d = M /\ d_clk d = clk /\ d_tdelay d = tdelay /\ d_kind d = KBin /\
  d_resp d = match resp with Some l => l | None => repeat (WStep 0 1) M end /\
  d_offsets d = match off with Some o => o | None => repeat 0 M end /\
  0 <= tdelay /\ i8 h' (d_s d) = false /\ d_s d = length h /\ d_dec d = (length h + 1)%nat /\ d_old d = (length h + 2)%nat /\
  h' = h ++ repeat (mkArr false (repeat 0 M)) 3.
Proof.
  intros h clk M resp tdelay off d h' H. unfold dc_init in H. destruct (Rlt_bool_spec tdelay 0); [discriminate|].
  unfold init_resp in H.
  assert (G : forall l o, length l = M -> length o = M ->
    Ok (mkDC clk M l tdelay o KBin (length h) (length h + 1) (length h + 2), h ++ repeat (mkArr false (repeat 0 M)) 3) = Ok (d, h') ->
    (l = match resp with Some l => l | None => repeat (WStep 0 1) M end) -> o = match off with Some o => o | None => repeat 0 M end ->
    wf d h' /\ d_M d = M /\ d_clk d = clk /\ d_tdelay d = tdelay /\ d_kind d = KBin /\
    d_resp d = match resp with Some l => l | None => repeat (WStep 0 1) M end /\
    d_offsets d = match off with Some o => o | None => repeat 0 M end /\
    0 <= tdelay /\ i8 h' (d_s d) = false /\ d_s d = length h /\ d_dec d = (length h + 1)%nat /\ d_old d = (length h + 2)%nat /\
    h' = h ++ repeat (mkArr false (repeat 0 M)) 3).
  { intros l o Hl Ho E E1 E2. apply Ok_inj in E. apply pair_equal_spec in E. destruct E as [Ed Eh]. subst d h'. unfold wf.
    cbn [d_clk d_M d_resp d_tdelay d_offsets d_kind d_s d_dec d_old]. unfold i8, rd_arr.
    assert (N : forall i, (i < 3)%nat -> nth (length h + i) (h ++ repeat (mkArr false (repeat 0 M)) 3) (mkArr false []) = mkArr false (repeat 0 M)).
    { intros i Hi. rewrite app_nth_new. now apply nth_repeat_lt. }
    assert (N0 := N 0%nat ltac:(lia)). rewrite Nat.add_0_r in N0.
    rewrite N0, !N by lia. cbn [a_vals a_int8]. rewrite app_length, !repeat_length. repeat split; auto; lia. }
  destruct resp as [l|]; cbn [bind] in H.
  - destruct (Nat.eqb_spec (length l) M); cbn [negb] in H; [|discriminate].
    destruct (_ && _) in H; [|discriminate]. cbn [bind] in H. destruct off as [o|].
    + destruct (Nat.eqb_spec (length o) M); [|discriminate]. eapply G; eauto.
    + eapply G; eauto. apply repeat_length.
  - destruct off as [o|].
    + destruct (Nat.eqb_spec (length o) M); [|discriminate]. eapply G; eauto. apply repeat_length.
    + eapply G; eauto; apply repeat_length.
Qed.
Lemma dc_init_zero : forall h clk M resp tdelay off d h' m, dc_init h clk M resp tdelay off = Ok (d, h') -> (m < M)%nat -> entries d h' m = (0, 0, 0).
Proof.
  intros h clk M resp tdelay off d h' m H Hm. destruct (dc_init_ok _ _ _ _ _ _ _ _ H) as (_ & _ & _ & _ & _ & _ & _ & _ & _ & Es & Ed & Eo & ->).
  unfold entries, rd, rd_arr. rewrite Es, Ed, Eo, !app_nth_new. rewrite <- (Nat.add_0_r (length h)) at 1. rewrite app_nth_new. cbn. now rewrite nth_repeat_lt.
Qed.

(** i8 of the current signal array: set by the last reset; irrelevant to 0/1 values. *)
Lemma cast_01 : forall b c, cast b (if c : bool then 1 else 0) = if c then 1 else 0.
Proof. intros [] []; cbn; auto; [now rewrite (Ztrunc_IZR 1)|now rewrite (Ztrunc_IZR 0)]. Qed.

(** A run of which the last operation relevant for [m] is the update at [t]. *)
Lemma run_last_hit : forall d0 h0 pre t st post m, wf d0 h0 -> Forall (long d0) (pre ++ OUpd t st :: post) -> (m < d_M d0)%nat ->
  matches d0 m t -> (forall o, In o post -> ~ hits d0 m o /\ o <> OReset) ->
  exists d hp h, run_ops dc_step pre (d0, h0) = (Ok tt, (d, hp)) /\
    run_ops dc_step (pre ++ OUpd t st :: post) (d0, h0) = (Ok tt, (d, h)) /\ same_par d0 d /\ wf d hp /\ wf d h /\
    post1 d (nth m st 0) hp h m true.
Proof.
  intros d0 h0 pre t st post m W HL Hm Hmt Hq. apply Forall_app in HL. destruct HL as [L1 L2]. apply Forall_cons_iff in L2. destruct L2 as [L2 L3].
  destruct (run_ok pre d0 h0 W L1) as (d & hp & E1 & W1 & P1 & _).
  assert (Hm' : (m < d_M d)%nat) by (destruct P1 as (_ & -> & _); assumption).
  destruct (dc_update_spec d t st hp W1 (long_par _ _ _ P1 L2)) as (h2 & E2 & S2 & F2 & Q2).
  specialize (Q2 m Hm'). rewrite on_phase_true in Q2.
  2:{ unfold matches in *. destruct P1 as (-> & _ & -> & _). assumption. }
  assert (W2 : wf d h2) by (eapply wf_shape; eauto).
  destruct (run_quiet post d h2 m W2) as (h3 & E3 & R3 & S3).
  - revert L3. apply Forall_impl. intros a. now apply long_par.
  - assumption.
  - intros o Ho. destruct (Hq o Ho) as [A B]. split; [|assumption]. intros G. apply A. eapply hits_par; eauto.
  - exists d, hp, h3. split; [assumption|]. split; [|split; [assumption|split; [assumption|split; [eapply wf_shape; eauto|]]]].
    + rewrite (run_app _ _ _ _ _ E1). cbn [run_ops dc_step fst snd]. now rewrite E2.
    + unfold entries in R3. inversion R3. unfold post1 in *. now rewrite H0, H1, H2.
Qed.

(** No update of [m] since construction or the last reset. *)
Lemma run_zero : forall ops d h m, wf d h -> Forall (long d) ops -> (m < d_M d)%nat -> (forall o, In o ops -> ~ hits d m o) ->
  rd h (d_s d) m = 0 -> rd h (d_dec d) m = 0 ->
  exists d' h', run_ops dc_step ops (d, h) = (Ok tt, (d', h')) /\ rd h' (d_s d') m = 0 /\ rd h' (d_dec d') m = 0.
Proof.
  induction ops as [|o ops IH]; intros d h m W HL Hm Hq Z1 Z2.
  - exists d, h. split; [reflexivity|]. now split.
  - apply Forall_cons_iff in HL. destruct HL as [H1 H2]. assert (Q1 : ~ hits d m o) by (apply Hq; now left).
    cbn [run_ops]. destruct (step_ok d h o W H1) as (d1 & h1 & E1 & W1 & P1 & _). rewrite E1.
    assert (Z : rd h1 (d_s d1) m = 0 /\ rd h1 (d_dec d1) m = 0).
    { destruct o as [t st|]; cbn [dc_step fst snd] in E1.
      - destruct (dc_update_spec d t st h W H1) as (h1' & E & S & F & P). rewrite E in E1. inversion E1; subst d1 h1'.
        specialize (P m Hm). rewrite (on_phase_false d m t Q1) in P. destruct P as (-> & -> & _). now split.
      - destruct (dc_reset_spec d h W) as (d' & h' & E & H). rewrite E in E1. inversion E1; subst d' h'.
        destruct H as (_ & _ & _ & _ & _ & _ & _ & _ & _ & _ & _ & R1 & R2 & _). unfold rd. rewrite R1, R2. rewrite nth_repeat_lt by assumption. now split. }
    destruct Z as [Z3 Z4]. apply IH; auto.
    + revert H2. apply Forall_impl. intros a. now apply long_par.
    + destruct P1 as (_ & -> & _). assumption.
    + intros o' Ho' Hh. apply (Hq o'); [now right|]. eapply hits_par; eauto.
Qed.

(** *** Contribution *)
Definition wf_wave (w : waveform) : Prop := match w with WRC tau _ _ => tau <> 0 | _ => True end.
Lemma w_eval_ok : forall w t, wf_wave w -> exists x, w_eval w t = Ok x.
Proof.
  intros [a b|a b c|a b c] t H; cbn; eauto. destruct (Rlt_bool t b); eauto. destruct (Req_bool_spec a 0); [contradiction|eauto].
Qed.
Lemma contrib_spec : forall clk resp td dec old t n k, (forall m, (m < k + n)%nat -> wf_wave (nth m resp (WStep 0 0))) ->
  exists l, contrib_go clk resp td dec (Some old) t (seq k n) = Ok l /\ length l = n /\ forall i, (i < n)%nat ->
    exists x, w_eval (nth (k + i) resp (WStep 0 0)) (if Rlt_bool t (w_t0 (nth (k + i) resp (WStep 0 0))) then t + ck_T clk else t) = Ok x /\
      nth i l 0 = x * (if Rlt_bool t td then nth (k + i) old 0 else nth (k + i) dec 0).
Proof.
  intros clk resp td dec old t n. induction n as [|n IH]; intros k H.
  - exists []. split; [reflexivity|]. split; [reflexivity|]. intros; lia.
  - cbn [seq contrib_go]. destruct (w_eval_ok (nth k resp (WStep 0 0)) (if Rlt_bool t (w_t0 (nth k resp (WStep 0 0))) then t + ck_T clk else t)) as [x Ex]; [apply H; lia|].
    rewrite Ex. cbn [bind]. destruct (IH (S k)) as (l & El & Ll & Pl); [intros; apply H; lia|]. rewrite El.
    exists (x * (if Rlt_bool t td then nth k old 0 else nth k dec 0) :: l). split; [now destruct (Rlt_bool t td)|].
    split; [cbn; lia|]. intros [|i] Hi.
    + exists x. rewrite Nat.add_0_r. now split.
    + destruct (Pl i) as (y & Ey & Ny); [lia|]. exists y. replace (k + S i)%nat with (S k + i)%nat by lia. now split.
Qed.

(** *** Views *)
Fixpoint collect (d : dc) (h : heap) (ups : list (R * list R)) : list nat * list (list R) * heap :=
  match ups with
  | [] => ([], [], h)
  | (t, st) :: r =>
      let h := snd (dc_update d t st h) in
      let '(vs, cs, h') := collect d h r in (control_signal d :: vs, rd_arr h (control_signal d) :: cs, h')
  end.
Lemma collect_spec : forall ups d h, let '(vs, cs, h') := collect d h ups in
  vs = repeat (d_s d) (length ups) /\ length cs = length ups /\
  (forall i, (i < length ups)%nat -> nth i cs [] = let '(_, _, hi) := collect d h (firstn (S i) ups) in rd_arr hi (d_s d)).
Proof.
  induction ups as [|[t st] ups IH]; intros d h; cbn [collect].
  - split; [reflexivity|]. split; [reflexivity|]. cbn; intros; lia.
  - specialize (IH d (snd (dc_update d t st h))). destruct (collect d (snd (dc_update d t st h)) ups) as [[vs cs] h'].
    destruct IH as (-> & L & P). split; [reflexivity|]. split; [cbn; lia|]. intros [|i] Hi.
    + cbn. reflexivity.
    + cbn [length] in Hi. cbn [nth]. rewrite P by lia. cbn [firstn collect].
      change (firstn (S i) ups) with (match ups with [] => [] | a :: l => a :: firstn i l end).
      destruct (collect d (snd (dc_update d t st h)) (match ups with [] => [] | a :: l => a :: firstn i l end)) as [[x y] z]. reflexivity.
Qed.

(** Addresses other than those of the control are untouched by any history; a reset abandons the old signal array. *)
Lemma step_frame : forall d h o a, wf d h -> long d o -> a <> d_s d -> a <> d_dec d -> a <> d_old d -> (a < length h)%nat ->
  exists d' h', dc_step o (d, h) = (Ok tt, (d', h')) /\ wf d' h' /\ same_par d d' /\ a <> d_s d' /\ a <> d_dec d' /\ a <> d_old d' /\ (a < length h')%nat /\
    nth a h' (mkArr false []) = nth a h (mkArr false []).
Proof.
  intros d h [t st|] a W L N1 N2 N3 Ha; cbn [dc_step fst snd].
  - destruct (dc_update_spec d t st h W L) as (h' & E & S & F & P). rewrite E. exists d, h'. split; [reflexivity|]. split; [eapply wf_shape; eauto|].
    split; [apply same_par_refl|]. destruct S. repeat split; auto; lia.
  - destruct (dc_reset_spec d h W) as (d' & h' & E & W' & (l & ->) & P1 & P2 & P3 & P4 & P5 & P6 & P7 & P8 & (P9 & P10) & _).
    exists d', (h ++ l). split; [assumption|]. split; [assumption|]. split; [unfold same_par; auto 10|]. rewrite app_length.
    split; [lia|]. split; [lia|]. split; [rewrite P7; assumption|]. split; [lia|]. now apply app_nth_old.
Qed.
Lemma run_frame : forall ops d h a, wf d h -> Forall (long d) ops -> a <> d_s d -> a <> d_dec d -> a <> d_old d -> (a < length h)%nat ->
  exists d' h', run_ops dc_step ops (d, h) = (Ok tt, (d', h')) /\ nth a h' (mkArr false []) = nth a h (mkArr false []).
Proof.
  induction ops as [|o ops IH]; intros d h a W HL N1 N2 N3 Ha.
  - exists d, h. now split.
  - apply Forall_cons_iff in HL. destruct HL as [H1 H2].
    destruct (step_frame d h o a W H1 N1 N2 N3 Ha) as (d1 & h1 & E1 & W1 & P1 & M1 & M2 & M3 & Ha1 & R1).
    destruct (IH d1 h1 a W1) as (d2 & h2 & E2 & R2); auto.
    { revert H2. apply Forall_impl. intros x. now apply long_par. }
    exists d2, h2. cbn [run_ops]. rewrite E1. split; [assumption|congruence].
Qed.

Lemma nondecr_iff : forall l, nondecr (map w_t0 l) = true <->
  forall i, (S i < length l)%nat -> w_t0 (nth i l (WStep 0 0)) <= w_t0 (nth (S i) l (WStep 0 0)).
Proof.
  induction l as [|a l IH]; [cbn; split; [intros; lia|reflexivity]|]. destruct l as [|b l]; [cbn; split; [intros; lia|reflexivity]|].
  change (nondecr (map w_t0 (a :: b :: l))) with (Rle_bool (w_t0 a) (w_t0 b) && nondecr (map w_t0 (b :: l)))%bool.
  rewrite andb_true_iff, IH. split.
  - intros [H1 H2] [|i] Hi; cbn [nth]; [destruct (Rle_bool_spec (w_t0 a) (w_t0 b)); [assumption|discriminate]|].
    apply (H2 i). cbn in *. lia.
  - intros H. split; [apply Rle_bool_true; apply (H 0%nat); cbn; lia|]. intros i Hi. apply (H (S i)). cbn in *. lia.
Qed.
Lemma dc_init_iff : forall h0 clk M resp tdelay off,
  (exists d h, dc_init h0 clk M resp tdelay off = Ok (d, h)) <->
  (0 <= tdelay /\ (forall o, off = Some o -> length o = M) /\
   (forall l, resp = Some l -> length l = M /\ (forall w, In w l -> 0 <= w_t0 w <= ck_T clk) /\
      forall i, (S i < length l)%nat -> w_t0 (nth i l (WStep 0 0)) <= w_t0 (nth (S i) l (WStep 0 0)))).
Proof.
  intros h0 clk M resp tdelay off. unfold dc_init. destruct (Rlt_bool_spec tdelay 0) as [H|H].
  { split; [intros (d & h & E); discriminate|intros (G & _); lra]. }
  assert (IR : (exists l, init_resp clk M resp = Ok l) <-> (forall l, resp = Some l -> length l = M /\ (forall w, In w l -> 0 <= w_t0 w <= ck_T clk) /\
      forall i, (S i < length l)%nat -> w_t0 (nth i l (WStep 0 0)) <= w_t0 (nth (S i) l (WStep 0 0)))).
  { unfold init_resp. destruct resp as [l|]; [|split; [intros _ l E; discriminate|eauto]]. split.
    - intros [l' E] k Ek. inversion Ek; subst k. destruct (Nat.eqb_spec (length l) M); [|discriminate]. cbn [negb] in E.
      destruct (forallb _ l) eqn:E1; cbn [andb] in E; [|discriminate]. destruct (nondecr (map w_t0 l)) eqn:E2; [|discriminate].
      split; [assumption|]. split; [|now apply nondecr_iff]. intros w Hw. rewrite forallb_forall in E1. specialize (E1 w Hw).
      apply andb_true_iff in E1. destruct E1 as [A B]. destruct (Rle_bool_spec 0 (w_t0 w)); [|discriminate]. destruct (Rle_bool_spec (w_t0 w) (ck_T clk)); [|discriminate]. now split.
    - intros G. destruct (G l eq_refl) as (A & B & C). rewrite A, Nat.eqb_refl. cbn [negb]. rewrite (proj2 (nondecr_iff l) C).
      replace (forallb _ l) with true; [eexists; reflexivity|]. symmetry. apply forallb_forall. intros w Hw. destruct (B w Hw). now rewrite !Rle_bool_true by assumption. }
  rewrite <- IR. clear IR. destruct (init_resp clk M resp) as [l|e]; cbn [bind].
  - destruct off as [o|].
    + destruct (Nat.eqb_spec (length o) M) as [E|E].
      * split; [intros _|intros _; eauto]. split; [assumption|]. split; [intros o' Eo; inversion Eo; now subst|eauto].
      * split; [intros (d & h & G); discriminate|]. intros (_ & G & _). exfalso. apply E. now apply G.
    + split; [intros _|intros _; eauto]. split; [assumption|]. split; [intros o' Eo; discriminate|eauto].
  - split; [intros (d & h & G); discriminate|]. intros (_ & _ & [l G]). discriminate.
Qed.
