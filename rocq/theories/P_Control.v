(** Properties C10-C17, C63, C64: digital control. *)
From Coq Require Import List Lia Arith Bool ZArith Reals Lra.
From Flocq Require Import Core.
From Verif Require Import Base Signals DigitalControl DigitalControlProofs ControlKinds UnitElements UnitElementsProofs.
Import ListNotations.
Open Scope R_scope.

Definition offset_of (off : option (list R)) (m : nat) : R := match off with Some o => nth m o 0 | None => 0 end.
Lemma offset_ok : forall off M m, (m < M)%nat -> nth m (match off with Some o => o | None => repeat 0 M end) 0 = offset_of off m.
Proof. intros [o|] M m H; [reflexivity|]. cbn. now apply nth_repeat_lt. Qed.

(** C10: signal, decision and previous decision of every control after any history of updates and resets. *)
Theorem C10_history : forall h0 clk M resp tdelay off d0 h1 hist,
  dc_init h0 clk M resp tdelay off = Ok (d0, h1) -> Forall (long d0) hist ->
  exists d h, run_ops dc_step hist (d0, h1) = (Ok tt, (d, h)) /\ forall m, (m < M)%nat ->
    (* the last update on the phase of m, if no reset follows it *)
    (forall pre t st post, hist = pre ++ OUpd t st :: post -> matches d0 m t -> (forall o, In o post -> ~ hits d0 m o /\ o <> OReset) ->
       (offset_of off m <= nth m st 0 -> rd h (control_signal d) m = 1) /\ (nth m st 0 < offset_of off m -> rd h (control_signal d) m = 0) /\
       rd h (d_dec d) m = 2 * rd h (control_signal d) m - 1 /\
       exists dp hp, run_ops dc_step pre (d0, h1) = (Ok tt, (dp, hp)) /\ rd h (d_old d) m = rd hp (d_dec dp) m) /\
    (* no such update since construction or since the last reset *)
    (forall pre post, hist = pre ++ post -> (pre = [] \/ exists p, pre = p ++ [OReset]) -> (forall o, In o post -> ~ hits d0 m o /\ o <> OReset) ->
       rd h (control_signal d) m = 0 /\ rd h (d_dec d) m = 0) /\
    (* the previous decision changes with updates of m only *)
    (forall pre post, hist = pre ++ post -> (forall o, In o post -> ~ hits d0 m o) ->
       exists dp hp, run_ops dc_step pre (d0, h1) = (Ok tt, (dp, hp)) /\ rd h (d_old d) m = rd hp (d_old dp) m) /\
    ((forall o, In o hist -> ~ hits d0 m o) -> rd h (d_old d) m = 0).
Proof.
  intros h0 clk M resp tdelay off d0 h1 hist HI HL.
  destruct (dc_init_ok _ _ _ _ _ _ _ _ HI) as (W & HM & Hc & Ht & Hk & Hr & Ho & Htd & Hi8 & _).
  destruct (run_ok hist d0 h1 W HL) as (d & h & E & Wd & SP & _). exists d, h. split; [assumption|]. intros m Hm.
  pose proof (dc_init_zero _ _ _ _ _ _ _ _ m HI Hm) as Z0. unfold entries in Z0. assert (Z1 : rd h1 (d_s d0) m = 0) by congruence.
  assert (Z2 : rd h1 (d_dec d0) m = 0) by congruence. assert (Z3 : rd h1 (d_old d0) m = 0) by congruence.
  assert (HmM : (m < d_M d0)%nat) by lia. repeat split.
  - intros Hge. destruct (run_last_hit d0 h1 pre t st post m W) as (d2 & hp & h2 & E1 & E2 & S2 & Wp & W2 & P); try assumption; try (now rewrite <- H).
    rewrite <- H in E2. rewrite E in E2. inversion E2; subst d2 h2. destruct P as (P & _). unfold control_signal. rewrite P. unfold raw.
    replace (d_kind d) with KBin by (destruct S2 as (_ & _ & _ & _ & _ & -> & _); auto).
    rewrite cast_01. replace (d_offsets d) with (d_offsets d0) by (destruct S2 as (_ & _ & _ & _ & -> & _); auto).
    rewrite Ho, offset_ok by assumption. now rewrite Rle_bool_true.
  - intros Hlt. destruct (run_last_hit d0 h1 pre t st post m W) as (d2 & hp & h2 & E1 & E2 & S2 & Wp & W2 & P); try assumption; try (now rewrite <- H).
    rewrite <- H in E2. rewrite E in E2. inversion E2; subst d2 h2. destruct P as (P & _). unfold control_signal. rewrite P. unfold raw.
    replace (d_kind d) with KBin by (destruct S2 as (_ & _ & _ & _ & _ & -> & _); auto).
    rewrite cast_01. replace (d_offsets d) with (d_offsets d0) by (destruct S2 as (_ & _ & _ & _ & -> & _); auto).
    rewrite Ho, offset_ok by assumption. now rewrite Rle_bool_false.
  - destruct (run_last_hit d0 h1 pre t st post m W) as (d2 & hp & h2 & E1 & E2 & S2 & Wp & W2 & P); try assumption; try (now rewrite <- H).
    rewrite <- H in E2. rewrite E in E2. inversion E2; subst d2 h2. destruct P as (_ & P & _). rewrite P. unfold newdec.
    replace (d_kind d) with KBin by (destruct S2 as (_ & _ & _ & _ & _ & -> & _); auto). reflexivity.
  - destruct (run_last_hit d0 h1 pre t st post m W) as (d2 & hp & h2 & E1 & E2 & S2 & Wp & W2 & P); try assumption; try (now rewrite <- H).
    rewrite <- H in E2. rewrite E in E2. inversion E2; subst d2 h2. destruct P as (_ & _ & P). exists d, hp. split; [assumption|]. rewrite P.
    replace (d_kind d) with KBin by (destruct S2 as (_ & _ & _ & _ & _ & -> & _); auto). reflexivity.
  - subst hist. apply Forall_app in HL. destruct HL as [L1 L2]. destruct H0 as [->|[p ->]].
    + destruct (run_quiet post d0 h1 m W L2 HmM H1) as (h2 & E2 & Q & _). cbn [app] in E. rewrite E in E2. inversion E2; subst d h2.
      unfold entries in Q. inversion Q as [[Q1 Q2 Q3]]. unfold control_signal. now rewrite Q1.
    + apply Forall_app in L1. destruct L1 as [L1 _]. destruct (run_ok p d0 h1 W L1) as (da & ha & Ea & Wa & Sa & _).
      destruct (dc_reset_spec da ha Wa) as (db & hb & Eb & Wb & _ & B1 & B2 & B3 & B4 & B5 & B6 & B7 & _ & _ & B8 & B9 & _).
      assert (Sb : same_par d0 db). { eapply same_par_trans; [exact Sa|]. unfold same_par. auto 10. }
      destruct (run_quiet post db hb m Wb) as (h2 & E2 & Q & _).
      * revert L2. apply Forall_impl. intros a. now apply long_par.
      * destruct Sb as (_ & -> & _). assumption.
      * intros o Hin. destruct (H1 o Hin) as [X Y]. split; [|assumption]. intros G. apply X. eapply hits_par; eauto.
      * rewrite <- app_assoc, (run_app _ _ _ _ _ Ea) in E. cbn [app run_ops dc_step fst snd] in E. rewrite Eb in E. rewrite E2 in E. inversion E; subst d h.
        unfold entries in Q. inversion Q as [[Q1 Q2 Q3]]. unfold control_signal. rewrite Q1. unfold rd. rewrite B8. apply nth_repeat.
  - subst hist. apply Forall_app in HL. destruct HL as [L1 L2]. destruct H0 as [->|[p ->]].
    + destruct (run_quiet post d0 h1 m W L2 HmM H1) as (h2 & E2 & Q & _). cbn [app] in E. rewrite E in E2. inversion E2; subst d h2.
      unfold entries in Q. inversion Q as [[Q1 Q2 Q3]]. now rewrite Q2.
    + apply Forall_app in L1. destruct L1 as [L1 _]. destruct (run_ok p d0 h1 W L1) as (da & ha & Ea & Wa & Sa & _).
      destruct (dc_reset_spec da ha Wa) as (db & hb & Eb & Wb & _ & B1 & B2 & B3 & B4 & B5 & B6 & B7 & _ & _ & B8 & B9 & _).
      assert (Sb : same_par d0 db). { eapply same_par_trans; [exact Sa|]. unfold same_par. auto 10. }
      destruct (run_quiet post db hb m Wb) as (h2 & E2 & Q & _).
      * revert L2. apply Forall_impl. intros a. now apply long_par.
      * destruct Sb as (_ & -> & _). assumption.
      * intros o Hin. destruct (H1 o Hin) as [X Y]. split; [|assumption]. intros G. apply X. eapply hits_par; eauto.
      * rewrite <- app_assoc, (run_app _ _ _ _ _ Ea) in E. cbn [app run_ops dc_step fst snd] in E. rewrite Eb in E. rewrite E2 in E. inversion E; subst d h.
        unfold entries in Q. inversion Q as [[Q1 Q2 Q3]]. rewrite Q2. unfold rd. rewrite B9. apply nth_repeat.
  - intros pre post Hh Hq. subst hist. apply Forall_app in HL. destruct HL as [L1 L2]. destruct (run_ok pre d0 h1 W L1) as (da & ha & Ea & Wa & Sa & _).
    destruct (run_old post da ha m Wa) as (d2 & h2 & E2 & Q).
    + revert L2. apply Forall_impl. intros a. now apply long_par.
    + destruct Sa as (_ & -> & _). assumption.
    + intros o Hin G. apply (Hq o Hin). eapply hits_par; eauto.
    + rewrite (run_app _ _ _ _ _ Ea), E2 in E. inversion E; subst d2 h2. exists da, ha. now split.
  - intros Hq. destruct (run_old hist d0 h1 m W HL HmM Hq) as (d2 & h2 & E2 & Q). rewrite E2 in E. inversion E; subst d2 h2. now rewrite Q.
Qed.
Print Assumptions C10_history.
Example C10_ex : let clk := mkClock 1 (1/100) 0 (1/2) 1 in
  exists d0 h1, dc_init [] clk 2 (Some [WStep 0 1; WStep (1/2) 1]) 0 (Some [0; 1/4]) = Ok (d0, h1) /\
    Forall (long d0) [OUpd 0 [1; 1]; OUpd (1/2) [1; 1]; OReset; OUpd 0 [-1; 1]] /\ matches d0 0 0 /\ ~ matches d0 1 0 /\ matches d0 1 (1/2).
Proof.
  cbn. unfold dc_init, init_resp. cbn. rewrite Rlt_bool_false, !Rle_bool_true by lra. cbn. do 2 eexists. split; [reflexivity|].
  split; [repeat constructor|]. unfold matches. cbn. split; [|split].
  - rewrite Rminus_0_r, Rabs_R0. lra.
  - rewrite Rminus_0_l, Rabs_Ropp, Rabs_pos_eq by lra. lra.
  - replace (1 / 2 - 1 / 2) with 0 by lra. rewrite Rabs_R0, Rabs_pos_eq by lra. lra.
Qed.

(** C10: an observation vector that is too short raises IndexError at the first missing control that is on phase; the controls
    before it have been updated by then. *)
Theorem C10_short_observation : forall d h t st, wf d h -> (length st < d_M d)%nat -> matches d (length st) t ->
  exists h', dc_update d t st h = (Exn IndexError, h') /\
    forall m, (m < length st)%nat -> post1 d (nth m st 0) h h' m (on_phase (d_clk d) (d_resp d) m t).
Proof.
  intros d h t st W HL HM. destruct (loop_spec d t st (seq 0 (length st)) h W) as (h' & E & Sh & F & _ & P).
  - apply seq_NoDup.
  - intros m Hm. apply in_seq in Hm. lia.
  - exists h'. split; [|intros m Hm; apply P; apply in_seq; lia]. unfold dc_update.
    replace (d_M d) with (length st + S (d_M d - S (length st)))%nat by lia. rewrite seq_app. cbn [seq Nat.add].
    assert (LA : forall l1 l2 s s1, loopM (dc_update1 d t st) l1 s = (Ok tt, s1) -> loopM (dc_update1 d t st) (l1 ++ l2) s = loopM (dc_update1 d t st) l2 s1).
    { induction l1 as [|a l1 IH]; intros l2 s s1 H; cbn in *; [now inversion H|]. destruct (dc_update1 d t st a s) as [[[]|] s']; [now apply IH|discriminate]. }
    rewrite (LA _ _ _ _ E). cbn [loopM]. unfold dc_update1 at 1. rewrite on_phase_true by assumption.
    rewrite (proj2 (nth_error_None st (length st))) by lia. reflexivity.
Qed.
Print Assumptions C10_short_observation.

(** C10: what the constructor accepts. *)
Theorem C10_constructor : forall h0 clk M resp tdelay off,
  (exists d h, dc_init h0 clk M resp tdelay off = Ok (d, h)) <->
  (0 <= tdelay /\ (forall o, off = Some o -> length o = M) /\
   (forall l, resp = Some l -> length l = M /\ (forall w, In w l -> 0 <= w_t0 w <= ck_T clk) /\
      forall i, (S i < length l)%nat -> w_t0 (nth i l (WStep 0 0)) <= w_t0 (nth (S i) l (WStep 0 0)))).
Proof. exact dc_init_iff. Qed.
Print Assumptions C10_constructor.

(** C11 *)
Theorem C11_contribution : forall d h t, wf d h -> (forall m, (m < d_M d)%nat -> wf_wave (nth m (d_resp d) (WStep 0 0))) ->
  exists l, control_contribution d h t = Ok l /\ length l = d_M d /\ forall m, (m < d_M d)%nat ->
    let w := nth m (d_resp d) (WStep 0 0) in
    (t < w_t0 w -> exists x, w_eval w (t + ck_T (d_clk d)) = Ok x /\
       (t < d_tdelay d -> nth m l 0 = x * rd h (d_old d) m) /\ (d_tdelay d <= t -> nth m l 0 = x * rd h (d_dec d) m)) /\
    (w_t0 w <= t -> exists x, w_eval w t = Ok x /\
       (t < d_tdelay d -> nth m l 0 = x * rd h (d_old d) m) /\ (d_tdelay d <= t -> nth m l 0 = x * rd h (d_dec d) m)).
Proof.
  intros d h t W HW. destruct (contrib_spec (d_clk d) (d_resp d) (d_tdelay d) (rd_arr h (d_dec d)) (rd_arr h (d_old d)) t (d_M d) 0 HW) as (l & E & L & P).
  exists l. split; [exact E|]. split; [assumption|]. intros m Hm w. destruct (P m Hm) as (x & Ex & Nx). cbn [Nat.add] in *. fold w in Ex. split.
  - intros H. rewrite Rlt_bool_true in Ex by assumption. exists x. split; [assumption|]. rewrite Nx. unfold rd. split; intros H2; [now rewrite Rlt_bool_true|now rewrite Rlt_bool_false].
  - intros H. rewrite Rlt_bool_false in Ex by assumption. exists x. split; [assumption|]. rewrite Nx. unfold rd. split; intros H2; [now rewrite Rlt_bool_true|now rewrite Rlt_bool_false].
Qed.
Print Assumptions C11_contribution.
(** C11: the default control drives exactly the sign of the last observation on the whole period following it, at unit strength. *)
Theorem C11_default_is_sign : forall h0 clk M off d0 h1 pre st post m t, dc_init h0 clk M None 0 off = Ok (d0, h1) ->
  0 <= ck_tt clk -> Forall (long d0) (pre ++ OUpd 0 st :: post) -> (m < M)%nat ->
  (forall o, In o post -> ~ hits d0 m o /\ o <> OReset) -> 0 <= t ->
  exists d h l, run_ops dc_step (pre ++ OUpd 0 st :: post) (d0, h1) = (Ok tt, (d, h)) /\ control_contribution d h t = Ok l /\
    (offset_of off m <= nth m st 0 -> nth m l 0 = 1) /\ (nth m st 0 < offset_of off m -> nth m l 0 = -1).
Proof.
  intros h0 clk M off d0 h1 pre st post m t HI Htt HL Hm Hq Ht. destruct (C10_history _ _ _ _ _ _ _ _ _ HI HL) as (d & h & E & P).
  destruct (dc_init_ok _ _ _ _ _ _ _ _ HI) as (W & HM & Hc & Htd & Hk & Hr & Ho & _).
  destruct (run_ok _ d0 h1 W HL) as (d' & h' & E' & Wd & SP & _). rewrite E in E'. inversion E'; subst d' h'. clear E'.
  destruct SP as (S1 & S2 & S3 & S4 & _).
  assert (Hw : nth m (d_resp d) (WStep 0 0) = WStep 0 1) by (rewrite S3, Hr; now apply nth_repeat_lt).
  assert (HW : forall k, (k < d_M d)%nat -> wf_wave (nth k (d_resp d) (WStep 0 0))).
  { intros k Hk2. rewrite S3, Hr. rewrite nth_repeat_lt by lia. exact I. }
  destruct (C11_contribution d h t Wd HW) as (l & El & Ll & Pl). exists d, h, l. split; [assumption|]. split; [assumption|].
  destruct (Pl m ltac:(lia)) as [_ Q]. rewrite Hw in Q. cbn [w_t0] in Q. destruct (Q Ht) as (x & Ex & _ & Nx). specialize (Nx ltac:(rewrite S4, Htd; lra)).
  cbn [w_eval] in Ex. rewrite Rle_bool_true in Ex by assumption. apply Ok_inj in Ex. subst x. rewrite Nx.
  assert (Hmt : matches d0 m 0). { unfold matches. rewrite Hr, nth_repeat_lt by assumption. cbn [w_t0]. rewrite Rminus_0_r, Rabs_R0, Hc. lra. }
  destruct (P m Hm) as (P1 & _). destruct (P1 pre 0 st post eq_refl Hmt Hq) as (A & B & C & _). rewrite C. split; intros H; [rewrite A by assumption|rewrite B by assumption]; lra.
Qed.
Print Assumptions C11_default_is_sign.
Theorem C11_impulse_response : forall d m t, (forall k, (k < d_M d)%nat -> wf_wave (nth k (d_resp d) (WStep 0 0))) -> length (d_resp d) = d_M d -> (m < d_M d)%nat ->
  exists l, dc_impulse_response d m t = Ok l /\ length l = d_M d /\ (forall k, k <> m -> nth k l 0 = 0) /\
    (~ 0 <= t <= ck_T (d_clk d) -> nth m l 0 = 0) /\ (0 <= t <= ck_T (d_clk d) -> w_eval (nth m (d_resp d) (WStep 0 0)) t = Ok (nth m l 0)).
Proof.
  intros d m t HW HL Hm. unfold dc_impulse_response. destruct (Rle_bool_spec 0 t) as [H1|H1], (Rle_bool_spec t (ck_T (d_clk d))) as [H2|H2]; cbn [andb].
  1:{ rewrite (nth_error_nth' (d_resp d) (WStep 0 0)) by lia. destruct (w_eval_ok (nth m (d_resp d) (WStep 0 0)) t (HW m Hm)) as [x Ex]. rewrite Ex. cbn [bind].
      eexists. split; [reflexivity|]. rewrite upd_length, repeat_length. split; [reflexivity|]. split.
      - intros k Hk. rewrite nth_upd. destruct (Nat.eqb_spec m k); [congruence|]. cbn. apply nth_repeat.
      - split; [intros H; lra|]. intros _. rewrite nth_upd, Nat.eqb_refl, repeat_length. destruct (Nat.ltb_spec m (d_M d)); [reflexivity|lia]. }
  all: eexists; split; [reflexivity|]; rewrite repeat_length; split; [reflexivity|]; split; [intros; apply nth_repeat|]; split; [intros; apply nth_repeat|lra].
Qed.
Print Assumptions C11_impulse_response.
Example C11_ex : let clk := mkClock 1 (1/100) 0 (1/2) 1 in
  exists d0 h1, dc_init [] clk 1 None 0 None = Ok (d0, h1) /\ 0 <= ck_tt clk /\ Forall (long d0) ([OReset] ++ OUpd 0 [-3] :: []) /\
    wf_wave (nth 0 (d_resp d0) (WStep 0 0)).
Proof.
  cbn. unfold dc_init. rewrite Rlt_bool_false by lra. cbn. do 2 eexists. split; [reflexivity|]. split; [lra|]. split; [repeat constructor|exact I].
Qed.

(** C12: n arrays obtained by reading control_signal() after each of n updates are one and the same array, reading as the last signal;
    copies taken at each read are the history. *)
Theorem C12_live_view : forall d h ups vs cs h', collect d h ups = (vs, cs, h') ->
  map (rd_arr h') vs = repeat (rd_arr h' (control_signal d)) (length ups) /\ length cs = length ups /\
  forall i, (i < length ups)%nat -> nth i cs [] = rd_arr (snd (collect d h (firstn (S i) ups))) (control_signal d).
Proof.
  intros d h ups vs cs h' E. pose proof (collect_spec ups d h) as C. rewrite E in C. destruct C as (-> & L & P). split; [|split; [assumption|]].
  - clear. induction (length ups) as [|n IH]; [reflexivity|]. cbn. f_equal. exact IH.
  - intros i Hi. rewrite P by assumption. destruct (collect d h (firstn (S i) ups)) as [[x y] z]. reflexivity.
Qed.
Print Assumptions C12_live_view.
(** C12: after reset() the arrays handed out before keep their contents through every later history. *)
Theorem C12_frozen_after_reset : forall d h hist, wf d h -> Forall (long d) hist ->
  exists d' h', run_ops dc_step (OReset :: hist) (d, h) = (Ok tt, (d', h')) /\ rd_arr h' (control_signal d) = rd_arr h (control_signal d).
Proof.
  intros d h hist W HL. cbn [run_ops dc_step fst snd]. pose proof W as ((W1 & W2 & W3) & (N1 & N2 & N3) & _).
  destruct (dc_reset_spec d h W) as (d1 & h1 & E & Wd & (l & ->) & P1 & P2 & P3 & P4 & P5 & P6 & P7 & P8 & (P9 & P10) & _). rewrite E.
  destruct (run_frame hist d1 (h ++ l) (d_s d) Wd) as (d2 & h2 & E2 & R2).
  - revert HL. apply Forall_impl. intros a. apply long_par. unfold same_par. auto 10.
  - lia.
  - lia.
  - rewrite P7. assumption.
  - rewrite app_length. lia.
  - exists d2, h2. split; [assumption|]. unfold rd_arr, control_signal. rewrite R2. now rewrite app_nth_old.
Qed.
Print Assumptions C12_frozen_after_reset.
(** C12: collecting without copying does lose the history. *)
Theorem C12_views_are_history_refuted : exists d h ups vs cs h', wf d h /\ collect d h ups = (vs, cs, h') /\ map (rd_arr h') vs <> cs.
Proof.
  set (clk := mkClock 1 (1/100) 0 (1/2) 1).
  assert (HI : exists d0 h1, dc_init [] clk 1 None 0 None = Ok (d0, h1)) by (unfold dc_init; rewrite Rlt_bool_false by lra; cbn; eauto).
  destruct HI as (d0 & h1 & HI). destruct (dc_init_ok _ _ _ _ _ _ _ _ HI) as (W & HM & Hc & Htd & Hk & Hr & Ho & _).
  destruct (collect d0 h1 [(0, [1]); (0, [-1])]) as [[vs cs] h'] eqn:E. exists d0, h1, [(0, [1]); (0, [-1])], vs, cs, h'. split; [assumption|]. split; [assumption|].
  destruct (C12_live_view _ _ _ _ _ _ E) as (V & L & P). intros Eq. rewrite V in Eq.
  pose proof (P 0%nat ltac:(cbn; lia)) as P0. pose proof (P 1%nat ltac:(cbn; lia)) as P1. rewrite <- Eq in P0, P1. cbn [length repeat nth] in P0, P1.
  clear P V. cbn [firstn collect] in *.
  destruct (dc_update_spec d0 0 [1] h1 W) as (ha & Ea & Sa & _ & Pa); [rewrite HM; cbn; lia|].
  destruct (dc_update_spec d0 0 [-1] ha (wf_shape _ _ _ W Sa)) as (hb & Eb & Sb & _ & Pb); [rewrite HM; cbn; lia|].
  rewrite Ea in *. cbn [snd] in *. rewrite Eb in *. cbn [snd] in *. inversion E; subst vs cs h'.
  assert (Hmt : on_phase (d_clk d0) (d_resp d0) 0 0 = true).
  { apply on_phase_true. unfold matches. rewrite Hr. cbn. rewrite Rminus_0_r, Rabs_R0, Hc. cbn. lra. }
  specialize (Pa 0%nat ltac:(lia)). specialize (Pb 0%nat ltac:(lia)). rewrite Hmt in Pa, Pb. destruct Pa as (Pa & _), Pb as (Pb & _).
  unfold raw in *. rewrite Hk, Ho in *. cbn [nth repeat] in *. rewrite cast_01 in Pa, Pb. rewrite Rle_bool_true in Pa by lra. rewrite Rle_bool_false in Pb by lra.
  unfold rd in *. unfold control_signal in P0. rewrite P0 in Pb. rewrite Pb in Pa. lra.
Qed.
Print Assumptions C12_views_are_history_refuted.

(** C13: updates made at relative time 0 only (and resets): a control of another phase is never updated and contributes nothing. *)
Theorem C13_other_phases_stay_zero : forall h0 clk M resp tdelay off d0 h1 hist m,
  dc_init h0 clk M resp tdelay off = Ok (d0, h1) -> Forall (long d0) hist -> (forall o, In o hist -> o = OReset \/ exists st, o = OUpd 0 st) -> (m < M)%nat ->
  (let t0 := w_t0 (nth m (d_resp d0) (WStep 0 0)) in ck_tt clk / 2 + 1 / 100000 * t0 < t0) ->
  (forall k, (k < M)%nat -> wf_wave (nth k (d_resp d0) (WStep 0 0))) ->
  exists d h, run_ops dc_step hist (d0, h1) = (Ok tt, (d, h)) /\ rd h (control_signal d) m = 0 /\ rd h (d_dec d) m = 0 /\
    forall t, exists l, control_contribution d h t = Ok l /\ nth m l 0 = 0.
Proof.
  intros h0 clk M resp tdelay off d0 h1 hist m HI HL H0 Hm Hph HW.
  destruct (dc_init_ok _ _ _ _ _ _ _ _ HI) as (W & HM & Hc & Htd & Hk & Hr & Ho & _).
  pose proof (dc_init_zero _ _ _ _ _ _ _ _ m HI Hm) as Z0. unfold entries in Z0. assert (Z1 : rd h1 (d_s d0) m = 0) by congruence.
  assert (Z2 : rd h1 (d_dec d0) m = 0) by congruence. assert (Z3 : rd h1 (d_old d0) m = 0) by congruence.
  assert (HmM : (m < d_M d0)%nat) by lia.
  assert (HQ : forall o, In o hist -> ~ hits d0 m o).
  { intros o Ho2. destruct (H0 o Ho2) as [->|[st ->]]; [intros []|]. cbn. unfold matches. rewrite Rminus_0_l, Rabs_Ropp, Hc.
    cbn zeta in Hph. intros G. pose proof (Rle_abs (w_t0 (nth m (d_resp d0) (WStep 0 0)))) as G2. lra. }
  destruct (run_zero hist d0 h1 m W HL HmM HQ Z1 Z2) as (d & h & E & R1 & R2). exists d, h. split; [assumption|]. split; [assumption|]. split; [assumption|].
  destruct (run_ok hist d0 h1 W HL) as (d' & h' & E' & Wd & SP & _). rewrite E in E'. inversion E'; subst d' h'. clear E'.
  destruct (run_old hist d0 h1 m W HL HmM HQ) as (d' & h' & E' & R3). rewrite E in E'. inversion E'; subst d' h'. clear E'. rewrite Z3 in R3.
  destruct SP as (S1 & S2 & S3 & S4 & _). intros t. destruct (C11_contribution d h t Wd) as (l & El & Ll & Pl).
  { intros k Hk2. rewrite S3. apply HW. lia. }
  exists l. split; [assumption|]. destruct (Pl m ltac:(lia)) as [Q1 Q2]. destruct (Rlt_le_dec t (w_t0 (nth m (d_resp d) (WStep 0 0)))) as [G|G].
  - destruct (Q1 G) as (x & _ & A & B). destruct (Rlt_le_dec t (d_tdelay d)) as [K|K]; [rewrite A by assumption; rewrite R3|rewrite B by assumption; rewrite R2]; ring.
  - destruct (Q2 G) as (x & _ & A & B). destruct (Rlt_le_dec t (d_tdelay d)) as [K|K]; [rewrite A by assumption; rewrite R3|rewrite B by assumption; rewrite R2]; ring.
Qed.
Print Assumptions C13_other_phases_stay_zero.
Example C13_ex : let t0 := 1 / 2 in (1/100) / 2 + 1 / 100000 * t0 < t0.
Proof. cbn. lra. Qed.

(** C14 *)
Theorem C14_quantiser : forall n x, (1 <= n)%nat -> exists j, qindex n x j /\ quantize n x = INR j / INR n.
Proof. exact quantize_spec. Qed.
Print Assumptions C14_quantiser.
Theorem C14_monotone : forall n x y, (1 <= n)%nat -> x <= y -> quantize n x <= quantize n y.
Proof. exact quantize_mono. Qed.
Print Assumptions C14_monotone.
Theorem C14_odd : forall n x, (1 <= n)%nat -> (forall i, (i < n)%nat -> x <> thr n i) -> quantize n (- x) = 1 - quantize n x.
Proof. exact quantize_odd. Qed.
Print Assumptions C14_odd.
Theorem C14_error : forall n x, (1 <= n)%nat -> Rabs x <= 1 + 1 / INR n -> Rabs (2 * quantize n x - 1 - x) <= 1 / INR n.
Proof. exact quantize_error. Qed.
Print Assumptions C14_error.
Example C14_ex : quantize 2 0 = 1 / 2 /\ (forall i, (i < 2)%nat -> 0 <> thr 2 i).
Proof.
  split.
  - rewrite (quantize_eq 2 0 1); [cbn; lra|lia|]. split; [lia|]. intros [|[|i]] Hi; unfold thr; cbn; split; intros; try lia; lra.
  - intros [|[|i]] Hi; unfold thr; cbn; try lia; lra.
Qed.
(** C14, C15: signal and decision after any history without reset; the offsets passed to the constructor do not matter. *)
Theorem C14_history : forall h0 clk M levels resp off d0 h1 pre t st post m, ml_init h0 clk M levels resp off = Ok (d0, h1) ->
  Forall (long d0) (pre ++ OUpd t st :: post) -> (forall o, In o (pre ++ OUpd t st :: post) -> o <> OReset) -> (m < M)%nat ->
  matches d0 m t -> (forall o, In o post -> ~ hits d0 m o) ->
  exists d h j, run_ops dc_step (pre ++ OUpd t st :: post) (d0, h1) = (Ok tt, (d, h)) /\ qindex (nth m levels 0%nat) (nth m st 0) j /\
    rd h (control_signal d) m = INR j / INR (nth m levels 0%nat) /\ rd h (d_dec d) m = 2 * (INR j / INR (nth m levels 0%nat)) - 1.
Proof.
  intros h0 clk M levels resp off d0 h1 pre t st post m HI HL HR Hm Hmt Hq.
  destruct (ml_init_ok _ _ _ _ _ _ _ _ HI) as (W & HM & Hc & Hk & Hlen & HF & Ho & Hi8 & _ & Hr).
  destruct (run_last_hit d0 h1 pre t st post m W HL ltac:(lia) Hmt) as (d & hp & h & E1 & E2 & SP & Wp & Wd & P).
  { intros o Hin. split; [now apply Hq|]. apply HR. apply in_app_iff. right. now right. }
  assert (Hn : (1 <= nth m levels 0)%nat) by (rewrite Forall_forall in HF; apply HF, nth_In; lia).
  destruct (quantize_spec (nth m levels 0%nat) (nth m st 0) Hn) as (j & Qj & Ej). exists d, h, j. split; [assumption|]. split; [assumption|].
  (* without resets the signal array is still the float array of the constructor *)
  assert (N8 : d = d0 /\ i8 hp (d_s d) = false).
  { assert (G : forall ops h, wf d0 h -> Forall (long d0) ops -> (forall o, In o ops -> o <> OReset) -> i8 h (d_s d0) = false -> exists h', run_ops dc_step ops (d0, h) = (Ok tt, (d0, h')) /\ i8 h' (d_s d0) = false).
    { clear. induction ops as [|o ops IH]; intros h W HL HR Hi; [exists h; now split|]. apply Forall_cons_iff in HL. destruct HL as [L1 L2].
      destruct o as [t st|]; [|exfalso; now apply (HR OReset); [left|]]. cbn [run_ops dc_step fst snd].
      destruct (dc_update_spec d0 t st h W L1) as (h' & E & S & _). rewrite E. apply IH; auto; [eapply wf_shape; eauto|intros; apply HR; now right|].
      now rewrite (proj1 (proj2 S _)). }
    destruct (G pre h1 W) as (h' & E' & I'); auto; [now apply Forall_app in HL|intros; apply HR; apply in_app_iff; now left|].
    rewrite E1 in E'. inversion E'. subst. now split. }
  destruct N8 as [-> N8]. unfold post1 in P. rewrite N8 in P. unfold raw, newdec in P. rewrite Hk in P. destruct P as (P1 & P2 & _). cbn [cast] in P1.
  unfold control_signal. rewrite P2, P1, Ej, Ho. split; [reflexivity|]. rewrite nth_repeat_lt by assumption. ring.
Qed.
Print Assumptions C14_history.
Theorem C14_constructor : forall h0 clk M levels resp off, length levels = M -> (off = [] \/ length off = M) -> In 0%nat levels ->
  ml_init h0 clk M levels resp off = Exn ZeroDivisionError.
Proof.
  intros h0 clk M levels resp off HL Ho HZ. unfold ml_init.
  replace (match off with [] => true | _ => (length off =? M)%nat end) with true.
  2:{ destruct off; [reflexivity|]. destruct Ho as [?| ->]; [discriminate|]. now rewrite Nat.eqb_refl. }
  rewrite HL, Nat.eqb_refl. cbn [negb]. replace (existsb (fun n => (n =? 0)%nat) levels) with true; [reflexivity|].
  symmetry. apply existsb_exists. exists 0%nat. now split.
Qed.
Print Assumptions C14_constructor.
(** C15: every accepted offset list gives the very same control as no offsets. *)
Theorem C15_offsets_ignored : forall h0 clk M levels resp off hist, length off = M ->
  match ml_init h0 clk M levels resp off, ml_init h0 clk M levels resp [] with
  | Ok (d, h), Ok (d', h') => run_ops dc_step hist (d, h) = run_ops dc_step hist (d', h')
  | Exn e, Exn e' => e = e'
  | _, _ => False
  end.
Proof.
  intros h0 clk M levels resp off hist HL.
  assert (E : ml_init h0 clk M levels resp off = ml_init h0 clk M levels resp []).
  { unfold ml_init. rewrite HL, Nat.eqb_refl. destruct off; reflexivity. }
  rewrite E. destruct (ml_init h0 clk M levels resp []) as [[d h]|e]; reflexivity.
Qed.
Print Assumptions C15_offsets_ignored.
(** C15: the documented offset never reaches the decision. *)
Theorem C15_decision_includes_offset_refuted : exists clk off d0 h1 d h, ml_init [] clk 1 [2%nat] None off = Ok (d0, h1) /\
  run_ops dc_step [OUpd 0 [0]] (d0, h1) = (Ok tt, (d, h)) /\ off = [1 / 4] /\ rd h (d_dec d) 0 <> 2 * rd h (control_signal d) 0 - 1 + 1 / 4.
Proof.
  set (clk := mkClock 1 (1/100) 0 (1/2) 1). exists clk, [1 / 4].
  assert (HI : exists d0 h1, ml_init [] clk 1 [2%nat] None [1/4] = Ok (d0, h1)) by (unfold ml_init, dc_init; cbn; rewrite Rlt_bool_false by lra; cbn; eauto).
  destruct HI as (d0 & h1 & HI). destruct (ml_init_ok _ _ _ _ _ _ _ _ HI) as (W & HM & Hc & Hk & Hlen & HF & Ho & Hi8 & _ & Hr).
  destruct (C14_history _ _ _ _ _ _ _ _ [] 0 [0] [] 0 HI) as (d & h & j & E & _ & E1 & E2).
  - constructor; [cbn; rewrite HM; lia|constructor].
  - intros o [<-|[]]. discriminate.
  - lia.
  - unfold matches. rewrite Hr. cbn. rewrite Rminus_0_r, Rabs_R0, Hc. cbn. lra.
  - intros o [].
  - exists d0, h1, d, h. split; [assumption|]. split; [exact E|]. split; [reflexivity|]. rewrite E1, E2. lra.
Qed.
Print Assumptions C15_decision_includes_offset_refuted.

(** C16: state of a dither control after any history of updates (on the phase of the random controls) and on/off switching.
    [hp'] is what the wrapped control alone would have reached with the same updates. *)
Theorem C16_history : forall h0 inner R resp on table td d h1 pre t st post, wf inner h0 -> Forall (fun r => length r = R) table -> (0 < length table)%nat ->
  di_init h0 R inner resp on table td = Ok (d, h1) -> Forall (dlong d) (pre ++ DUpd t st :: post) -> (forall o, In o post -> o = DOn \/ o = DOff) ->
  exists d' h' hp', run_ops di_step (pre ++ DUpd t st :: post) (d, h1) = (Ok tt, (d', h')) /\
    run_ops dc_step (dets (pre ++ DUpd t st :: post)) (inner, h0) = (Ok tt, (inner, hp')) /\
    (forall m, (m < d_M inner)%nat -> rd h' (di_s d') (m + R) = rd hp' (d_s inner) m /\ rd h' (di_dec d') (m + R) = 2 * rd hp' (d_s inner) m - 1) /\
    (forall m, (m < R)%nat -> on_after on pre = true ->
       let v := nth m (nth ((n_on on pre * R + m) mod length table) table []) 0 in rd h' (di_s d') m = v /\ rd h' (di_dec d') m = 2 * v - 1) /\
    (forall m, (m < R)%nat -> on_after on pre = false -> rd h' (di_dec d') m = 0).
Proof.
  intros h0 inner R resp on table td d h1 pre t st post W HT HT0 HI HL Hq.
  destruct (di_init_ok _ _ _ _ _ _ _ _ _ W HT HI) as (DW & E1 & E2 & E3 & E4 & E5 & E6 & E7 & E8 & E9 & E10 & E11).
  pose proof W as ((W1 & W2 & W3) & _).
  destruct (di_history d h1 h0 pre t st post DW) as (d' & h' & hp' & R1 & R2 & SD & P & Q); try (now rewrite ?E1, ?E6); try assumption.
  - rewrite E1. unfold i8. now rewrite E10.
  - rewrite E1. intros m Hm. unfold entries, rd, rd_arr. now rewrite !E10 by assumption.
  - exists d', h', hp'. rewrite E1 in R2. split; [assumption|]. split; [assumption|]. destruct SD as (_ & _ & _ & _ & _ & D6 & D7 & _). rewrite D6, D7.
    rewrite E1, E2, E9 in P. rewrite E2, E5, E6, E7, E9 in Q. cbn [cast Nat.add] in P, Q. split; [|split].
    + intros m Hm. destruct (P m Hm) as (_ & A & B). rewrite B, A. split; reflexivity.
    + intros m Hm Hon. destruct (Q m Hm) as [A B]. rewrite Hon in A. rewrite B, A. split; reflexivity.
    + intros m Hm Hon. destruct (Q m Hm) as [A B]. rewrite Hon in A. rewrite B, A. lra.
Qed.
Print Assumptions C16_history.
(** C16: [copy] is shallow; the wrapped object itself is driven by the dither control. *)
Theorem C16_shares_wrapped_control : forall h0 inner R resp on table td d h1 hist, wf inner h0 -> Forall (fun r => length r = R) table -> (0 < length table)%nat ->
  di_init h0 R inner resp on table td = Ok (d, h1) -> Forall (dlong d) hist ->
  exists d' h' hp', run_ops di_step hist (d, h1) = (Ok tt, (d', h')) /\ run_ops dc_step (dets hist) (inner, h0) = (Ok tt, (inner, hp')) /\
    forall m, (m < d_M inner)%nat -> rd h' (control_signal inner) m = rd hp' (control_signal inner) m /\ rd h' (d_dec inner) m = rd hp' (d_dec inner) m.
Proof.
  intros h0 inner R resp on table td d h1 hist W HT HT0 HI HL.
  destruct (di_init_ok _ _ _ _ _ _ _ _ _ W HT HI) as (DW & E1 & E2 & E3 & E4 & E5 & E6 & E7 & E8 & E9 & E10 & E11).
  pose proof W as ((W1 & W2 & W3) & _).
  destruct (di_run hist d h1 h0 DW) as (d' & h' & hp' & R1 & R2 & _ & SD & _ & _ & _ & EE & _); try (now rewrite ?E1, ?E6); try assumption.
  - rewrite E1. unfold i8. now rewrite E10.
  - rewrite E1. intros m Hm. unfold entries, rd, rd_arr. now rewrite !E10 by assumption.
  - exists d', h', hp'. rewrite E1 in *. split; [assumption|]. split; [assumption|]. intros m Hm. specialize (EE m Hm). unfold entries, control_signal in *. now inversion EE.
Qed.
Print Assumptions C16_shares_wrapped_control.
(** C16: the rows of the table that random control [m] ever uses: exactly one residue class modulo gcd(R, size). *)
Theorem C16_rows_visited : forall R size m r, (r < size)%nat ->
  (exists k, ((k * R + m) mod size = r)%nat) <-> (r mod Nat.gcd R size = m mod Nat.gcd R size)%nat.
Proof. intros. now apply dither_rows. Qed.
Print Assumptions C16_rows_visited.
Example C16_ex : let clk := mkClock 1 (1/100) 0 (1/2) 1 in
  exists d0 h0 d h1, dc_init [] clk 1 None 0 None = Ok (d0, h0) /\ di_init h0 2 d0 None true [[0; 1]; [1; 0]; [1; 1]] 0 = Ok (d, h1) /\
    Forall (dlong d) ([DUpd 0 [1]; DOff] ++ DUpd 0 [-1] :: [DOn]) /\ (exists k, (k * 2 + 1) mod 3 = 0)%nat.
Proof.
  cbn. unfold dc_init. rewrite Rlt_bool_false by lra. cbn. do 4 eexists. split; [reflexivity|]. unfold di_init. rewrite Rlt_bool_false by lra. cbn.
  split; [reflexivity|]. split; [|exists 1%nat; reflexivity].
  assert (G : forall x : R, dlong (mkDi (mkDC (mkClock 1 (1/100) 0 (1/2) 1) 1 [WStep 0 1] 0 [0] KBin 0 1 2) 2 (mkClock 1 (1/100) 0 (1/2) 1) [WStep 0 1; WStep 0 1; WStep 0 1] 0 3 4 true [[0; 1]; [1; 0]; [1; 1]] 0) (DUpd 0 [x])).
  { intros x. split; [cbn; lia|]. cbn. intros m Hm. assert (E : w_t0 (nth m [WStep 0 1; WStep 0 1; WStep 0 1] (WStep 0 0)) = 0) by (destruct m as [|[|[|[|]]]]; reflexivity).
    cbn in E |- *. rewrite E. rewrite Rminus_0_r, Rabs_R0. lra. }
  repeat (constructor; [first [apply G|exact I]|]). constructor.
Qed.

(** C17 *)
Theorem C17_unit_element_set : forall N M c,
  (length (candidate_set N c) < M -> unit_element_set N M c = Exn GenericException)%nat /\
  (1 <= M -> M <= length (candidate_set N c) -> exists cols, unit_element_set N M c = Ok cols /\ length cols = M /\ sign_free cols /\
     forall v, In v cols -> length v = N /\ Forall (fun x => In x c) v /\ v <> repeat 0%Z N)%nat /\
  (M = 0 -> candidate_set N c = [] -> unit_element_set N M c = Exn IndexError)%nat /\
  (M = 0 -> candidate_set N c <> [] -> exists v, unit_element_set N M c = Ok [v])%nat.
Proof. exact unit_element_set_spec. Qed.
Print Assumptions C17_unit_element_set.
(** C17: the default candidates: one representative of every pair, (3^N - 1) / 2 in number, which is also the largest possible M. *)
Theorem C17_default_candidates : forall N, (2 * length (candidate_set N tern) + 1 = 3 ^ N)%nat /\
  forall v, length v = N -> Forall (fun x => In x [-1; 1; 0]%Z) v -> v <> repeat 0%Z N ->
    (In v (candidate_set N tern) /\ ~ In (map Z.opp v) (candidate_set N tern)) \/ (~ In v (candidate_set N tern) /\ In (map Z.opp v) (candidate_set N tern)).
Proof. intros N. split; [apply candidate_set_count|apply candidate_set_tern]. Qed.
Print Assumptions C17_default_candidates.
Theorem C17_default_succeeds_iff : forall N M, (1 <= M)%nat -> ((exists cols, unit_element_set N M tern = Ok cols) <-> (2 * M + 1 <= 3 ^ N)%nat).
Proof.
  intros N M HM. pose proof (candidate_set_count N) as C. destruct (unit_element_set_spec N M tern) as (A & B & _). split.
  - intros [cols E]. destruct (Nat.le_gt_cases M (length (candidate_set N tern))) as [G|G]; [lia|]. rewrite A in E by assumption. discriminate.
  - intros H. destruct B as (cols & E & _); [assumption|lia|]. now exists cols.
Qed.
Print Assumptions C17_default_succeeds_iff.
(** C17: candidates starting with 0 stop at once. *)
Theorem C17_leading_zero_empty : forall N c, candidate_set N (0%Z :: c) = [].
Proof.
  intros N c. unfold candidate_set. assert (G : exists r, product (0%Z :: c) N = repeat 0%Z N :: r).
  { induction N as [|N (r & E)]; [exists []; reflexivity|]. cbn [product flat_map]. rewrite E. cbn. eauto. }
  destruct G as (r & E). rewrite E. cbn [gather]. rewrite (proj2 (l1_zero _)); [reflexivity|]. now rewrite repeat_length.
Qed.
Print Assumptions C17_leading_zero_empty.
Example C17_ex : candidate_set 2 tern = [[-1; -1]; [-1; 1]; [-1; 0]; [0; -1]]%Z.
Proof. reflexivity. Qed.

(** C63: reset() replaces the float signal array by an int8 one, so a multi-level control is binary afterwards: only the top level
    survives the truncation. *)
Theorem C63_multilevel_binary_after_reset : forall h0 clk M levels resp off d0 h1 pre t st post m, ml_init h0 clk M levels resp off = Ok (d0, h1) ->
  Forall (long d0) (pre ++ OReset :: OUpd t st :: post) -> (m < M)%nat -> matches d0 m t -> (forall o, In o post -> ~ hits d0 m o /\ o <> OReset) ->
  exists d h, run_ops dc_step (pre ++ OReset :: OUpd t st :: post) (d0, h1) = (Ok tt, (d, h)) /\
    (1 - 1 / INR (nth m levels 0%nat) <= nth m st 0 -> rd h (control_signal d) m = 1 /\ rd h (d_dec d) m = 1) /\
    (nth m st 0 < 1 - 1 / INR (nth m levels 0%nat) -> rd h (control_signal d) m = 0 /\ rd h (d_dec d) m = -1).
Proof.
  intros h0 clk M levels resp off d0 h1 pre t st post m HI HL Hm Hmt Hq.
  destruct (ml_init_ok _ _ _ _ _ _ _ _ HI) as (W & HM & Hc & Hk & Hlen & HF & Ho & Hi8 & _ & Hr).
  assert (Hn : (1 <= nth m levels 0)%nat) by (rewrite Forall_forall in HF; apply HF, nth_In; lia).
  pose proof HL as HL2. rewrite (app_assoc pre [OReset] (OUpd t st :: post)) in HL2 at 1 || (change (pre ++ OReset :: OUpd t st :: post) with (pre ++ [OReset] ++ OUpd t st :: post) in HL2; rewrite app_assoc in HL2).
  destruct (run_last_hit d0 h1 (pre ++ [OReset]) t st post m W HL2 ltac:(lia) Hmt Hq) as (d & hp & h & E1 & E2 & SP & Wp & Wd & P).
  rewrite <- app_assoc in E2. cbn [app] in E2. exists d, h. split; [assumption|].
  assert (I8 : i8 hp (d_s d) = true).
  { apply Forall_app in HL. destruct HL as [L1 _]. destruct (run_ok pre d0 h1 W L1) as (da & ha & Ea & Wa & Sa & _).
    rewrite (run_app _ _ _ _ _ Ea) in E1. cbn [run_ops dc_step fst snd] in E1.
    destruct (dc_reset_spec da ha Wa) as (db & hb & Eb & _ & _ & _ & _ & _ & _ & _ & _ & _ & I & _). rewrite Eb in E1. inversion E1; subst. assumption. }
  unfold post1 in P. rewrite I8 in P. unfold raw, newdec in P. destruct SP as (_ & _ & _ & _ & S5 & S6 & _). rewrite S6, Hk, S5, Ho in P.
  destruct P as (P1 & P2 & _). rewrite trunc_quantize in P1 by assumption. rewrite nth_repeat_lt in P2 by assumption. unfold control_signal. rewrite P2, P1. split; intros G.
  - rewrite Rle_bool_true by assumption. split; [reflexivity|lra].
  - rewrite Rle_bool_false by assumption. split; [reflexivity|lra].
Qed.
Print Assumptions C63_multilevel_binary_after_reset.
(** C63: a reset dither control that is switched off drives -1 instead of 0. *)
Theorem C63_dither_off_after_reset : forall d h t st m, di_wf d h -> (d_M (di_inner d) <= length st)%nat -> di_on d = false ->
  (m < di_R d)%nat -> on_phase (di_clk d) (di_resp d) m t = true ->
  exists d' h', di_update (fst (di_reset d h)) t st (snd (di_reset d h)) = (Ok tt, (d', h')) /\ rd h' (di_dec d') m = -1.
Proof.
  intros d h t st m W HL Hoff Hm Hph. pose proof (di_reset_wf d h W) as W2. unfold di_reset in *. cbn [fst snd] in *. set (d1 := mkDi _ _ _ _ _ _ _ _ _ _) in *. set (h1 := h ++ _) in *.
  assert (Hon1 : di_on d1 = true -> (0 < length (di_table d1))%nat) by (cbn; congruence).
  destruct (di_update_spec d1 t st h1 W2 HL Hon1) as (hi & h2 & U & E & S & Si & P & Q).
  eexists. exists h2. split; [exact E|]. specialize (Q m Hm). change (di_clk d1) with (di_clk d) in Q. change (di_resp d1) with (di_resp d) in Q. rewrite Hph in Q.
  destruct Q as [Q1 Q2]. change (di_on d1) with (di_on d) in Q1. rewrite Hoff in Q1. cbn [di_set_idx di_dec]. rewrite Q2, Q1.
  assert (I8 : i8 h1 (di_s d1) = true). { unfold i8, h1, d1. cbn [di_s]. rewrite <- (Nat.add_0_r (length h)) at 1. now rewrite app_nth_new. }
  rewrite I8. cbn [cast]. rewrite Ztrunc_floor by lra. rewrite (Zfloor_imp 0); [lra|]. cbn. lra.
Qed.
Print Assumptions C63_dither_off_after_reset.

(** C64: a dither control with a positive loop delay cannot be evaluated before that delay. *)
Theorem C64_dither_delay_raises : forall d h t, (0 < di_M d)%nat -> wf_wave (nth 0 (di_resp d) (WStep 0 0)) -> t < di_tdelay d ->
  di_contribution d h t = Exn AttributeError.
Proof.
  intros d h t HM HW Ht. unfold di_contribution. destruct (di_M d) as [|M]; [lia|]. cbn [seq contrib_go].
  destruct (w_eval_ok _ (if Rlt_bool t (w_t0 (nth 0 (di_resp d) (WStep 0 0))) then t + ck_T (di_clk d) else t) HW) as [x Ex]. rewrite Ex. cbn [bind].
  now rewrite Rlt_bool_true.
Qed.
Print Assumptions C64_dither_delay_raises.

(** C63, C64: the hypotheses are met by a two-level-quantiser control and by a delayed dither control around it. *)
Example C63_ex : let clk := mkClock 1 (1/100) 0 (1/2) 1 in
  exists d0 h0 d h1, ml_init [] clk 1 [4%nat] None [] = Ok (d0, h0) /\ di_init h0 1 d0 None false [] (1/8) = Ok (d, h1) /\ di_wf d h1 /\
    Forall (long d0) ([] ++ OReset :: OUpd 0 [1/2] :: []) /\ matches d0 0 0 /\ on_phase (di_clk d) (di_resp d) 0 0 = true /\ di_on d = false /\
    (0 < di_M d)%nat /\ wf_wave (nth 0 (di_resp d) (WStep 0 0)) /\ 0 < di_tdelay d /\ 1/2 < 1 - 1 / INR 4.
Proof.
  cbn zeta. set (clk := mkClock 1 (1/100) 0 (1/2) 1).
  assert (HI : exists d0 h0, ml_init [] clk 1 [4%nat] None [] = Ok (d0, h0)) by (unfold ml_init, dc_init; cbn; rewrite Rlt_bool_false by lra; cbn; eauto).
  destruct HI as (d0 & h0 & HI). destruct (ml_init_ok _ _ _ _ _ _ _ _ HI) as (W & HM & Hc & Hk & Hlen & HF & Ho & Hi8 & _ & Hr).
  assert (HD : exists d h1, di_init h0 1 d0 None false [] (1/8) = Ok (d, h1)) by (unfold di_init; rewrite Rlt_bool_false by lra; cbn; eauto).
  destruct HD as (d & h1 & HD). destruct (di_init_ok _ _ _ _ _ _ _ _ _ W (Forall_nil _) HD) as (DW & E1 & E2 & E3 & E4 & E5 & E6 & E7 & E8 & E9 & E10 & E11).
  exists d0, h0, d, h1. split; [assumption|]. split; [assumption|]. split; [assumption|].
  split; [constructor; [exact I|constructor; [cbn; lia|constructor]]|].
  split; [unfold matches; rewrite Hr; cbn; rewrite Rminus_0_r, Rabs_R0, Hc; cbn; lra|].
  split; [unfold on_phase, allclose; apply Rle_bool_true; rewrite E4, E3, Hc; cbn; rewrite Rminus_0_r, Rabs_R0; lra|].
  split; [assumption|]. split; [unfold di_M; rewrite E2; lia|]. split; [rewrite E4; exact I|]. split; [rewrite E8; lra|]. cbn. lra.
Qed.
(** C10, C12: a control with too short an observation. *)
Example C10_short_ex : let clk := mkClock 1 (1/100) 0 (1/2) 1 in exists d h, wf d h /\ (length [1] < d_M d)%nat /\ matches d (length [1]) 0.
Proof.
  cbn zeta. set (clk := mkClock 1 (1/100) 0 (1/2) 1).
  assert (HI : exists d0 h1, dc_init [] clk 2 None 0 None = Ok (d0, h1)) by (unfold dc_init; rewrite Rlt_bool_false by lra; cbn; eauto).
  destruct HI as (d0 & h1 & HI). destruct (dc_init_ok _ _ _ _ _ _ _ _ HI) as (W & HM & Hc & Htd & Hk & Hr & Ho & _).
  exists d0, h1. split; [assumption|]. split; [rewrite HM; cbn; lia|]. unfold matches. rewrite Hr, Hc. cbn. rewrite Rminus_0_r, Rabs_R0. lra.
Qed.
