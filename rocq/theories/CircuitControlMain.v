(** What the digital controls do. *)
From Coq Require Import String Ascii List Bool Arith Reals Lia Lra.
From Verif Require Import Base LinAlg FirExtras Netlist NetlistProofs NetlistTree AnalogSystem AnalogProofs IntegratorsProofs Circuits CircuitProofs CircuitControl XspiceLaws CircuitControlProofs CircuitControlSem CircuitControlTop.
Import ListNotations.
Open Scope R_scope.

Lemma f2_map {X Y Z} (P : Y -> Z -> Prop) (f : X -> Y) (g : X -> Z) l : Forall2 P (map f l) (map g l) -> forall x, In x l -> P (f x) (g x).
Proof. induction l as [|a l IH]; cbn; intro H; [intros x []|]. apply f2_cons in H. destruct H as [H1 H2]. intros x [<-|Hx]; auto. Qed.
Lemma dv_ext (va va' : string -> R -> R) f n t : (forall p i, (i < n)%nat -> va' (labname (f p i)) t = va (labname (f p i)) t) -> dv va' f n t = dv va f n t.
Proof. intro H. unfold dv. apply map_ext_in. intros i Hi. apply in_seq in Hi. now rewrite !H by lia. Qed.
Lemma pin_X N L M p i : (i < N)%nat -> In (B (XX p i)) (dpins N L M).
Proof. intro H. unfold dpins, dc_pins. apply in_map. apply in_or_app. right. apply in_or_app. destruct p; [left; apply in_map, in_seq; lia|right; apply in_or_app; left; apply in_map, in_seq; lia]. Qed.
Lemma pin_I N L M p i : (i < L)%nat -> In (B (IN p i)) (dpins N L M).
Proof.
  intro H. unfold dpins, dc_pins. apply in_map. apply in_or_app. right. apply in_or_app. right. apply in_or_app. right. apply in_or_app.
  destruct p; [left; apply in_map, in_seq; lia|right; apply in_or_app; left; apply in_map, in_seq; lia].
Qed.
Lemma pin_S N L M p i : (i < M)%nat -> In (B (SS p i)) (dpins N L M).
Proof.
  intro H. unfold dpins, dc_pins. apply in_map. apply in_or_app. right. apply in_or_app. right. apply in_or_app. right. apply in_or_app. right. apply in_or_app. right. apply in_or_app.
  destruct p; [left; apply in_map, in_seq; lia|right; apply in_map, in_seq; lia].
Qed.
Lemma pin_4 N L M l : In l [B VSS; B VDD; B CLK; B VCM] -> In l (dpins N L M).
Proof. cbn. tauto. Qed.

(** a clock that is low before [t0], high until [tf], then low *)
Lemma latched_shape ck t0 tf t1 e : 0 < e -> t0 < tf <= t1 -> (forall s, t0 - e < s < t0 -> ck s = false) -> (forall s, t0 < s < tf -> ck s = true) -> (forall s, tf < s < t1 -> ck s = false) -> latched ck t0 t1.
Proof.
  intros He Htf Hlo Hhi Hlo'. split; [lra|]. split.
  - pose proof (Rmin_l e (tf - t0)). pose proof (Rmin_r e (tf - t0)). exists (Rmin e (tf - t0)). split; [apply Rmin_glb_lt; lra|]. split; intros s Hs; [apply Hlo|apply Hhi]; lra.
  - intros s Hs (e' & He' & R1 & R2). destruct (Rlt_le_dec s tf) as [L|L].
    + pose proof (Rmax_l ((t0 + s) / 2) (s - e' / 2)). pose proof (Rmax_r ((t0 + s) / 2) (s - e' / 2)). assert (Rmax ((t0 + s) / 2) (s - e' / 2) < s) by (apply Rmax_lub_lt; lra).
      specialize (R1 (Rmax ((t0 + s) / 2) (s - e' / 2)) ltac:(lra)). rewrite Hhi in R1 by lra. discriminate R1.
    + pose proof (Rmin_l ((t1 + s) / 2) (s + e' / 2)). pose proof (Rmin_r ((t1 + s) / 2) (s + e' / 2)). assert (s < Rmin ((t1 + s) / 2) (s + e' / 2)) by (apply Rmin_glb_lt; lra).
      specialize (R2 (Rmin ((t1 + s) / 2) (s + e' / 2)) ltac:(lra)). rewrite Hlo' in R2 by lra. discriminate R2.
Qed.

(** what the rest of the system sees of control [m], the clock of its comparator being the voltage [cv] *)
Definition follows (S : asys Rring) (ih il oh ol : R) (va : string -> R -> R) (cv : R -> R) (m mt : nat) : Prop :=
  exists ck, (forall t, threshold il ih (cv t - va "VCM"%string t) (ck t)) /\
    forall t0 o, control_observation S (dv va XX (sN S) t0) (Some (dv va IN (sL S) t0)) (Some (dv va SS (sM S) t0)) = Ok o ->
    exists q, threshold il ih (nth mt o 0 + (oh + ol) / 2 - va "VCM"%string t0) q /\ forall t1, latched ck t0 t1 ->
      va (labname (SS true m)) t1 = (if q then oh else ol) /\ va (labname (SS false m)) t1 = (if q then ol else oh).
Lemma follows_ext S ih il oh ol va va' cv cv' m mt : (forall l, In l (dpins (sN S) (sL S) (sM S)) -> l <> B CLK -> forall t, va' (dlabname l) t = va (dlabname l) t) ->
  (forall t, cv' t = cv t) -> (m < sM S)%nat -> follows S ih il oh ol va' cv' m mt -> follows S ih il oh ol va cv m mt.
Proof.
  intros H Hc Hm (ck & H1 & H2). exists ck.
  assert (HV : forall t, va' "VCM"%string t = va "VCM"%string t) by (intro t; apply (H (B VCM)); [apply pin_4; cbn; tauto|discriminate]).
  assert (HS : forall p t, va' (labname (SS p m)) t = va (labname (SS p m)) t) by (intros p t; apply (H (B (SS p m))); [now apply pin_S|discriminate]).
  split; [intro t; rewrite <- Hc, <- HV; apply H1|]. intros t0 o Ho. rewrite <- HV. destruct (H2 t0 o) as (q & Hq & Hh); [|exists q; split; [exact Hq|intros t1 Hl; rewrite <- !HS; now apply Hh]]. rewrite <- Ho. f_equal; [|f_equal|f_equal].
  - apply dv_ext. intros p i Hi. apply (H (B (XX p i))); [now apply pin_X|discriminate].
  - apply dv_ext. intros p i Hi. apply (H (B (IN p i))); [now apply pin_I|discriminate].
  - apply dv_ext. intros p i Hi. apply (H (B (SS p i))); [now apply pin_S|discriminate].
Qed.

Section Inner.
Variable anon : dcid -> nat -> string.
Variable S : asys Rring.
Hypothesis V : valid S.
Variables T ih il oh ol : R.
Variable off : nat.
Variable l : list dckt.
Hypothesis Hl : mics S T ih il oh ol off = Ok l.
Variable ds : list dcomp.
Hypothesis Hds : forall c, In c ds -> dly_leaf c.
Variable calls : list (dterm * dterm).
Let k := ctl S off l ds calls.
Variable cards : list dmod.
Variable defs : list dckt.
Hypothesis HC : forall nm p, card (dcards k) nm = Some p -> card cards nm = Some p.
Hypothesis HD : forall nm d, sub_def (ddefs k) nm = Some d -> sub_def defs nm = Some d.
Variables (va : string -> R -> R) (vd : string -> R -> bool).
Variable n : nat.
Hypothesis Hsat : sat anon cards defs (Datatypes.S (Datatypes.S n)) k va vd.
Variable m : nat.
Hypothesis Hm : (off <= m < sM S)%nat.
Variable clk : string.
Hypothesis Hclk : dnode anon k (DPin (Mic m) (B CLK)) = clk.
Hypothesis Hpin : forall x, In x (dpins (sN S) (sL S) (sM S)) -> x <> B CLK -> dnode anon k (DPin (Mic m) x) = dlabname x.

Lemma inner_follows : follows S ih il oh ol va (va clk) m (m - off).
Proof.
  destruct (all_ok_spec _ _ _ _ Hl) as [_ H2]. destruct (H2 (m - off)%nat) as (d & D1 & D2); [lia|]. replace (off + (m - off))%nat with m in D2 by lia.
  destruct (mic_inv _ _ _ _ _ _ _ _ _ D2) as (G & EG & Hr & Ed).
  destruct Hsat as [_ Hs]. 
  assert (Hline : In (demit anon k (Inst (Mic m) d)) (dlines anon k)).
  { apply (in_map (demit anon k)). cbn [k ctl d_comps]. apply in_or_app. left. apply insts_in. exists (m - off)%nat, d. split; [exact D1|]. do 2 f_equal. lia. }
  cbn [demit] in Hline. destruct (Hs _ _ _ Hline) as (d' & va' & vd' & Ed' & Ag & Hs').
  assert (Hd' : d' = d).
  { pose proof (def_mic S T ih il oh ol off l Hl ds Hds calls (m - off) d D1) as E. replace (off + (m - off))%nat with m in E by lia. apply HD in E.
    rewrite Ed in Ed'. cbn [d_name] in Ed'. rewrite E in Ed'. congruence. }
  subst d'. clear Ed' Hline Hs.
  assert (Ag1 : forall x, In x (dpins (sN S) (sL S) (sM S)) -> forall t, va' (dlabname x) t = va (dnode anon k (DPin (Mic m) x)) t).
  { intros x Hx t. rewrite Ed, mic_formals in Ag. cbn [d_terms] in Ag. apply (f2_map _ _ _ _ Ag x Hx t). }
  assert (H0 : (0 < sM S - off)%nat) by lia.
  destruct (cards_cmp S T ih il oh ol off l Hl ds Hds calls H0) as (C1 & C2 & C3). apply HC in C1, C2, C3.
  destruct (mic_sem anon cards defs S V T ih il oh ol m (m - off)) with (n := n) (k := d) (va := va') (vd := vd') as (ck & K1 & K2); try solve [eauto 8].
  - intros G' EG'. apply HC. apply (cards_sum S T ih il oh ol off l Hl ds Hds calls); [lia|exact EG'].
  - apply HD. now apply (def_cmp S T ih il oh ol off l Hl ds Hds calls).
  - apply (follows_ext S ih il oh ol va va' (va clk) (va' "CLK"%string)); [|intro t; rewrite <- Hclk; apply (Ag1 (B CLK)), pin_4; cbn; tauto|lia|exists ck; split; assumption].
    intros x Hx Nx t. rewrite (Ag1 x Hx t). now rewrite (Hpin x Hx Nx).
Qed.
End Inner.

Lemma mics_ok S T ih il oh ol off l : mics S T ih il oh ol off = Ok l -> (0 < sM S - off)%nat -> (sM S - off <= sMt S)%nat.
Proof.
  intros Hl H0. destruct (all_ok_spec _ _ _ _ Hl) as [_ H2]. destruct (H2 (sM S - off - 1)%nat) as (d & _ & D2); [lia|].
  destruct (mic_inv _ _ _ _ _ _ _ _ _ D2) as (G & EG & Hr & _). unfold sMt. rewrite EG. lia.
Qed.
Lemma mics_iff S T ih il oh ol off : (exists l, mics S T ih il oh ol off = Ok l) <-> (sM S - off <= sMt S)%nat.
Proof.
  split.
  - intros [l Hl]. destruct (Nat.eq_dec (sM S - off) 0) as [->|N]; [lia|]. eapply mics_ok; [exact Hl|lia].
  - intro H. apply all_ok_ok. intros i Hi. unfold mic_ckt, sMt in *. destruct (aGt S) as [G|]; [|lia].
    destruct (Nat.ltb_spec (off + i - off) (rows G)); [eexists; reflexivity|lia].
Qed.

(** ** [DigitalControl] *)
Definition ctl_root (t : dterm) : dterm := match t with DPin (Mic _) x => DOwn x | t => t end.
Lemma control_inv S T ih il oh ol off k : control_ckt S T ih il oh ol off = Ok k -> exists l, mics S T ih il oh ol off = Ok l /\ (sMt S <= sM S - off)%nat /\
  k = ctl S off l [] (flat_map (fun mt => mic_calls (sN S) (sL S) (sM S) (off + mt)) (seq 0 (sMt S))).
Proof.
  unfold control_ckt. destruct (mics S T ih il oh ol off) as [l|] eqn:E; cbn [bind]; [|discriminate]. destruct (Nat.ltb_spec (length l) (sMt S)) as [|H]; [discriminate|].
  intro H'. apply ok_inj in H'. exists l. split; [reflexivity|]. rewrite (l_len _ _ _ _ _ _ _ _ E) in H. split; [exact H|]. unfold ctl. rewrite app_nil_r. now subst k.
Qed.
Lemma control_rooted anon N L M off Mt nm ts cs : rooted anon (Dckt nm ts cs (flat_map (fun mt => mic_calls N L M (off + mt)) (seq 0 Mt))) ctl_root.
Proof.
  intros a b H. cbn [d_calls] in H. apply in_flat_map in H. destruct H as (mt & _ & H). apply in_app_or in H. destruct H as [H|H].
  - cbn [In] in H. repeat (destruct H as [H|H]; [injection H as <- <-; repeat split; discriminate|]). destruct H.
  - apply bus_spec in H. destruct H as (x & -> & -> & Hx & _). repeat split; try discriminate. cbn. now apply labname_nonempty.
Qed.
Theorem control_follows anon S T ih il oh ol off k cards defs va vd n m : valid S -> control_ckt S T ih il oh ol off = Ok k ->
  (forall nm p, card (dcards k) nm = Some p -> card cards nm = Some p) -> (forall nm d, sub_def (ddefs k) nm = Some d -> sub_def defs nm = Some d) ->
  sat anon cards defs (Datatypes.S (Datatypes.S n)) k va vd -> (off <= m < sM S)%nat -> follows S ih il oh ol va (va "CLK"%string) m (m - off).
Proof.
  intros V Hk HC HD Hs Hm. destruct (control_inv _ _ _ _ _ _ _ _ Hk) as (l & Hl & HMt & ->).
  assert (Hle := mics_ok _ _ _ _ _ _ _ _ Hl ltac:(lia)).
  assert (P : forall x, In x (dpins (sN S) (sL S) (sM S)) -> dnode anon (ctl S off l [] (flat_map (fun mt => mic_calls (sN S) (sL S) (sM S) (off + mt)) (seq 0 (sMt S)))) (DPin (Mic m) x) = dlabname x).
  { intros x Hx. unfold ctl.
    assert (R := control_rooted anon (sN S) (sL S) (sM S) off (sMt S) "digital_control" (dpins (sN S) (sL S) (sM S)) (mic_insts off l ++ [])).
    rewrite (dnode_second anon _ _ R (DOwn x) (DPin (Mic m) x)); [reflexivity|]. cbn [d_calls]. apply in_flat_map. exists (m - off)%nat. split; [apply in_seq; lia|].
    replace (off + (m - off))%nat with m by lia. apply in_or_app. destruct (dpins_cases _ _ _ _ Hx) as [H|(y & -> & H)]; [left; cbn in H |- *|right; apply H].
    destruct H as [<-|[<-|[<-|[<-|[]]]]]; unfold down; tauto. }
  apply (inner_follows anon S V T ih il oh ol off l Hl [] ltac:(intros c []) _ cards defs HC HD va vd n Hs m Hm "CLK"%string); [|intros x Hx _; now apply P].
  apply (P (B CLK)), pin_4. cbn. tauto.
Qed.

(** ** [MultiPhaseDigitalControl] *)
Definition phase_root (t : dterm) : dterm :=
  match t with
  | DPin (Mic m) (B CLK) => DOwn (LClkm m)
  | DPin (Mic m) x => DOwn x
  | DPin (Dly m) LIn => DOwn (B CLK)
  | DPin (Dly m) LOut => DOwn (LClkm m)
  | DPin (Dly m) LCntrl => DOwn (B VDD)
  | t => t
  end.
Lemma phase_rooted anon N L M off Mt nm ts cs : rooted anon (Dckt nm ts cs (flat_map (fun mt => dly_calls N L M (off + mt)) (seq 0 Mt))) phase_root.
Proof.
  intros a b H. cbn [d_calls] in H. apply in_flat_map in H. destruct H as (mt & _ & H). apply in_app_or in H. destruct H as [H|H].
  - cbn [In] in H. repeat (destruct H as [H|H]; [injection H as <- <-; repeat split; discriminate|]). destruct H.
  - apply bus_spec in H. destruct H as (x & -> & -> & Hx & Nx). repeat split; try discriminate; [destruct x; try reflexivity; congruence|]. cbn. now apply labname_nonempty.
Qed.
Lemma phase_inv S T t0 ih il oh ol off k : phase_ckt S T t0 ih il oh ol off = Ok k -> exists l ds, mics S T ih il oh ol off = Ok l /\ dlys t0 off (sM S) = Ok ds /\ (sMt S <= sM S - off)%nat /\
  k = ctl S off l ds (flat_map (fun mt => dly_calls (sN S) (sL S) (sM S) (off + mt)) (seq 0 (sMt S))).
Proof.
  unfold phase_ckt. destruct (mics S T ih il oh ol off) as [l|] eqn:E; cbn [bind]; [|discriminate]. destruct (dlys t0 off (sM S)) as [ds|] eqn:E2; cbn [bind]; [|discriminate].
  destruct (Nat.ltb_spec (length l) (sMt S)) as [|H]; [discriminate|]. intro H'. apply ok_inj in H'. exists l, ds. split; [reflexivity|]. split; [reflexivity|].
  rewrite (l_len _ _ _ _ _ _ _ _ E) in H. split; [exact H|]. unfold ctl. now subst k.
Qed.
Lemma dlys_in t0 off M ds : dlys t0 off M = Ok ds -> forall c, In c ds <-> exists m d, (off <= m < M)%nat /\ nth_error t0 m = Some d /\ c = Leaf (Dly m) KDly (dly_model m d).
Proof.
  intros H c. destruct (all_ok_spec _ _ _ _ H) as [H1 H2]. split.
  - intro Hc. apply In_nth_error in Hc. destruct Hc as (i & Hi). assert (Li : (i < M - off)%nat) by (rewrite <- H1; apply nth_error_Some; congruence).
    destruct (H2 i Li) as (c' & D1 & D2). rewrite Hi in D1. injection D1 as <-. destruct (nth_error t0 (off + i)) as [d|] eqn:E; [|discriminate]. injection D2 as <-.
    exists (off + i)%nat, d. split; [lia|auto].
  - intros (m & d & Hm & Hd & ->). destruct (H2 (m - off)%nat) as (c' & D1 & D2); [lia|]. replace (off + (m - off))%nat with m in D2 by lia. rewrite Hd in D2. apply ok_inj in D2.
    subst c'. eapply nth_error_In. exact D1.
Qed.
Theorem phase_follows anon S T t0 ih il oh ol off k cards defs va vd n m : valid S -> phase_ckt S T t0 ih il oh ol off = Ok k ->
  (forall nm p, card (dcards k) nm = Some p -> card cards nm = Some p) -> (forall nm d, sub_def (ddefs k) nm = Some d -> sub_def defs nm = Some d) ->
  sat anon cards defs (Datatypes.S (Datatypes.S n)) k va vd -> (off <= m < sM S)%nat ->
  follows S ih il oh ol va (fun t => va "CLK"%string (t - nth m t0 0)) m (m - off).
Proof.
  intros V Hk HC HD Hs Hm. destruct (phase_inv _ _ _ _ _ _ _ _ _ Hk) as (l & ds & Hl & Hds & HMt & ->).
  assert (Hle := mics_ok _ _ _ _ _ _ _ _ Hl ltac:(lia)).
  assert (Hdl : forall c, In c ds -> dly_leaf c). { intros c Hc. apply (dlys_in _ _ _ _ Hds) in Hc. destruct Hc as (m' & d & _ & _ & ->). now exists m', d. }
  assert (Hd : exists d, nth_error t0 m = Some d).
  { destruct (all_ok_spec _ _ _ _ Hds) as [_ H2]. destruct (H2 (m - off)%nat) as (c & _ & D); [lia|]. replace (off + (m - off))%nat with m in D by lia. destruct (nth_error t0 m); [eauto|discriminate]. }
  destruct Hd as [d Hd].
  set (calls := flat_map (fun mt => dly_calls (sN S) (sL S) (sM S) (off + mt)) (seq 0 (sMt S))) in *. set (k := ctl S off l ds calls) in *.
  assert (R : rooted anon k phase_root) by apply phase_rooted.
  assert (Inc : forall c, In c (dly_calls (sN S) (sL S) (sM S) m) -> In c (d_calls k)).
  { intros c Hc. cbn [d_calls k ctl]. apply in_flat_map. exists (m - off)%nat. split; [apply in_seq; lia|]. now replace (off + (m - off))%nat with m by lia. }
  assert (Pc : dnode anon k (DPin (Mic m) (B CLK)) = dlabname (LClkm m)).
  { apply (dnode_second anon _ _ R (DOwn (LClkm m))). apply Inc. cbn. unfold down. tauto. }
  assert (P : forall x, In x (dpins (sN S) (sL S) (sM S)) -> x <> B CLK -> dnode anon k (DPin (Mic m) x) = dlabname x).
  { intros x Hx Nx. apply (dnode_second anon _ _ R (DOwn x)). apply Inc. apply in_or_app. destruct (dpins_cases _ _ _ _ Hx) as [H|(y & -> & H)]; [left; cbn in H |- *|right; apply H].
    destruct H as [<-|[<-|[<-|[<-|[]]]]]; unfold down; tauto. }
  assert (F := inner_follows anon S V T ih il oh ol off l Hl ds Hdl calls cards defs HC HD va vd n Hs m Hm _ Pc P).
  assert (Hc : forall t, va (dlabname (LClkm m)) t = va "CLK"%string (t - nth m t0 0)).
  { destruct Hs as [Hs _]. assert (Hi : In (Leaf (Dly m) KDly (dly_model m d)) ds) by (apply (dlys_in _ _ _ _ Hds); eauto 6).
    assert (Hline : In (demit anon k (Leaf (Dly m) KDly (dly_model m d))) (dlines anon k)) by (apply (in_map (demit anon k)); cbn [k ctl d_comps]; apply in_or_app; now right).
    specialize (Hs _ Hline). cbn [demit law m_name dly_model] in Hs. rewrite (HC _ (PDly d)) in Hs.
    - rewrite (dnode_second anon _ _ R (DOwn (B CLK)) (DPin (Dly m) LIn)) in Hs by (apply Inc; cbn; unfold down; tauto).
      rewrite (dnode_second anon _ _ R (DOwn (LClkm m)) (DPin (Dly m) LOut)) in Hs by (apply Inc; cbn; unfold down; tauto).
      intro t. rewrite (nth_error_nth t0 m 0 Hd). apply Hs.
    - apply (cards_dly S T ih il oh ol off l Hl ds Hdl calls m d Hi). intros d' Hd'. apply (dlys_in _ _ _ _ Hds) in Hd'. destruct Hd' as (m' & d'' & _ & E & E').
      injection E' as <- E'. cbn in E'. unfold dly_model in *. congruence. }
  apply (follows_ext S ih il oh ol va va _ (va (dlabname (LClkm m)))); auto; lia.
Qed.
