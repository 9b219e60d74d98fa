(** The dither control circuit; construction errors of all controls. *)
From Coq Require Import String Ascii List Bool Arith Reals Lia Lra.
From Verif Require Import Base LinAlg FirExtras Netlist NetlistProofs NetlistTree AnalogSystem AnalogProofs IntegratorsProofs Circuits CircuitProofs CircuitControl XspiceLaws CircuitControlProofs CircuitControlSem CircuitControlTop CircuitControlMain.
Import ListNotations.
Open Scope R_scope.

(** ** Errors *)
Theorem control_ok_iff S T ih il oh ol off : (exists k, control_ckt S T ih il oh ol off = Ok k) <-> (sM S - off = sMt S)%nat.
Proof.
  split.
  - intros [k Hk]. destruct (control_inv _ _ _ _ _ _ _ _ Hk) as (l & Hl & H & _). assert (sM S - off <= sMt S)%nat by (apply (mics_iff S T ih il oh ol off); eauto). lia.
  - intro H. destruct (proj2 (mics_iff S T ih il oh ol off)) as [l Hl]; [lia|]. unfold control_ckt. rewrite Hl. cbn [bind]. rewrite (l_len _ _ _ _ _ _ _ _ Hl).
    destruct (Nat.ltb_spec (sM S - off) (sMt S)); [lia|eauto].
Qed.
Lemma all_ok_exn {X} (f : nat -> result X) (P : exn -> Prop) n : forall a e, (forall i e', (i < n)%nat -> f (a + i)%nat = Exn e' -> P e') -> all_ok (map f (seq a n)) = Exn e -> P e.
Proof.
  induction n as [|n IH]; intros a e H; cbn [seq map all_ok]; [discriminate|]. destruct (f a) as [x|e'] eqn:E; cbn [bind].
  - destruct (all_ok (map f (seq (S a) n))) as [xs|e'] eqn:E2; cbn [bind]; [discriminate|]. intros [= <-]. apply (IH (S a) e'); [|exact E2].
    intros i e'' Hi Hf. apply (H (S i) e''); [lia|]. rewrite <- Hf. f_equal. lia.
  - intros [= <-]. apply (H O); [lia|]. now rewrite Nat.add_0_r.
Qed.
Theorem control_error S T ih il oh ol off e : aGt S <> None -> control_ckt S T ih il oh ol off = Exn e -> e = IndexError.
Proof.
  intro NG. unfold control_ckt. destruct (mics S T ih il oh ol off) as [l|e'] eqn:E; cbn [bind].
  - destruct (Nat.ltb (length l) (sMt S)); [now intros [= <-]|discriminate].
  - intros [= <-]. revert E. unfold mics. apply (all_ok_exn _ (fun e => e = IndexError)). intros i e Hi. unfold mic_ckt. destruct (aGt S); [|contradiction]. destruct (Nat.ltb _ _); [discriminate|now intros [= <-]].
Qed.
(** the delays are read at the index of the control, not of the comparator *)
Theorem phase_ok_iff S T t0 ih il oh ol off : (exists k, phase_ckt S T t0 ih il oh ol off = Ok k) <-> (sM S - off = sMt S)%nat /\ (sM S <= off \/ sM S <= length t0)%nat.
Proof.
  assert (D : (exists ds, dlys t0 off (sM S) = Ok ds) <-> (sM S <= off \/ sM S <= length t0)%nat).
  { split.
    - intros [ds Hds]. destruct (Nat.le_gt_cases (sM S) off) as [|Hg]; [now left|right]. destruct (all_ok_spec _ _ _ _ Hds) as [_ H2].
      destruct (H2 (sM S - off - 1)%nat) as (c & _ & E); [lia|]. destruct (nth_error t0 (off + (sM S - off - 1))) eqn:E'; [|discriminate].
      assert (off + (sM S - off - 1) < length t0)%nat by (apply nth_error_Some; congruence). lia.
    - intro H. apply all_ok_ok. intros i Hi. destruct (nth_error t0 (off + i)) eqn:E; [eauto|]. apply nth_error_None in E. lia. }
  split.
  - intros [k Hk]. destruct (phase_inv _ _ _ _ _ _ _ _ _ Hk) as (l & ds & Hl & Hds & H & _). assert (sM S - off <= sMt S)%nat by (apply (mics_iff S T ih il oh ol off); eauto).
    split; [lia|]. apply D. eauto.
  - intros [H Ht]. destruct (proj2 (mics_iff S T ih il oh ol off)) as [l Hl]; [lia|]. destruct (proj2 D Ht) as [ds Hds]. unfold phase_ckt. rewrite Hl, Hds. cbn [bind]. rewrite (l_len _ _ _ _ _ _ _ _ Hl).
    destruct (Nat.ltb_spec (sM S - off) (sMt S)); [lia|eauto].
Qed.

(** ** [DitherControl] *)
Definition dith_root (t : dterm) : dterm :=
  match t with
  | DPin Dc x => DOwn x
  | DPin ClkAdc LIn => DOwn (B CLK)
  | DPin Src (LSrc m) => DOwn (LRs m)
  | DPin (DffM m) LIn => DOwn (LRs m)
  | DPin (DffM m) (B CLK) => DPin ClkAdc LOut
  | DPin (DacM p m) LIn => DPin (DffM m) (if p then LFP else LFN)
  | DPin (DacM p m) LOut => DOwn (B (SS p m))
  | t => t
  end.
Lemma dith_rooted anon N L M K nm ts cs : rooted anon (Dckt nm ts cs (xdc_calls N L M ++ down (B CLK) ClkAdc LIn :: flat_map rnd_calls (seq 0 K))) dith_root.
Proof.
  intros a b H. cbn [d_calls] in H. apply in_app_or in H. destruct H as [H|[H|H]].
  - unfold xdc_calls in H. apply in_app_or in H. destruct H as [H|H].
    + cbn [In] in H. repeat (destruct H as [H|H]; [injection H as <- <-; repeat split; discriminate|]). destruct H.
    + apply bus_spec in H. destruct H as (x & -> & -> & Hx & _). repeat split; try discriminate. cbn. now apply labname_nonempty.
  - injection H as <- <-. repeat split; discriminate.
  - apply in_flat_map in H. destruct H as (m & _ & H). cbn [rnd_calls In] in H.
    repeat (destruct H as [H|H]; [injection H as <- <-; repeat split; discriminate|]). destruct H.
Qed.
Definition dith (N L M K : nat) (c : dither) (ih il oh ol : R) (w : timing) (dc : dckt) : dckt :=
  Dckt "dither_control" (dpins N L M)
    (Inst Dc dc :: Leaf Src (KSrc K) (src_model (d_T c) (d_seq c)) :: Leaf ClkAdc KAdcAbs (adc_model il ih (t_rdelay w) (t_fdelay w))
     :: map (fun m => Leaf (DffM m) KDff (dff_model (t_clk w) (t_set w) (t_res w) 1 (t_rdelay w) (t_fdelay w))) (seq 0 K)
     ++ map (fun m => Leaf (DacM true m) KDac (dac_model ol oh ((oh + ol) / 2) (t_load w) (t_rise w) (t_fall w))) (seq 0 K)
     ++ map (fun m => Leaf (DacM false m) KDac (dac_model ol oh ((oh + ol) / 2) (t_load w) (t_rise w) (t_fall w))) (seq 0 K))
    (xdc_calls N L M ++ down (B CLK) ClkAdc LIn :: flat_map rnd_calls (seq 0 K)).
Lemma dith_inv S c ih il oh ol w k : dither_ckt S c ih il oh ol w = Ok k -> exists dc, (d_K c <= sM S)%nat /\
  (if d_multi c then phase_ckt S (d_T c) (d_t0 c) ih il oh ol (d_K c) else control_ckt S (d_T c) ih il oh ol (d_K c)) = Ok dc /\ k = dith (sN S) (sL S) (sM S) (d_K c) c ih il oh ol w dc.
Proof.
  unfold dither_ckt. destruct (if d_multi c then _ else _) as [dc|] eqn:E; cbn [bind]; [|discriminate]. destruct (Nat.ltb_spec (sM S) (d_K c)); [discriminate|].
  intro H'. apply ok_inj in H'. exists dc. split; [lia|]. split; [reflexivity|]. now subst k.
Qed.
(** the digital control inside, in either form *)
Lemma dc_form S c ih il oh ol dc : (if d_multi c then phase_ckt S (d_T c) (d_t0 c) ih il oh ol (d_K c) else control_ckt S (d_T c) ih il oh ol (d_K c)) = Ok dc ->
  exists l ds calls, mics S (d_T c) ih il oh ol (d_K c) = Ok l /\ (forall x, In x ds -> dly_leaf x) /\ dc = ctl S (d_K c) l ds calls.
Proof.
  destruct (d_multi c); intro H.
  - destruct (phase_inv _ _ _ _ _ _ _ _ _ H) as (l & ds & Hl & Hds & _ & ->). exists l, ds. eexists. split; [exact Hl|]. split; [|reflexivity].
    intros x Hx. apply (dlys_in _ _ _ _ Hds) in Hx. destruct Hx as (m' & d & _ & _ & ->). now exists m', d.
  - destruct (control_inv _ _ _ _ _ _ _ _ H) as (l & Hl & _ & ->). exists l, []. eexists. split; [exact Hl|]. split; [intros x []|reflexivity].
Qed.
Section Dither.
Variable anon : dcid -> nat -> string.
Variable S : asys Rring.
Variable c : dither.
Variables ih il oh ol : R.
Variable w : timing.
Variable dc : dckt.
Hypothesis Hdc : (if d_multi c then phase_ckt S (d_T c) (d_t0 c) ih il oh ol (d_K c) else control_ckt S (d_T c) ih il oh ol (d_K c)) = Ok dc.
Let N := sN S. Let L := sL S. Let M := sM S. Let K := d_K c.
Let k := dith N L M K c ih il oh ol w dc.
Lemma dith_leaves : dleaves k = dleaves dc ++ src_model (d_T c) (d_seq c) :: adc_model il ih (t_rdelay w) (t_fdelay w)
  :: repeat (dff_model (t_clk w) (t_set w) (t_res w) 1 (t_rdelay w) (t_fdelay w)) K ++ repeat (dac_model ol oh ((oh + ol) / 2) (t_load w) (t_rise w) (t_fall w)) K
  ++ repeat (dac_model ol oh ((oh + ol) / 2) (t_load w) (t_rise w) (t_fall w)) K.
Proof.
  unfold k, dith. cbn [dleaves flat_map]. f_equal. cbn [app]. do 2 f_equal. rewrite !flat_map_app.
  assert (E : forall (g : nat -> dcid) lf (x : dmod) a n, flat_map (fun c => match c with Leaf _ _ m => [m] | Inst _ d => dleaves d end) (map (fun m => Leaf (g m) lf x) (seq a n)) = repeat x n).
  { intros g lf x a n. revert a. induction n as [|n IH]; intro a; [reflexivity|]. cbn. now rewrite IH. }
  now rewrite !E.
Qed.
Lemma dith_cards_ext nm p : card (dcards dc) nm = Some p -> card (dcards k) nm = Some p.
Proof. rewrite !card_leaves, dith_leaves, find_app. destruct (find _ (dleaves dc)); [auto|discriminate]. Qed.
Lemma dith_defs_ext nm d : sub_def (ddefs dc) nm = Some d -> sub_def (ddefs k) nm = Some d.
Proof.
  intro H. destruct (dc_form _ _ _ _ _ _ _ Hdc) as (l & ds & calls & Hl & Hds & E). unfold sub_def in *. unfold k, dith. cbn [ddefs find d_name].
  assert (Nn : nm <> "dither_control"%string). { apply find_some in H. destruct H as [H1 H2]. apply String.eqb_eq in H2. subst nm. rewrite E in H1. exact (defs_name S (d_T c) ih il oh ol (d_K c) l Hl ds Hds calls d H1). }
  destruct (String.eqb_spec "dither_control" nm) as [E'|_]; [congruence|]. cbn [flat_map]. rewrite find_app, H. reflexivity.
Qed.
Lemma dith_node_dc x : In x (dpins N L M) -> dnode anon k (DPin Dc x) = dlabname x.
Proof.
  intro Hx. rewrite (dnode_second anon k dith_root (dith_rooted anon _ _ _ _ _ _ _) (DOwn x) (DPin Dc x)); [reflexivity|]. cbn [d_calls k dith]. apply in_or_app. left. unfold xdc_calls.
  apply in_or_app. destruct (dpins_cases _ _ _ _ Hx) as [H|(y & -> & H)]; [left; cbn in H |- *|right; apply H].
  destruct H as [<-|[<-|[<-|[<-|[]]]]]; unfold down; tauto.
Qed.
Lemma dith_pin a b m : (m < K)%nat -> In (a, b) (rnd_calls m) -> dnode anon k b = dtname anon a.
Proof.
  intros Hm H. apply (dnode_second anon k dith_root (dith_rooted anon _ _ _ _ _ _ _)). cbn [d_calls k dith]. apply in_or_app. right. right. apply in_flat_map. exists m. split; [apply in_seq; lia|exact H].
Qed.
Lemma dith_center a : dith_root a = a -> dnode anon k a = dtname anon a.
Proof. apply (dnode_root anon k dith_root (dith_rooted anon _ _ _ _ _ _ _)). Qed.

Lemma dith_card_adc : exists r f, card (dcards k) "adc" = Some (PAdc il ih r f).
Proof.
  destruct (dc_form _ _ _ _ _ _ _ Hdc) as (l & ds & calls & Hl & Hds & E). destruct (Nat.eq_dec (M - K) 0) as [Z|Z].
  - rewrite card_leaves, dith_leaves, find_app. destruct (find _ (dleaves dc)) as [x|] eqn:F; [|cbn; eauto]. exfalso.
    apply find_some in F. destruct F as [F1 F2]. rewrite E in F1. apply (leaves_in S (d_T c) ih il oh ol (d_K c) l Hl ds Hds calls) in F1. destruct F1 as [(i & G & Hi & _)|(m & d & _ & ->)]; [unfold M, K in Z; lia|]. discriminate F2.
  - destruct (cards_cmp S (d_T c) ih il oh ol (d_K c) l Hl ds Hds calls) as (C & _ & _); [unfold M, K in Z; lia|]. rewrite <- E in C. do 2 eexists. apply dith_cards_ext. exact C.
Qed.
Lemma dith_card_dff : (0 < K)%nat -> exists a b d e f g, card (dcards k) "dflip" = Some (PDff a b d e f g).
Proof.
  intro HK. destruct (dc_form _ _ _ _ _ _ _ Hdc) as (l & ds & calls & Hl & Hds & E). destruct (Nat.eq_dec (M - K) 0) as [Z|Z].
  - rewrite card_leaves, dith_leaves, find_app. destruct (find _ (dleaves dc)) as [x|] eqn:F; [|destruct K; [lia|]; cbn; eauto 8]. exfalso.
    apply find_some in F. destruct F as [F1 F2]. rewrite E in F1. apply (leaves_in S (d_T c) ih il oh ol (d_K c) l Hl ds Hds calls) in F1. destruct F1 as [(i & G & Hi & _)|(m & d & _ & ->)]; [unfold M, K in Z; lia|]. discriminate F2.
  - destruct (cards_cmp S (d_T c) ih il oh ol (d_K c) l Hl ds Hds calls) as (_ & C & _); [unfold M, K in Z; lia|]. rewrite <- E in C. do 6 eexists. apply dith_cards_ext. exact C.
Qed.
Lemma find_repeat_no {X} (P : X -> bool) x n r : P x = false -> find P (repeat x n ++ r) = find P r.
Proof. intro H. induction n; [reflexivity|]. cbn. now rewrite H. Qed.
Lemma dith_card_dac : (0 < K)%nat -> exists a b d e, card (dcards k) "dac" = Some (PDac ol oh a b d e).
Proof.
  intro HK. destruct (dc_form _ _ _ _ _ _ _ Hdc) as (l & ds & calls & Hl & Hds & E). destruct (Nat.eq_dec (M - K) 0) as [Z|Z].
  - rewrite card_leaves, dith_leaves, find_app. destruct (find _ (dleaves dc)) as [x|] eqn:F.
    + exfalso. apply find_some in F. destruct F as [F1 F2]. rewrite E in F1. apply (leaves_in S (d_T c) ih il oh ol (d_K c) l Hl ds Hds calls) in F1. destruct F1 as [(i & G & Hi & _)|(m & d & _ & ->)]; [unfold M, K in Z; lia|]. discriminate F2.
    + cbn [find m_name src_model adc_model]. cbn [String.eqb]. cbn. rewrite find_repeat_no by reflexivity. destruct K; [lia|]. cbn. eauto 8.
  - destruct (cards_cmp S (d_T c) ih il oh ol (d_K c) l Hl ds Hds calls) as (_ & _ & C); [unfold M, K in Z; lia|]. rewrite <- E in C. do 4 eexists. apply dith_cards_ext. exact C.
Qed.
Lemma dith_card_src : card (dcards k) "r_source" = Some (PSrc (d_T c) (d_seq c)).
Proof.
  destruct (dc_form _ _ _ _ _ _ _ Hdc) as (l & ds & calls & Hl & Hds & E). rewrite card_leaves, dith_leaves, find_app. destruct (find _ (dleaves dc)) as [x|] eqn:F; [|reflexivity].
  exfalso. apply find_some in F. destruct F as [F1 F2]. rewrite E in F1. apply (leaves_in S (d_T c) ih il oh ol (d_K c) l Hl ds Hds calls) in F1.
  destruct F1 as [(i & G & Hi & _ & H)|(m & d & _ & ->)]; [|discriminate F2]. cbn [cmp_leaves In] in H. destruct H as [<-|[<-|[<-|[<-|[<-|[<-|[]]]]]]]; discriminate F2.
Qed.

Variables (va : string -> R -> R) (vd : string -> R -> bool).
Hypothesis Hsol : solves anon k va vd.
Lemma dith_laws l : In l (dlines anon k) -> law (dcards k) va vd l.
Proof. exact (proj1 (Hsol O) l). Qed.

(** the deterministic controls *)
Theorem dith_follows m : valid S -> (K <= m < M)%nat -> follows S ih il oh ol va (fun t => va "CLK"%string (t - if d_multi c then nth m (d_t0 c) 0 else 0)) m (m - K).
Proof.
  intros V Hm. destruct (Hsol 3%nat) as [_ Hs]. assert (Hline : In (demit anon k (Inst Dc dc)) (dlines anon k)) by (left; reflexivity).
  cbn [demit] in Hline. destruct (Hs _ _ _ Hline) as (d & va' & vd' & Ed & Ag & Hs').
  destruct (dc_form _ _ _ _ _ _ _ Hdc) as (l & ds & calls & Hl & Hds & E).
  assert (d = dc).
  { assert (Hd : sub_def (ddefs dc) (d_name dc) = Some dc) by (rewrite E; reflexivity). apply dith_defs_ext in Hd. congruence. }
  subst d. assert (Tm : d_terms dc = dpins N L M) by (rewrite E; reflexivity).
  assert (Fm : dformals anon dc = map dlabname (dpins N L M)).
  { clear -Hdc. unfold dformals. destruct (d_multi c).
    - destruct (phase_inv _ _ _ _ _ _ _ _ _ Hdc) as (l & ds & _ & _ & _ & ->). cbn [d_terms ctl]. apply map_ext. intro x.
      apply (dnode_root anon _ phase_root (phase_rooted anon _ _ _ _ _ _ _ _) (DOwn x)). reflexivity.
    - destruct (control_inv _ _ _ _ _ _ _ _ Hdc) as (l & _ & _ & ->). cbn [d_terms ctl]. apply map_ext. intro x.
      apply (dnode_root anon _ ctl_root (control_rooted anon _ _ _ _ _ _ _ _) (DOwn x)). reflexivity. }
  rewrite Fm, Tm in Ag. assert (Ag1 : forall x, In x (dpins N L M) -> forall t, va' (dlabname x) t = va (dlabname x) t).
  { intros x Hx t. rewrite (proj1 (f2_map _ _ _ _ Ag x Hx t)). now rewrite (dith_node_dc x Hx). }
  assert (Hclk : forall t, va' "CLK"%string t = va "CLK"%string t) by (intro t; apply (Ag1 (B CLK)), pin_4; cbn; tauto).
  pose proof dith_cards_ext as Ce. pose proof dith_defs_ext as De. clear Hsol. destruct (d_multi c) eqn:Em.
  - apply (follows_ext S ih il oh ol va va' _ (fun t => va' "CLK"%string (t - nth m (d_t0 c) 0))); [intros x Hx _ t; now apply Ag1|intro t; apply Hclk|unfold M in Hm; lia|].
    apply (phase_follows anon S (d_T c) (d_t0 c) ih il oh ol (d_K c) dc (dcards k) (ddefs k) va' vd' 0 m V Hdc).
    + exact Ce.
    + exact De.
    + exact Hs'.
    + exact Hm.
  - apply (follows_ext S ih il oh ol va va' _ (va' "CLK"%string)); [intros x Hx _ t; now apply Ag1|intro t; rewrite Rminus_0_r; apply Hclk|unfold M in Hm; lia|].
    apply (control_follows anon S (d_T c) ih il oh ol (d_K c) dc (dcards k) (ddefs k) va' vd' 0 m V Hdc).
    + exact Ce.
    + exact De.
    + exact Hs'.
    + exact Hm.
Qed.

(** the random controls *)
Lemma dith_random_lines m : (m < K)%nat ->
  In (DDff (dcname (DffM m)) (dlabname (LRs m)) "OUT" "SET" "RES" "F_OUT_P" "F_OUT_N" "dflip") (dlines anon k) /\
  In (DDac (dcname (DacM true m)) "F_OUT_P" (labname (SS true m)) "dac") (dlines anon k) /\
  In (DDac (dcname (DacM false m)) "F_OUT_N" (labname (SS false m)) "dac") (dlines anon k).
Proof.
  intro Hm. repeat split.
  - replace (DDff _ _ _ _ _ _ _ _) with (demit anon k (Leaf (DffM m) KDff (dff_model (t_clk w) (t_set w) (t_res w) 1 (t_rdelay w) (t_fdelay w)))).
    + apply in_map. cbn [d_comps k dith]. do 3 right. apply in_or_app. left. apply (in_map (fun m => Leaf (DffM m) KDff _)). apply in_seq. lia.
    + cbn [demit m_name dff_model]. rewrite (dith_pin (DOwn (LRs m)) _ m Hm) by (unfold rnd_calls, down; in_calls). rewrite (dith_pin (DPin ClkAdc LOut) _ m Hm) by (unfold rnd_calls, down; in_calls).
      rewrite !dith_center by reflexivity. reflexivity.
  - replace (DDac _ _ _ _) with (demit anon k (Leaf (DacM true m) KDac (dac_model ol oh ((oh + ol) / 2) (t_load w) (t_rise w) (t_fall w)))).
    + apply in_map. cbn [d_comps k dith]. do 3 right. apply in_or_app. right. apply in_or_app. left. apply (in_map (fun m => Leaf (DacM true m) KDac _)). apply in_seq. lia.
    + cbn [demit m_name dac_model]. rewrite (dith_pin (DPin (DffM m) LFP) _ m Hm) by (unfold rnd_calls, down; in_calls). rewrite (dith_pin (DOwn (B (SS true m))) _ m Hm) by (unfold rnd_calls, down; in_calls).
      reflexivity.
  - replace (DDac _ _ _ _) with (demit anon k (Leaf (DacM false m) KDac (dac_model ol oh ((oh + ol) / 2) (t_load w) (t_rise w) (t_fall w)))).
    + apply in_map. cbn [d_comps k dith]. do 3 right. apply in_or_app. right. apply in_or_app. right. apply (in_map (fun m => Leaf (DacM false m) KDac _)). apply in_seq. lia.
    + cbn [demit m_name dac_model]. rewrite (dith_pin (DPin (DffM m) LFN) _ m Hm) by (unfold rnd_calls, down; in_calls). rewrite (dith_pin (DOwn (B (SS false m))) _ m Hm) by (unfold rnd_calls, down; in_calls).
      reflexivity.
Qed.
Lemma dith_source_lines : In (DSrc "Ars" (map (fun m => dlabname (LRs m)) (seq 0 K)) "r_source") (dlines anon k) /\ In (DAdc "Aclk_adc" "CLK" None "OUT" "adc") (dlines anon k).
Proof.
  split.
  - replace (DSrc _ _ _) with (demit anon k (Leaf Src (KSrc K) (src_model (d_T c) (d_seq c)))); [right; left; reflexivity|].
    cbn [demit m_name src_model]. f_equal. apply map_ext_in. intros m Hm. apply in_seq in Hm. apply (dith_pin (DOwn (LRs m)) _ m); [lia|]. unfold rnd_calls, down; in_calls.
  - replace (DAdc _ _ _ _ _) with (demit anon k (Leaf ClkAdc KAdcAbs (adc_model il ih (t_rdelay w) (t_fdelay w)))); [do 2 right; left; reflexivity|].
    cbn [demit m_name adc_model]. f_equal.
    + apply (dnode_second anon k dith_root (dith_rooted anon _ _ _ _ _ _ _) (DOwn (B CLK)) (DPin ClkAdc LIn)). cbn [d_calls k dith]. apply in_or_app. right. left. reflexivity.
    + now rewrite dith_center.
Qed.
Theorem dith_random : (0 < K)%nat -> exists ck, (forall t, threshold il ih (va "CLK"%string t) (ck t)) /\
  forall m t0 t1 j, (m < K)%nat -> latched ck t0 t1 -> INR j * d_T c <= t0 < (INR j + 1) * d_T c ->
    va (labname (SS true m)) t1 = (if d_seq c j m then oh else ol) /\ va (labname (SS false m)) t1 = (if d_seq c j m then ol else oh).
Proof.
  intro HK. destruct dith_card_adc as (r1 & r2 & E1), (dith_card_dff HK) as (q1 & q2 & q3 & q4 & q5 & q6 & E2), (dith_card_dac HK) as (w1 & w2 & w3 & w4 & E3).
  pose proof dith_card_src as E4. destruct dith_source_lines as [Ls La]. apply dith_laws in Ls. apply dith_laws in La. cbn [law] in Ls, La. rewrite E4 in Ls. rewrite E1 in La.
  exists (vd "OUT"%string). split; [intro t; specialize (La t); cbv zeta in La; rewrite Rminus_0_r in La; exact La|]. intros m t0 t1 j Hm Hl Hj.
  destruct (dith_random_lines m Hm) as (Lf & Lp & Ln). apply dith_laws in Lf, Lp, Ln. cbn [law] in Lf, Lp, Ln. rewrite E2 in Lf. rewrite E3 in Lp, Ln.
  destruct (Lf t0 t1 Hl) as [Q Qn]. rewrite Lp, Ln, Q, Qn. rewrite (Ls m j t0 (dlabname (LRs m))); [|rewrite nth_error_map, (nth_error_nth' _ O) by (rewrite seq_length; lia); rewrite seq_nth by lia; reflexivity|exact Hj].
  destruct (d_seq c j m); auto.
Qed.
(** all outputs of the random controls are on the same pair of nets *)
Theorem dith_short m m' : (m < K)%nat -> (m' < K)%nat -> forall t, va (labname (SS true m)) t = va (labname (SS true m')) t /\ va (labname (SS false m)) t = va (labname (SS false m')) t.
Proof.
  intros Hm Hm' t. destruct dith_card_dac as (w1 & w2 & w3 & w4 & E3); [lia|].
  destruct (dith_random_lines m Hm) as (_ & Lp & Ln), (dith_random_lines m' Hm') as (_ & Lp' & Ln'). apply dith_laws in Lp, Ln, Lp', Ln'. cbn [law] in Lp, Ln, Lp', Ln'. rewrite E3 in Lp, Ln, Lp', Ln'.
  now rewrite Lp, Ln, Lp', Ln'.
Qed.
End Dither.

(** ** Which model cards are emitted *)
Lemma known_leaf (x y : dmod) k : In y (dleaves k) -> dm_eqb x y = true -> known dm_eqb x (dcards k) = true.
Proof.
  intros H E. unfold known. assert (F : find (fun z => dm_eqb x z) (dcards k) <> None).
  { rewrite find_cards.
    - destruct (find _ (dleaves k)) eqn:F; [discriminate|]. pose proof (find_none _ _ F y H) as C. cbn in C. congruence.
    - intros a b Eab. unfold dm_eqb in *. apply andb_true_iff in Eab. destruct Eab as [E1 E2]. apply String.eqb_eq in E1, E2. now rewrite E1, E2. }
  destruct (find _ (dcards k)) as [z|] eqn:F'; [|contradiction]. apply find_some in F'. apply existsb_exists. now exists z.
Qed.
Lemma app_new_grow (x : dmod) l : forall acc, known dm_eqb x acc = true -> known dm_eqb x (app_new dm_eqb acc l) = true.
Proof.
  induction l as [|y l IH]; intros acc H; [exact H|]. cbn. apply IH. destruct (existsb _ acc); [exact H|]. unfold known in *. rewrite existsb_app, H. reflexivity.
Qed.
Lemma app_new_has (x : dmod) l : forall acc, known dm_eqb x l = true -> known dm_eqb x (app_new dm_eqb acc l) = true.
Proof.
  induction l as [|y l IH]; intros acc H; [discriminate|]. cbn [known existsb] in H. apply orb_true_iff in H. cbn [app_new fold_left]. destruct H as [H|H]; [|now apply IH].
  apply app_new_grow. destruct (existsb (fun y0 => dm_eqb y y0) acc) eqn:E.
  - apply existsb_exists in E. destruct E as (z & Hz & E). apply existsb_exists. exists z. split; [exact Hz|]. unfold dm_eqb in *. apply andb_true_iff in H, E. destruct H as [H1 H2], E as [E1 E2].
    apply String.eqb_eq in H1, H2, E1, E2. rewrite H1, H2, E1, E2, !String.eqb_refl. reflexivity.
  - unfold known. rewrite existsb_app. cbn. rewrite H, orb_true_r. reflexivity.
Qed.
Lemma fold_known (f : tree dpar -> list dmod) ks : forall acc, (forall t, In t ks -> forall x, In x (f t) -> known dm_eqb x acc = true) -> fold_left (fun acc t => app_new dm_eqb acc (f t)) ks acc = acc.
Proof.
  induction ks as [|t ks IH]; intros acc H; [reflexivity|]. cbn [fold_left]. assert (E : forall l, (forall x, In x l -> known dm_eqb x acc = true) -> app_new dm_eqb acc l = acc).
  { induction l as [|x l IHl]; intro G; [reflexivity|]. cbn [app_new fold_left]. pose proof (G x (or_introl eq_refl)) as Gx. unfold known in Gx. rewrite Gx. apply IHl. intros y Hy. apply G. now right. }
  rewrite E by (apply (H t); now left). apply IH. intros t' Ht'. apply H. now right.
Qed.
Lemma fold_same (x : dmod) n : forall a acc, fold_left (fun acc t => app_new dm_eqb acc (model_set t)) (map (fun _ => Comp (Some x)) (seq a (S n))) acc = app_new dm_eqb acc [x].
Proof.
  intros a acc. cbn [seq map fold_left]. apply (fold_known model_set). intros t Ht y Hy. apply in_map_iff in Ht. destruct Ht as (m & <- & _). destruct Hy as [<-|[]]. apply app_new_has. cbn. unfold dm_eqb. now rewrite !String.eqb_refl.
Qed.
Theorem dith_cards S c ih il oh ol w dc : (if d_multi c then phase_ckt S (d_T c) (d_t0 c) ih il oh ol (d_K c) else control_ckt S (d_T c) ih il oh ol (d_K c)) = Ok dc ->
  (d_K c < sM S)%nat -> dcards (dith (sN S) (sL S) (sM S) (d_K c) c ih il oh ol w dc) = app_new dm_eqb (app_new dm_eqb [] (dcards dc)) [src_model (d_T c) (d_seq c)].
Proof.
  intros Hdc HK. destruct (dc_form _ _ _ _ _ _ _ Hdc) as (l & ds & calls & Hl & Hds & E).
  assert (Kn : forall x y, In y (cmp_leaves (d_T c) ih il oh ol) -> dm_eqb x y = true -> known dm_eqb x (app_new dm_eqb (app_new dm_eqb [] (dcards dc)) [src_model (d_T c) (d_seq c)]) = true).
  { intros x y Hy Exy. apply app_new_grow, app_new_has. apply (known_leaf x y); [|exact Exy]. rewrite E. apply (leaves_in S (d_T c) ih il oh ol (d_K c) l Hl ds Hds calls). left.
    destruct (nth_error l 0) as [d|] eqn:Ed; [|apply nth_error_None in Ed; rewrite (l_len _ _ _ _ _ _ _ _ Hl) in Ed; lia]. destruct (l_nth _ _ _ _ _ _ _ _ Hl 0 d Ed) as [H1 H2].
    destruct (mic_inv _ _ _ _ _ _ _ _ _ H2) as (G & HG & _). exists O, G. split; [exact H1|]. split; [exact HG|]. now right. }
  unfold dith, dcards. cbn [dtree model_set map fold_left]. cbn [model_set]. 
  match goal with |- fold_left _ _ (app_new _ ?a ?b) = ?r => assert (Ad : app_new dm_eqb a b = r) end.
  { fold (dcards dc). pose proof (Kn (adc_model il ih (t_rdelay w) (t_fdelay w)) (adc_model il ih (d_T c / 1000) (d_T c / 1000))) as Ka. unfold known in Ka. cbn [app_new fold_left] in Ka |- *.
    rewrite Ka; [reflexivity| |reflexivity]. unfold cmp_leaves. cbn. tauto. }
  rewrite Ad. fold (dcards dc). apply fold_known. intros t Ht x Hx. rewrite !map_app, !map_map in Ht.
  rewrite !in_app_iff, !in_map_iff in Ht. destruct Ht as [(m & <- & _)|[(m & <- & _)|(m & <- & _)]]; destruct Hx as [<-|[]].
  - eapply Kn; [unfold cmp_leaves; do 2 right; left; reflexivity|reflexivity].
  - eapply Kn; [unfold cmp_leaves; do 3 right; left; reflexivity|reflexivity].
  - eapply Kn; [unfold cmp_leaves; do 3 right; left; reflexivity|reflexivity].
Qed.
(** the netlist of a dither control that has deterministic controls too does not depend on the timing parameters *)
Theorem dith_timing S c ih il oh ol w w' k k' : dither_ckt S c ih il oh ol w = Ok k -> dither_ckt S c ih il oh ol w' = Ok k' -> (d_K c < sM S)%nat ->
  dcards k = dcards k' /\ (forall anon, dlines anon k = dlines anon k' /\ dformals anon k = dformals anon k') /\ tl (ddefs k) = tl (ddefs k').
Proof.
  intros H H' HK. destruct (dith_inv _ _ _ _ _ _ _ _ H) as (dc & _ & Hdc & ->), (dith_inv _ _ _ _ _ _ _ _ H') as (dc' & _ & Hdc' & ->).
  rewrite Hdc in Hdc'. apply ok_inj in Hdc'. subst dc'. split; [|split].
  - now rewrite !(dith_cards _ _ _ _ _ _ _ _ Hdc HK).
  - intro anon. split; [|reflexivity]. unfold dlines, dith. cbn [d_comps map]. f_equal. f_equal. f_equal. rewrite !map_app, !map_map. reflexivity.
  - unfold dith. cbn [ddefs tl flat_map]. f_equal. cbn [app]. rewrite !flat_map_app. rewrite !flat_map_concat_map, !map_map. reflexivity.
Qed.
(** with all controls random the parameters are those given *)
Theorem dith_timing_all S c ih il oh ol w k : dither_ckt S c ih il oh ol w = Ok k -> d_K c = sM S -> (0 < sM S)%nat ->
  dcards k = [src_model (d_T c) (d_seq c); adc_model il ih (t_rdelay w) (t_fdelay w); dff_model (t_clk w) (t_set w) (t_res w) 1 (t_rdelay w) (t_fdelay w);
              dac_model ol oh ((oh + ol) / 2) (t_load w) (t_rise w) (t_fall w)].
Proof.
  intros H HK HM. destruct (dith_inv _ _ _ _ _ _ _ _ H) as (dc & _ & Hdc & ->). destruct (dc_form _ _ _ _ _ _ _ Hdc) as (l & ds & calls & Hl & Hds & E).
  assert (El : l = []) by (apply length_zero_iff_nil; rewrite (l_len _ _ _ _ _ _ _ _ Hl); lia).
  assert (Ec : dcards dc = []).
  { destruct (dcards dc) as [|x r] eqn:Er; [reflexivity|]. exfalso. assert (F : find (fun y => dm_eqb x y) (dcards dc) <> None). { rewrite Er. cbn. unfold dm_eqb. rewrite !String.eqb_refl. discriminate. }
    rewrite find_cards in F.
    - destruct (find _ (dleaves dc)) as [y|] eqn:Fy; [|contradiction]. apply find_some in Fy. destruct Fy as [Fy _]. clear -E Fy Hdc El HK. subst dc l.
      destruct (d_multi c).
      + destruct (phase_inv _ _ _ _ _ _ _ _ _ Hdc) as (l & ds' & Hl & Hds' & _ & E). unfold ctl in E. injection E as E1 E2. unfold dlys in Hds'. replace (sM S - d_K c)%nat with O in Hds' by lia. cbn in Hds'. apply ok_inj in Hds'. subst ds'.
        unfold mics in Hl. replace (sM S - d_K c)%nat with O in Hl by lia. cbn in Hl. apply ok_inj in Hl. subst l. cbn in E1. subst ds. cbn in Fy. exact Fy.
      + destruct (control_inv _ _ _ _ _ _ _ _ Hdc) as (l & Hl & _ & E). unfold ctl in E. injection E as E1 E2.
        unfold mics in Hl. replace (sM S - d_K c)%nat with O in Hl by lia. cbn in Hl. apply ok_inj in Hl. subst l. cbn in E1. subst ds. cbn in Fy. exact Fy.
    - intros a b Eab. unfold dm_eqb in *. apply andb_true_iff in Eab. destruct Eab as [E1 E2]. apply String.eqb_eq in E1, E2. now rewrite E1, E2. }
  unfold dith, dcards. cbn [dtree model_set map fold_left]. fold (dcards dc). rewrite Ec. rewrite HK. destruct (sM S) as [|n]; [lia|].
  rewrite !map_app, !map_map, !fold_left_app, !fold_same. reflexivity.
Qed.
