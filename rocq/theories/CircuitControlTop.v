(** The digital controls as a whole. *)
From Coq Require Import String Ascii List Bool Arith Reals Lia Lra.
From Verif Require Import Base LinAlg FirExtras Netlist NetlistProofs NetlistTree AnalogSystem AnalogProofs IntegratorsProofs Circuits CircuitProofs CircuitControl XspiceLaws CircuitControlProofs CircuitControlSem.
Import ListNotations.
Open Scope R_scope.

Lemma all_ok_spec {X} (f : nat -> result X) n : forall a l, all_ok (map f (seq a n)) = Ok l ->
  length l = n /\ forall i, (i < n)%nat -> exists d, nth_error l i = Some d /\ f (a + i)%nat = Ok d.
Proof.
  induction n as [|n IH]; intros a l; cbn [seq map all_ok]; [intros [= <-]; split; [reflexivity|intros; lia]|].
  destruct (f a) as [x|] eqn:E; cbn [bind]; [|discriminate]. destruct (all_ok _) as [xs|] eqn:E2; cbn [bind]; [|discriminate]. intros [= <-].
  destruct (IH _ _ E2) as [H1 H2]. split; [cbn; lia|]. intros [|i] Hi; [exists x; rewrite Nat.add_0_r; auto|].
  destruct (H2 i) as (d & D1 & D2); [lia|]. exists d. split; [exact D1|]. rewrite <- D2. f_equal. lia.
Qed.
Lemma all_ok_ok {X} (f : nat -> result X) n : forall a, (forall i, (i < n)%nat -> exists d, f (a + i)%nat = Ok d) -> exists l, all_ok (map f (seq a n)) = Ok l.
Proof.
  induction n as [|n IH]; intros a H; [exists []; reflexivity|]. cbn [seq map all_ok]. destruct (H O) as (d & D); [lia|]. rewrite Nat.add_0_r in D. rewrite D.
  destruct (IH (S a)) as (l & E); [|rewrite E; eexists; reflexivity]. intros i Hi. destruct (H (S i)) as (d' & D'); [lia|]. exists d'. rewrite <- D'. f_equal. lia.
Qed.

Lemma bus_spec N L M c a b : In (a, b) (bus_calls N L M c) -> exists x, a = DOwn (B x) /\ b = DPin c (B x) /\ real_lab x /\ x <> CLK.
Proof.
  unfold bus_calls. intro H. apply in_app_or in H. destruct H as [H|H]; [|apply in_app_or in H; destruct H as [H|H]];
    apply in_flat_map in H; destruct H as (j & _ & [H|[H|[]]]); injection H as <- <-; eexists; (split; [reflexivity|split; [reflexivity|split; [split; discriminate|discriminate]]]).
Qed.
Lemma dpins_cases N L M l : In l (dpins N L M) ->
  In l [B VSS; B VDD; B CLK; B VCM] \/ (exists x, l = B x /\ forall c, In (down (B x) c (B x)) (bus_calls N L M c)).
Proof.
  unfold dpins, dc_pins. rewrite !map_app, !map_map. intro H. apply in_app_or in H. destruct H as [H|H]; [left; exact H|right].
  assert (E : exists f n, (f = XX /\ n = N \/ f = IN /\ n = L \/ f = SS /\ n = M) /\ exists p i, In i (seq 0 n) /\ l = B (f p i)).
  { repeat (apply in_app_or in H; destruct H as [H|H]); apply in_map_iff in H; destruct H as (i & <- & Hi);
      [exists XX, N|exists XX, N|exists IN, L|exists IN, L|exists SS, M|exists SS, M]; (split; [tauto|]); [exists true, i|exists false, i|exists true, i|exists false, i|exists true, i|exists false, i]; auto. }
  destruct E as (f & n & Hf & p & i & Hi & ->). exists (f p i). split; [reflexivity|]. intro c. unfold bus_calls.
  destruct Hf as [[-> ->]|[[-> ->]|[-> ->]]]; apply in_or_app; [left|right; apply in_or_app; left|right; apply in_or_app; right];
    apply in_flat_map; exists i; (split; [exact Hi|]); destruct p; [now left|right; now left|now left|right; now left|now left|right; now left].
Qed.

(** ** Cards and definitions of a control *)
Definition dly_leaf (c : dcomp) : Prop := exists m d, c = Leaf (Dly m) KDly (dly_model m d).
Section Control.
Variable S : asys Rring.
Hypothesis V : valid S.
Variables T ih il oh ol : R.
Variable off : nat.
Variable l : list dckt.
Hypothesis Hl : mics S T ih il oh ol off = Ok l.
Variable ds : list dcomp.
Hypothesis Hds : forall c, In c ds -> dly_leaf c.
Variable calls : list (dterm * dterm).
Definition ctl : dckt := Dckt "digital_control" (dpins (sN S) (sL S) (sM S)) (mic_insts off l ++ ds) calls.

Lemma l_len : length l = (sM S - off)%nat.
Proof. now destruct (all_ok_spec _ _ _ _ Hl). Qed.
Lemma l_nth i d : nth_error l i = Some d -> (i < sM S - off)%nat /\ mic_ckt S T (off + i) i ih il oh ol = Ok d.
Proof.
  intro H. destruct (all_ok_spec _ _ _ _ Hl) as [H1 H2]. assert (Hi : (i < sM S - off)%nat) by (rewrite <- H1; apply nth_error_Some; congruence).
  split; [exact Hi|]. destruct (H2 i Hi) as (d' & D1 & D2). rewrite H in D1. injection D1 as <-. rewrite <- D2. f_equal. lia.
Qed.
Lemma insts_in c : In c (mic_insts off l) <-> exists i d, nth_error l i = Some d /\ c = Inst (Mic (off + i)) d.
Proof.
  unfold mic_insts. split.
  - intro H. apply in_map_iff in H. destruct H as ([m d] & <- & H). apply In_nth_error in H. destruct H as (i & H).
    exists i, d. assert (H' : nth_error (combine (seq off (length l)) l) i = match nth_error (seq off (length l)) i, nth_error l i with Some a, Some b => Some (a, b) | _, _ => None end).
    { clear. generalize (seq off (length l)). revert i. induction l as [|x l' IH]; intros [|i] [|y s]; try reflexivity; cbn; try (destruct (nth_error s i); reflexivity); auto. }
    rewrite H in H'. destruct (nth_error (seq off (length l)) i) as [a|] eqn:A; [|discriminate]. destruct (nth_error l i) as [b|] eqn:E; [|discriminate]. injection H' as <- <-.
    split; [reflexivity|]. f_equal. f_equal. assert (Hi : (i < length l)%nat) by (apply nth_error_Some; congruence).
    rewrite (nth_error_nth' _ O) in A by (now rewrite seq_length). injection A as <-. now rewrite seq_nth.
  - intros (i & d & H & ->). apply in_map_iff. exists ((off + i)%nat, d). split; [reflexivity|].
    assert (Hi : (i < length l)%nat) by (apply nth_error_Some; congruence).
    replace (off + i)%nat with (nth i (seq off (length l)) O) by (now apply seq_nth). rewrite <- (nth_error_nth l i d H). rewrite <- combine_nth by apply seq_length.
    apply nth_In. rewrite combine_length, seq_length. lia.
Qed.
Lemma mic_inv m mt d : mic_ckt S T m mt ih il oh ol = Ok d -> exists G, aGt S = Some G /\ (mt < rows G)%nat /\
  d = Dckt (mic_name m) (dpins (sN S) (sL S) (sM S)) [Leaf Sum (KSum (sN S + sL S + sM S)) (sum_model (sN S) (sL S) (sM S) mt G (aBt S) (aAt S) oh ol); Inst Cmp (cmp_ckt T ih il oh ol)]
        (sum_calls (sN S) (sL S) (sM S) ++ cmp_calls m).
Proof.
  unfold mic_ckt. destruct (aGt S) as [G|]; [|discriminate]. destruct (Nat.ltb_spec mt (rows G)); [|discriminate]. intro E. apply ok_inj in E. subst d. eauto.
Qed.
Definition cmp_leaves : list dmod :=
  [adc_model il ih (T / 1000) (T / 1000); adc_model il ih (T / 1000) (T / 1000); dff_model 0 fs fs 1 (T / 1000) (T / 1000);
   dac_model ol oh ((oh - ol) / 2) (/ 10 ^ 12) (T / 100) (T / 100); dac_model ol oh ((oh - ol) / 2) (/ 10 ^ 12) (T / 100) (T / 100)].
Lemma leaves_in x : In x (dleaves ctl) <->
  (exists i G, (i < sM S - off)%nat /\ aGt S = Some G /\ In x (sum_model (sN S) (sL S) (sM S) i G (aBt S) (aAt S) oh ol :: cmp_leaves)) \/ (exists m d, In (Leaf (Dly m) KDly (dly_model m d)) ds /\ x = dly_model m d).
Proof.
  unfold ctl. cbn [dleaves]. rewrite flat_map_app, in_app_iff. split.
  - intros [H|H]; apply in_flat_map in H; destruct H as (c & Hc & H).
    + left. apply insts_in in Hc. destruct Hc as (i & d & Hd & ->). destruct (l_nth i d Hd) as [Hi E]. destruct (mic_inv _ _ _ E) as (G & EG & _ & ->).
      exists i, G. split; [exact Hi|]. split; [exact EG|]. exact H.
    + right. destruct (Hds c Hc) as (m & d & ->). destruct H as [<-|[]]. eauto.
  - intros [(i & G & Hi & EG & H)|(m & d & H & ->)].
    + left. apply in_flat_map. destruct (all_ok_spec _ _ _ _ Hl) as [_ H2]. destruct (H2 i Hi) as (d & D1 & D2).
      replace (off + i - off)%nat with i in D2 by lia. destruct (mic_inv _ _ _ D2) as (G' & EG' & _ & Ed). rewrite EG in EG'. injection EG' as <-.
      exists (Inst (Mic (off + i)) d). split; [apply insts_in; eauto|]. rewrite Ed. exact H.
    + right. apply in_flat_map. eexists. split; [exact H|]. now left.
Qed.
Lemma card_of x : In x (dleaves ctl) -> (forall y, In y (dleaves ctl) -> m_name y = m_name x -> y = x) -> card (dcards ctl) (m_name x) = Some (m_par x).
Proof.
  intros H U. rewrite card_leaves, (find_unique _ _ x H); [reflexivity|apply String.eqb_refl|]. intros y Hy E. apply U; [exact Hy|now apply String.eqb_eq].
Qed.
Ltac leaf_cases H := apply leaves_in in H; destruct H as [(? & ? & ? & ? & H)|(? & ? & ? & ->)]; [cbn [cmp_leaves In] in H; destruct H as [<-|[<-|[<-|[<-|[<-|[<-|[]]]]]]]|].
Lemma cards_cmp : (0 < sM S - off)%nat -> card (dcards ctl) "adc" = Some (PAdc il ih (T / 1000) (T / 1000)) /\
  card (dcards ctl) "dflip" = Some (PDff 0 fs fs 1 (T / 1000) (T / 1000)) /\ card (dcards ctl) "dac" = Some (PDac ol oh ((oh - ol) / 2) (/ 10 ^ 12) (T / 100) (T / 100)).
Proof.
  intro H0. assert (exists G, aGt S = Some G) as [G EG].
  { destruct (all_ok_spec _ _ _ _ Hl) as [_ H2]. destruct (H2 O H0) as (d & D1 & D2). destruct (mic_inv _ _ _ D2) as (G & EG & _). eauto. }
  assert (M : forall x, In x cmp_leaves -> In x (dleaves ctl)) by (intros x Hx; apply leaves_in; left; exists O, G; repeat split; [exact H0|exact EG|now right]).
  split; [|split].
  - apply (card_of (adc_model il ih (T / 1000) (T / 1000))); [apply M; cbn; auto|]. intros y Hy E. leaf_cases Hy; try reflexivity; discriminate E.
  - apply (card_of (dff_model 0 fs fs 1 (T / 1000) (T / 1000))); [apply M; cbn; auto|]. intros y Hy E. leaf_cases Hy; try reflexivity; discriminate E.
  - apply (card_of (dac_model ol oh ((oh - ol) / 2) (/ 10 ^ 12) (T / 100) (T / 100))); [apply M; cbn; auto 8|]. intros y Hy E. leaf_cases Hy; try reflexivity; discriminate E.
Qed.
Lemma cards_sum i G : (i < sM S - off)%nat -> aGt S = Some G ->
  card (dcards ctl) ("sum_" ++ dec i) = Some (m_par (sum_model (sN S) (sL S) (sM S) i G (aBt S) (aAt S) oh ol)).
Proof.
  intros Hi EG. apply (card_of (sum_model (sN S) (sL S) (sM S) i G (aBt S) (aAt S) oh ol)); [apply leaves_in; left; exists i, G; repeat split; auto; now left|].
  intros y Hy E. leaf_cases Hy; try discriminate E. cbn [m_name sum_model] in E. cbn in E. injection E as E. apply dec_inj in E. congruence.
Qed.
Lemma cards_dly m d : In (Leaf (Dly m) KDly (dly_model m d)) ds -> (forall d', In (Leaf (Dly m) KDly (dly_model m d')) ds -> d' = d) ->
  card (dcards ctl) ("analog_delay_" ++ dec m) = Some (PDly d).
Proof.
  intros H U. apply (card_of (dly_model m d)); [apply leaves_in; right; eauto|]. intros y Hy E. leaf_cases Hy; try discriminate E.
  cbn in E. injection E as E. apply dec_inj in E. subst. f_equal. now apply U.
Qed.

Lemma defs_in x : In x (ddefs ctl) <-> x = ctl \/ exists i d, nth_error l i = Some d /\ In x [d; cmp_ckt T ih il oh ol].
Proof.
  unfold ctl. cbn [ddefs In]. rewrite flat_map_app, in_app_iff. split.
  - intros [<-|[H|H]]; [now left| |]; apply in_flat_map in H; destruct H as (c & Hc & H).
    + right. apply insts_in in Hc. destruct Hc as (i & d & Hd & ->). exists i, d. split; [exact Hd|].
      destruct (l_nth i d Hd) as [_ E]. destruct (mic_inv _ _ _ E) as (G & _ & _ & ->). exact H.
    + destruct (Hds c Hc) as (m & d & ->). destruct H.
  - intros [->|(i & d & Hd & H)]; [now left|right; left]. apply in_flat_map. exists (Inst (Mic (off + i)) d). split; [apply insts_in; eauto|].
    destruct (l_nth i d Hd) as [_ E]. destruct (mic_inv _ _ _ E) as (G & _ & _ & ->). exact H.
Qed.
Lemma defs_name x : In x (ddefs ctl) -> d_name x <> "dither_control"%string.
Proof.
  intro H. apply defs_in in H. destruct H as [->|(i & d & Hd & [<-|[<-|[]]])]; try discriminate.
  destruct (l_nth i d Hd) as [_ E]. destruct (mic_inv _ _ _ E) as (G & _ & _ & ->). discriminate.
Qed.
Lemma def_mic i d : nth_error l i = Some d -> sub_def (ddefs ctl) (mic_name (off + i)) = Some d.
Proof.
  intro Hd. destruct (l_nth i d Hd) as [Hi E]. destruct (mic_inv _ _ _ E) as (G & EG & _ & Ed). apply find_unique.
  - apply defs_in. right. exists i, d. split; [exact Hd|now left].
  - rewrite Ed. apply String.eqb_refl.
  - intros y Hy Ey. apply String.eqb_eq in Ey. apply defs_in in Hy. destruct Hy as [->|(j & d' & Hd' & [<-|[<-|[]]])]; try discriminate Ey.
    destruct (l_nth j d' Hd') as [Hj E']. destruct (mic_inv _ _ _ E') as (G' & _ & _ & Ed'). rewrite Ed' in Ey. cbn [d_name mic_name] in Ey. cbn in Ey. injection Ey as Ey.
    apply dec_inj in Ey. assert (j = i) by lia. subst j. congruence.
Qed.
Lemma def_cmp : (0 < sM S - off)%nat -> sub_def (ddefs ctl) "clocked_comparator" = Some (cmp_ckt T ih il oh ol).
Proof.
  intro H0. destruct (all_ok_spec _ _ _ _ Hl) as [_ H2]. destruct (H2 O H0) as (d & D1 & _). apply find_unique.
  - apply defs_in. right. exists O, d. split; [exact D1|right; now left].
  - reflexivity.
  - intros y Hy Ey. apply String.eqb_eq in Ey. apply defs_in in Hy. destruct Hy as [->|(j & d' & Hd' & [<-|[<-|[]]])]; [discriminate Ey| |reflexivity].
    destruct (l_nth j d' Hd') as [Hj E']. destruct (mic_inv _ _ _ E') as (G' & _ & _ & Ed'). rewrite Ed' in Ey. discriminate Ey.
Qed.
End Control.
