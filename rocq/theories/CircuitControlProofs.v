(** Nodes, model cards and definitions of the circuits of CircuitControl.v. *)
From Coq Require Import String Ascii List Bool Arith Reals Lia Lra.
From Verif Require Import Base LinAlg FirExtras Netlist NetlistProofs NetlistTree AnalogSystem AnalogProofs IntegratorsProofs Circuits CircuitProofs CircuitControl XspiceLaws.
Import ListNotations.
Open Scope R_scope.

(** ** Nodes *)
Section Nodes.
Variable anon : dcid -> nat -> string.
Variable k : dckt.
Variable root : dterm -> dterm.
Definition rooted : Prop := forall a b, In (a, b) (d_calls k) -> root b = a /\ root a = a /\ a <> b /\ dtname anon a <> ""%string.
Hypothesis K : rooted.
Lemma d_star : star (dtname anon) (map (fun c => (c, ""%string)) (d_calls k)).
Proof.
  split; [|split].
  - intros c d Hc Hd E. apply in_map_iff in Hc, Hd. destruct Hc as ([a b] & <- & Hc), Hd as ([a' b'] & <- & Hd). cbn in *. subst b'.
    destruct (K _ _ Hc) as [E1 _], (K _ _ Hd) as [E2 _]. congruence.
  - intros c d Hc Hd E. apply in_map_iff in Hc, Hd. destruct Hc as ([a b] & <- & Hc), Hd as ([a' b'] & <- & Hd). cbn in *. subst b'.
    destruct (K _ _ Hc) as (_ & E1 & _), (K _ _ Hd) as (E2 & _ & N & _). congruence.
  - intros c Hc. apply in_map_iff in Hc. destruct Hc as ([a b] & <- & Hc). split; [reflexivity|]. cbn. now destruct (K _ _ Hc) as (_ & _ & _ & H).
Qed.
Lemma dnode_second a b : In (a, b) (d_calls k) -> dnode anon k b = dtname anon a.
Proof.
  intro H. destruct (star_nets dterm_dec (dtname anon) _ (a, b, ""%string) d_star) as [E _]; [|exact E]. now apply (in_map (fun c => (c, ""%string))).
Qed.
Lemma dnode_root a : root a = a -> dnode anon k a = dtname anon a.
Proof.
  intro Ra. destruct (in_dec dterm_dec a (map fst (d_calls k))) as [H|H].
  - apply in_map_iff in H. destruct H as ([a' b] & E & H). cbn in E. subst a'.
    destruct (star_nets dterm_dec (dtname anon) _ (a, b, ""%string) d_star) as [_ E]; [|exact E]. now apply (in_map (fun c => (c, ""%string))).
  - destruct (touched_dec dterm_dec (dtname anon) (map (fun c => (c, ""%string)) (d_calls k)) a) as [T|T];
      [|exact (net_name_untouched dterm_dec (dtname anon) _ _ (star_no_merge dterm_dec (dtname anon) _ d_star) T)]. exfalso.
    destruct T as (c & Hc & [E'|E']); apply in_map_iff in Hc; destruct Hc as ([a' b] & <- & Hc); cbn in E'; subst.
    + apply H. apply in_map_iff. exists (a', b). auto.
    + destruct (K _ _ Hc) as (E & _ & N & _). congruence.
Qed.
End Nodes.

Lemma dpins_real N L M l : In l (dpins N L M) -> exists x, l = B x /\ real_lab x.
Proof.
  unfold dpins, dc_pins. rewrite !map_app, !map_map. intro H. cbn [map app In] in H.
  destruct H as [<-|[<-|[<-|[<-|H]]]]; try (eexists; split; [reflexivity|split; discriminate]).
  repeat (apply in_app_or in H; destruct H as [H|H]); apply in_map_iff in H; destruct H as (i & <- & _); eexists; (split; [reflexivity|split; discriminate]).
Qed.

(** ** Cards and definitions *)
Lemma find_app {X} (P : X -> bool) l r : find P (l ++ r) = match find P l with Some x => Some x | None => find P r end.
Proof. induction l as [|x l IH]; [reflexivity|]. cbn. destruct (P x); auto. Qed.
Lemma find_unique {X} (P : X -> bool) l x : In x l -> P x = true -> (forall y, In y l -> P y = true -> y = x) -> find P l = Some x.
Proof.
  intros Hx Px U. destruct (find P l) as [y|] eqn:E; [|pose proof (find_none _ _ E x Hx); congruence].
  apply find_some in E. destruct E as [Hy Py]. f_equal. now apply U.
Qed.
Lemma find_app_new {X} (eqb : X -> X -> bool) (P : X -> bool) l : (forall a b, eqb a b = true -> P a = P b) ->
  forall acc, find P (app_new eqb acc l) = match find P acc with Some x => Some x | None => find P l end.
Proof.
  intro HP. unfold app_new. induction l as [|x l IH]; intro acc; cbn [fold_left]; [cbn; destruct (find P acc); reflexivity|].
  rewrite IH. destruct (existsb (fun y => eqb x y) acc) eqn:E.
  - apply existsb_exists in E. destruct E as (y & Hy & E). apply HP in E. destruct (find P acc) as [z|] eqn:F; [reflexivity|].
    cbn. pose proof (find_none _ _ F y Hy). rewrite E, H. reflexivity.
  - rewrite find_app. destruct (find P acc); [reflexivity|]. cbn. destruct (P x); reflexivity.
Qed.
(** the cards in order, repetitions kept *)
Fixpoint dleaves (k : dckt) : list dmod :=
  match k with Dckt _ _ comps _ => flat_map (fun c => match c with Leaf _ _ m => [m] | Inst _ d => dleaves d end) comps end.
Fixpoint dckt_ind2 (P : dckt -> Prop) (H : forall n t cs cl, (forall i d, In (Inst i d) cs -> P d) -> P (Dckt n t cs cl)) (k : dckt) : P k.
Proof.
  destruct k as [n t cs cl]. apply H. induction cs as [|c cs IH]; [intros i d []|]. intros i d [E|E]; [|now apply (IH i d)].
  destruct c as [? ? ?|i' d']; [discriminate|]. injection E as _ <-. apply dckt_ind2, H.
Defined.
Lemma find_cards k (P : dmod -> bool) : (forall a b, dm_eqb a b = true -> P a = P b) -> find P (dcards k) = find P (dleaves k).
Proof.
  intro HP. unfold dcards. induction k as [n t cs cl IH] using dckt_ind2. cbn [dtree model_set dleaves].
  assert (E : forall acc, find P (fold_left (fun acc k => app_new dm_eqb acc (model_set k)) (map (fun c => match c with Leaf _ _ m => Comp (Some m) | Inst _ d => dtree d end) cs) acc)
    = match find P acc with Some x => Some x | None => find P (flat_map (fun c => match c with Leaf _ _ m => [m] | Inst _ d => dleaves d end) cs) end).
  { induction cs as [|c cs IHc]; intro acc; cbn [map fold_left flat_map]; [cbn; destruct (find P acc); reflexivity|].
    rewrite IHc by (intros i d H; apply (IH i d); now right). rewrite (find_app_new _ _ _ HP). rewrite find_app. destruct (find P acc) as [x|]; [reflexivity|].
    assert (F : find P (model_set match c with Leaf _ _ m => Comp (Some m) | Inst _ d => dtree d end) = find P match c with Leaf _ _ m => [m] | Inst _ d => dleaves d end).
    { destruct c as [? ? m|i d]; [reflexivity|]. apply (IH i d). now left. }
    rewrite F. destruct (find P _); reflexivity. }
  rewrite E. reflexivity.
Qed.
Lemma card_leaves k nm : card (dcards k) nm = option_map m_par (find (fun m => String.eqb (m_name m) nm) (dleaves k)).
Proof.
  unfold card. rewrite find_cards; [reflexivity|]. intros a b E. unfold dm_eqb in E. apply andb_true_iff in E. destruct E as [_ E].
  apply String.eqb_eq in E. now rewrite E.
Qed.
