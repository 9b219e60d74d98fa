(** Instance names and the replacement of elements: proofs. *)
From Coq Require Import String Ascii List Lia Arith Bool ZArith.
From Verif Require Import Base Netlist NetlistProofs NetlistTree Elements.
Import ListNotations.
Open Scope nat_scope.

(** ** Names *)
Definition upper_letter (c : ascii) : Prop := 65 <= nat_of_ascii c <= 90.
Definition is_lower (s : string) : Prop := lower s = s.
Lemma low_idem c : low_ascii (low_ascii c) = low_ascii c.
Proof. destruct c as [[][][][][][][][]]; reflexivity. Qed.
Lemma lower_idem s : is_lower (lower s).
Proof. unfold is_lower. induction s as [|c s IH]; [reflexivity|]. cbn [lower]. now rewrite low_idem, IH. Qed.
Lemma low_inj c d : upper_letter c -> upper_letter d -> low_ascii c = low_ascii d -> c = d.
Proof.
  unfold upper_letter, low_ascii. intros Hc Hd.
  rewrite !(proj2 (Nat.leb_le 65 _)), !(proj2 (Nat.leb_le _ 90)) by lia. cbn [andb]. intros E. apply (f_equal nat_of_ascii) in E.
  rewrite !nat_ascii_embedding in E by lia. rewrite <- (ascii_nat_embedding c), <- (ascii_nat_embedding d). f_equal. lia.
Qed.
(** a name as the constructors make it *)
Definition made (s : string) : Prop := exists c r, s = String c r /\ upper_letter c /\ is_lower r.
Lemma element_made sub letter name s : upper_letter letter -> element_name sub letter name = Ok s -> exists r, s = String letter r /\ is_lower r.
Proof.
  intros L. destruct name as [|c r]; cbn [element_name]; [discriminate|]. intros H. injection H as <-. destruct (Ascii.eqb_spec c letter) as [->|]; eexists; (split; [reflexivity|]); [apply lower_idem|exact (lower_idem (String c r))].
Qed.
Lemma made_inj a b : made a -> made b -> lower a = lower b -> a = b.
Proof.
  intros (c & r & -> & Hc & Hr) (d & s & -> & Hd & Hs). cbn [lower]. intros E. injection E as E1 E2. unfold is_lower in *. f_equal; [now apply low_inj|congruence].
Qed.

Section Body.
Context {T : Type}.
Variable teq : forall a b : T, {a = b} + {a <> b}.
Variable tname : T -> string.
Notation cget := (cget teq).
Notation setattr := (setattr teq tname).
Notation wf := (wf teq).

(** ** Keys *)
Definition keys (b : body T) : list string := map fst (kids b).
Lemma kget_in (l : list (string * element T)) k e : kget l k = Some e -> In (k, e) l.
Proof. induction l as [|[k' e'] l IH]; cbn; [discriminate|]. destruct (String.eqb_spec k k') as [->|]; [intros [= <-]; now left|right; auto]. Qed.
Lemma kget_none (l : list (string * element T)) k : kget l k = None -> ~ In k (map fst l).
Proof.
  induction l as [|[k' e'] l IH]; cbn; [tauto|]. destruct (String.eqb_spec k k') as [->|N]; [discriminate|]. intros H [E|E]; [congruence|]. now apply IH.
Qed.
Lemma kset_keys (l : list (string * element T)) k e : map fst (kset l k e) = map fst l.
Proof. induction l as [|[k' e'] l IH]; cbn; [reflexivity|]. destruct (String.eqb_spec k k'); cbn; [reflexivity|now rewrite IH]. Qed.
Lemma kset_in (l : list (string * element T)) k e x : In x (kset l k e) -> In x l \/ x = (k, e).
Proof.
  induction l as [|[k' e'] l IH]; cbn; [tauto|]. destruct (String.eqb_spec k k') as [->|]; cbn; intros [H|H]; auto. destruct (IH H); auto.
Qed.
Lemma kget_kset (l : list (string * element T)) k e : In k (map fst l) -> kget (kset l k e) k = Some e.
Proof.
  induction l as [|[k' e'] l IH]; cbn; [tauto|]. destruct (String.eqb_spec k k') as [->|N]; cbn.
  - intros _. now rewrite String.eqb_refl.
  - intros [E|E]; [congruence|]. destruct (String.eqb_spec k k'); [congruence|]. now apply IH.
Qed.
Lemma kget_kset_ne (l : list (string * element T)) k k2 e : k2 <> k -> kget (kset l k e) k2 = kget l k2.
Proof.
  intros N. induction l as [|[k' e'] l IH]; cbn; [reflexivity|]. destruct (String.eqb_spec k k') as [->|Q]; cbn; [destruct (String.eqb_spec k2 k'); [congruence|reflexivity]|now rewrite IH].
Qed.
(** keys distinct, every element carries its key as instance name *)
Definition good (P : string -> Prop) (b : body T) : Prop := NoDup (keys b) /\ forall k e, In (k, e) (kids b) -> e_name e = k /\ P k.
Definition op_made (P : string -> Prop) (o : op T) : Prop := match o with OSet _ e => P (e_name e) | OConnect _ _ _ => True end.
Lemma run1_good P b o : op_made P o -> good P b -> good P (run1 teq tname b o).
Proof.
  intros Ho [N H]. destruct o as [k e|]; [|split; assumption]. cbn [run1]. unfold Elements.setattr. destruct (kget (kids b) k) as [old|] eqn:G.
  - destruct (take_over _ _ _ _ _) as [[[]|x] st]; cbn [snd]; [|split; assumption]. split; unfold keys; cbn [kids]; [now rewrite kset_keys|].
    intros k' e' Hin. apply kset_in in Hin. destruct Hin as [Hin|E]; [now apply H|]. injection E as -> ->. cbn [e_name]. split; [reflexivity|]. apply kget_in in G. now apply (H k old).
  - destruct (String.eqb_spec k (e_name e)) as [Ke|]; cbn [snd]; [|split; assumption]. split; unfold keys; cbn [kids].
    + rewrite map_app. cbn. apply kget_none in G. unfold keys in N. revert N G. clear. generalize (map fst (kids b)). clear. induction l as [|x l IH]; intros N G; cbn; [repeat constructor; intros []|].
      inversion_clear N. constructor; [|apply IH; [assumption|intros Q; apply G; now right]]. intros Q. apply in_app_or in Q. destruct Q as [Q|[->|[]]]; [contradiction|]. apply G. now left.
    + intros k' e' Hin. apply in_app_or in Hin. destruct Hin as [Hin|[E|[]]]; [now apply H|]. injection E as <- <-. cbn in Ho. rewrite <- Ke in Ho. split; [now symmetry|exact Ho].
Qed.
Lemma run_good P l : (forall o, In o l -> op_made P o) -> good P (run teq tname l).
Proof.
  unfold run. assert (G : good P (body0 : body T)) by (split; [constructor|intros k e []]). revert G. generalize (body0 : body T). induction l as [|o l IH]; intros b G H; [exact G|]. cbn [fold_left]. apply IH; [|intros; apply H; now right].
  apply run1_good; [apply H; now left|exact G].
Qed.

(** ** Nets *)
(** terminals on the same net *)
Definition same (st : sub T) (a b : T) : Prop := a = b \/ exists p, cget (conns st) a = Some p /\ cget (conns st) b = Some p.
Definition connected (st : sub T) (a : T) : Prop := cget (conns st) a <> None.

(** the pairs a successful replacement connects *)
Fixpoint pairing (e : elt T) (olds : list T) : option (list (T * T)) :=
  match olds with
  | [] => Some []
  | t :: olds => match get_name e (tname t), pairing e olds with Ok n, Some l => Some ((n, t) :: l) | _, _ => None end
  end.
Lemma take_over_ok e olds st l : pairing e olds = Some l -> take_over teq tname e olds st = (Ok tt, connect_all teq tname st (map (fun c => (c, ""%string)) l)).
Proof.
  revert st l. induction olds as [|t olds IH]; intros st l; cbn [pairing take_over]; [intros [= <-]; reflexivity|].
  destruct (get_name e (tname t)) as [n|]; [|discriminate]. destruct (pairing e olds) as [l'|]; [|discriminate]. intros [= <-]. rewrite (IH _ l' eq_refl). reflexivity.
Qed.
Lemma take_over_none e olds st : pairing e olds = None -> exists x st', take_over teq tname e olds st = (Exn x, st').
Proof.
  revert st. induction olds as [|t olds IH]; intros st; cbn [pairing take_over]; [discriminate|].
  destruct (get_name e (tname t)) as [n|x]; [|intros _; now exists x, st]. destruct (pairing e olds) as [l'|]; [discriminate|]. intros _. now apply IH.
Qed.

(** a sequence of connections of fresh terminals to terminals that are not fresh *)
Definition attach (st : sub T) (l : list (T * T)) : sub T := connect_all teq tname st (map (fun c => (c, ""%string)) l).
Lemma attach_cons st n t l : attach st ((n, t) :: l) = attach (connect teq tname st n t "") l.
Proof. reflexivity. Qed.
Definition apart (st : sub T) (l : list (T * T)) : Prop :=
  NoDup (map fst l) /\ NoDup (map snd l) /\ (forall n, In n (map fst l) -> ~ connected st n) /\ forall n, In n (map fst l) -> ~ In n (map snd l).

Lemma not_conn st n : ~ connected st n -> cget (conns st) n = None.
Proof. unfold connected. destruct (cget (conns st) n); [intros H; exfalso; apply H; discriminate|reflexivity]. Qed.
Lemma step_conns st n t x : cget (conns st) n = None -> n <> t -> cget (conns (connect teq tname st n t "")) x =
  match cget (conns st) t with Some q => if teq x n then Some q else cget (conns st) x
  | None => if teq x t then Some (length (ports st)) else if teq x n then Some (length (ports st)) else cget (conns st) x end.
Proof. intros H N. rewrite connect_conns, H. reflexivity. Qed.
Lemma apart_step st n t l : apart st ((n, t) :: l) -> apart (connect teq tname st n t "") l.
Proof.
  intros (N1 & N2 & H1 & H2). cbn [map fst snd In] in *. inversion_clear N1. inversion_clear N2. split; [assumption|]. split; [assumption|]. split; [|intros m Hm Q; apply (H2 m); [now right|now right]].
  intros m Hm. unfold connected. rewrite step_conns; [|apply not_conn, H1; now left|intros ->; apply (H2 t); [now left|now left]].
  assert (E : cget (conns st) m = None) by (apply not_conn, H1; now right). assert (m <> n) by congruence. assert (m <> t) by (intros ->; apply (H2 t); [now right|now left]).
  destruct (cget (conns st) t); [destruct (teq m n); [contradiction|]|destruct (teq m t); [contradiction|]; destruct (teq m n); [contradiction|]]; rewrite E; intros Q; now apply Q.
Qed.

Lemma attach_spec : forall l st, wf st -> apart st l ->
  wf (attach st l) /\
  (forall u p, ~ In u (map fst l) -> cget (conns st) u = Some p -> cget (conns (attach st l)) u = Some p) /\
  (forall u, ~ In u (map fst l) -> ~ In u (map snd l) -> cget (conns st) u = None -> cget (conns (attach st l)) u = None) /\
  (forall n t, In (n, t) l -> exists p, cget (conns (attach st l)) n = Some p /\ cget (conns (attach st l)) t = Some p) /\
  (forall u v, ~ In u (map fst l) -> ~ In v (map fst l) -> (same (attach st l) u v <-> same st u v)).
Proof.
  induction l as [|[n t] l IH]; intros st W A.
  { split; [exact W|]. split; [auto|]. split; [auto|]. split; [intros n t []|]. intros. reflexivity. }
  destruct (IH (connect teq tname st n t "") (connect_wf teq tname st n t "" W) (apart_step _ _ _ _ A)) as (I0 & I1 & I2 & I3 & I4).
  destruct A as (N1 & N2 & H1 & H2). cbn [map fst snd In] in *.
  assert (En : cget (conns st) n = None) by (apply not_conn, H1; now left). assert (Nt : n <> t) by (intros ->; apply (H2 t); now left).
  assert (Tl : ~ In t (map fst l)) by (intros Q; apply (H2 t); [now right|now left]). assert (Nl : ~ In n (map fst l)) by (inversion_clear N1; assumption).
  rewrite attach_cons. pose proof (fun x => step_conns st n t x En Nt) as S. split; [exact I0|]. split; [|split; [|split]].
  - intros u p Hu E. apply I1; [tauto|]. rewrite S. destruct (cget (conns st) t) eqn:Et.
    + destruct (teq u n); [subst; tauto|exact E].
    + destruct (teq u t); [congruence|]. destruct (teq u n); [subst; tauto|exact E].
  - intros u Hu Hv E. apply I2; [tauto|tauto|]. rewrite S. destruct (cget (conns st) t) eqn:Et.
    + destruct (teq u n); [subst; tauto|exact E].
    + destruct (teq u t); [subst; tauto|]. destruct (teq u n); [subst; tauto|exact E].
  - intros n' t' [E|Hin]; [|now apply I3]. injection E as <- <-.
    assert (Q : exists p, cget (conns (connect teq tname st n t "")) n = Some p /\ cget (conns (connect teq tname st n t "")) t = Some p).
    { rewrite !S. destruct (cget (conns st) t) as [q|] eqn:Et.
      - exists q. destruct (teq n n); [|contradiction]. destruct (teq t n); [congruence|]. now split.
      - exists (length (ports st)). destruct (teq n t); [contradiction|]. destruct (teq n n); [|contradiction]. destruct (teq t t); [|contradiction]. now split. }
    destruct Q as (p & Q1 & Q2). exists p. split; apply I1; assumption.
  - intros u v Hu Hv. rewrite I4 by tauto. unfold same. rewrite !S.
    destruct (cget (conns st) t) as [q|] eqn:Et.
    + destruct (teq u n); [subst; tauto|]. destruct (teq v n); [subst; tauto|]. reflexivity.
    + destruct (teq u n); [subst; tauto|]. destruct (teq v n); [subst; tauto|].
      destruct (teq u t) as [->|Ut], (teq v t) as [->|Vt].
      * split; intros _; now left.
      * split; intros [E|(p & E1 & E2)]; [congruence| |congruence|congruence]. injection E1 as <-. exfalso. apply W in E2. lia.
      * split; intros [E|(p & E1 & E2)]; [congruence| |congruence|congruence]. injection E2 as <-. exfalso. apply W in E1. lia.
      * reflexivity.
Qed.
(** names of the nets *)
Lemma step_name st n t x : wf st -> cget (conns st) n = None -> n <> t -> tname n <> ""%string -> connected (connect teq tname st n t "") x ->
  net_name teq tname (connect teq tname st n t "") x = if in_dec teq n [x] then tname n else
    if match cget (conns (connect teq tname st n t "")) n, cget (conns (connect teq tname st n t "")) x with Some p, Some q => Nat.eqb p q | _, _ => false end then tname n else net_name teq tname st x.
Proof.
  intros W En Nt Hn Hx. destruct (connect_first teq tname st n t "") as (p & Hp). unfold net_name at 1. unfold connected in Hx. destruct (cget (conns (connect teq tname st n t "")) x) as [q|] eqn:Eq; [|now destruct Hx].
  assert (Lq : q < length (ports (connect teq tname st n t ""))) by (eapply connect_wf; eauto).
  assert (NL : net_label tname n t "" = tname n) by (unfold net_label; cbn; destruct (String.eqb_spec (tname n) ""); [contradiction|reflexivity]).
  rewrite !(connect_ports teq tname st n t "" p q W Hp ltac:(destruct (Nat.eq_dec q p); [now right|left; now split])). rewrite NL, Hp.
  rewrite (Nat.eqb_sym p q). destruct (in_dec teq n [x]) as [[<-|[]]|Nx].
  - assert (q = p) by congruence. subst q. rewrite Nat.eqb_refl. destruct (String.eqb_spec (tname x) ""); [contradiction|reflexivity].
  - destruct (Nat.eqb_spec q p) as [->|Qp]; [destruct (String.eqb_spec (tname n) ""); [contradiction|reflexivity]|].
    assert (E : cget (conns st) x = Some q).
    { revert Eq Hp. rewrite !step_conns by assumption. destruct (cget (conns st) t) as [r|].
      - destruct (teq x n); [subst; exfalso; apply Nx; now left|]. auto.
      - destruct (teq n t); [contradiction|]. destruct (teq n n); [|contradiction]. destruct (teq x t); [congruence|]. destruct (teq x n); [congruence|]. auto. }
    unfold net_name. now rewrite E.
Qed.
Lemma attach_names : forall l st, wf st -> apart st l -> (forall n, In n (map fst l) -> tname n <> ""%string) ->
  (forall u, ~ In u (map fst l) -> (forall t, In t (map snd l) -> ~ same st u t) -> net_name teq tname (attach st l) u = net_name teq tname st u) /\
  (forall n t, In (n, t) l -> exists n' t', In (n', t') l /\ same (attach st l) t t' /\ net_name teq tname (attach st l) n = tname n' /\ net_name teq tname (attach st l) t = tname n').
Proof.
  induction l as [|[n t] l IH]; intros st W A Hn; [split; [reflexivity|intros n t []]|].
  pose proof (connect_wf teq tname st n t "" W) as W'. pose proof (apart_step _ _ _ _ A) as A'.
  destruct (IH _ W' A' ltac:(intros; apply Hn; now right)) as (I1 & I2). destruct (attach_spec _ _ W' A') as (J0 & J1 & J2 & J3 & J4). clear IH.
  destruct A as (N1 & N2 & H1 & H2). cbn [map fst snd In] in *.
  assert (En : cget (conns st) n = None) by (apply not_conn, H1; now left). assert (Nt : n <> t) by (intros ->; apply (H2 t); now left).
  assert (Tl : ~ In t (map fst l)) by (intros Q; apply (H2 t); [now right|now left]). assert (Nl : ~ In n (map fst l)) by (inversion_clear N1; assumption).
  rewrite attach_cons. set (st1 := connect teq tname st n t "") in *.
  pose proof (fun x => step_conns st n t x En Nt) as S. fold st1 in S.
  assert (P0 : exists p, cget (conns st1) n = Some p /\ cget (conns st1) t = Some p).
  { rewrite !S. destruct (cget (conns st) t) as [q|] eqn:Et.
    - exists q. destruct (teq n n); [|contradiction]. destruct (teq t n); [congruence|]. now split.
    - exists (length (ports st)). destruct (teq n t); [contradiction|]. destruct (teq n n); [|contradiction]. destruct (teq t t); [|contradiction]. now split. }
  assert (SS : forall u v, u <> n -> v <> n -> same st1 u v -> same st u v).
  { intros u v Hu Hv [E|(p & E1 & E2)]; [now left|]. rewrite S in E1, E2. destruct (cget (conns st) t) as [r|] eqn:Et.
    - destruct (teq u n); [contradiction|]. destruct (teq v n); [contradiction|]. right. eauto.
    - destruct (teq u n); [contradiction|]. destruct (teq v n); [contradiction|]. destruct (teq u t), (teq v t); subst; [now left| | |right; eauto].
      + injection E1 as <-. apply W in E2. lia.
      + injection E2 as <-. apply W in E1. lia. }
  split.
  - intros u Hu Hs. rewrite I1; [|tauto|]. 2:{ intros t' Ht' Q. apply (Hs t'); [now right|]. apply SS; [intros ->; tauto| |exact Q]. intros ->. apply (H2 n); [now left|now right]. }
    destruct P0 as (p & Pn & Pt). assert (Ut : u <> t) by (intros ->; apply (Hs t); [now left|now left]). assert (Un : u <> n) by (intros ->; tauto).
    destruct (cget (conns st1) u) as [q|] eqn:Eu.
    + unfold st1. rewrite step_name; try assumption; [|apply Hn; now left|unfold connected; fold st1; congruence]. fold st1. rewrite Pn, Eu.
      destruct (in_dec teq n [u]) as [[<-|[]]|_]; [tauto|]. destruct (Nat.eqb_spec p q) as [<-|]; [|reflexivity]. exfalso. apply (Hs t); [now left|]. apply SS; auto. right. eauto.
    + unfold net_name. rewrite Eu. rewrite S in Eu. destruct (cget (conns st) t); [destruct (teq u n); [tauto|]|destruct (teq u t); [tauto|]; destruct (teq u n); [tauto|]]; now rewrite Eu.
  - intros n' t' [E|Hin].
    2:{ destruct (I2 n' t' Hin) as (a & b & Hab & Q1 & Q2 & Q3). exists a, b. split; [now right|]. repeat split; assumption. }
    injection E as <- <-. destruct P0 as (p & Pn & Pt).
    (* is a later pair on the same net? *)
    destruct (Exists_dec (fun c => cget (conns st1) (snd c) = Some p) l) as [Ex|Nx].
    { intros [a b]. cbn [snd]. destruct (cget (conns st1) b) as [q|]; [destruct (Nat.eq_dec q p); [left; congruence|right; congruence]|right; discriminate]. }
    + apply Exists_exists in Ex. destruct Ex as ([a b] & Hab & Eb). cbn [snd] in Eb. destruct (I2 a b Hab) as (a' & b' & Hab' & Q1 & Q2 & Q3). exists a', b'. split; [now right|].
      assert (Bl : ~ In b (map fst l)) by (intros Q; apply (H2 b); [now right|right; now apply (in_map snd) in Hab]).
      pose proof (J1 _ _ Tl Pt) as K1. pose proof (J1 _ _ Nl Pn) as K2. pose proof (J1 _ _ Bl Eb) as K3.
      assert (NE : forall x, cget (conns (attach st1 l)) x = Some p -> net_name teq tname (attach st1 l) x = net_name teq tname (attach st1 l) b) by (intros x Ex; unfold net_name; now rewrite Ex, K3).
      rewrite (NE n K2), (NE t K1), Q3. split; [|now split].
      destruct Q1 as [<-|(r & R1 & R2)]; [right; exists p; now split|]. right. exists p. split; [exact K1|congruence].
    + assert (NS : forall x, x = n \/ x = t -> forall t2, In t2 (map snd l) -> ~ same st1 x t2).
      { intros x Hx t2 Ht2 [E|(r & R1 & R2)].
        - subst t2. destruct Hx as [->| ->]; [apply (H2 n); [now left|now right]|inversion_clear N2; contradiction].
        - apply Nx. apply in_map_iff in Ht2. destruct Ht2 as ([a b] & <- & Hab). apply Exists_exists. exists (a, b). split; [exact Hab|]. cbn [snd] in *. destruct Hx as [->| ->]; congruence. }
      exists n, t. split; [now left|]. split; [now left|]. rewrite !I1; auto.
      assert (Q : net_name teq tname st1 n = tname n).
      { unfold st1. rewrite step_name; try assumption; [|apply Hn; now left|unfold connected; fold st1; congruence]. destruct (in_dec teq n [n]) as [_|Q]; [reflexivity|exfalso; apply Q; now left]. }
      split; [exact Q|]. rewrite <- Q. unfold net_name. now rewrite Pn, Pt.
Qed.
End Body.
