(** Names of nets and components of the generated circuits, and the voltages and currents of their lines. *)
From Coq Require Import String Ascii Decimal DecimalString DecimalNat List Bool Arith Reals Lia Lra.
From Flocq Require Import Core.
From Verif Require Import Base LinAlg FirExtras Netlist NetlistProofs AnalogSystem IntegratorsProofs Circuits CircuitLaws.
Import ListNotations.
Open Scope R_scope.

(** ** Decimal names *)
Lemma dec_inj n m : dec n = dec m -> n = m.
Proof.
  unfold dec. intro H. apply (f_equal NilEmpty.uint_of_string) in H. rewrite !NilEmpty.usu in H. injection H as H.
  apply (f_equal Nat.of_uint) in H. now rewrite !Unsigned.of_to in H.
Qed.
Fixpoint digits (s : string) : Prop := match s with EmptyString => True | String c s => (48 <= nat_of_ascii c <= 57)%nat /\ digits s end.
Lemma uint_digits d : digits (NilEmpty.string_of_uint d).
Proof. induction d; cbn; split; auto; lia. Qed.
Lemma dec_digits n : digits (dec n).
Proof. apply uint_digits. Qed.
(** a number followed by something that does not start with a digit *)
Definition stop (s : string) : Prop := match s with EmptyString => True | String c _ => ~ (48 <= nat_of_ascii c <= 57)%nat end.
Lemma digits_split a b s t : digits a -> digits b -> stop s -> stop t -> (a ++ s)%string = (b ++ t)%string -> a = b /\ s = t.
Proof.
  revert b. induction a as [|c a IH]; intros [|d b] Ha Hb Hs Ht E; cbn in *.
  - auto.
  - subst s. cbn in Hs. tauto.
  - subst t. cbn in Ht. tauto.
  - injection E as -> E. destruct (IH b) as [-> ->]; tauto.
Qed.
Lemma dec_split n m s t : stop s -> stop t -> (dec n ++ s)%string = (dec m ++ t)%string -> n = m /\ s = t.
Proof. intros Hs Ht E. destruct (digits_split _ _ _ _ (dec_digits n) (dec_digits m) Hs Ht E) as [H ->]. split; [now apply dec_inj|reflexivity]. Qed.
Lemma dec_head n c s t : stop (String c s) -> (dec n ++ t)%string = String c s -> dec n = ""%string.
Proof.
  intros H E. pose proof (dec_digits n) as D. destruct (dec n) as [|d x]; [reflexivity|]. cbn in E. injection E as -> _. cbn in D, H. tauto.
Qed.
Lemma dec_nonempty n : dec n <> ""%string.
Proof.
  unfold dec. intro H. assert (K : Nat.to_uint n <> Nil).
  { intro K. destruct n as [|n]; [discriminate|]. apply (f_equal Nat.of_uint) in K. rewrite Unsigned.of_to in K. discriminate. }
  destruct (Nat.to_uint n); try discriminate. now apply K.
Qed.
Lemma app_nil_string s : (s ++ "")%string = s.
Proof. induction s; cbn; congruence. Qed.
Lemma side_stop p : stop (side p).
Proof. destruct p; cbn; lia. Qed.
Lemma side_inj p q : side p = side q -> p = q.
Proof. destruct p, q; try reflexivity; discriminate. Qed.

Definition real_lab (l : lab) : Prop := l <> P0 /\ l <> P1.
Lemma labname_nonempty l : real_lab l -> labname l <> ""%string.
Proof. intros [H0 H1]. destruct l; try discriminate; cbn; congruence. Qed.

Lemma indexed p q i j : (dec i ++ side p)%string = (dec j ++ side q)%string -> i = j /\ p = q.
Proof. intro E. destruct (dec_split _ _ _ _ (side_stop p) (side_stop q) E) as [-> E']. split; [reflexivity|now apply side_inj]. Qed.
Lemma not_indexed i p c s : stop (String c s) -> (dec i ++ side p)%string <> String c s.
Proof. intros H E. apply dec_head in E; [|exact H]. now apply dec_nonempty in E. Qed.
Lemma not_nil i p : (dec i ++ side p)%string <> ""%string.
Proof. intro E. destruct (dec i) eqn:D; [now apply dec_nonempty in D|discriminate]. Qed.

Lemma labname_inj a b : real_lab a -> real_lab b -> labname a = labname b -> a = b.
Proof.
  intros [A0 A1] [B0 B1] E.
  destruct a, b; try reflexivity; try congruence; cbn in E; try discriminate E;
    try (injection E; intros; discriminate);
    try (injection E as E; apply indexed in E; destruct E as [-> ->]; reflexivity);
    try (injection E as E; exfalso; first [exact (not_nil _ _ E)|exact (not_nil _ _ (eq_sym E))
      |refine (not_indexed _ _ _ _ _ E); cbn; lia|refine (not_indexed _ _ _ _ _ (eq_sym E)); cbn; lia]).
Qed.
Lemma eqb_lab a b : real_lab a -> real_lab b -> String.eqb (labname a) (labname b) = if lab_dec a b then true else false.
Proof.
  intros Ha Hb. destruct (lab_dec a b) as [->|N]; [apply String.eqb_refl|]. apply String.eqb_neq. intro E. apply N. now apply labname_inj.
Qed.

(** ** Nodes *)
(** each call attaches a component terminal to the own terminal [att] assigns to it *)
Definition att_ok (k : ckt) (att : cid -> lab -> lab) : Prop :=
  forall a b, In (a, b) (k_calls k) -> exists l c m, a = Own l /\ b = Pin c m /\ att c m = l /\ real_lab l.

Section Nodes.
Variable anon : cid -> lab -> string.
Variable k : ckt.
Variable att : cid -> lab -> lab.
Hypothesis K : att_ok k att.

Lemma k_star : star (tname anon) (map (fun c => (c, ""%string)) (k_calls k)).
Proof.
  split; [|split].
  - intros c d Hc Hd E. apply in_map_iff in Hc, Hd. destruct Hc as ([a b] & <- & Hc), Hd as ([a' b'] & <- & Hd). cbn in E. subst b'.
    destruct (K a b Hc) as (l & c & m & -> & -> & E1 & _). destruct (K a' _ Hd) as (l' & c' & m' & -> & E & E2 & _).
    injection E as <- <-. cbn. congruence.
  - intros c d Hc Hd. apply in_map_iff in Hc, Hd. destruct Hc as ([a b] & <- & Hc), Hd as ([a' b'] & <- & Hd). cbn.
    destruct (K a b Hc) as (l & c & m & -> & _). destruct (K a' _ Hd) as (l' & c' & m' & _ & -> & _). discriminate.
  - intros c Hc. apply in_map_iff in Hc. destruct Hc as ([a b] & <- & Hc). split; [reflexivity|].
    destruct (K a b Hc) as (l & c & m & -> & _ & _ & Hl). cbn. now apply labname_nonempty.
Qed.
Lemma node_pin l c m : In (own l c m) (k_calls k) -> node anon k (Pin c m) = labname l.
Proof.
  intro H. destruct (star_nets term_dec (tname anon) _ (Own l, Pin c m, ""%string) k_star) as [E _]; [|exact E].
  now apply (in_map (fun c => (c, ""%string))).
Qed.
Lemma node_own l : node anon k (Own l) = labname l.
Proof.
  destruct (in_dec term_dec (Own l) (map fst (k_calls k))) as [H|H].
  - apply in_map_iff in H. destruct H as ([a b] & E & H). cbn in E. subst a.
    destruct (star_nets term_dec (tname anon) _ (Own l, b, ""%string) k_star) as [_ E]; [|exact E].
    now apply (in_map (fun c => (c, ""%string))).
  - destruct (touched_dec term_dec (tname anon) (map (fun c => (c, ""%string)) (k_calls k)) (Own l)) as [T|T];
      [|exact (net_name_untouched term_dec (tname anon) _ _ (star_no_merge term_dec (tname anon) _ k_star) T)]. exfalso.
    destruct T as (c & Hc & [E'|E']); apply in_map_iff in Hc; destruct Hc as ([a b] & <- & Hc); cbn in E'; subst.
    + apply H. apply in_map_iff. exists (Own l, b). auto.
    + destruct (K a _ Hc) as (l' & c & m & _ & E2 & _). discriminate.
Qed.
End Nodes.

(** ** Sums of currents *)
Lemma total_app f l k : total f (l ++ k) = total f l + total f k.
Proof. unfold total. rewrite map_app. apply fold_app_R. Qed.
Lemma total_flat_map {X} f (g : X -> list line) l : total f (flat_map g l) = fold_right Rplus 0 (map (fun x => total f (g x)) l).
Proof. induction l as [|x l IH]; [reflexivity|]. cbn [flat_map]. rewrite total_app, IH. reflexivity. Qed.
Lemma total_map {X} f (g : X -> line) l : total f (map g l) = fold_right Rplus 0 (map (fun x => f (g x)) l).
Proof. unfold total. now rewrite map_map. Qed.
Lemma sum_ext {X} (f g : X -> R) l : (forall x, In x l -> f x = g x) -> fold_right Rplus 0 (map f l) = fold_right Rplus 0 (map g l).
Proof. intro H. f_equal. now apply map_ext_in. Qed.
Lemma sum_flat_map {X Y} (f : Y -> R) (g : X -> list Y) l :
  fold_right Rplus 0 (map f (flat_map g l)) = fold_right Rplus 0 (map (fun x => fold_right Rplus 0 (map f (g x))) l).
Proof. induction l as [|x l IH]; [reflexivity|]. cbn [flat_map]. rewrite map_app, fold_app_R, IH. reflexivity. Qed.
