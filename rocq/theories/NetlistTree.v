(** Terminal lookup, de-duplication of models and definitions, the check of sub-circuit names. *)
From Coq Require Import String Ascii List Lia Arith Bool ZArith.
From Verif Require Import Base Netlist.
Import ListNotations.
Open Scope nat_scope.

Section Lookup.
Context {T : Type}.
Variable tname : T -> string.
Notation sget := Netlist.sget.

Definition lookup_ok (l : list T) (lk : list (string * nat)) : Prop := forall k,
  match sget lk k with
  | Some i => exists t, nth_error l i = Some t /\ tname t = k /\ forall j t', nth_error l j = Some t' -> tname t' = k -> j <= i
  | None => forall t, In t l -> tname t <> k
  end.

Lemma relabel_snoc lk l t : relabel tname lk (l ++ [t]) = (tname t, length l) :: relabel tname lk l.
Proof.
  unfold relabel. rewrite app_length. cbn [length]. rewrite Nat.add_1_r, seq_S.
  assert (E : forall (x : list nat) (y : list T) a b, length x = length y -> combine (x ++ [a]) (y ++ [b]) = combine x y ++ [(a, b)]).
  { induction x as [|u x IH]; intros [|v y] a b H; try discriminate; [reflexivity|]. cbn. f_equal. apply IH. now injection H. }
  rewrite E by apply seq_length. rewrite fold_left_app. reflexivity.
Qed.

Lemma sget_relabel lk l k :
  match sget (relabel tname lk l) k with
  | Some i => (exists t, nth_error l i = Some t /\ tname t = k /\ forall j t', nth_error l j = Some t' -> tname t' = k -> j <= i) \/
              (sget lk k = Some i /\ forall t, In t l -> tname t <> k)
  | None => forall t, In t l -> tname t <> k
  end.
Proof.
  induction l as [|t l IH] using rev_ind.
  { unfold relabel. cbn. destruct (sget lk k); [right; split; [reflexivity|intros t []]|intros t []]. }
  rewrite relabel_snoc. cbn [Netlist.sget]. destruct (String.eqb_spec k (tname t)) as [->|N].
  - left. exists t. split; [rewrite nth_error_app2, Nat.sub_diag by lia; reflexivity|]. split; [reflexivity|].
    intros j t' H _. assert (j < length (l ++ [t])) by (apply nth_error_Some; congruence). rewrite app_length in *. cbn in *. lia.
  - destruct (sget (relabel tname lk l) k) as [i|] eqn:E.
    + destruct IH as [(u & H1 & H2 & H3)|[H1 H2]].
      * left. exists u. assert (i < length l) by (apply nth_error_Some; congruence). split; [now rewrite nth_error_app1|]. split; [exact H2|].
        intros j t' G Ht. destruct (Nat.lt_ge_cases j (length l)) as [Hj|Hj]; [rewrite nth_error_app1 in G by exact Hj; eauto|].
        rewrite nth_error_app2 in G by exact Hj. destruct (j - length l) as [|m]; [injection G as <-; congruence|destruct m; discriminate].
      * right. split; [exact H1|]. intros u Hu. apply in_app_or in Hu. destruct Hu as [Hu|[<-|[]]]; auto.
    + intros u Hu. apply in_app_or in Hu. destruct Hu as [Hu|[<-|[]]]; auto.
Qed.

Lemma in_insert (l : list T) i t u : In u l -> In u (insert_at l i t).
Proof.
  intro H. unfold insert_at. rewrite <- (firstn_skipn i l) in H. apply in_app_or in H. apply in_or_app. destruct H; [auto|right; now right].
Qed.

Lemma add_ok e t i e' : lookup_ok (terms e) (lookup e) -> add_terminal tname e t i = Ok e' -> lookup_ok (terms e') (lookup e').
Proof.
  intros H. unfold add_terminal. destruct (Z.eqb_spec i (-1)).
  - destruct (sget (lookup e) (tname t)) eqn:E; [discriminate|]. intros [= <-]. cbn [terms lookup]. intro k. cbn [Netlist.sget].
    destruct (String.eqb_spec k (tname t)) as [->|N].
    + exists t. split; [rewrite nth_error_app2, Nat.sub_diag by lia; reflexivity|]. split; [reflexivity|].
      intros j t' Hj _. assert (j < length (terms e ++ [t])) by (apply nth_error_Some; congruence). rewrite app_length in *. cbn in *. lia.
    + specialize (H k). destruct (sget (lookup e) k) as [m|].
      * destruct H as (u & H1 & H2 & H3). exists u. assert (m < length (terms e)) by (apply nth_error_Some; congruence). split; [now rewrite nth_error_app1|]. split; [exact H2|].
        intros j t' Hj Ht. destruct (Nat.lt_ge_cases j (length (terms e))) as [L|L]; [rewrite nth_error_app1 in Hj by exact L; eauto|].
        rewrite nth_error_app2 in Hj by exact L. destruct (j - length (terms e)) as [|x]; [injection Hj as <-; congruence|destruct x; discriminate].
      * intros u Hu. apply in_app_or in Hu. destruct Hu as [Hu|[<-|[]]]; auto.
  - destruct ((0 <=? i)%Z && (i <? Z.of_nat (length (terms e)))%Z); [|discriminate]. intros [= <-]. cbn [terms lookup]. intro k.
    pose proof (sget_relabel (lookup e) (insert_at (terms e) (Z.to_nat i) t) k) as R.
    destruct (sget (relabel tname (lookup e) (insert_at (terms e) (Z.to_nat i) t)) k) as [m|]; [|exact R].
    destruct R as [R|[R1 R2]]; [exact R|]. exfalso. specialize (H k). rewrite R1 in H. destruct H as (u & H1 & H2 & _).
    apply (R2 u); [|exact H2]. apply in_insert. eapply nth_error_In. exact H1.
Qed.

Lemma add_all_ok ops : forall e e', lookup_ok (terms e) (lookup e) -> add_all tname e ops = Ok e' -> lookup_ok (terms e') (lookup e').
Proof.
  induction ops as [|[t i] ops IH]; intros e e' H; cbn; [intros [= <-]; exact H|].
  destruct (add_terminal tname e t i) as [e1|] eqn:E; cbn; [|discriminate]. apply IH. eapply add_ok; eauto.
Qed.

(** by name: the last terminal of that name *)
Theorem lookup_last ops e key : add_all tname elt0 ops = Ok e ->
  (forall t, get_name e key = Ok t <-> exists i, nth_error (terms e) i = Some t /\ tname t = upper key /\
                                       forall j t', nth_error (terms e) j = Some t' -> tname t' = upper key -> j <= i) /\
  ((forall t, In t (terms e) -> tname t <> upper key) -> get_name e key = Exn ValueError).
Proof.
  intro H. assert (L : lookup_ok (terms e) (lookup e)) by (eapply add_all_ok; [|exact H]; intros k t []).
  specialize (L (upper key)). unfold get_name. destruct (sget (lookup e) (upper key)) as [i|].
  - destruct L as (u & H1 & H2 & H3). rewrite H1. split; [|intro N; exfalso; eapply N; [eapply nth_error_In; exact H1|exact H2]].
    intro t. split.
    + intros [= <-]. eauto.
    + intros (j & J1 & J2 & J3). assert (j = i) by (apply Nat.le_antisymm; eauto). subst j. congruence.
  - split; [|reflexivity]. intro t. split; [discriminate|]. intros (i & H1 & H2 & _). exfalso. eapply L; [eapply nth_error_In; exact H1|exact H2].
Qed.

(** appending only *)
Definition appends (l : list T) : list (T * Z) := map (fun t => (t, (-1)%Z)) l.

Lemma append_run l : forall e, lookup_ok (terms e) (lookup e) -> NoDup (map tname (terms e)) ->
  (NoDup (map tname (terms e ++ l)) -> exists e', add_all tname e (appends l) = Ok e' /\ terms e' = terms e ++ l) /\
  (~ NoDup (map tname (terms e ++ l)) -> add_all tname e (appends l) = Exn ValueError).
Proof.
  induction l as [|t l IH]; intros e H D.
  { rewrite app_nil_r. split; [intros _; exists e; auto|intro N; contradiction]. }
  cbn [appends map add_all]. unfold add_terminal at 1 2. cbn [Z.eqb]. pose proof (H (tname t)) as K.
  destruct (sget (lookup e) (tname t)) as [i|] eqn:E.
  - destruct K as (u & H1 & H2 & _). split; [|reflexivity]. intro ND. exfalso. rewrite map_app in ND. cbn in ND. apply NoDup_remove_2 in ND. apply ND. apply in_or_app. left.
    rewrite <- H2. apply in_map. eapply nth_error_In. exact H1.
  - cbn [bind]. set (e1 := mkElt (terms e ++ [t]) ((tname t, length (terms e)) :: lookup e)).
    assert (A : add_terminal tname e t (-1)%Z = Ok e1) by (unfold add_terminal; cbn; rewrite E; reflexivity).
    assert (D1 : NoDup (map tname (terms e1))).
    { cbn [e1 terms]. rewrite map_app. cbn. apply NoDup_Add with (a := tname t) (l := map tname (terms e)).
      - rewrite <- (app_nil_r (map tname (terms e))) at 1. apply Add_app.
      - split; [exact D|]. intro N. apply in_map_iff in N. destruct N as (u & Hu & Iu). eapply K; eauto. }
    destruct (IH e1 (add_ok _ _ _ _ H A) D1) as [I1 I2]. cbn [e1 terms] in I1, I2. rewrite <- app_assoc in I1, I2. cbn [app] in I1, I2. split; assumption.
Qed.
Theorem append_lookup l :
  (NoDup (map tname l) -> exists e, add_all tname elt0 (appends l) = Ok e /\ terms e = l /\
     forall key t, get_name e key = Ok t <-> In t l /\ tname t = upper key) /\
  (~ NoDup (map tname l) -> add_all tname elt0 (appends l) = Exn ValueError).
Proof.
  destruct (append_run l elt0 ltac:(intros k t []) (NoDup_nil _)) as [A B]. cbn [terms elt0 app] in A, B. split; [|exact B].
  intro D. destruct (A D) as (e & E & Et). exists e. split; [exact E|]. split; [exact Et|]. intros key t.
  destruct (lookup_last _ _ key E) as [L _]. rewrite L, Et. split.
  - intros (i & H1 & H2 & _). split; [eapply nth_error_In; exact H1|exact H2].
  - intros [H1 H2]. destruct (In_nth_error _ _ H1) as [i Hi]. exists i. split; [exact Hi|]. split; [exact H2|]. intros j t' Hj Ht.
    assert (j = i); [|lia]. apply (proj1 (NoDup_nth_error (map tname l)) D); [rewrite map_length; apply nth_error_Some; congruence|].
    rewrite !nth_error_map, Hi, Hj. cbn. congruence.
Qed.
End Lookup.

(** *** De-duplicated appending *)
Section Dedup.
Context {X : Type}.
Variable eqb : X -> X -> bool.
Hypothesis eqb_refl : forall x, eqb x x = true.
Hypothesis eqb_sym : forall x y, eqb x y = eqb y x.
Hypothesis eqb_trans : forall x y z, eqb x y = true -> eqb y z = true -> eqb x z = true.
Notation app_new := (app_new eqb).
Definition known (x : X) (l : list X) : bool := existsb (fun y => eqb x y) l.

Lemma app_new_snoc acc l x : app_new acc (l ++ [x]) = if known x (app_new acc l) then app_new acc l else app_new acc l ++ [x].
Proof. unfold Netlist.app_new. rewrite fold_left_app. reflexivity. Qed.
Lemma known_in x l : known x l = true <-> exists y, In y l /\ eqb x y = true.
Proof. apply existsb_exists. Qed.
Lemma known_app x l k : known x (l ++ k) = known x l || known x k.
Proof. apply existsb_app. Qed.
Lemma known_new x acc l : known x (app_new acc l) = known x acc || known x l.
Proof.
  induction l as [|y l IH] using rev_ind; [cbn; now rewrite orb_false_r|]. rewrite app_new_snoc, (known_app x l).
  destruct (known y (app_new acc l)) eqn:E.
  - rewrite IH. destruct (known x acc); [reflexivity|]. destruct (known x l) eqn:El; [reflexivity|]. cbn in IH |- *. rewrite orb_false_r.
    destruct (eqb x y) eqn:Exy; [|reflexivity]. exfalso. apply known_in in E. destruct E as (z & Hz & Ez).
    assert (known x (app_new acc l) = true) by (apply known_in; exists z; split; [exact Hz|eauto]). congruence.
  - rewrite known_app, IH. now rewrite orb_assoc.
Qed.
Lemma app_new_assoc acc b l : app_new acc (app_new b l) = app_new (app_new acc b) l.
Proof.
  induction l as [|x l IH] using rev_ind; [reflexivity|]. rewrite !app_new_snoc. destruct (known x (app_new b l)) eqn:E.
  - rewrite IH. replace (known x (app_new (app_new acc b) l)) with true; [reflexivity|]. symmetry. rewrite known_new in *. rewrite known_new.
    apply orb_prop in E. destruct E as [-> | ->]; now rewrite ?orb_true_r.
  - rewrite app_new_snoc, IH. reflexivity.
Qed.
Lemma app_new_app acc l k : app_new acc (l ++ k) = app_new (app_new acc l) k.
Proof. unfold Netlist.app_new. apply fold_left_app. Qed.
Lemma fold_app_new {K} (f : K -> list X) ks : forall acc, fold_left (fun acc k => app_new acc (f k)) ks acc = app_new acc (flat_map f ks).
Proof. induction ks as [|k ks IH]; intro acc; [reflexivity|]. cbn [fold_left flat_map]. rewrite IH. now rewrite app_new_app. Qed.

Lemma app_new_spec x l : In x (app_new [] l) <-> exists l1 l2, l = l1 ++ x :: l2 /\ known x l1 = false.
Proof.
  induction l as [|y l IH] using rev_ind; [split; [intros []|intros (l1 & l2 & E & _); destruct l1; discriminate]|].
  rewrite app_new_snoc, known_new. cbn [known existsb orb].
  assert (Old : (exists l1 l2, l = l1 ++ x :: l2 /\ known x l1 = false) -> exists l1 l2, l ++ [y] = l1 ++ x :: l2 /\ known x l1 = false).
  { intros (l1 & l2 & -> & H). exists l1, (l2 ++ [y]). split; [now rewrite <- app_assoc|exact H]. }
  assert (Split : forall l1 l2, l ++ [y] = l1 ++ x :: l2 -> (exists l2', l2 = l2' ++ [y] /\ l = l1 ++ x :: l2') \/ (l2 = [] /\ l = l1 /\ x = y)).
  { intros l1 l2 E. destruct l2 as [|z l2 _] using rev_ind.
    - right. apply app_inj_tail in E. destruct E; auto.
    - left. exists l2. rewrite app_comm_cons, app_assoc in E. apply app_inj_tail in E. destruct E as [E1 E2]. subst z. split; [reflexivity|exact E1]. }
  destruct (known y l) eqn:E.
  - rewrite IH. split; [exact Old|]. intros (l1 & l2 & E2 & H). destruct (Split _ _ E2) as [(l2' & -> & ->)|(-> & -> & ->)]; [eauto|congruence].
  - rewrite in_app_iff, IH. split.
    + intros [H|[<-|[]]]; [now apply Old|]. exists l, []. auto.
    + intros (l1 & l2 & E2 & H). destruct (Split _ _ E2) as [(l2' & -> & ->)|(-> & -> & ->)]; [left; eauto|right; now left].
Qed.
Lemma app_new_distinct l : ForallOrdPairs (fun x y => eqb x y = false) (app_new [] l).
Proof.
  induction l as [|y l IH] using rev_ind; [constructor|]. rewrite app_new_snoc. destruct (known y (app_new [] l)) eqn:E; [exact IH|].
  assert (H : forall z, In z (app_new [] l) -> eqb z y = false).
  { intros z Hz. rewrite eqb_sym. destruct (eqb y z) eqn:Ez; [|reflexivity]. exfalso. assert (known y (app_new [] l) = true) by (apply known_in; eauto). congruence. }
  clear E. revert IH H. generalize (app_new [] l) as k. induction k as [|z k IHk]; intros P H; [constructor; constructor|].
  inversion P; subst. cbn. constructor; [|apply IHk; [assumption|intros; apply H; now right]].
  apply Forall_app. split; [assumption|]. constructor; [apply H; now left|constructor].
Qed.
(** the elements that differ from all earlier ones, in order *)
Fixpoint firsts (l : list X) : list X := match l with [] => [] | x :: l => x :: filter (fun y => negb (eqb y x)) (firsts l) end.
Lemma filter_filter {Y} (f g : Y -> bool) l : filter f (filter g l) = filter (fun y => g y && f y) l.
Proof. induction l as [|y l IH]; [reflexivity|]. cbn. destruct (g y) eqn:G; cbn; [destruct (f y); now rewrite IH|exact IH]. Qed.
Lemma app_new_firsts l : forall acc, app_new acc l = acc ++ filter (fun y => negb (known y acc)) (firsts l).
Proof.
  induction l as [|x l IH]; intro acc; [cbn; now rewrite app_nil_r|].
  change (app_new acc (x :: l)) with (app_new (if known x acc then acc else acc ++ [x]) l). rewrite IH. cbn [firsts filter]. rewrite filter_filter.
  destruct (known x acc) eqn:E.
  - cbn [negb]. f_equal. apply filter_ext. intro y. destruct (known y acc) eqn:K; [now rewrite andb_false_r|]. cbn. rewrite andb_true_r.
    destruct (eqb y x) eqn:Y; [|reflexivity]. exfalso. apply known_in in E. destruct E as (z & Hz & Ez).
    assert (known y acc = true) by (apply known_in; exists z; split; [exact Hz|eauto]). congruence.
  - cbn [negb]. rewrite <- app_assoc. cbn. do 2 f_equal. apply filter_ext. intro y. rewrite known_app. cbn. rewrite orb_false_r, negb_orb. apply andb_comm.
Qed.
Lemma app_new_nil l : app_new [] l = firsts l.
Proof.
  rewrite app_new_firsts. cbn. induction (firsts l) as [|x k IH]; [reflexivity|]. cbn. now rewrite IH.
Qed.
End Dedup.

(** *** Trees *)
Section TreeProofs.
Context {P : Type}.
Notation tree := (tree P).
Section Ind.
Variable Q : tree -> Prop.
Hypothesis HC : forall m, Q (Comp m).
Hypothesis HS : forall n c x kids, Forall Q kids -> Q (Subckt n c x kids).
Fixpoint tree_rect' (t : tree) : Q t :=
  match t with
  | Comp m => HC m
  | Subckt n c x kids => HS n c x kids ((fix go l : Forall Q l := match l with [] => Forall_nil _ | k :: l => Forall_cons _ (tree_rect' k) (go l) end) kids)
  end.
End Ind.

(** the models in the order of traversal *)
Fixpoint models (t : tree) : list (dmodel P) :=
  match t with
  | Comp None => []
  | Comp (Some m) => [m]
  | Subckt _ _ _ kids => flat_map models kids
  end.
(** the definitions of the sub-circuits, outer first *)
Fixpoint texts (t : tree) : list string :=
  match t with
  | Comp _ => []
  | Subckt _ _ x kids => x :: flat_map texts kids
  end.
(** the names of the sub-circuits *)
Fixpoint sub_names (t : tree) : list string :=
  match t with
  | Comp _ => []
  | Subckt n _ _ kids => n :: flat_map sub_names kids
  end.

Lemma dm_refl (a : dmodel P) : dm_eqb a a = true.
Proof. unfold dm_eqb. now rewrite !String.eqb_refl. Qed.
Lemma dm_sym (a b : dmodel P) : dm_eqb a b = dm_eqb b a.
Proof. unfold dm_eqb. now rewrite (String.eqb_sym (ng_name a)), (String.eqb_sym (m_name a)). Qed.
Lemma dm_true (a b : dmodel P) : dm_eqb a b = true <-> ng_name a = ng_name b /\ m_name a = m_name b.
Proof. unfold dm_eqb. rewrite andb_true_iff, !String.eqb_eq. reflexivity. Qed.
Lemma dm_trans (a b c : dmodel P) : dm_eqb a b = true -> dm_eqb b c = true -> dm_eqb a c = true.
Proof. rewrite !dm_true. intros [-> ->] [-> ->]. auto. Qed.
Lemma s_trans a b c : String.eqb a b = true -> String.eqb b c = true -> String.eqb a c = true.
Proof. rewrite !String.eqb_eq. congruence. Qed.

Lemma model_set_spec (t : tree) : model_set t = app_new dm_eqb [] (models t).
Proof.
  induction t as [[m|]|n c x kids IH] using tree_rect'; try reflexivity. cbn [model_set models].
  rewrite (fold_app_new dm_eqb). assert (E : app_new dm_eqb [] (flat_map model_set kids) = app_new dm_eqb [] (flat_map models kids)); [|exact E].
  induction IH as [|k kids Hk _ IHk]; [reflexivity|]. cbn [flat_map].
  assert (G : forall acc (l l' : list (dmodel P)), app_new dm_eqb [] l = app_new dm_eqb [] l' -> app_new dm_eqb acc l = app_new dm_eqb acc l' ).
  { intros acc l l' H. rewrite <- (app_new_assoc dm_eqb dm_trans acc [] l) at 1. rewrite H. apply (app_new_assoc dm_eqb dm_trans). }
  rewrite !app_new_app, Hk. rewrite (app_new_assoc dm_eqb dm_trans). cbn [Netlist.app_new fold_left]. apply G. exact IHk.
Qed.

Theorem models_first (t : tree) m : In m (model_set t) <-> exists l r, models t = l ++ m :: r /\ forall m', In m' l -> (ng_name m', m_name m') <> (ng_name m, m_name m).
Proof.
  rewrite model_set_spec, (app_new_spec dm_eqb dm_trans). split; intros (l & r & E & H); exists l, r; (split; [exact E|]).
  - intros m' Hm' [= E1 E2]. assert (known dm_eqb m l = true) by (apply known_in; exists m'; split; [exact Hm'|apply dm_true; auto]). congruence.
  - destruct (known dm_eqb m l) eqn:K; [|reflexivity]. apply known_in in K. destruct K as (m' & Hm' & Em). apply dm_true in Em. exfalso.
    apply (H m' Hm'). destruct Em. congruence.
Qed.
Theorem models_distinct (t : tree) : NoDup (map (fun m : dmodel P => (ng_name m, m_name m)) (model_set t)).
Proof.
  rewrite model_set_spec. assert (H := app_new_distinct dm_eqb dm_sym (models t)). induction H as [|x l H _ IH]; [constructor|].
  cbn. constructor; [|exact IH]. intro I. apply in_map_iff in I. destruct I as (y & E & Iy). rewrite Forall_forall in H. specialize (H y Iy).
  injection E as E1 E2. assert (dm_eqb x y = true) by (apply dm_true; auto). congruence.
Qed.

Lemma definitions_spec (t : tree) : definitions t = app_new String.eqb [] (texts t).
Proof.
  induction t as [m|n c x kids IH] using tree_rect'; [reflexivity|]. cbn [definitions texts].
  rewrite (fold_app_new String.eqb). change (x :: flat_map texts kids) with ([x] ++ flat_map texts kids). rewrite app_new_app. change (app_new String.eqb [] [x]) with [x].
  generalize [x] as acc. induction IH as [|k kids Hk _ IHk]; intro acc; [reflexivity|]. cbn [flat_map]. rewrite !app_new_app, Hk.
  rewrite (app_new_assoc String.eqb s_trans). apply IHk.
Qed.
Theorem definitions_all (t : tree) x : In x (definitions t) <-> In x (texts t).
Proof.
  rewrite definitions_spec, (app_new_spec String.eqb s_trans). split.
  - intros (l & r & -> & _). apply in_or_app. cbn. auto.
  - intro H. induction (texts t) as [|y l IH] using rev_ind; [destruct H|]. apply in_app_or in H.
    destruct (in_dec string_dec x l) as [I|N].
    + destruct (IH I) as (l1 & l2 & -> & K). exists l1, (l2 ++ [y]). split; [now rewrite <- app_assoc|exact K].
    + destruct H as [H|[->|[]]]; [contradiction|]. exists l, []. split; [reflexivity|]. destruct (known String.eqb x l) eqn:K; [|reflexivity].
      apply known_in in K. destruct K as (z & Hz & E). apply String.eqb_eq in E. subst z. contradiction.
Qed.
Theorem definitions_nodup (t : tree) : NoDup (definitions t).
Proof.
  rewrite definitions_spec. assert (H := app_new_distinct String.eqb String.eqb_sym (texts t)). induction H as [|x l H _ IH]; [constructor|].
  constructor; [|exact IH]. intro I. rewrite Forall_forall in H. specialize (H x I). now rewrite String.eqb_refl in H.
Qed.
Lemma definitions_head n c x (kids : list tree) : exists r, definitions (Subckt n c x kids) = x :: r.
Proof.
  cbn [definitions]. rewrite (fold_app_new String.eqb). generalize (flat_map definitions kids) as l. induction l as [|y l [r IH]] using rev_ind; [exists []; reflexivity|].
  rewrite app_new_snoc. destruct (known String.eqb y _); [eauto|]. rewrite IH. cbn. eauto.
Qed.

Theorem model_set_firsts (t : tree) : model_set t = firsts dm_eqb (models t).
Proof. rewrite model_set_spec. apply app_new_nil, dm_trans. Qed.
Theorem definitions_firsts (t : tree) : definitions t = firsts String.eqb (texts t).
Proof. rewrite definitions_spec. apply app_new_nil, s_trans. Qed.

(** ** Names *)
(** every cache that has been filled is up to date *)
Inductive fresh : tree -> Prop :=
| f_comp m : fresh (Comp m)
| f_sub n c x kids : Forall fresh kids -> (c = [] \/ c = n :: flat_map sub_names kids) -> fresh (Subckt n c x kids).
(** some sub-circuit has its own name again further down *)
Inductive recurs : tree -> Prop :=
| r_here n c x kids : In n (flat_map sub_names kids) -> recurs (Subckt n c x kids)
| r_below n c x kids k : In k kids -> recurs k -> recurs (Subckt n c x kids).
Inductive same_shape : tree -> tree -> Prop :=
| s_comp m : same_shape (Comp m) (Comp m)
| s_sub n c c' x kids kids' : Forall2 same_shape kids kids' -> same_shape (Subckt n c x kids) (Subckt n c' x kids').

Lemma shape_names (t : tree) : forall t', same_shape t t' -> sub_names t = sub_names t'.
Proof.
  induction t as [m|n c x kids IH] using tree_rect'; intros t' H; inversion H as [|? ? c' ? ? kids' F]; subst; [reflexivity|]. cbn. f_equal.
  clear H. induction F as [|k k' l l' Hk _ IHF]; [reflexivity|]. inversion IH; subst. cbn. f_equal; auto.
Qed.
Lemma shape_trans (t : tree) : forall u v, same_shape t u -> same_shape u v -> same_shape t v.
Proof.
  induction t as [m|n c x kids IH] using tree_rect'; intros u v H K; inversion H as [|? ? c' ? ? kids' F]; subst; [exact K|].
  inversion K as [|? ? c'' ? ? kids'' F']; subst. constructor. clear H K. revert kids'' F'. induction F as [|k k' l l' Hk _ IHF]; intros kids'' F'; inversion F'; subst; [constructor|].
  inversion IH; subst. constructor; eauto.
Qed.
Lemma shape_refl (t : tree) : same_shape t t.
Proof. induction t as [m|n c x kids IH] using tree_rect'; [constructor|]. constructor. induction IH; constructor; auto. Qed.

Lemma check_names_spec (t : tree) : fresh t -> fst (check_names t) = sub_names t /\ same_shape t (snd (check_names t)) /\ fresh (snd (check_names t)).
Proof.
  induction t as [m|n c x kids IH] using tree_rect'; intro H; [repeat split; constructor|]. inversion H as [|? ? ? ? F Hc]; subst.
  destruct c as [|c0 c].
  - cbn [check_names fst snd]. assert (E : flat_map fst (map check_names kids) = flat_map sub_names kids /\ Forall2 same_shape kids (map snd (map check_names kids)) /\ Forall fresh (map snd (map check_names kids))).
    { clear H Hc. induction F as [|k l Hk _ IHl]; [repeat split; constructor|]. inversion IH; subst. destruct (IHl H2) as (E1 & E2 & E3). destruct (H1 Hk) as (K1 & K2 & K3).
      cbn. rewrite K1, E1. repeat split; auto; constructor; auto. }
    destruct E as (E1 & E2 & E3). rewrite E1. split; [reflexivity|]. split; [constructor; exact E2|]. constructor; [exact E3|]. right. f_equal.
    clear - E2. induction E2 as [|k k' l l' Hk _ IHl]; [reflexivity|]. cbn. f_equal; [now apply shape_names|exact IHl].
  - destruct Hc as [Hc|Hc]; [discriminate|]. cbn [check_names fst snd sub_names]. split; [exact Hc|]. split; [apply shape_refl|exact H].
Qed.

Theorem check_spec (t : tree) : fresh t -> (recurs t /\ check_subckt t = Exn ValueError) \/ (~ recurs t /\ exists t', check_subckt t = Ok t' /\ same_shape t t' /\ fresh t').
Proof.
  induction t as [m|n c x kids IH] using tree_rect'; intro H.
  { right. split; [intro R; inversion R|]. exists (Comp m). repeat split; constructor. }
  inversion H as [|? ? ? ? F Hc]; subst. cbn [check_subckt].
  match goal with |- context [bind (?g kids) _] => set (go := g) end.
  assert (G : ((exists k, In k kids /\ (recurs k \/ In n (sub_names k))) /\ go kids = Exn ValueError) \/
              (~ (exists k, In k kids /\ (recurs k \/ In n (sub_names k))) /\ exists kids', go kids = Ok kids' /\ Forall2 same_shape kids kids' /\ Forall fresh kids')).
  { clear H Hc. induction F as [|k l Hk _ IHl]; [right; split; [intros (k & [] & _)|exists []; repeat split; constructor]|]. inversion IH as [|? ? IHk IHl']; subst. specialize (IHl IHl').
    cbn [go]. fold go. destruct (IHk Hk) as [[R E]|(R & t' & E & S & Ft)]; rewrite E; cbn [bind].
    - left. split; [exists k; split; [now left|now left]|reflexivity].
    - destruct (check_names_spec t' Ft) as (N1 & N2 & N3). destruct (check_names t') as [names k2]. cbn [fst snd] in *. subst names. rewrite <- (shape_names _ _ S).
      destruct (existsb (String.eqb n) (sub_names k)) eqn:Ex.
      + left. apply existsb_exists in Ex. destruct Ex as (y & Hy & Ey). apply String.eqb_eq in Ey. subst y. split; [exists k; split; [now left|now right]|reflexivity].
      + assert (Nk : ~ In n (sub_names k)). { intro I. assert (existsb (String.eqb n) (sub_names k) = true) by (apply existsb_exists; exists n; split; [exact I|apply String.eqb_refl]). congruence. }
        destruct IHl as [[(j & Hj & K) El]|[Nl (kids' & El & S' & F')]]; rewrite El; cbn [bind].
        * left. split; [exists j; split; [now right|exact K]|reflexivity].
        * right. split; [intros (j & [<-|Hj] & K); [tauto|apply Nl; eauto]|]. exists (k2 :: kids'). split; [reflexivity|].
          split; constructor; auto. eapply shape_trans; eauto. }
  destruct G as [[(k & Hk & K) E]|[N (kids' & E & S & Fk)]]; rewrite E; cbn [bind].
  - left. split; [|reflexivity]. destruct K as [K|K]; [eapply r_below; eauto|]. apply r_here. apply in_flat_map. eauto.
  - right. split.
    + intro R. inversion R as [? ? ? ? I|? ? ? ? k Hk Rk]; subst; apply N; [apply in_flat_map in I; destruct I as (k & Hk & I); eauto|eauto].
    + exists (Subckt n c x kids'). split; [reflexivity|]. split; [constructor; exact S|]. constructor; [exact Fk|].
      destruct Hc as [->| ->]; [now left|right]. f_equal. clear - S. induction S as [|k k' l l' Hk _ IHl]; [reflexivity|]. cbn. f_equal; [now apply shape_names|exact IHl].
Qed.
End TreeProofs.
