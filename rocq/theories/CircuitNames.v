(** Instance names of the generated components are pairwise distinct: no component replaces another when it is added. *)
From Coq Require Import String List Bool Arith Reals Lia Lra.
From Flocq Require Import Core.
From Verif Require Import Base LinAlg FirExtras Netlist NetlistProofs AnalogSystem Circuits CircuitProofs OpampCircuit GmCircuit.
Import ListNotations.

Lemma dec_under n m s t : (dec n ++ "_" ++ s)%string = (dec m ++ "_" ++ t)%string -> n = m /\ s = t.
Proof. intro E. apply dec_split in E; [|cbn; lia|cbn; lia]. destruct E as [-> E]. injection E as ->. auto. Qed.
Theorem cname_inj c d : cname c = cname d -> c = d.
Proof.
  intro E.
  destruct c as [|[] [] ? ?|[] ?|?|?|[] ? ?|[]|[] ?|?|[]|[] ?| |[]| | | | | |[] ?| |]; destruct d as [|[] [] ? ?|[] ?|?|?|[] ? ?|[]|[] ?|?|[]|[] ?| |[]| | | | | |[] ?| |]; try reflexivity; cbn in E; try discriminate E;
    try (injection E; intros; discriminate);
    try (injection E as E; apply dec_under in E; destruct E as [-> E]; try discriminate E; try (apply dec_inj in E; subst); reflexivity);
    try (injection E as E; apply dec_inj in E; subst; reflexivity);
    try (injection E as E; apply dec_under in E; destruct E as [_ E]; discriminate E).
Qed.

Lemma NoDup_app' {X} (l k : list X) : NoDup l -> NoDup k -> (forall x, In x l -> ~ In x k) -> NoDup (l ++ k).
Proof.
  induction 1 as [|x l Hx Hl IH]; intros Hk H; [exact Hk|]. cbn. constructor.
  - intro K. apply in_app_or in K. destruct K as [K|K]; [contradiction|]. exact (H x (or_introl eq_refl) K).
  - apply IH; [exact Hk|]. intros y Hy. apply H. now right.
Qed.
Lemma NoDup_flat_map {X Y} (f : X -> list Y) l : NoDup l -> (forall x, In x l -> NoDup (f x)) ->
  (forall x y z, In x l -> In y l -> In z (f x) -> In z (f y) -> x = y) -> NoDup (flat_map f l).
Proof.
  induction 1 as [|x l Hx Hl IH]; intros H1 H2; [constructor|]. cbn. apply NoDup_app'.
  - apply H1. now left.
  - apply IH; [intros y Hy; apply H1; now right|]. intros y z w Hy Hz. apply H2; now right.
  - intros z Hz1 Hz2. apply in_flat_map in Hz2. destruct Hz2 as (y & Hy & Hz2).
    assert (x = y) by (eapply (H2 x y z); cbn; auto). subst. contradiction.
Qed.

Lemma NoDup_inj {X Y} (f : X -> Y) l : (forall x y, In x l -> In y l -> f x = f y -> x = y) -> NoDup l -> NoDup (map f l).
Proof.
  intros H. induction 1 as [|x l Hx Hl IH]; cbn; constructor.
  - intro K. apply in_map_iff in K. destruct K as (y & E & Hy). assert (y = x) by (apply H; cbn; auto). now subst.
  - apply IH. intros y z Hy Hz. apply H; now right.
Qed.
Definition pair_ids (x : rpair) : list cid := [CRes true (rp_k x) (rp_n x) (rp_j x); CRes false (rp_k x) (rp_n x) (rp_j x)].
Lemma mat_pairs_nodup k N J m : NoDup (mat_pairs k N J m).
Proof.
  apply NoDup_flat_map; [apply seq_NoDup| |].
  - intros n _. apply NoDup_flat_map; [apply seq_NoDup| |].
    + intros j _. destruct (Req_bool (m n j) 0); [constructor|constructor; [intros []|constructor]].
    + intros i j z _ _ H1 H2. destruct (Req_bool (m n i) 0), (Req_bool (m n j) 0); cbn in *; try tauto.
      destruct H1 as [H1|[]], H2 as [H2|[]]. rewrite <- H1 in H2. congruence.
  - intros a b z _ _ H1 H2. apply in_flat_map in H1, H2. destruct H1 as (i & _ & H1), H2 as (j & _ & H2).
    destruct (Req_bool (m a i) 0), (Req_bool (m b j) 0); cbn in *; try tauto. destruct H1 as [H1|[]], H2 as [H2|[]]. rewrite <- H1 in H2. congruence.
Qed.
Lemma pair_eq x y m : rp_k x = rp_k y -> rp_n x = rp_n y -> rp_j x = rp_j y -> rp_val x = m (rp_n x) (rp_j x) -> rp_val y = m (rp_n y) (rp_j y) -> x = y.
Proof. destruct x, y. cbn. congruence. Qed.

Section Op.
Variables (N L M : nat) (A B G : nat -> nat -> R) (C : R).
Lemma net_pairs_nodup : NoDup (net_pairs N L M A B G).
Proof.
  unfold net_pairs. apply NoDup_app'; [apply mat_pairs_nodup|apply NoDup_app'; [apply mat_pairs_nodup|apply mat_pairs_nodup|]|].
  - intros x H1 H2. apply mat_pairs_in in H1, H2. destruct H1 as [H1 _], H2 as [H2 _]. congruence.
  - intros x H1 H2. apply in_app_or in H2. destruct H2 as [H2|H2]; apply mat_pairs_in in H1, H2; destruct H1 as [H1 _], H2 as [H2 _]; congruence.
Qed.
Lemma op_ids : map c_id (k_comps (op_ckt N L M A B G C)) =
  CDC :: flat_map pair_ids (net_pairs N L M A B G) ++ map COp (seq 0 N) ++ map (CCap true) (seq 0 N) ++ map (CCap false) (seq 0 N).
Proof.
  cbn [k_comps op_ckt map]. rewrite !map_app, !map_map. f_equal. f_equal.
  rewrite !flat_map_concat_map, concat_map, map_map. reflexivity.
Qed.
Theorem op_names : NoDup (map (fun c => cname (c_id c)) (k_comps (op_ckt N L M A B G C))).
Proof.
  rewrite <- map_map. apply NoDup_inj; [intros; now apply cname_inj|]. rewrite op_ids.
  assert (P : forall c, In c (flat_map pair_ids (net_pairs N L M A B G)) -> exists p k i j, c = CRes p k i j).
  { intros c H. apply in_flat_map in H. destruct H as (x & _ & [<-|[<-|[]]]); eauto. }
  constructor.
  - intro H. apply in_app_or in H. destruct H as [H|H]; [apply P in H; destruct H as (? & ? & ? & ? & ?); discriminate|].
    apply in_app_or in H. destruct H as [H|H]; [|apply in_app_or in H; destruct H as [H|H]]; apply in_map_iff in H; destruct H as (? & ? & _); discriminate.
  - apply NoDup_app'; [| |].
    + apply NoDup_flat_map; [apply net_pairs_nodup| |].
      * intros x _. constructor; [|constructor; [intros []|constructor]]. intros [E|[]]. discriminate.
      * intros x y z Hx Hy H1 H2. apply pairs_in in Hx, Hy. destruct Hx as (_ & _ & Ex & _), Hy as (_ & _ & Ey & _).
        destruct H1 as [<-|[<-|[]]], H2 as [H2|[H2|[]]]; try discriminate H2; injection H2 as E1 E2 E3; (apply (pair_eq x y (entry A B G (rp_k x))); [congruence|congruence|congruence|exact Ex|rewrite <- E1; exact Ey]).
    + apply NoDup_app'; [apply NoDup_inj; [congruence|apply seq_NoDup]|apply NoDup_app'; [apply NoDup_inj; [congruence|apply seq_NoDup]|apply NoDup_inj; [congruence|apply seq_NoDup]|]|].
      * intros x H1 H2. apply in_map_iff in H1, H2. destruct H1 as (? & <- & _), H2 as (? & ? & _). discriminate.
      * intros x H1 H2. apply in_map_iff in H1. destruct H1 as (? & <- & _). apply in_app_or in H2. destruct H2 as [H2|H2]; apply in_map_iff in H2; destruct H2 as (? & ? & _); discriminate.
    + intros x H1 H2. apply P in H1. destruct H1 as (? & ? & ? & ? & ->). apply in_app_or in H2. destruct H2 as [H2|H2]; [|apply in_app_or in H2; destruct H2 as [H2|H2]];
        apply in_map_iff in H2; destruct H2 as (? & ? & _); discriminate.
Qed.
End Op.

Section Gm.
Variables (N L M : nat) (A B G : nat -> nat -> R) (C : R) (gain : option R).
Lemma row_pairs_nodup k n J m : NoDup (row_pairs k n J m).
Proof.
  apply NoDup_flat_map; [apply seq_NoDup| |].
  - intros j _. destruct (Req_bool (m n j) 0); [constructor|constructor; [intros []|constructor]].
  - intros i j z _ _ H1 H2. destruct (Req_bool (m n i) 0), (Req_bool (m n j) 0); cbn in *; try tauto. destruct H1 as [H1|[]], H2 as [H2|[]]. rewrite <- H1 in H2. congruence.
Qed.
Theorem gm_cell_names n : NoDup (map (fun c => cname (c_id c)) (k_comps (cell N L M A B G C gain n))).
Proof.
  rewrite <- map_map. apply NoDup_inj; [intros; now apply cname_inj|]. cbn [k_comps cell]. rewrite map_app, map_map. apply NoDup_app'.
  - apply NoDup_inj.
    + intros x y Hx Hy E. apply row_in in Hx, Hy. destruct Hx as (E1 & _ & Ex & _), Hy as (E2 & _ & Ey & _). cbn in E. injection E as K1 K2 K3.
      apply (pair_eq x y (entry A B G (rp_k x))); [congruence|congruence|congruence|rewrite E1; exact Ex|rewrite E2, K1; exact Ey].
    + unfold row_list. apply NoDup_app'; [apply row_pairs_nodup|apply NoDup_app'; [apply row_pairs_nodup|apply row_pairs_nodup|]|].
      * intros x H1 H2. apply row_pairs_in in H1, H2. destruct H1 as [H1 _], H2 as [H2 _]. congruence.
      * intros x H1 H2. apply in_app_or in H2. destruct H2 as [H2|H2]; apply row_pairs_in in H1, H2; destruct H1 as [H1 _], H2 as [H2 _]; congruence.
  - unfold dc_comps. destruct gain; cbn; repeat constructor; cbn; try tauto. intros [E|[]]. discriminate.
  - intros x H1 H2. apply in_map_iff in H1. destruct H1 as (y & <- & _). unfold dc_comps in H2. destruct gain; cbn in H2; [|tauto].
    destruct H2 as [H2|[H2|[]]]; discriminate.
Qed.
Theorem gmc_names : NoDup (map (fun c => cname (c_id c)) (k_comps (gmc_ckt N L M C))).
Proof.
  rewrite <- map_map. apply NoDup_inj; [intros; now apply cname_inj|]. cbn [k_comps gmc_ckt map]. constructor.
  - intro H. apply in_map_iff in H. destruct H as (c & E & H). apply in_flat_map in H. destruct H as (n & _ & H). cbn in H.
    destruct H as [<-|[<-|[<-|[]]]]; discriminate.
  - rewrite flat_map_concat_map, concat_map, map_map, <- flat_map_concat_map. apply NoDup_flat_map; [apply seq_NoDup| |].
    + intros n _. cbn. repeat constructor; cbn; try tauto.
      * intros [E|[E|[]]]; discriminate.
      * intros [E|[]]. discriminate.
    + intros a b z _ _ H1 H2. cbn in H1, H2. destruct H1 as [<-|[<-|[<-|[]]]], H2 as [H2|[H2|[H2|[]]]]; congruence.
Qed.
End Gm.
