(** Parsing of a SPICE simulation (C55): theorems. *)
From Coq Require Import List Arith Bool Reals Lia Lra Sorted.
From Flocq Require Import Core.
From Verif Require Import Base Observe ObserveProofs.
Import ListNotations.
Open Scope R_scope.

(** The samples at which the clock is at or below [vcm] and was above it at the sample before, or which are the first. *)
Definition falling (vcm : R) (clk : list R) (i : nat) : Prop :=
  (i < length clk)%nat /\ nth i clk 0 <= vcm /\ (i = O \/ vcm < nth (i - 1) clk 0).

Lemma filter_seq_sorted (f : nat -> bool) n b : StronglySorted lt (filter f (seq b n)).
Proof.
  revert b. induction n as [|n IH]; intro b; [constructor|]. cbn [seq filter]. destruct (f b); [|apply IH].
  constructor; [apply IH|]. apply Forall_forall. intros x Hx. apply filter_In in Hx. destruct Hx as [Hx _]. apply in_seq in Hx. lia.
Qed.
(** Row [r] is taken at the [r]-th falling crossing; rows without a crossing keep their previous content. *)
Theorem C55_rows : forall vcm M vec clk cols, vcm <> 0 -> (0 < M <= length cols)%nat -> (forall c, In c cols -> length c = length clk) ->
  exists v K, parse vcm M vec clk (Some cols) = Ok v /\ (forall i, In i K <-> falling vcm clk i) /\ StronglySorted lt K /\ length v = length vec /\
    (forall r k, (r < length vec)%nat -> nth_error K r = Some k -> nth r v [] = map (fun c => ternary (nth k c 0 / (vcm * 2))) (firstn M cols)) /\
    (forall r, (length K <= r)%nat -> nth r v [] = nth r vec []).
Proof.
  intros vcm M vec clk cols Hv HM Hc. destruct (parse_spec vcm M vec clk cols Hv HM Hc) as (v & E & Hl & Hr).
  exists v, (crossings vcm (fun i => nth i clk 0) (length clk)). split; [exact E|]. split; [|split; [|split; [exact Hl|split]]].
  - intro i. unfold crossings, falling. rewrite filter_In, in_seq. unfold falls. rewrite andb_true_iff. split.
    + intros (Hi & H1 & H2). split; [lia|]. split; [revert H1; now destruct (Rle_bool_spec (nth i clk 0) vcm)|]. destruct i as [|i]; [now left|right]. cbn [Nat.sub]. rewrite Nat.sub_0_r.
      revert H2. now destruct (Rlt_bool_spec vcm (nth i clk 0)).
    + intros (Hi & H1 & H2). split; [lia|]. split; [now apply Rle_bool_true|]. destruct i as [|i]; [reflexivity|]. destruct H2 as [H2|H2]; [lia|]. cbn [Nat.sub] in H2. rewrite Nat.sub_0_r in H2. now apply Rlt_bool_true.
  - apply filter_seq_sorted.
  - intros r k Hr1 Hk. rewrite Hr by exact Hr1. cbv zeta. assert (Hlt : (r < length (crossings vcm (fun i => nth i clk 0%R) (length clk)))%nat) by (apply nth_error_Some; congruence).
    rewrite (proj2 (Nat.ltb_lt _ _) Hlt). rewrite (nth_error_nth (crossings vcm (fun i => nth i clk 0) (length clk)) r 0%nat Hk). reflexivity.
  - intros r Hk. destruct (Nat.lt_ge_cases r (length vec)) as [H|H]; [|rewrite !nth_overflow by lia; reflexivity].
    rewrite Hr by exact H. cbv zeta. now rewrite (proj2 (Nat.ltb_ge _ _) Hk).
Qed.
Print Assumptions C55_rows.
Ltac bools := repeat match goal with
  | |- context [Rle_bool ?a ?b] => first [rewrite (Rle_bool_true a b) by lra|rewrite (Rle_bool_false a b) by lra]
  | |- context [Rlt_bool ?a ?b] => first [rewrite (Rlt_bool_true a b) by lra|rewrite (Rlt_bool_false a b) by lra]
  | |- context [Req_bool ?a ?b] => first [rewrite (Req_bool_true a b) by lra|rewrite (Req_bool_false a b) by lra] end.
Example C55_ex : parse (1 / 2) 1 [[0]; [0]; [0]] [0; 1; 1; 0; 0; 1] (Some [[1; 0; 0; 1 / 2; 1; 1]]) = Ok [[1]; [1 / 2]; [0]].
Proof.
  unfold parse. cbn [length Nat.ltb Nat.leb Nat.eqb]. bools. cbn [andb firstn map]. unfold zip_rows. cbn [length map fold_right Nat.min seq nth ploop].
  repeat (unfold pstep at 1; cbn [p_en p_idx p_vec negb andb]; bools; cbn [andb negb length Nat.ltb Nat.leb bind upd p_en p_idx p_vec map]).
  unfold ternary. bools. reflexivity.
Qed.

(** A clock that alternates between a high and a low phase, each seen by at least one sample: one crossing per period, plus one for a low start. *)
Theorem C55_count : forall vcm l0 bs K, (forall x, In x l0 -> x <= vcm) ->
  (forall h l, In (h, l) bs -> h <> [] /\ l <> [] /\ (forall x, In x h -> vcm < x) /\ (forall x, In x l -> x <= vcm)) ->
  NoDup K -> (forall i, In i K <-> falling vcm (l0 ++ concat (map (fun '(h, l) => h ++ l) bs)) i) ->
  length K = ((if Nat.eqb (length l0) 0 then 0 else 1) + length bs)%nat.
Proof.
  intros vcm l0 bs K H0 Hb HK1 HK2. rewrite <- (count_blocks vcm l0 bs H0 Hb). set (clk := l0 ++ _) in *. rewrite <- crossings_count.
  apply Nat.le_antisymm; apply NoDup_incl_length; try assumption.
  - intros i Hi. apply HK2 in Hi. destruct Hi as (Hi & H1 & H2). unfold crossings. apply filter_In. split; [apply in_seq; lia|]. unfold falls. rewrite Rle_bool_true by exact H1. cbn.
    destruct i as [|i]; [reflexivity|]. destruct H2 as [H2|H2]; [lia|]. cbn [Nat.sub] in H2. rewrite Nat.sub_0_r in H2. now apply Rlt_bool_true.
  - unfold crossings. apply NoDup_filter, seq_NoDup.
  - intros i Hi. apply HK2. unfold crossings in Hi. apply filter_In in Hi. destruct Hi as [Hi H]. apply in_seq in Hi. unfold falls in H. apply andb_true_iff in H. destruct H as [H1 H2].
    split; [lia|]. split; [revert H1; now destruct (Rle_bool_spec (nth i clk 0) vcm)|]. destruct i as [|i]; [now left|right]. cbn [Nat.sub]. rewrite Nat.sub_0_r. revert H2. now destruct (Rlt_bool_spec vcm (nth i clk 0)).
Qed.
Print Assumptions C55_count.
Example C55_count_ex : (forall i, In i [0%nat; 2%nat; 5%nat] <-> falling (1 / 2) ([0] ++ concat (map (fun '(h, l) => h ++ l) [([1], [0; 0]); ([1], [0])])) i).
Proof.
  intro i. unfold falling. cbn [map concat app length]. cbn [In]. split.
  - intros [<-|[<-|[<-|[]]]]; cbn; (split; [lia|]); (split; [lra|]); (try (left; reflexivity)); right; lra.
  - intros (Hi & H1 & H2). do 6 (destruct i as [|i]; [cbn in H1, H2; try tauto; exfalso; first [lra|destruct H2 as [H2|H2]; [discriminate|lra]]|]). lia.
Qed.

Theorem C55_ternary : forall x, (2 / 3 < x -> ternary x = 1) /\ (x < 1 / 3 -> ternary x = 0) /\ (1 / 3 <= x <= 2 / 3 -> ternary x = 1 / 2) /\
  ternary (ternary x) = ternary x /\ (forall y, x <= y -> ternary x <= ternary y) /\ Rabs (ternary x - x) <= Rmax (1 / 3) (Rmax (x - 1) (- x)).
Proof.
  intro x. assert (E : ternary 0 = 0 /\ ternary (1 / 2) = 1 / 2 /\ ternary 1 = 1) by (unfold ternary; bools; auto). destruct E as (E0 & E1 & E2).
  split; [intro; unfold ternary; now bools|]. split; [intro; unfold ternary; now bools|]. split; [intro; unfold ternary; now bools|].
  split; [|split; [intros y; apply ternary_mono|]].
  - unfold ternary at 2 3. destruct (Rlt_bool (2 / 3) x); [exact E2|]. destruct (Rlt_bool x (1 / 3)); assumption.
  - assert (X : forall a b c d, d <= a \/ d <= b \/ d <= c -> d <= Rmax a (Rmax b c)).
    { intros a b c d H. pose proof (Rmax_l a (Rmax b c)). pose proof (Rmax_r a (Rmax b c)). pose proof (Rmax_l b c). pose proof (Rmax_r b c). lra. }
    apply X. unfold ternary. destruct (Rlt_bool_spec (2 / 3) x); [|destruct (Rlt_bool_spec x (1 / 3))]; unfold Rabs; destruct (Rcase_abs _); lra.
Qed.
Print Assumptions C55_ternary.
(** The ternary value need not be the nearest of 0, 1/2, 1. *)
Theorem C55_nearest_refuted : exists x l, (l = 0 \/ l = 1 / 2 \/ l = 1) /\ Rabs (l - x) < Rabs (ternary x - x).
Proof. exists (3 / 10), (1 / 2). split; [tauto|]. unfold ternary. bools. rewrite Rabs_right, Rabs_left; lra. Qed.
Print Assumptions C55_nearest_refuted.

(** A bench of one clock period (capacity one row) whose clock starts low: the row is the start value, not that of the falling edge of the period. *)
Theorem C55_edge_refuted : exists vcm clk col v i, vcm > 0 /\ falling vcm clk i /\ (0 < i)%nat /\ parse vcm 1 [[0]] clk (Some [col]) = Ok v /\ length col = length clk /\
  (forall j, falling vcm clk j -> j = 0%nat \/ j = i) /\ nth 0 v [] <> [ternary (nth i col 0 / (vcm * 2))].
Proof.
  exists (1 / 2), [0; 1; 0], [0; 0; 1], [[0]], 2%nat. split; [lra|]. split; [split; [cbn; lia|split; [cbn; lra|right; cbn; lra]]|]. split; [lia|]. split.
  - unfold parse. cbn [length Nat.ltb Nat.leb Nat.eqb]. bools. cbn [andb firstn map]. unfold zip_rows. cbn [length map fold_right Nat.min seq nth ploop].
    repeat (unfold pstep at 1; cbn [p_en p_idx p_vec negb andb]; bools; cbn [andb negb length Nat.ltb Nat.leb bind upd p_en p_idx p_vec map]).
    unfold ternary. bools. reflexivity.
  - split; [reflexivity|]. split.
    + intros j (Hj & H1 & H2). cbn in Hj. destruct j as [|[|[|j]]]; auto; [cbn in H1; lra|lia].
    + cbn. unfold ternary. bools. intro E. injection E. lra.
Qed.
Print Assumptions C55_edge_refuted.

Theorem C55_errors : forall vcm M vec clk, parse vcm M vec clk None = Exn ValueError /\
  (forall cols, (length cols < M)%nat -> parse vcm M vec clk (Some cols) = Exn IndexError) /\
  (forall cols, (0 < M <= length cols)%nat -> parse 0 M vec clk (Some cols) = Exn ArithmeticError).
Proof.
  intros vcm M vec clk. split; [reflexivity|]. split; intros cols H; unfold parse.
  - now rewrite (proj2 (Nat.ltb_lt _ _) H).
  - rewrite (proj2 (Nat.ltb_ge _ _)) by lia. rewrite Req_bool_true by lra. destruct M; [lia|reflexivity].
Qed.
Print Assumptions C55_errors.
