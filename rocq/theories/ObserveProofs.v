(** Which samples [parse] records. *)
From Coq Require Import List Arith Bool Reals Lia Lra.
From Flocq Require Import Core.
From Verif Require Import Base Observe.
Import ListNotations.
Open Scope R_scope.

(** The clock is low at sample [i] and was not at the sample before. *)
Definition falls (vcm : R) (clk : nat -> R) (i : nat) : bool := Rle_bool (clk i) vcm && match i with O => true | S j => Rlt_bool vcm (clk j) end.
Definition crossings (vcm : R) (clk : nat -> R) (n : nat) : list nat := filter (falls vcm clk) (seq 0 n).

Lemma crossings_S vcm clk n : crossings vcm clk (S n) = crossings vcm clk n ++ if falls vcm clk n then [n] else [].
Proof. unfold crossings. rewrite seq_S, filter_app. cbn [filter plus]. now destruct (falls vcm clk n). Qed.

Lemma ploop_app vcm l1 l2 st : ploop vcm st (l1 ++ l2) = bind (ploop vcm st l1) (fun st => ploop vcm st l2).
Proof. revert st. induction l1 as [|s l1 IH]; intro st; [reflexivity|]. cbn. destruct (pstep vcm st s); [cbn; apply IH|reflexivity]. Qed.

Lemma neg_le a b : negb (Rle_bool a b) = Rlt_bool b a.
Proof. destruct (Rle_bool_spec a b), (Rlt_bool_spec b a); try reflexivity; lra. Qed.

Section Loop.
Variables (vcm : R) (clk : nat -> R) (row : nat -> list R) (vec : list (list R)).
Definition recorded (K : list nat) (v : list (list R)) : Prop :=
  length v = length vec /\ forall r, (r < length vec)%nat -> nth r v [] = if Nat.ltb r (length K) then map ternary (row (nth r K 0%nat)) else nth r vec [].
Lemma loop_inv n : (forall i, (i < n)%nat -> row i <> []) ->
  exists st, ploop vcm (mkP false 0 vec) (map (fun i => (clk i, row i)) (seq 0 n)) = Ok st /\
    p_en st = (match n with O => false | S j => Rle_bool (clk j) vcm end) /\ p_idx st = Nat.min (length (crossings vcm clk n)) (length vec) /\ recorded (crossings vcm clk n) (p_vec st).
Proof.
  induction n as [|n IH]; intro Hr.
  - eexists. split; [reflexivity|]. split; [reflexivity|]. split; [reflexivity|]. split; [reflexivity|]. intros r _. reflexivity.
  - destruct IH as (st & E & I1 & I2 & I3 & I4); [intros; apply Hr; lia|]. rewrite seq_S, map_app, ploop_app, E. cbn [bind map ploop plus].
    rewrite crossings_S. unfold falls. unfold pstep. rewrite I1.
    set (K := crossings vcm clk n) in *.
    assert (F : match n with O => true | S j => Rlt_bool vcm (clk j) end = negb (match n with O => false | S j => Rle_bool (clk j) vcm end)).
    { destruct n; [reflexivity|]. now rewrite neg_le. }
    rewrite F. set (e := match n with O => false | S j => Rle_bool (clk j) vcm end) in *. clearbody e.
    destruct (Rle_bool (clk n) vcm) eqn:Ec; destruct e; cbn [negb andb].
    + eexists. split; [reflexivity|]. rewrite app_nil_r. repeat split; auto.
    + rewrite I3. destruct (Nat.ltb_spec (p_idx st) (length vec)) as [Hi|Hi].
      * pose proof (Hr n ltac:(lia)) as Hn. destruct (row n) as [|x xs] eqn:Ex; [congruence|]. rewrite <- Ex. clear Hn.
        eexists. split; [reflexivity|]. cbn [p_en p_idx p_vec]. split; [reflexivity|]. rewrite app_length. cbn [length].
        assert (HK : p_idx st = length K) by lia. split; [lia|]. split; [now rewrite upd_length|].
        intros r Hrr. rewrite app_length. cbn [length]. rewrite nth_upd, I3, HK. destruct (Nat.eqb_spec (length K) r) as [<-|Hne]; cbn [andb].
        -- rewrite (proj2 (Nat.ltb_lt (length K) (length vec))) by lia. rewrite (proj2 (Nat.ltb_lt (length K) (length K + 1))) by lia.
           rewrite app_nth2 by lia. rewrite Nat.sub_diag. cbn [nth]. reflexivity.
        -- rewrite I4 by exact Hrr. destruct (Nat.ltb_spec r (length K)).
           ++ rewrite (proj2 (Nat.ltb_lt r (length K + 1))) by lia. now rewrite app_nth1 by lia.
           ++ rewrite (proj2 (Nat.ltb_ge r (length K + 1))) by lia. reflexivity.
      * eexists. split; [reflexivity|]. cbn [p_en p_idx p_vec]. split; [reflexivity|]. rewrite app_length. cbn [length]. split; [lia|]. split; [exact I3|].
        intros r Hrr. rewrite I4 by exact Hrr. rewrite app_length. cbn [length].
        rewrite (proj2 (Nat.ltb_lt r (length K))) by lia. rewrite (proj2 (Nat.ltb_lt r (length K + 1))) by lia. now rewrite app_nth1 by lia.
    + eexists. split; [reflexivity|]. rewrite app_nil_r. repeat split; auto.
    + eexists. split; [reflexivity|]. rewrite app_nil_r. repeat split; auto.
Qed.
End Loop.

Theorem parse_spec vcm M vec clk cols : vcm <> 0 -> (0 < M <= length cols)%nat -> (forall c, In c cols -> length c = length clk) ->
  exists v, parse vcm M vec clk (Some cols) = Ok v /\ length v = length vec /\
    (forall r, (r < length vec)%nat -> nth r v [] =
       let K := crossings vcm (fun i => nth i clk 0) (length clk) in
       if Nat.ltb r (length K) then map (fun c => ternary (nth (nth r K 0%nat) c 0 / (vcm * 2))) (firstn M cols) else nth r vec []).
Proof.
  intros Hv HM Hc. unfold parse. rewrite (proj2 (Nat.ltb_ge (length cols) M)) by lia. rewrite Req_bool_false by lra. cbn [andb].
  unfold zip_rows.
  set (cs := map (map (fun x => x / (vcm * 2))) (firstn M cols)).
  assert (Hlen : forall c, In c cs -> length c = length clk).
  { intros c H. apply in_map_iff in H. destruct H as (c' & <- & H). rewrite map_length. apply Hc.
    rewrite <- (firstn_skipn M cols). apply in_or_app. now left. }
  assert (Hn : fold_right Nat.min (length clk) (map (@length R) cs) = length clk).
  { clearbody cs. induction cs as [|c cs IH]; [reflexivity|]. cbn. rewrite IH by (intros; apply Hlen; now right). rewrite Hlen by now left. lia. }
  rewrite Hn.
  destruct (loop_inv vcm (fun i => nth i clk 0) (fun i => map (fun c => nth i c 0) cs) vec (length clk)) as (st & E & _ & _ & I3 & I4).
  { intros i _. unfold cs. destruct cols as [|c0 cols]; [cbn in HM; lia|]. destruct M; [lia|]. discriminate. }
  rewrite E. cbn [bind]. eexists. split; [reflexivity|]. split; [exact I3|]. intros r Hr. rewrite I4 by exact Hr. cbv zeta.
  destruct (Nat.ltb_spec r (length (crossings vcm (fun i => nth i clk 0) (length clk)))) as [Hk|Hk]; [|reflexivity].
  rewrite map_map. unfold cs. rewrite map_map. apply map_ext_in. intros c Hcin.
  set (i := nth r (crossings vcm (fun i => nth i clk 0) (length clk)) 0%nat).
  assert (Hi : (i < length clk)%nat).
  { assert (Hin : In i (crossings vcm (fun i => nth i clk 0) (length clk))) by (apply nth_In; exact Hk). unfold crossings in Hin. apply filter_In in Hin. destruct Hin as [Hin _]. apply in_seq in Hin. lia. }
  f_equal. rewrite (nth_indep _ 0 (0 / (vcm * 2))) by (rewrite map_length, Hc; [exact Hi|rewrite <- (firstn_skipn M cols); apply in_or_app; now left]).
  now rewrite (map_nth (fun x => x / (vcm * 2))).
Qed.

(** ** Counting the crossings of a clock made of alternating phases *)
Fixpoint count (vcm : R) (prev : bool) (l : list R) : nat :=
  match l with [] => 0%nat | c :: l => ((if negb prev && Rle_bool c vcm then 1 else 0) + count vcm (Rle_bool c vcm) l)%nat end.
Lemma count_app vcm l1 l2 p : count vcm p (l1 ++ l2) = (count vcm p l1 + count vcm (last (map (fun c => Rle_bool c vcm) l1) p) l2)%nat.
Proof.
  revert p. induction l1 as [|c l1 IH]; intro p; [reflexivity|]. cbn [app count map]. rewrite IH.
  destruct l1 as [|d l1]; [cbn; lia|]. cbn [map]. change (last (Rle_bool c vcm :: Rle_bool d vcm :: map (fun c => Rle_bool c vcm) l1) p) with (last (Rle_bool d vcm :: map (fun c => Rle_bool c vcm) l1) p).
  assert (L : forall (l : list bool) a x y, last (a :: l) x = last (a :: l) y) by (induction l as [|b l IHl]; intros a x y; [reflexivity|apply (IHl b)]).
  rewrite (L _ _ p (Rle_bool c vcm)). lia.
Qed.
Lemma crossings_count vcm clk : length (crossings vcm (fun i => nth i clk 0) (length clk)) = count vcm false clk.
Proof.
  induction clk as [|c l IH] using rev_ind; [reflexivity|]. rewrite app_length. cbn [length]. rewrite Nat.add_1_r, crossings_S, app_length.
  assert (E : crossings vcm (fun i => nth i (l ++ [c]) 0) (length l) = crossings vcm (fun i => nth i l 0) (length l)).
  { unfold crossings. apply filter_ext_in. intros i Hi. apply in_seq in Hi. unfold falls. rewrite app_nth1 by lia. destruct i; [reflexivity|]. now rewrite app_nth1 by lia. }
  rewrite E, IH, count_app. f_equal. unfold falls. rewrite app_nth2 by lia. rewrite Nat.sub_diag. cbn [nth count].
  assert (P : match length l with O => true | S j => Rlt_bool vcm (nth j (l ++ [c]) 0) end = negb (last (map (fun c => Rle_bool c vcm) l) false)).
  { destruct l as [|x l] using rev_ind; [reflexivity|]. rewrite app_length. cbn [length]. rewrite Nat.add_1_r. rewrite <- app_assoc. rewrite app_nth2 by lia. rewrite Nat.sub_diag. cbn [nth app].
    rewrite map_app. cbn [map]. rewrite last_last. now rewrite neg_le. }
  rewrite P, andb_comm. destruct (negb _ && _); reflexivity.
Qed.
Lemma count_low vcm l p : (forall x, In x l -> x <= vcm) -> count vcm p l = if negb p && negb (Nat.eqb (length l) 0) then 1%nat else 0%nat.
Proof.
  intro H. assert (Z : forall l, (forall x, In x l -> x <= vcm) -> count vcm true l = 0%nat).
  { clear. induction l as [|c l IH]; intro H; [reflexivity|]. cbn. rewrite Rle_bool_true by (apply H; now left). apply IH. intros; apply H; now right. }
  destruct l as [|c l]; [now rewrite andb_false_r|]. cbn [count length Nat.eqb]. rewrite Rle_bool_true by (apply H; now left). rewrite Z by (intros; apply H; now right). destruct p; reflexivity.
Qed.
Lemma count_high vcm l p : (forall x, In x l -> vcm < x) -> count vcm p l = 0%nat.
Proof. revert p. induction l as [|c l IH]; intros p H; [reflexivity|]. cbn. rewrite Rle_bool_false by (apply H; now left). rewrite andb_false_r. apply IH. intros; apply H; now right. Qed.
Lemma last_const (A : Type) (b d : A) l : l <> [] -> (forall x, In x l -> x = b) -> last l d = b.
Proof.
  induction l as [|x l IH]; intros H1 H2; [congruence|]. destruct l; [apply H2; now left|]. change (last (x :: a :: l) d) with (last (a :: l) d). apply IH; [discriminate|]. intros; apply H2; now right.
Qed.
Theorem count_blocks vcm l0 bs : (forall x, In x l0 -> x <= vcm) ->
  (forall h l, In (h, l) bs -> h <> [] /\ l <> [] /\ (forall x, In x h -> vcm < x) /\ (forall x, In x l -> x <= vcm)) ->
  count vcm false (l0 ++ concat (map (fun '(h, l) => h ++ l) bs)) = ((if Nat.eqb (length l0) 0 then 0 else 1) + length bs)%nat.
Proof.
  intros H0 Hb. rewrite count_app. rewrite count_low by exact H0.
  assert (B : forall p, count vcm p (concat (map (fun '(h, l) => h ++ l) bs)) = length bs).
  { clear H0. induction bs as [|[h l] bs IH]; intro p; [reflexivity|]. cbn [map concat length]. destruct (Hb h l ltac:(now left)) as (H1 & H2 & H3 & H4).
    rewrite count_app, IH by (intros; apply Hb; now right). rewrite count_app, count_high, count_low by assumption.
    rewrite (last_const _ false) by (first [destruct h; [congruence|discriminate]|intros x Hx; apply in_map_iff in Hx; destruct Hx as (y & <- & Hy); apply Rle_bool_false; auto]).
    destruct l; [congruence|]. reflexivity. }
  rewrite B. destruct (Nat.eqb (length l0) 0); reflexivity.
Qed.

Lemma ternary_mono x y : x <= y -> ternary x <= ternary y.
Proof. intro H. unfold ternary. destruct (Rlt_bool_spec (2 / 3) x), (Rlt_bool_spec (2 / 3) y), (Rlt_bool_spec x (1 / 3)), (Rlt_bool_spec y (1 / 3)); lra. Qed.
