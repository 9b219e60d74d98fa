(** Proofs about unit_element_set. *)
From Coq Require Import List Lia Arith Bool ZArith Reals Lra Permutation.
From Flocq Require Import Core.
From Verif Require Import Base UnitElements.
Import ListNotations.
Open Scope nat_scope.

Definition zneg (v : zvec) : zvec := map Z.opp v.
Lemma l1_nonneg : forall v, (0 <= l1 v)%Z.
Proof. induction v; cbn; lia. Qed.
Lemma l1_zero : forall v, l1 v = 0%Z <-> v = repeat 0%Z (length v).
Proof.
  induction v as [|a v IH]; cbn; [tauto|]. pose proof (l1_nonneg v). split.
  - intros E. assert (a = 0)%Z by lia. assert (E2 : l1 v = 0%Z) by lia. apply IH in E2. subst a. now rewrite <- E2.
  - intros E. assert (E1 : a = 0%Z) by congruence. assert (E2 : v = repeat 0%Z (length v)) by congruence. apply IH in E2. lia.
Qed.
Lemma zip_sub_zero : forall u v, length u = length v -> (l1 (zip Z.sub u v) = 0%Z <-> u = v).
Proof.
  induction u as [|a u IH]; intros [|b v] H; cbn in *; try discriminate; [tauto|]. specialize (IH v ltac:(lia)).
  pose proof (l1_nonneg (zip Z.sub u v)). split.
  - intros E. f_equal; [lia|apply IH; lia].
  - intros E. inversion E. subst. assert (l1 (zip Z.sub v v) = 0%Z) by (now apply IH). lia.
Qed.
Lemma zip_add_zero : forall u v, length u = length v -> (l1 (zip Z.add u v) = 0%Z <-> u = zneg v).
Proof.
  induction u as [|a u IH]; intros [|b v] H; cbn in *; try discriminate; [tauto|]. specialize (IH v ltac:(lia)).
  pose proof (l1_nonneg (zip Z.add u v)). split.
  - intros E. f_equal; [lia|apply IH; lia].
  - intros E. inversion E. assert (l1 (zip Z.add u v) = 0%Z) by (now apply IH). subst. lia.
Qed.
Lemma zneg_invol : forall v, zneg (zneg v) = v.
Proof. induction v; cbn; [reflexivity|]. f_equal; [lia|assumption]. Qed.
Lemma zneg_len : forall v, length (zneg v) = length v.
Proof. intros. apply map_length. Qed.
Lemma zneg_inj : forall u v, zneg u = zneg v -> u = v.
Proof. intros u v H. rewrite <- (zneg_invol u), H. apply zneg_invol. Qed.

Lemma product_length : forall c N v, In v (product c N) <-> (length v = N /\ Forall (fun x => In x c) v).
Proof.
  intros c N. induction N as [|N IH]; intros v; cbn [product].
  - split; [intros [<-|[]]; split; [reflexivity|constructor]|]. intros [H _]. destruct v; [now left|discriminate].
  - rewrite in_flat_map. split.
    + intros (x & Hx & Hv). apply in_map_iff in Hv. destruct Hv as (w & <- & Hw). apply IH in Hw. destruct Hw. split; [cbn; lia|now constructor].
    + intros [H1 H2]. destruct v as [|x w]; [discriminate|]. apply Forall_cons_iff in H2. destruct H2. exists x. split; [assumption|].
      apply in_map. apply IH. split; [cbn in H1; lia|assumption].
Qed.

Lemma is_dup_true : forall N set v, Forall (fun u => length u = N) set -> length v = N ->
  (is_dup set v = true <-> In v set \/ In (zneg v) set).
Proof.
  intros N set v HF Hv. unfold is_dup. rewrite existsb_exists. rewrite Forall_forall in HF. split.
  - intros (u & Hu & E). apply orb_true_iff in E. rewrite !Z.eqb_eq in E. assert (L := HF u Hu).
    rewrite zip_sub_zero, zip_add_zero in E by congruence. destruct E as [<-|E]; [now left|right; now rewrite <- E].
  - intros [H|H].
    + exists v. split; [assumption|]. rewrite (proj2 (zip_sub_zero v v eq_refl)) by reflexivity. reflexivity.
    + exists (zneg v). split; [assumption|]. apply orb_true_iff. right. apply Z.eqb_eq. apply zip_add_zero; [apply zneg_len|reflexivity].
Qed.

(** The vectors before the first zero vector. *)
Fixpoint before_zero (items : list zvec) : list zvec :=
  match items with [] => [] | v :: r => if Z.eqb (l1 v) 0 then [] else v :: before_zero r end.
(** No two entries equal up to sign. *)
Definition sign_free (l : list zvec) : Prop := NoDup l /\ forall u v, In u l -> In v l -> u <> zneg v.

Lemma gather_spec : forall N items acc, Forall (fun u => length u = N) items -> Forall (fun u => length u = N /\ l1 u <> 0%Z) acc -> sign_free acc ->
  sign_free (gather items acc) /\ Forall (fun u => length u = N /\ l1 u <> 0%Z) (gather items acc) /\
  (forall v, In v (gather items acc) -> In v acc \/ In v (before_zero items)) /\
  (forall v, In v acc \/ In v (before_zero items) -> In v (gather items acc) \/ In (zneg v) (gather items acc)).
Proof.
  intros N items. induction items as [|v r IH]; intros acc HI HA [S1 S2]; cbn [gather before_zero].
  - repeat split; auto. intros v [H|[]]; now left.
  - apply Forall_cons_iff in HI. destruct HI as [Hv Hr]. destruct (Z.eqb_spec (l1 v) 0) as [Z0|Z0].
    + repeat split; auto. intros w [H|[]]; now left.
    + assert (HA' : Forall (fun u => length u = N) acc) by (revert HA; apply Forall_impl; tauto).
      pose proof (is_dup_true N acc v HA' Hv) as D. destruct (is_dup acc v) eqn:Ed.
      * destruct (IH acc Hr HA (conj S1 S2)) as (A & B & C & E). split; [assumption|]. split; [assumption|]. split.
        -- intros w Hw. destruct (C w Hw) as [H|H]; [now left|right; now right].
        -- intros w [H|[H|H]]; [apply E; now left| |apply E; now right]. subst w.
           destruct (proj1 D eq_refl) as [G|G]; [apply E; now left|]. destruct (E (zneg v) (or_introl G)) as [K|K]; [now right|].
           rewrite zneg_invol in K. now left.
      * assert (ND : ~ (In v acc \/ In (zneg v) acc)) by (intros G; apply D in G; discriminate).
        assert (HA2 : Forall (fun u => length u = N /\ l1 u <> 0%Z) (acc ++ [v])) by (apply Forall_app; split; auto).
        assert (SF : sign_free (acc ++ [v])).
        { split.
          - apply (Permutation_NoDup (l := v :: acc)); [apply Permutation_cons_append|]. constructor; [tauto|assumption].
          - intros x y Hx Hy E. apply in_app_iff in Hx, Hy. destruct Hx as [Hx|[<-|[]]], Hy as [Hy|[<-|[]]].
            + now apply (S2 x y).
            + subst x. apply ND. now right.
            + apply ND. right. rewrite E. now rewrite zneg_invol.
            + apply Z0. assert (V : forall w, w = zneg w -> l1 w = 0%Z).
              { induction w as [|a w IHw]; cbn; intros Ew; [reflexivity|]. inversion Ew. rewrite <- H1 in *. rewrite IHw by assumption. lia. }
              now apply V. }
        destruct (IH (acc ++ [v]) Hr HA2 SF) as (A & B & C & E). split; [assumption|]. split; [assumption|]. split.
        -- intros w Hw. destruct (C w Hw) as [H|H]; [|right; now right]. apply in_app_iff in H. destruct H as [H|[<-|[]]]; [now left|right; now left].
        -- intros w [H|[H|H]]; apply E; [left; apply in_app_iff; now left|subst w; left; apply in_app_iff; right; now left|now right].
Qed.
Lemma items_len : forall c N, Forall (fun u => length u = N) (product c N).
Proof. intros. apply Forall_forall. intros v Hv. now apply product_length in Hv. Qed.
Lemma before_zero_in : forall items v, In v (before_zero items) -> In v items.
Proof.
  induction items as [|u r IH]; intros v H; cbn in *; [assumption|]. destruct (Z.eqb (l1 u) 0); [destruct H|]. destruct H; auto.
Qed.
Lemma candidate_set_spec : forall N c, sign_free (candidate_set N c) /\
  (forall v, In v (candidate_set N c) -> length v = N /\ Forall (fun x => In x c) v /\ v <> repeat 0%Z N).
Proof.
  intros N c. destruct (gather_spec N (product c N) [] (items_len c N)) as (A & B & C & D); [constructor|split; [constructor|intros u v []]|].
  split; [exact A|]. intros v Hv. rewrite Forall_forall in B. destruct (B v Hv) as [L Z]. split; [assumption|]. split.
  - destruct (C v Hv) as [[]|H]. apply before_zero_in in H. now apply product_length in H.
  - intros E. apply Z. apply l1_zero. now rewrite L.
Qed.

(** Default candidates. *)
Definition tern : list Z := [-1; 1; 0]%Z.
Lemma product_tern_last : forall N, exists l, product tern N = l ++ [repeat 0%Z N] /\ Forall (fun v => l1 v <> 0%Z) l.
Proof.
  induction N as [|N (l & E & HF)].
  - exists []. split; [reflexivity|constructor].
  - exists (map (cons (-1)%Z) (product tern N) ++ map (cons 1%Z) (product tern N) ++ map (cons 0%Z) l). split.
    + change (product tern (S N)) with (map (cons (-1)%Z) (product tern N) ++ map (cons 1%Z) (product tern N) ++ map (cons 0%Z) (product tern N) ++ []).
      rewrite app_nil_r. rewrite E at 3. rewrite map_app. now rewrite <- !app_assoc.
    + rewrite !Forall_app. repeat split; apply Forall_forall; intros v Hv; apply in_map_iff in Hv; destruct Hv as (w & <- & Hw); cbn [l1];
        pose proof (l1_nonneg w); try lia. rewrite Forall_forall in HF. specialize (HF w Hw). lia.
Qed.
Lemma before_zero_app : forall l z, Forall (fun v => l1 v <> 0%Z) l -> l1 z = 0%Z -> before_zero (l ++ [z]) = l.
Proof.
  induction l as [|v l IH]; intros z HF Hz; cbn.
  - now rewrite Hz.
  - apply Forall_cons_iff in HF. destruct HF as [H1 H2]. destruct (Z.eqb_spec (l1 v) 0); [contradiction|]. now rewrite IH.
Qed.
Lemma product_tern_length : forall N, length (product tern N) = 3 ^ N.
Proof.
  induction N as [|N IH]; [reflexivity|].
  change (product tern (S N)) with (map (cons (-1)%Z) (product tern N) ++ map (cons 1%Z) (product tern N) ++ map (cons 0%Z) (product tern N) ++ []).
  rewrite !app_length, !map_length, IH. cbn. lia.
Qed.
Lemma NoDup_app_disj : forall (A : Type) (l1 l2 : list A), NoDup l1 -> NoDup l2 -> (forall x, In x l1 -> In x l2 -> False) -> NoDup (l1 ++ l2).
Proof.
  intros A l1. induction l1 as [|a l1 IH]; intros l2 H1 H2 HD; cbn; [assumption|]. apply NoDup_cons_iff in H1. destruct H1 as [N1 N2].
  constructor.
  - intros G. apply in_app_iff in G. destruct G; [contradiction|]. eapply HD; [now left|eassumption].
  - apply IH; auto. intros x Hx Hy. apply (HD x); [now right|assumption].
Qed.
Lemma NoDup_app_left : forall (A : Type) (l1 l2 : list A), NoDup (l1 ++ l2) -> NoDup l1.
Proof.
  intros A l1 l2. induction l1 as [|a l1 IH]; intros H; [constructor|]. cbn in H. apply NoDup_cons_iff in H. destruct H as [H1 H2].
  constructor; [intros G; apply H1; apply in_app_iff; now left|auto].
Qed.
Lemma product_tern_nodup : forall N, NoDup (product tern N).
Proof.
  induction N as [|N IH]; [repeat constructor; auto|].
  change (product tern (S N)) with (map (cons (-1)%Z) (product tern N) ++ map (cons 1%Z) (product tern N) ++ map (cons 0%Z) (product tern N) ++ []).
  rewrite app_nil_r. assert (M : forall x : Z, NoDup (map (cons x) (product tern N))).
  { intros x. apply FinFun.Injective_map_NoDup; [|assumption]. intros a b H. now inversion H. }
  repeat apply NoDup_app_disj; auto; intros x Hx Hy; apply in_map_iff in Hx; destruct Hx as (w & <- & _).
  - apply in_map_iff in Hy; destruct Hy as (w' & E & _); discriminate.
  - apply in_app_iff in Hy. destruct Hy as [Hy|Hy]; apply in_map_iff in Hy; destruct Hy as (w' & E & _); discriminate.
Qed.
(** Exactly one representative of every pair of nonzero vectors. *)
Lemma candidate_set_tern : forall N v, length v = N -> Forall (fun x => In x tern) v -> v <> repeat 0%Z N ->
  (In v (candidate_set N tern) /\ ~ In (zneg v) (candidate_set N tern)) \/ (~ In v (candidate_set N tern) /\ In (zneg v) (candidate_set N tern)).
Proof.
  intros N v HL HF HZ. destruct (product_tern_last N) as (l & E & Hl).
  destruct (gather_spec N (product tern N) [] (items_len _ N)) as ([S1 S2] & B & C & D); [constructor|split; [constructor|intros u w []]|].
  assert (Hb : In v (before_zero (product tern N))).
  { rewrite E, before_zero_app; auto; [|apply l1_zero; now rewrite repeat_length].
    assert (G : In v (product tern N)) by (apply product_length; now split). rewrite E in G. apply in_app_iff in G. destruct G as [G|[G|[]]]; [assumption|]. congruence. }
  fold (candidate_set N tern) in S1, S2, D.
  destruct (D v (or_intror Hb)) as [G|G]; [left|right]; (split; [assumption || idtac|assumption || idtac]).
  - intros G2. apply (S2 _ _ G G2). now rewrite zneg_invol.
  - intros G2. apply (S2 _ _ G2 G). now rewrite zneg_invol.
Qed.
Lemma candidate_set_count : forall N, (2 * length (candidate_set N tern) + 1 = 3 ^ N)%nat.
Proof.
  intros N. destruct (product_tern_last N) as (l & E & Hl). destruct (candidate_set_spec N tern) as [[S1 S2] S3].
  assert (P : Permutation (candidate_set N tern ++ map zneg (candidate_set N tern)) l).
  { apply NoDup_Permutation.
    - apply NoDup_app_disj; auto.
      + apply FinFun.Injective_map_NoDup; [intros a b; apply zneg_inj|assumption].
      + intros x Hx Hy. apply in_map_iff in Hy. destruct Hy as (w & <- & Hw). now apply (S2 _ _ Hx Hw).
    - pose proof (product_tern_nodup N) as ND. rewrite E in ND. now apply NoDup_remove_1 in ND; rewrite app_nil_r in ND.
    - assert (T : forall v, length v = N -> Forall (fun x => In x tern) v -> v <> repeat 0%Z N -> In v l).
      { intros v H1 H2 H3. assert (G : In v (product tern N)) by (apply product_length; now split). rewrite E in G. apply in_app_iff in G. destruct G as [G|[G|[]]]; congruence. }
      intros x. rewrite in_app_iff. split.
      + intros [H|H].
        * destruct (S3 x H) as (A & B & C). now apply T.
        * apply in_map_iff in H. destruct H as (w & <- & Hw). destruct (S3 w Hw) as (A & B & C). apply T.
          -- now rewrite zneg_len.
          -- unfold zneg. rewrite Forall_map. revert B. apply Forall_impl. unfold tern. cbn. intros a Ha. lia.
          -- intros G. apply C. apply zneg_inj. rewrite G. unfold zneg. clear. induction N; cbn; [reflexivity|]. now f_equal.
      + intros Hx. assert (G : In x (product tern N)) by (rewrite E; apply in_app_iff; now left). apply product_length in G. destruct G as [A B].
        assert (C : x <> repeat 0%Z N). { intros ->. rewrite Forall_forall in Hl. apply (Hl _ Hx). apply l1_zero. now rewrite repeat_length. }
        destruct (candidate_set_tern N x A B C) as [[G _]|[_ G]]; [now left|right]. apply in_map_iff. exists (zneg x). split; [apply zneg_invol|assumption]. }
  apply Permutation_length in P. rewrite app_length, map_length in P.
  pose proof (product_tern_length N) as L. rewrite E, app_length in L. cbn in L. lia.
Qed.

(** Selection. *)
Lemma argmin_lt : forall l, l <> [] -> (argmin l < length l)%nat.
Proof.
  intros [|x l] H; [contradiction|]. unfold argmin. cbn [length]. assert (G : forall l i best bv, (best < i)%nat -> (argmin_go l i best bv < i + length l)%nat).
  { clear. induction l as [|x l IH]; intros i best bv Hb; cbn; [lia|]. destruct (Rlt_bool x bv); (eapply Nat.lt_le_trans; [apply IH; lia|lia]). }
  apply (G l 1 0 x). lia.
Qed.
Lemma delete_perm : forall i l, (i < length l)%nat -> Permutation l (nth i l [] :: delete i l).
Proof.
  intros i l H. unfold delete. rewrite <- (firstn_skipn i l) at 1. assert (E : skipn i l = nth i l [] :: skipn (S i) l).
  { revert l H. induction i as [|i IH]; intros [|a l] H; cbn in *; try lia; [reflexivity|]. apply IH. lia. }
  rewrite E. symmetry. apply Permutation_middle.
Qed.
Lemma pick_spec : forall k set cands, (k <= length cands)%nat -> exists out rest, pick k set cands = Ok (set ++ out) /\ length out = k /\
  Permutation cands (out ++ rest).
Proof.
  induction k as [|k IH]; intros set cands Hk.
  - exists [], cands. rewrite app_nil_r. repeat split; auto.
  - cbn [pick]. destruct cands as [|c0 cs]; [cbn in Hk; lia|]. set (cands := c0 :: cs) in *. set (i := argmin (map (cost set) cands)).
    assert (Hi : (i < length cands)%nat) by (unfold i; rewrite <- (map_length (cost set) cands); apply argmin_lt; discriminate).
    pose proof (delete_perm i cands Hi) as P. pose proof (Permutation_length P) as PL. cbn [length] in PL.
    destruct (IH (set ++ [nth i cands []]) (delete i cands)) as (out & rest & E & L & Q); [lia|].
    exists (nth i cands [] :: out), rest. split; [rewrite E, <- app_assoc; reflexivity|]. split; [cbn; lia|].
    eapply Permutation_trans; [exact P|]. cbn. now constructor.
Qed.
Lemma unit_element_set_spec : forall N M c,
  (length (candidate_set N c) < M -> unit_element_set N M c = Exn GenericException)%nat /\
  (1 <= M -> M <= length (candidate_set N c) -> exists cols, unit_element_set N M c = Ok cols /\ length cols = M /\ sign_free cols /\
     forall v, In v cols -> length v = N /\ Forall (fun x => In x c) v /\ v <> repeat 0%Z N)%nat /\
  (M = 0 -> candidate_set N c = [] -> unit_element_set N M c = Exn IndexError)%nat /\
  (M = 0 -> candidate_set N c <> [] -> exists v, unit_element_set N M c = Ok [v])%nat.
Proof.
  intros N M c. destruct (candidate_set_spec N c) as [[S1 S2] S3]. unfold unit_element_set.
  destruct (Nat.ltb_spec (length (candidate_set N c)) M) as [H|H].
  - split; [auto|]. split; [intros; lia|]. split; intros; lia.
  - split; [intros; lia|]. destruct (candidate_set N c) as [|v r] eqn:E; cbn [length] in H.
    + split; [intros; lia|]. split; [reflexivity|]. intros _ G. congruence.
    + split; [|split; [discriminate|intros -> _; exists v; reflexivity]].
      intros HM _. destruct (pick_spec (M - 1) [v] r) as (out & rest & EP & L & P); [lia|].
      exists ([v] ++ out). split; [assumption|]. split; [cbn; lia|].
      assert (P2 : Permutation (v :: r) (([v] ++ out) ++ rest)) by (cbn; now constructor).
      assert (Incl : forall x, In x ([v] ++ out) -> In x (v :: r)) by (intros x Hx; eapply Permutation_in; [symmetry; exact P2|apply in_app_iff; now left]).
      split; [split|].
      * apply (Permutation_NoDup P2) in S1. apply NoDup_app_left in S1. assumption.
      * intros x y Hx Hy. apply S2; now apply Incl.
      * intros x Hx. apply S3. now apply Incl.
Qed.
