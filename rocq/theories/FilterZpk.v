(** Systems built from conjugate poles and zeros: always accepted, and their frequency response. *)
From Coq Require Import List Arith Lia Bool Reals Lra Permutation.
From Coquelicot Require Import Complex.
From Flocq Require Import Core.
From Verif Require Import Base LinAlg FirExtras AnalogSystem AnalogProofs ChainProofs TfProofs Zpk ZpkProofs ZpkExtra Integrators Filters.
Import ListNotations.
Open Scope R_scope.

(** ** Specification *)
(** numbers that occur once, together with their conjugates, and are told apart by the absolute value of the imaginary part
    (but for the conjugate): in particular at most one of them is real *)
Definition conj_set (l : list C) : Prop :=
  NoDup l /\ (forall a, In a l -> In (Cconj a) l) /\
  (forall a b, In a l -> In b l -> Rabs (snd a) = Rabs (snd b) -> b = a \/ b = Cconj a).

(** ** Sorting *)
Lemma conj_perm l l' : Permutation l l' -> conj_set l -> conj_set l'.
Proof.
  intros P (H1 & H2 & H3). pose proof (fun x => @Permutation_in C l l' x P) as I. pose proof (fun x => @Permutation_in C l' l x (Permutation_sym P)) as J. split; [now apply (Permutation_NoDup P)|]. split.
  - intros a Ha. apply I, H2, J, Ha.
  - intros a b Ha Hb. apply H3; now apply J.
Qed.
Lemma cconj2 a : Cconj (Cconj a) = a.
Proof. destruct a. unfold Cconj. cbn. now rewrite Ropp_involutive. Qed.
Lemma cconj_real a : snd a = 0 <-> Cconj a = a.
Proof. destruct a as [x y]. unfold Cconj. cbn. split; [intros ->; now rewrite Ropp_0|]. intros H. injection H. lra. Qed.
Lemma conj_tail a r : conj_set (a :: Cconj a :: r) -> conj_set r.
Proof.
  intros (H1 & H2 & H3). inversion H1 as [|? ? N1 H1']; subst. inversion H1' as [|? ? N2 H1'']; subst. split; [exact H1''|]. split.
  - intros b Hb. destruct (H2 b) as [E|[E|E]]; [now right; right| | |exact E]; exfalso.
    + apply N2. rewrite E, cconj2. exact Hb.
    + apply N1. right. apply (f_equal Cconj) in E. rewrite !cconj2 in E. now rewrite E.
  - intros b c Hb Hc. apply H3; right; now right.
Qed.

(** conjugate pairs, then at most one real number *)
Fixpoint pairs (l : list C) : Prop :=
  match l with [] => True | [a] => snd a = 0 | a :: b :: r => snd a <> 0 /\ b = Cconj a /\ pairs r end.

Lemma desc_pairs l : desc l -> conj_set l -> pairs l.
Proof.
  induction l as [|a|a b r IH] using list_ind2; intros HD HC.
  - exact Logic.I.
  - destruct HC as (_ & H2 & _). destruct (H2 a) as [E|[]]; [now left|]. cbn. now apply cconj_real.
  - assert (HC' := HC). destruct HC as (H1 & H2 & H3). inversion H1 as [|? ? N1 _]; subst.
    assert (Hab : Rabs (snd b) <= Rabs (snd a)) by (apply (HD O 1%nat); cbn; lia).
    assert (Ha : snd a <> 0).
    { intros Q. rewrite Q, Rabs_R0 in Hab. assert (Z : Rabs (snd b) = 0) by (pose proof (Rabs_pos (snd b)); lra).
      destruct (H3 a b) as [E|E]; [now left|right; now left|rewrite Q, Rabs_R0; now symmetry| |].
      - apply N1. left. now symmetry.
      - apply cconj_real in Q. rewrite Q in E. apply N1. left. now symmetry. }
    assert (Hb : b = Cconj a).
    { assert (Ic : In (Cconj a) (b :: r)).
      { destruct (H2 a) as [E|E]; [now left| |exact E]. exfalso. apply Ha. apply cconj_real. now symmetry. }
      assert (Q : Rabs (snd (Cconj a)) <= Rabs (snd b)).
      { apply (In_nth _ _ (RtoC 0)) in Ic as (j & Hj & <-). destruct j as [|j]; [cbn; lra|]. apply (HD 1%nat (S (S j))). cbn [length] in *. lia. }
      assert (E1 : Rabs (snd (Cconj a)) = Rabs (snd a)) by (unfold Cconj; cbn; apply Rabs_Ropp).
      destruct (H3 a b) as [E|E]; [now left|right; now left|lra| |exact E]. exfalso. apply N1. left. exact E. }
    split; [exact Ha|]. split; [exact Hb|]. subst b. apply IH; [|now apply (conj_tail a)].
    intros i j Hij. apply (HD (S (S i)) (S (S j))). cbn. lia.
Qed.

Lemma allclose_refl a : allclose_c a a = true.
Proof.
  unfold allclose_c. apply Rle_bool_true. replace (a - a)%C with (RtoC 0) by ring. rewrite Cmod_0. pose proof (Cmod_ge_0 a). lra.
Qed.
Lemma pairs_filter l : pairs l -> conj_pairs (filter is_cplx l) = true.
Proof.
  induction l as [|a|a b r IH] using list_ind2; intros H; [reflexivity| |].
  - cbn in *. unfold is_cplx. now rewrite Req_bool_true by exact H.
  - destruct H as (Ha & -> & H). assert (E1 : is_cplx a = true) by (unfold is_cplx; now rewrite Req_bool_false).
    assert (E2 : is_cplx (Cconj a) = true) by (unfold is_cplx; rewrite Req_bool_false; [reflexivity|cbn; lra]). cbn [filter]. rewrite E1, E2. cbn [conj_pairs].
    rewrite cconj2, allclose_refl. cbn. now apply IH.
Qed.

Lemma sort_pairs argsort l : argsort_ok argsort -> conj_set l -> exists l', sort_cplx argsort l = Ok l' /\ Permutation l l' /\ pairs l'.
Proof.
  intros HA HC. unfold sort_cplx. set (keys := map (fun z => Rabs (snd z)) l). set (idx := argsort keys).
  destruct (HA keys) as [HP Hs]. fold idx in HP, Hs. assert (Lk : length keys = length l) by apply map_length. rewrite Lk in *.
  assert (Li : length idx = length l) by (rewrite (Permutation_length HP); apply seq_length).
  set (l1 := map (fun i => nth i l (RtoC 0)) (rev idx)).
  assert (P1 : Permutation l l1).
  { unfold l1. rewrite <- (map_nth_seq l (RtoC 0)) at 1. apply Permutation_map. rewrite <- Permutation_rev. now symmetry. }
  assert (D1 : desc l1).
  { assert (L1 : length l1 = length l) by (unfold l1; rewrite map_length, rev_length; exact Li).
    assert (Hn : forall i, (i < length l)%nat -> Rabs (snd (nth i l1 (RtoC 0))) = nth (nth (length l - S i) idx O) keys 0).
    { intros i Hi. unfold l1. rewrite (nth_indep _ _ (nth O l (RtoC 0))) by (rewrite map_length, rev_length; lia).
      rewrite (map_nth (fun i => nth i l (RtoC 0))). rewrite rev_nth by lia. rewrite Li.
      set (q := nth (length l - S i) idx 0%nat). assert (Hq : (q < length l)%nat).
      { assert (In q idx) by (apply nth_In; lia). apply (Permutation_in _ HP) in H. apply in_seq in H. lia. }
      unfold keys. rewrite (nth_indep _ 0 (Rabs (snd (RtoC 0)))) by (now rewrite map_length).
      now rewrite (map_nth (fun z => Rabs (snd z))). }
    intros i j Hij. rewrite L1 in Hij. rewrite !Hn by lia. apply Hs. lia. }
  assert (Hp : pairs l1) by (apply desc_pairs; [exact D1|now apply (conj_perm l)]).
  rewrite (pairs_filter l1 Hp). cbn [negb]. rewrite (firstn_filter l1 D1). exists l1. auto.
Qed.

(** ** Stages *)
Lemma pairs_zok l : pairs l -> zok l.
Proof.
  induction l as [|a|a b r IH] using list_ind2; intros H; [exact Logic.I..|]. destruct H as (Ha & -> & H). split; [|now apply IH]. intros _ _. now rewrite cconj2.
Qed.

(** a system without imaginary parts in its matrices *)
Definition realm (a : nd2 Cring) : Prop := forall i j, snd (ent a i j) = 0.
Record reals (S : asys Cring) : Prop := { re_A : realm (aA S); re_B : realm (aB S); re_C : realm (aCT S); re_D : realm (aD S) }.

(** s I - A is injective *)
Definition inj_at (S : asys Cring) (s : C) : Prop := forall x, length x = sN S -> vscale (s : Cring) x = rhs S x [RtoC 0 : Cring] [] -> x = repeat (RtoC 0) (sN S).

Lemma mlist_real r c l : (forall row, In row l -> forall a, In a row -> snd a = 0) -> realm (mlist r c l).
Proof.
  intros H i j. change (snd (nth j (nth i l ([] : list C)) (RtoC 0)) = 0). destruct (Nat.lt_ge_cases i (length l)) as [Hi|Hi].
  - destruct (Nat.lt_ge_cases j (length (nth i l []))) as [Hj|Hj].
    + apply (H (nth i l [])); apply nth_In; assumption.
    + now rewrite (nth_overflow _ _ Hj).
  - rewrite (nth_overflow l _ Hi). now destruct j.
Qed.

(** numerator of a stage *)
Lemma out_pair k a b z : b <> 0 -> pairs z -> exists c1 c2 d, two_pole_out k (RtoC a) (RtoC b) (RtoC (- b)) (RtoC a) z = Ok (c1, c2, d) /\
  snd c1 = 0 /\ snd c2 = 0 /\ snd d = 0 /\
  forall s : C, (RtoC (k * k) * (c1 * (s - RtoC a) + c2 * RtoC (- b)) + d * ((s - RtoC a) * (s - RtoC a) - RtoC b * RtoC (- b)) = RtoC (k * k) * cprod s (firstn 2 z))%C.
Proof.
  intros Hb HZ. assert (B0 : Req_bool (fst (RtoC (- b))) 0 = false) by (apply Req_bool_false; cbn; lra).
  assert (BC : RtoC (- b) <> RtoC 0) by (intros Q; apply RtoC_inj in Q; lra).
  assert (RD : forall x y : R, snd (RtoC x / RtoC y)%C = 0) by (intros x y; cbn; unfold Rdiv; ring).
  destruct z as [|z1 [|z2 z]]; cbn [two_pole_out].
  - unfold np_div. rewrite B0. cbn [bind]. eexists _, _, _. split; [reflexivity|]. split; [cbn; ring|]. split; [cbn; unfold Rdiv; ring|]. split; [reflexivity|].
    intros s. cbn [firstn cprod fold_right]. field. exact BC.
  - cbn in HZ. unfold is_cplx. rewrite Req_bool_true by exact HZ. cbn [negb]. unfold np_div. rewrite B0. cbn [bind]. eexists _, _, _. split; [reflexivity|].
    split; [reflexivity|]. split; [rewrite <- RtoC_minus; apply RD|]. split; [reflexivity|]. intros s. cbn [firstn cprod fold_right]. rewrite (real_C z1 HZ). field. exact BC.
  - destruct HZ as (H1 & -> & _). destruct z1 as [x y]. cbn [snd] in H1.
    assert (Y0 : ((x, y) + Cconj (x, y) - RtoC a - RtoC a)%C = RtoC (2 * x - 2 * a)) by (apply injective_projections; cbn; ring).
    assert (Y1 : ((x, y) * Cconj (x, y) - RtoC a * RtoC a + RtoC b * RtoC (- b))%C = RtoC (x * x + y * y - a * a - b * b)) by (apply injective_projections; cbn; ring).
    rewrite Y0, Y1. unfold imag_small. cbn [snd RtoC]. rewrite Rabs_R0, Rle_bool_true by lra. cbn [andb negb]. rewrite B0. cbn [fst RtoC].
    eexists _, _, _. split; [reflexivity|]. split; [cbn; ring|]. split; [cbn; unfold Rdiv; ring|]. split; [reflexivity|].
    intros s. cbn [firstn cprod fold_right]. rewrite <- Y1. transitivity (RtoC (k * k) * (s * s - s * ((x, y) + Cconj (x, y)) + (x, y) * Cconj (x, y)))%C; [|ring].
    assert (E0 : RtoC (2 * x - 2 * a) = ((x, y) + Cconj (x, y) - RtoC a - RtoC a)%C) by now symmetry.
    rewrite E0. field. exact BC.
Qed.

Lemma stages_good k : forall p z, pairs p -> pairs z -> (length z <= length p)%nat -> exists l, zpk_stages k p z = Ok l /\
  Forall siso l /\ Forall reals l /\ total sN l = length p /\ (p <> [] -> l <> []) /\
  forall s : C, (cprod s p <> RtoC 0 -> Forall (fun S => inj_at S s /\ has_ss (K := Cring) S s) l) /\ exists t : list (Cring * Cring), length t = length l /\
    (forall i S', nth_error l i = Some S' -> has_tf S' (s : Cring) (fst (nth i t (RtoC 0 : Cring, RtoC 0 : Cring))) (snd (nth i t (RtoC 0 : Cring, RtoC 0 : Cring)))) /\
    @kprod Cring (map fst t) = (RtoC (k ^ length p) * cprod s z)%C /\ @kprod Cring (map snd t) = cprod s p.
Proof.
  intros p. induction p as [|p1|p1 p2 p IH] using list_ind2; intros z HP HZ HL.
  - exists []. split; [reflexivity|]. destruct z; [|cbn in HL; lia]. split; [constructor|]. split; [constructor|]. split; [reflexivity|]. split; [congruence|].
    intros s. split; [constructor|]. exists []. split; [reflexivity|]. split; [|split; [|reflexivity]].
    + intros [|i] S' E; discriminate E.
    + change (RtoC 1 = (RtoC 1 * RtoC 1)%C). ring.
  - cbn in HP. cbn [zpk_stages]. unfold is_cplx at 1. rewrite Req_bool_true by exact HP. cbn [negb].
    assert (IJ : forall (c d s : C), cprod s [p1] <> RtoC 0 -> Forall (fun S => inj_at S s /\ has_ss (K := Cring) S s) [mkAS (mlist 1 1 [[RtoC (fst p1)]]) (mlist 1 1 [[RtoC k]]) (mlist 1 1 [[c]]) None None (mlist 1 1 [[d]]) (zeros 0 1) (zeros 0 0)]).
    { intros c d s Hs. constructor; [|constructor]. split.
      2: { apply (one_state_ss _ s (RtoC (fst p1)) (RtoC k)); [split; [constructor; cbn; auto|auto]|reflexivity..|].
        rewrite (real_C p1 HP). unfold cprod in Hs. cbn [fold_right] in Hs. now apply Cmult_neq in Hs. }
      intros x Lx Hx. destruct x as [|x0 [|? ?]]; try discriminate Lx. apply (f_equal (fun l => nth 0 l (RtoC 0))) in Hx.
      change ((s * x0)%C = (RtoC 0 + RtoC (fst p1) * x0 + (RtoC 0 + RtoC k * RtoC 0) + RtoC 0)%C) in Hx.
      cbn [repeat sN rows aA mlist]. f_equal. rewrite (real_C p1 HP) in Hx. unfold cprod in Hs. cbn [fold_right] in Hs. apply Cmult_neq in Hs as [Hs _].
      assert (Z : ((s - p1) * x0 = RtoC 0)%C).
      { transitivity (s * x0 - p1 * x0)%C; [ring|]. rewrite Hx. ring. }
      destruct (Ceq_dec x0 (RtoC 0)) as [|N]; [assumption|]. exfalso. revert Z. now apply Cmult_neq_0. }
    destruct z as [|z1 [|z2 z]]; [| |cbn in HL; lia]; cbn [bind].
    + eexists. split; [reflexivity|]. split; [|split; [|split; [reflexivity|split; [discriminate|]]]].
      { constructor; [|constructor]. split; [constructor; cbn; auto|]. auto. }
      { constructor; [|constructor]. split; cbn; apply mlist_real; intros ? [<-|[]] ? [<-|[]]; reflexivity. }
      intros s. split; [apply IJ|]. exists [((RtoC k * RtoC 1 + RtoC 0 * (s - RtoC (fst p1)))%C : Cring, (s - RtoC (fst p1))%C : Cring)].
      split; [reflexivity|]. split; [|split].
      * intros [|[|i]] S' E; try discriminate. cbn in E. injection E as <-. cbn [nth fst snd].
        apply (one_state_tf (K := Cring) _ (s : Cring) (RtoC (fst p1) : Cring) (RtoC k : Cring) (RtoC 1 : Cring) (RtoC 0 : Cring)); [split; [constructor; cbn; auto|auto]|reflexivity..].
      * cbn [map fst kprod fold_right length pow cprod]. change (((RtoC k * RtoC 1 + RtoC 0 * (s - RtoC (fst p1))) * RtoC 1 = RtoC (k * 1) * RtoC 1)%C).
        rewrite RtoC_mult. ring.
      * cbn [map snd kprod fold_right cprod]. rewrite (real_C p1 HP). reflexivity.
    + cbn in HZ. unfold is_cplx. rewrite Req_bool_true by exact HZ. cbn [negb bind].
      eexists. split; [reflexivity|]. split; [|split; [|split; [reflexivity|split; [discriminate|]]]].
      { constructor; [|constructor]. split; [constructor; cbn; auto|]. auto. }
      { constructor; [|constructor]. split; cbn; apply mlist_real; intros ? [<-|[]] ? [<-|[]]; reflexivity. }
      intros s. split; [apply IJ|]. exists [((RtoC k * RtoC (fst p1 - fst z1) + RtoC k * (s - RtoC (fst p1)))%C : Cring, (s - RtoC (fst p1))%C : Cring)].
      split; [reflexivity|]. split; [|split].
      * intros [|[|i]] S' E; try discriminate. cbn in E. injection E as <-. cbn [nth fst snd].
        apply (one_state_tf (K := Cring) _ (s : Cring) (RtoC (fst p1) : Cring) (RtoC k : Cring) (RtoC (fst p1 - fst z1) : Cring) (RtoC k : Cring)); [split; [constructor; cbn; auto|auto]|reflexivity..].
      * cbn [map fst kprod fold_right length pow cprod].
        change (((RtoC k * RtoC (fst p1 - fst z1) + RtoC k * (s - RtoC (fst p1))) * RtoC 1 = RtoC (k * 1) * ((s - z1) * RtoC 1))%C).
        rewrite RtoC_mult, RtoC_minus, (real_C z1 HZ). ring.
      * cbn [map snd kprod fold_right cprod]. rewrite (real_C p1 HP). reflexivity.
  - destruct HP as (H1 & -> & HP). destruct p1 as [a b]. cbn [snd] in H1.
    assert (HZ' : pairs (tl (tl z))) by (destruct z as [|? [|? ?]]; cbn in *; tauto).
    assert (HL' : (length (tl (tl z)) <= length p)%nat) by (destruct z as [|? [|? ?]]; cbn in *; lia).
    destruct (IH _ HP HZ' HL') as (r & Er & F & R & T & Ne & Htf). destruct (out_pair k a b z H1 HZ) as (c1 & c2 & d & EO & R1 & R2 & R3 & HN).
    cbn [zpk_stages]. unfold two_pole. rewrite cconj2, allclose_refl. cbn [bind fst snd Cconj]. rewrite EO. cbn [bind].
    match goal with |- context [as_init ?u0 ?u1 ?u2 ?u3 ?u4 ?u5 ?u6 ?u7] => set (E0 := as_init u0 u1 u2 u3 u4 u5 u6 u7) end.
    cbn in E0. subst E0. cbn [bind]. rewrite Er. cbn [bind]. eexists. split; [reflexivity|].
    match goal with |- Forall _ (?S0 :: _) /\ _ => set (S1 := S0) end.
    assert (HSi : siso S1) by (split; [constructor; cbn; auto|auto]).
    split; [now constructor|]. split; [constructor; [|exact R]|].
    { split; cbn; apply mlist_real; intros ? Hr ? Ha; repeat (destruct Hr as [<-|Hr]; [repeat (destruct Ha as [<-|Ha]; [first [exact R1|exact R2|exact R3|reflexivity]|]); destruct Ha|]); destruct Hr. }
    split; [rewrite total_cons, T; reflexivity|]. split; [discriminate|].
    intros s. destruct (Htf s) as (Hi & t & Lt & Ht & K1 & K2).
    assert (Den : (((s - RtoC a) * (s - RtoC a) - RtoC b * RtoC (- b)) = (s - (a, b)) * (s - Cconj (a, b)))%C).
    { destruct s as [u v]. apply injective_projections; cbn; ring. }
    split.
    + intros Hs. unfold cprod in Hs. cbn [fold_right] in Hs. apply Cmult_neq in Hs as [Hs1 Hs2]. apply Cmult_neq in Hs2 as [Hs2 Hs3].
      constructor; [|now apply Hi]. split.
      2: { eapply (two_state_ss _ s); [exact HSi|reflexivity..|]. change (((s - RtoC a) * (s - RtoC a) - RtoC b * RtoC (- b))%C <> RtoC 0). rewrite Den. now apply Cmult_neq_0. }
      intros x Lx Hx. destruct x as [|x0 [|x1 [|? ?]]]; try discriminate Lx.
      assert (E0 : ((s - RtoC a) * x0 - RtoC b * x1 = RtoC 0)%C).
      { apply (f_equal (fun l => nth 0 l (RtoC 0))) in Hx. change ((s * x0)%C = (RtoC 0 + RtoC a * x0 + RtoC b * x1 + (RtoC 0 + RtoC (k * k) * RtoC 0) + RtoC 0)%C) in Hx.
        transitivity (s * x0 - RtoC a * x0 - RtoC b * x1)%C; [ring|]. rewrite Hx. ring. }
      assert (E1 : ((s - RtoC a) * x1 - RtoC (- b) * x0 = RtoC 0)%C).
      { apply (f_equal (fun l => nth 1 l (RtoC 0))) in Hx. change ((s * x1)%C = (RtoC 0 + RtoC (- b) * x0 + RtoC a * x1 + (RtoC 0 + RtoC 0 * RtoC 0) + RtoC 0)%C) in Hx.
        transitivity (s * x1 - RtoC a * x1 - RtoC (- b) * x0)%C; [ring|]. rewrite Hx. ring. }
      assert (N0 : ((s - RtoC a) * (s - RtoC a) - RtoC b * RtoC (- b))%C <> RtoC 0) by (rewrite Den; now apply Cmult_neq_0).
      assert (Z0 : (((s - RtoC a) * (s - RtoC a) - RtoC b * RtoC (- b)) * x0 = RtoC 0)%C).
      { transitivity ((s - RtoC a) * ((s - RtoC a) * x0 - RtoC b * x1) + RtoC b * ((s - RtoC a) * x1 - RtoC (- b) * x0))%C; [ring|]. rewrite E0, E1. ring. }
      assert (Z1 : (((s - RtoC a) * (s - RtoC a) - RtoC b * RtoC (- b)) * x1 = RtoC 0)%C).
      { transitivity ((s - RtoC a) * ((s - RtoC a) * x1 - RtoC (- b) * x0) + RtoC (- b) * ((s - RtoC a) * x0 - RtoC b * x1))%C; [ring|]. rewrite E0, E1. ring. }
      assert (G : forall y : C, (((s - RtoC a) * (s - RtoC a) - RtoC b * RtoC (- b)) * y = RtoC 0)%C -> y = RtoC 0).
      { intros y Q. destruct (Ceq_dec y (RtoC 0)) as [|N]; [assumption|]. exfalso. revert Q. now apply Cmult_neq_0. }
      cbn [S1 repeat sN rows aA mlist]. now rewrite (G x0 Z0), (G x1 Z1).
    + exists ((RtoC (k * k) * cprod s (firstn 2 z), (s - (a, b)) * (s - Cconj (a, b)))%C :: t).
      split; [apply (f_equal Datatypes.S); exact Lt|]. split; [|split].
      * intros [|i] S' E; [|exact (Ht i S' E)]. cbn in E. injection E as <-. cbn [nth fst snd].
        eapply (has_tf_eq (K := Cring)).
        -- eapply (two_state_tf (K := Cring) _ (s : Cring)); [exact HSi|reflexivity..].
        -- rewrite <- (HN s).
           change ((c1 * ((s - RtoC a) * RtoC (k * k) + RtoC b * RtoC 0) + c2 * (RtoC (- b) * RtoC (k * k) + (s - RtoC a) * RtoC 0)
                 + d * ((s - RtoC a) * (s - RtoC a) - RtoC b * RtoC (- b)))%C
                = (RtoC (k * k) * (c1 * (s - RtoC a) + c2 * RtoC (- b)) + d * ((s - RtoC a) * (s - RtoC a) - RtoC b * RtoC (- b)))%C). ring.
        -- exact Den.
      * change (((RtoC (k * k) * cprod s (firstn 2 z)) * @kprod Cring (map fst t))%C = (RtoC (k ^ Datatypes.S (Datatypes.S (length p))) * cprod s z)%C).
        rewrite K1. assert (EZ : cprod s z = (cprod s (firstn 2 z) * cprod s (tl (tl z)))%C).
        { destruct z as [|? [|? ?]]; cbn; ring. }
        rewrite EZ. cbn [pow]. rewrite !RtoC_mult. ring.
      * change ((((s - (a, b)) * (s - Cconj (a, b))) * @kprod Cring (map snd t))%C = cprod s ((a, b) :: Cconj (a, b) :: p)). rewrite K2. unfold cprod. cbn [fold_right]. ring.
Qed.
