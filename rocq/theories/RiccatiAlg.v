(** Algebra of the Riccati equation A^T V + V A - V G V + Q = 0 over the complex numbers: eigenvectors of the Hamiltonian matrix give solutions; stability makes
    them symmetric, real and unique. *)
From Coq Require Import List Arith Lia Bool Reals Lra.
From Coquelicot Require Import Complex.
From Verif Require Import Base LinAlg AnalogSystem Zpk IntegratorsProofs LinearOde CplxLin.
Import ListNotations.
Open Scope R_scope.
Open Scope C_scope.

Definition cmul (n : nat) (M N : nat -> nat -> C) (i j : nat) : C := csum n (fun k => M i k * N k j).
Definition ctr (M : nat -> nat -> C) (i j : nat) : C := M j i.
Definition cconj (M : nat -> nat -> C) (i j : nat) : C := Cconj (M i j).
Definition csubm (M N : nat -> nat -> C) (i j : nat) : C := M i j - N i j.
Definition eqm (n : nat) (M N : nat -> nat -> C) : Prop := forall i j, (i < n)%nat -> (j < n)%nat -> M i j = N i j.
Definition inverse_of (n : nat) (P X : nat -> nat -> C) : Prop := eqm n (cmul n P X) (fun i j => unit j i) /\ eqm n (cmul n X P) (fun i j => unit j i).
(** every eigenvalue of M has a negative real part *)
Definition hurwitz (n : nat) (M : nat -> nat -> C) : Prop :=
  forall (l : C) v, (forall i, (i < n)%nat -> cap n M v i = l * v i) -> (exists i, (i < n)%nat /\ v i <> RtoC 0) -> (fst l < 0)%R.
(** A^T V + V A - V G V + Q = 0 *)
Definition care_c (n : nat) (A G Q V : nat -> nat -> C) : Prop :=
  forall i j, (i < n)%nat -> (j < n)%nat -> cmul n (ctr A) V i j + cmul n V A i j - cmul n V (cmul n G V) i j + Q i j = RtoC 0.
(** the closed loop A - G V *)
Definition loop (n : nat) (A G V : nat -> nat -> C) : nat -> nat -> C := csubm A (cmul n G V).

Lemma Cconj_opp a : Cconj (- a) = - Cconj a.
Proof. destruct a. unfold Cconj, Copp. cbn. reflexivity. Qed.
Lemma cap_extM n M N x i : (forall j, (j < n)%nat -> M i j = N i j) -> cap n M x i = cap n N x i.
Proof. intros H. apply csum_ext. intros j Hj. now rewrite H. Qed.
Lemma cap_mul n m M N x i : cap n (cmul m M N) x i = cap m M (cap n N x) i.
Proof.
  unfold cap, cmul. transitivity (csum n (fun j => csum m (fun k => M i k * (N k j * x j)))).
  - apply csum_ext. intros j _. transitivity (x j * csum m (fun k => M i k * N k j)); [ring|]. rewrite <- csum_scale. apply csum_ext. intros; ring.
  - rewrite csum_swap. apply csum_ext. intros k _. now rewrite csum_scale.
Qed.
Lemma cap_subM n M N x i : cap n (csubm M N) x i = cap n M x i - cap n N x i.
Proof. unfold cap. rewrite <- csum_sub. apply csum_ext. intros. unfold csubm. ring. Qed.
Lemma cap_col n M N j i : cap n M (fun k => N k j) i = cmul n M N i j.
Proof. reflexivity. Qed.
Lemma cap_id n (M : nat -> nat -> C) x i : (forall j, (j < n)%nat -> M i j = unit j i) -> (i < n)%nat -> cap n M x i = x i.
Proof.
  intros H Hi. unfold cap. rewrite (csum_ext _ _ (fun j => if Nat.eqb j i then x j else RtoC 0)); [now rewrite csum_single|].
  intros j Hj. rewrite H by exact Hj. unfold unit. rewrite (Nat.eqb_sym i j). destruct (Nat.eqb j i); ring.
Qed.
Lemma mat_of_op n M N : (forall x i, (i < n)%nat -> cap n M x i = cap n N x i) -> eqm n M N.
Proof. intros H i j Hi Hj. rewrite <- (cap_unit n M j i Hj), <- (cap_unit n N j i Hj). now apply H. Qed.

(** the equation applied to vectors *)
Lemma care_op n A G Q V : care_c n A G Q V <-> forall x i, (i < n)%nat ->
  cap n (ctr A) (cap n V x) i + cap n V (cap n A x) i - cap n V (cap n G (cap n V x)) i + cap n Q x i = RtoC 0.
Proof.
  assert (E : forall x i, csum n (fun j => (cmul n (ctr A) V i j + cmul n V A i j - cmul n V (cmul n G V) i j + Q i j) * x j) =
    cap n (ctr A) (cap n V x) i + cap n V (cap n A x) i - cap n V (cap n G (cap n V x)) i + cap n Q x i).
  { intros x i. rewrite <- (cap_mul n n (ctr A) V x i), <- (cap_mul n n V A x i). rewrite (cap_ext n V (cap n G (cap n V x)) (cap n (cmul n G V) x)) by (intros; symmetry; apply cap_mul).
    rewrite <- cap_mul. unfold cap. rewrite <- csum_add, <- csum_sub, <- csum_add. apply csum_ext. intros. ring. }
  split.
  - intros H x i Hi. rewrite <- E. apply csum_zero. intros j Hj. rewrite H by assumption. ring.
  - intros H i j Hi Hj. specialize (H (unit j) i Hi). rewrite <- E in H. rewrite <- H. symmetry.
    exact (cap_unit n (fun i j => cmul n (ctr A) V i j + cmul n V A i j - cmul n V (cmul n G V) i j + Q i j) j i Hj).
Qed.

Section Graph.
Variable n : nat.
Variables A G Q P1 P2 X : nat -> nat -> C.
Variable lam : nat -> C.
Hypothesis H1 : forall i j, (i < n)%nat -> (j < n)%nat -> cmul n A P1 i j - cmul n G P2 i j = P1 i j * lam j.
Hypothesis H2 : forall i j, (i < n)%nat -> (j < n)%nat -> - cmul n Q P1 i j - cmul n (ctr A) P2 i j = P2 i j * lam j.
Hypothesis HX : inverse_of n P1 X.
Let V := cmul n P2 X.

Lemma op1 y i : (i < n)%nat -> cap n A (cap n P1 y) i - cap n G (cap n P2 y) i = cap n P1 (fun k => lam k * y k) i.
Proof.
  intros Hi. rewrite <- !cap_mul. unfold cap. rewrite <- csum_sub. apply csum_ext. intros j Hj.
  transitivity ((cmul n A P1 i j - cmul n G P2 i j) * y j); [ring|]. rewrite H1 by assumption. ring.
Qed.
Lemma op2 y i : (i < n)%nat -> - cap n Q (cap n P1 y) i - cap n (ctr A) (cap n P2 y) i = cap n P2 (fun k => lam k * y k) i.
Proof.
  intros Hi. rewrite <- !cap_mul. unfold cap. transitivity (csum n (fun j => (- RtoC 1) * (cmul n Q P1 i j * y j)) - csum n (fun j => cmul n (ctr A) P2 i j * y j)).
  - rewrite csum_scale. ring.
  - rewrite <- csum_sub. apply csum_ext. intros j Hj.
    transitivity ((- cmul n Q P1 i j - cmul n (ctr A) P2 i j) * y j); [ring|]. rewrite H2 by assumption. ring.
Qed.
Lemma X_right x i : (i < n)%nat -> cap n P1 (cap n X x) i = x i.
Proof. intros Hi. rewrite <- cap_mul. apply cap_id; [|exact Hi]. intros j Hj. now apply (proj1 HX). Qed.
Lemma X_left x i : (i < n)%nat -> cap n X (cap n P1 x) i = x i.
Proof. intros Hi. rewrite <- cap_mul. apply cap_id; [|exact Hi]. intros j Hj. now apply (proj2 HX). Qed.
Lemma V_op x i : cap n V x i = cap n P2 (cap n X x) i.
Proof. apply cap_mul. Qed.
Lemma V_P1 y i : cap n V (cap n P1 y) i = cap n P2 y i.
Proof. rewrite V_op. apply cap_ext. intros. now apply X_left. Qed.
(** the closed loop is diagonal in the basis P1 *)
Lemma loop_P1 y i : (i < n)%nat -> cap n (loop n A G V) (cap n P1 y) i = cap n P1 (fun k => lam k * y k) i.
Proof.
  intros Hi. unfold loop. rewrite cap_subM, cap_mul. rewrite (cap_ext n G _ (cap n P2 y)) by (intros; apply V_P1). now apply op1.
Qed.
Lemma graph_solves : care_c n A G Q V.
Proof.
  apply care_op. intros x i Hi. set (y := cap n X x).
  assert (E : cap n V (cap n A x) i - cap n V (cap n G (cap n V x)) i = cap n P2 (fun k => lam k * y k) i).
  { rewrite <- cap_sub. rewrite <- V_P1. apply cap_ext. intros k Hk. rewrite <- op1 by exact Hk.
    now rewrite (cap_ext n A x (cap n P1 y)), (cap_ext n G (cap n V x) (cap n P2 y)) by (intros; first [apply V_op | symmetry; now apply X_right]). }
  rewrite <- op2 in E by exact Hi.
  rewrite (cap_ext n Q _ x) in E by (intros; now apply X_right).
  rewrite (cap_ext n (ctr A) (cap n V x) (cap n P2 y)) by (intros; apply V_op).
  transitivity (cap n (ctr A) (cap n P2 y) i + (cap n V (cap n A x) i - cap n V (cap n G (cap n V x)) i) + cap n Q x i); [ring|]. rewrite E. ring.
Qed.
(** the eigenvalues of the closed loop and of its transpose are the chosen ones *)
Lemma loop_eig l v : (forall i, (i < n)%nat -> cap n (loop n A G V) v i = l * v i) -> (exists i, (i < n)%nat /\ v i <> RtoC 0) ->
  exists k, (k < n)%nat /\ l = lam k.
Proof.
  intros H (i0 & Hi0 & N0). set (y := cap n X v).
  assert (E : forall k, (k < n)%nat -> lam k * y k = l * y k).
  { intros k Hk. rewrite <- (X_left (fun k => lam k * y k) k Hk). unfold y at 2. rewrite <- cap_scale. apply cap_ext. intros i Hi.
    rewrite <- loop_P1 by exact Hi. rewrite (cap_ext n (loop n A G V) _ v) by (intros; now apply X_right). now apply H. }
  assert (Y : exists k, (k < n)%nat /\ y k <> RtoC 0).
  { apply Classical_Prop.NNPP. intros NE. apply N0. rewrite <- (X_right v i0 Hi0). apply cap_zero. intros k Hk. fold (y k).
    apply Classical_Prop.NNPP. intros N. apply NE. eauto. }
  destruct Y as (k & Hk & Nk). exists k. split; [exact Hk|]. specialize (E k Hk).
  assert (Z : (lam k - l) * y k = RtoC 0) by (rewrite Cmult_comm; transitivity (lam k * y k - l * y k); [ring|]; rewrite E; ring).
  destruct (Ceq_dec (lam k - l) (RtoC 0)) as [D|D].
  - symmetry. transitivity (lam k - l + l); [ring|]. rewrite D. ring.
  - exfalso. exact (Cmult_neq_0 _ _ D Nk Z).
Qed.
Lemma loop_eig_tr l v : (forall i, (i < n)%nat -> cap n (ctr (loop n A G V)) v i = l * v i) -> (exists i, (i < n)%nat /\ v i <> RtoC 0) ->
  exists k, (k < n)%nat /\ l = lam k.
Proof.
  intros H (i0 & Hi0 & N0). set (L := loop n A G V) in *. set (w := fun k => csum n (fun i => v i * P1 i k)).
  (* v^T L P1 = v^T P1 diag lam *)
  assert (LP : forall i k, (i < n)%nat -> (k < n)%nat -> cap n L (fun m => P1 m k) i = lam k * P1 i k).
  { intros i k Hi Hk. rewrite (cap_ext n L (fun m => P1 m k) (cap n P1 (unit k))) by (intros; symmetry; now apply cap_unit).
    unfold L. rewrite loop_P1 by exact Hi. rewrite (cap_ext n P1 _ (fun m => lam k * unit k m)).
    - rewrite cap_scale, cap_unit by exact Hk. reflexivity.
    - intros m Hm. unfold unit. destruct (Nat.eqb_spec m k) as [->|]; [reflexivity|ring]. }
  assert (E : forall k, (k < n)%nat -> lam k * w k = l * w k).
  { intros k Hk. unfold w. rewrite <- !csum_scale.
    transitivity (csum n (fun i => v i * cap n L (fun m => P1 m k) i)).
    - apply csum_ext. intros i Hi. rewrite LP by assumption. ring.
    - unfold cap. transitivity (csum n (fun i => csum n (fun m => v i * (L i m * P1 m k)))); [apply csum_ext; intros; now rewrite csum_scale|].
      rewrite csum_swap. apply csum_ext. intros m Hm. transitivity (cap n (ctr L) v m * P1 m k).
      + unfold cap, ctr. rewrite (Cmult_comm (csum _ _)), <- csum_scale. apply csum_ext. intros; ring.
      + rewrite H by exact Hm. ring. }
  assert (Y : exists k, (k < n)%nat /\ w k <> RtoC 0).
  { apply Classical_Prop.NNPP. intros NE. apply N0.
    assert (Z : forall k, (k < n)%nat -> w k = RtoC 0) by (intros k Hk; apply Classical_Prop.NNPP; intros N; apply NE; eauto).
    transitivity (csum n (fun k => w k * X k i0)).
    - unfold w. transitivity (csum n (fun k => csum n (fun i => X k i0 * (v i * P1 i k)))).
      + rewrite csum_swap. transitivity (csum n (fun i => v i * cmul n P1 X i i0)).
        * rewrite (csum_ext _ _ (fun i => if Nat.eqb i i0 then v i else RtoC 0)); [now rewrite csum_single|].
          intros i Hi. rewrite (proj1 HX) by assumption. unfold unit. destruct (Nat.eqb i i0); ring.
        * apply csum_ext. intros i Hi. unfold cmul. rewrite <- csum_scale. apply csum_ext. intros; ring.
      + apply csum_ext. intros k Hk. rewrite csum_scale. ring.
    - apply csum_zero. intros k Hk. rewrite Z by exact Hk. ring. }
  destruct Y as (k & Hk & Nk). exists k. split; [exact Hk|]. specialize (E k Hk).
  assert (Z : (lam k - l) * w k = RtoC 0) by (transitivity (lam k * w k - l * w k); [ring|]; rewrite E; ring).
  destruct (Ceq_dec (lam k - l) (RtoC 0)) as [D|D].
  - symmetry. transitivity (lam k - l + l); [ring|]. rewrite D. ring.
  - exfalso. exact (Cmult_neq_0 _ _ D Nk Z).
Qed.

(** S (A - G V) + M S = 0, and M v = -lam k v only for v = 0: then S = 0 *)
Lemma sylvester S M : (forall x i, (i < n)%nat -> cap n S (cap n (loop n A G V) x) i + cap n M (cap n S x) i = RtoC 0) ->
  (forall k v, (k < n)%nat -> (forall i, (i < n)%nat -> cap n M v i = - lam k * v i) -> forall i, (i < n)%nat -> v i = RtoC 0) ->
  forall i j, (i < n)%nat -> (j < n)%nat -> S i j = RtoC 0.
Proof.
  intros E U. 
  assert (Z : forall k, (k < n)%nat -> forall i, (i < n)%nat -> cap n S (cap n P1 (unit k)) i = RtoC 0).
  { intros k Hk. apply (U k); [exact Hk|]. intros i Hi. specialize (E (cap n P1 (unit k)) i Hi).
    rewrite (cap_ext n S (cap n (loop n A G V) _) (fun m => lam k * cap n P1 (unit k) m)) in E.
    - rewrite cap_scale in E. transitivity (lam k * cap n S (cap n P1 (unit k)) i + cap n M (cap n S (cap n P1 (unit k))) i - lam k * cap n S (cap n P1 (unit k)) i); [ring|].
      rewrite E. ring.
    - intros m Hm. rewrite loop_P1 by exact Hm. rewrite <- cap_scale. apply cap_ext. intros q Hq. unfold unit. destruct (Nat.eqb_spec q k) as [->|]; [reflexivity|ring]. }
  intros i j Hi Hj. rewrite <- (cap_unit n S j i Hj). rewrite (cap_ext n S (unit j) (cap n P1 (cap n X (unit j)))) by (intros; symmetry; now apply X_right).
  rewrite <- cap_mul. apply csum_zero. intros k Hk. unfold cmul.
  rewrite (csum_ext n _ (fun q => S i q * cap n P1 (unit k) q)) by (intros; now rewrite cap_unit).
  fold (cap n S (cap n P1 (unit k)) i). rewrite Z by assumption. ring.
Qed.

(** *** Stability: the chosen eigenvalues have negative real parts *)
Hypothesis Stab : forall k, (k < n)%nat -> (fst (lam k) < 0)%R.
Lemma loop_hurwitz : hurwitz n (loop n A G V).
Proof. intros l v H N. destruct (loop_eig l v H N) as (k & Hk & ->). auto. Qed.
Lemma loop_hurwitz_tr : hurwitz n (ctr (loop n A G V)).
Proof. intros l v H N. destruct (loop_eig_tr l v H N) as (k & Hk & ->). auto. Qed.

(** a solution Y whose (A - G^T Y^T)^T = A^T - Y G is stable is V *)
Lemma stable_unique Y : care_c n A G Q Y -> hurwitz n (csubm (ctr A) (cmul n Y G)) -> eqm n V Y.
Proof.
  intros HY HM. pose proof graph_solves as HV. rewrite care_op in HY, HV.
  enough (Z : forall i j, (i < n)%nat -> (j < n)%nat -> csubm V Y i j = RtoC 0).
  { intros i j Hi Hj. specialize (Z i j Hi Hj). unfold csubm in Z. transitivity (V i j - Y i j + Y i j); [ring|]. rewrite Z. ring. }
  apply (sylvester (csubm V Y) (csubm (ctr A) (cmul n Y G))).
  - intros x i Hi. rewrite !cap_subM. specialize (HY x i Hi). specialize (HV x i Hi).
    assert (L : forall W, cap n W (cap n (loop n A G V) x) i = cap n W (cap n A x) i - cap n W (cap n G (cap n V x)) i).
    { intros W. rewrite <- cap_sub. apply cap_ext. intros k Hk. unfold loop. now rewrite cap_subM, cap_mul. }
    assert (R : forall W, cap n W (cap n (csubm V Y) x) i = cap n W (cap n V x) i - cap n W (cap n Y x) i).
    { intros W. rewrite <- cap_sub. apply cap_ext. intros k Hk. apply cap_subM. }
    rewrite !L, !R. rewrite !cap_mul.
    transitivity ((cap n (ctr A) (cap n V x) i + cap n V (cap n A x) i - cap n V (cap n G (cap n V x)) i + cap n Q x i) -
                  (cap n (ctr A) (cap n Y x) i + cap n Y (cap n A x) i - cap n Y (cap n G (cap n Y x)) i + cap n Q x i)); [ring|]. rewrite HV, HY. ring.
  - intros k v Hk Hv. apply Classical_Prop.NNPP. intros N.
    assert (NZ : exists i, (i < n)%nat /\ v i <> RtoC 0).
    { apply Classical_Prop.NNPP. intros NE. apply N. intros i Hi. apply Classical_Prop.NNPP. intros Nv. apply NE. eauto. }
    specialize (HM _ _ Hv NZ). specialize (Stab k Hk). cbn in HM. lra.
Qed.

Hypothesis SG : forall i j, (i < n)%nat -> (j < n)%nat -> G i j = G j i.
Hypothesis SQ : forall i j, (i < n)%nat -> (j < n)%nat -> Q i j = Q j i.

Lemma care_ctr Y : care_c n A G Q Y -> care_c n A G Q (ctr Y).
Proof.
  intros H i j Hi Hj. rewrite <- (H j i Hj Hi). rewrite (SQ i j Hi Hj).
  assert (E1 : cmul n (ctr A) (ctr Y) i j = cmul n Y A j i) by (apply csum_ext; intros; unfold ctr; ring).
  assert (E2 : cmul n (ctr Y) A i j = cmul n (ctr A) Y j i) by (apply csum_ext; intros; unfold ctr; ring).
  assert (E3 : cmul n (ctr Y) (cmul n G (ctr Y)) i j = cmul n Y (cmul n G Y) j i).
  { unfold cmul, ctr. transitivity (csum n (fun k => csum n (fun m => Y k i * (G k m * Y j m)))); [apply csum_ext; intros; now rewrite csum_scale|].
    rewrite csum_swap. apply csum_ext. intros m Hm. rewrite <- csum_scale. apply csum_ext. intros k Hk. rewrite (SG k m) by assumption. ring. }
  rewrite E1, E2, E3. ring.
Qed.
Lemma V_symmetric : eqm n V (ctr V).
Proof.
  apply stable_unique; [apply care_ctr, graph_solves|]. pose proof loop_hurwitz_tr as HT. intros l v H N. apply (HT l v); [|exact N].
  intros i Hi. rewrite <- H by exact Hi. apply cap_extM. intros j Hj. unfold ctr, csubm, loop, cmul. unfold csubm. f_equal. unfold ctr. apply csum_ext. intros k Hk.
  rewrite (SG k j) by assumption. ring.
Qed.

Hypothesis RA : forall i j, Cconj (A i j) = A i j.
Hypothesis RG : forall i j, Cconj (G i j) = G i j.
Hypothesis RQ : forall i j, Cconj (Q i j) = Q i j.
Lemma cmul_conj M N i j : Cconj (cmul n M N i j) = cmul n (cconj M) (cconj N) i j.
Proof. unfold cmul. rewrite csum_conj. apply csum_ext. intros. apply Cconj_mul. Qed.
Lemma care_conj Y : care_c n A G Q Y -> care_c n A G Q (cconj Y).
Proof.
  intros H i j Hi Hj. specialize (H i j Hi Hj). apply (f_equal Cconj) in H.
  rewrite Cconj_R in H. rewrite <- H. unfold Cminus. rewrite !Cconj_add, Cconj_opp, !cmul_conj, RQ. f_equal. f_equal; [f_equal|].
  - apply csum_ext. intros k Hk. unfold ctr, cconj. now rewrite RA.
  - apply csum_ext. intros k Hk. unfold cconj. now rewrite RA.
  - f_equal. apply csum_ext. intros k Hk. f_equal. unfold cconj at 2. rewrite cmul_conj. apply csum_ext. intros m Hm. unfold cconj. now rewrite RG.
Qed.
Lemma V_real : forall i j, (i < n)%nat -> (j < n)%nat -> Cconj (V i j) = V i j.
Proof.
  enough (E : eqm n V (cconj V)) by (intros i j Hi Hj; symmetry; now apply E).
  apply stable_unique; [apply care_conj, graph_solves|]. pose proof loop_hurwitz_tr as HT. intros l v H (i0 & Hi0 & N0).
  assert (R : (fst (Cconj l) < 0)%R); [|now destruct l].
  apply (HT (Cconj l) (fun i => Cconj (v i))).
  - intros i Hi. rewrite <- Cconj_mul, <- H by exact Hi. unfold cap. rewrite csum_conj. apply csum_ext. intros j Hj. rewrite Cconj_mul. f_equal.
    unfold ctr, csubm, loop. unfold csubm, Cminus. rewrite Cconj_add, Cconj_opp, RA. f_equal. f_equal. rewrite cmul_conj. unfold cmul. apply csum_ext. intros k Hk.
    unfold cconj. rewrite Cconj_conj, RG, (SG k j) by assumption. rewrite (V_symmetric k i) by assumption. unfold ctr. ring.
  - exists i0. split; [exact Hi0|]. intros E. apply N0. rewrite <- (Cconj_conj (v i0)), E. apply Cconj_R.
Qed.
End Graph.
