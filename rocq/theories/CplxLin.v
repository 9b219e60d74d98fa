(** Complex vectors and matrices as functions on indices: sums, adjoints, squared lengths, regularised least squares. *)
From Coq Require Import List Arith Lia Bool Reals Lra.
From Coquelicot Require Import Complex.
From Verif Require Import Base LinAlg AnalogSystem Zpk IntegratorsProofs LinearOde.
Import ListNotations.
Open Scope R_scope.
Open Scope C_scope.

Fixpoint csum (n : nat) (f : nat -> C) : C := match n with O => RtoC 0 | S n => csum n f + f n end.
(** M x *)
Definition cap (n : nat) (M : nat -> nat -> C) (x : nat -> C) (i : nat) : C := csum n (fun j => M i j * x j).
(** the conjugate transpose *)
Definition adj (M : nat -> nat -> C) (i j : nat) : C := Cconj (M j i).
(** the squared length *)
Definition nrm2 (n : nat) (x : nat -> C) : R := rsum n (fun i => Rsqr (Cmod (x i))).
Definition unit (l : nat) (i : nat) : C := if Nat.eqb i l then RtoC 1 else RtoC 0.

(** [v] minimises |G v - y|^2 + eta2 |v|^2: the normal equations eta2 v + G^H G v = G^H y, for G of size m x n *)
Definition rls (m n : nat) (G : nat -> nat -> C) (eta2 : R) (y v : nat -> C) : Prop :=
  forall l, (l < n)%nat -> RtoC eta2 * v l + cap m (adj G) (cap n G v) l = cap m (adj G) y l.

Lemma csum_ksum n f : ksum (K := Cring) n f = csum n f.
Proof. induction n; [reflexivity|]. cbn [ksum csum]. now rewrite IHn. Qed.
Lemma csum_ext n f g : (forall i, (i < n)%nat -> f i = g i) -> csum n f = csum n g.
Proof. induction n; intros H; [reflexivity|]. cbn. rewrite IHn by (intros; apply H; lia). now rewrite H by lia. Qed.
Lemma csum_zero n f : (forall i, (i < n)%nat -> f i = RtoC 0) -> csum n f = RtoC 0.
Proof. induction n; intros H; [reflexivity|]. cbn. rewrite IHn by (intros; apply H; lia). rewrite H by lia. ring. Qed.
Lemma csum_add n f g : csum n (fun i => f i + g i) = csum n f + csum n g.
Proof. induction n; cbn; [ring|]. rewrite IHn. ring. Qed.
Lemma csum_scale n c f : csum n (fun i => c * f i) = c * csum n f.
Proof. induction n; cbn; [ring|]. rewrite IHn. ring. Qed.
Lemma csum_sub n f g : csum n (fun i => f i - g i) = csum n f - csum n g.
Proof. induction n; cbn; [ring|]. rewrite IHn. ring. Qed.
Lemma csum_single n j c : (j < n)%nat -> csum n (fun i => if Nat.eqb i j then c i else RtoC 0) = c j.
Proof.
  induction n; intros H; [lia|]. cbn. destruct (Nat.eq_dec j n) as [->|E].
  - rewrite csum_zero by (intros i Hi; destruct (Nat.eqb_spec i n); [lia|reflexivity]). rewrite Nat.eqb_refl. ring.
  - rewrite IHn by lia. destruct (Nat.eqb_spec n j); [lia|]. ring.
Qed.
Lemma csum_swap n m f : csum n (fun i => csum m (fun j => f i j)) = csum m (fun j => csum n (fun i => f i j)).
Proof. induction n; cbn; [now rewrite csum_zero by reflexivity|]. rewrite IHn, <- csum_add. apply csum_ext. reflexivity. Qed.

Lemma Cconj_add a b : Cconj (a + b) = Cconj a + Cconj b.
Proof. destruct a, b. unfold Cconj, Cplus. cbn. f_equal. ring. Qed.
Lemma Cconj_mul a b : Cconj (a * b) = Cconj a * Cconj b.
Proof. destruct a, b. unfold Cconj, Cmult. cbn. f_equal; ring. Qed.
Lemma Cconj_conj a : Cconj (Cconj a) = a.
Proof. destruct a. unfold Cconj. cbn. now rewrite Ropp_involutive. Qed.
Lemma Cconj_R x : Cconj (RtoC x) = RtoC x.
Proof. unfold Cconj, RtoC. cbn. now rewrite Ropp_0. Qed.
Lemma Cconj_mod a : Cconj a * a = RtoC (Rsqr (Cmod a)).
Proof.
  destruct a as [x y]. unfold Cconj, Cmult, RtoC, Cmod. cbn [fst snd]. rewrite Rsqr_sqrt by (assert (X := pow2_ge_0 x); assert (Y := pow2_ge_0 y); cbn in *; lra).
  f_equal; cbn; ring.
Qed.
Lemma csum_conj n f : Cconj (csum n f) = csum n (fun i => Cconj (f i)).
Proof. induction n; cbn [csum]; [apply Cconj_R|]. now rewrite Cconj_add, IHn. Qed.
Lemma csum_R n (f : nat -> R) : csum n (fun i => RtoC (f i)) = RtoC (rsum n f).
Proof. induction n; [reflexivity|]. cbn [csum]. rewrite IHn, rsum_S, RtoC_plus. reflexivity. Qed.

Lemma cap_ext n M x y i : (forall j, (j < n)%nat -> x j = y j) -> cap n M x i = cap n M y i.
Proof. intros H. apply csum_ext. intros j Hj. now rewrite H. Qed.
Lemma cap_add n M x y i : cap n M (fun j => x j + y j) i = cap n M x i + cap n M y i.
Proof. unfold cap. rewrite <- csum_add. apply csum_ext. intros; ring. Qed.
Lemma cap_scale n M c x i : cap n M (fun j => c * x j) i = c * cap n M x i.
Proof. unfold cap. rewrite <- csum_scale. apply csum_ext. intros; ring. Qed.
Lemma cap_sub n M x y i : cap n M (fun j => x j - y j) i = cap n M x i - cap n M y i.
Proof. unfold cap. rewrite <- csum_sub. apply csum_ext. intros; ring. Qed.
Lemma cap_unit n M l i : (l < n)%nat -> cap n M (unit l) i = M i l.
Proof.
  intros H. unfold cap, unit. rewrite (csum_ext _ _ (fun j => if Nat.eqb j l then M i j else RtoC 0)).
  - now rewrite csum_single.
  - intros j _. destruct (Nat.eqb j l); ring.
Qed.
Lemma cap_zero n M x i : (forall j, (j < n)%nat -> x j = RtoC 0) -> cap n M x i = RtoC 0.
Proof. intros H. apply csum_zero. intros j Hj. rewrite H by exact Hj. ring. Qed.

(** <x, y> *)
Definition cdot (n : nat) (x y : nat -> C) : C := csum n (fun i => Cconj (x i) * y i).
Lemma cdot_ext n x x' y y' : (forall i, (i < n)%nat -> x i = x' i) -> (forall i, (i < n)%nat -> y i = y' i) -> cdot n x y = cdot n x' y'.
Proof. intros H1 H2. apply csum_ext. intros i Hi. now rewrite H1, H2. Qed.
Lemma cdot_self n x : cdot n x x = RtoC (nrm2 n x).
Proof. unfold cdot, nrm2. rewrite <- csum_R. apply csum_ext. intros i _. apply Cconj_mod. Qed.
Lemma cdot_add_r n x y z : cdot n x (fun i => y i + z i) = cdot n x y + cdot n x z.
Proof. unfold cdot. rewrite <- csum_add. apply csum_ext. intros; ring. Qed.
Lemma cdot_add_l n x y z : cdot n (fun i => x i + y i) z = cdot n x z + cdot n y z.
Proof. unfold cdot. rewrite <- csum_add. apply csum_ext. intros; rewrite Cconj_add; ring. Qed.
Lemma cdot_scale_r n c x y : cdot n x (fun i => c * y i) = c * cdot n x y.
Proof. unfold cdot. rewrite <- csum_scale. apply csum_ext. intros; ring. Qed.
Lemma cdot_conj n x y : Cconj (cdot n x y) = cdot n y x.
Proof. unfold cdot. rewrite csum_conj. apply csum_ext. intros; rewrite Cconj_mul, Cconj_conj; ring. Qed.
Lemma cdot_unit n l y : (l < n)%nat -> cdot n (unit l) y = y l.
Proof.
  intros H. unfold cdot, unit. rewrite (csum_ext _ _ (fun j => if Nat.eqb j l then y j else RtoC 0)).
  - now rewrite csum_single.
  - intros j _. destruct (Nat.eqb j l); rewrite Cconj_R; ring.
Qed.
(** <x, G y> = <G^H x, y> *)
Lemma cdot_adj m n G x y : cdot m x (cap n G y) = cdot n (cap m (adj G) x) y.
Proof.
  unfold cdot, cap, adj. transitivity (csum m (fun i => csum n (fun j => Cconj (x i) * (G i j * y j)))); [apply csum_ext; intros; now rewrite csum_scale|].
  rewrite csum_swap. apply csum_ext. intros j _. rewrite csum_conj. transitivity (y j * csum m (fun i => Cconj (Cconj (G i j) * x i))); [|ring].
  rewrite <- csum_scale. apply csum_ext. intros. rewrite Cconj_mul, Cconj_conj. ring.
Qed.
Lemma adj_adj G i j : adj (adj G) i j = G i j.
Proof. unfold adj. apply Cconj_conj. Qed.
Lemma cap_adj_adj n G x i : cap n (adj (adj G)) x i = cap n G x i.
Proof. apply csum_ext. intros. now rewrite adj_adj. Qed.
Lemma nrm2_nonneg n x : (0 <= nrm2 n x)%R.
Proof. apply rsum_nonneg. intros. apply Rle_0_sqr. Qed.
Lemma nrm2_zero n x : nrm2 n x = 0%R -> forall i, (i < n)%nat -> x i = RtoC 0.
Proof.
  intros H i Hi. destruct (Req_dec (Cmod (x i)) 0) as [E|E]; [now apply Cmod_eq_0|]. exfalso.
  assert (P : (0 < nrm2 n x)%R); [|lra]. apply (rsum_pos n _ i); [intros; apply Rle_0_sqr|exact Hi|]. now apply Rsqr_pos_lt.
Qed.
Lemma nrm2_ext n x y : (forall i, (i < n)%nat -> x i = y i) -> nrm2 n x = nrm2 n y.
Proof. intros H. apply rsum_ext. intros i Hi. now rewrite H. Qed.

Lemma RtoC_eq x y : RtoC x = RtoC y -> x = y.
Proof. intros H. apply (f_equal fst) in H. exact H. Qed.

(** eta2 + G^H G has trivial kernel *)
Lemma posdef m n G eta2 v : (0 < eta2)%R -> (forall l, (l < n)%nat -> RtoC eta2 * v l + cap m (adj G) (cap n G v) l = RtoC 0) ->
  forall l, (l < n)%nat -> v l = RtoC 0.
Proof.
  intros He H. apply nrm2_zero. assert (Z : cdot n v (fun l => RtoC eta2 * v l + cap m (adj G) (cap n G v) l) = RtoC 0).
  { apply csum_zero. intros i Hi. rewrite H by exact Hi. ring. }
  rewrite cdot_add_r, cdot_scale_r, cdot_adj, cdot_self in Z.
  rewrite (cdot_ext m _ (cap n G v) _ (cap n G v)), cdot_self, <- RtoC_mult, <- RtoC_plus in Z by (intros; try apply cap_adj_adj; reflexivity).
  apply RtoC_eq in Z. assert (A := nrm2_nonneg n v). assert (B := nrm2_nonneg m (cap n G v)). nra.
Qed.

Lemma rls_unique m n G eta2 y v w : (0 < eta2)%R -> rls m n G eta2 y v -> rls m n G eta2 y w -> forall l, (l < n)%nat -> v l = w l.
Proof.
  intros He Hv Hw l Hl. enough (Z : v l - w l = RtoC 0). { transitivity (v l - w l + w l); [ring|]. rewrite Z. ring. }
  apply (posdef m n G eta2 (fun l => v l - w l) He); [|exact Hl]. clear l Hl. intros l Hl.
  rewrite (cap_ext m (adj G) _ (fun i => cap n G v i - cap n G w i)) by (intros; apply cap_sub). rewrite cap_sub.
  transitivity ((RtoC eta2 * v l + cap m (adj G) (cap n G v) l) - (RtoC eta2 * w l + cap m (adj G) (cap n G w) l)); [ring|].
  rewrite Hv, Hw by exact Hl. ring.
Qed.

(** G^H v with (eta2 + G G^H) v = y solves the problem *)
Lemma rls_push m n G eta2 y v : (forall r, (r < m)%nat -> RtoC eta2 * v r + cap n G (cap m (adj G) v) r = y r) -> rls m n G eta2 y (cap m (adj G) v).
Proof.
  intros H l Hl. rewrite <- (cap_ext m (adj G) _ y l H). now rewrite cap_add, cap_scale.
Qed.
Lemma rls_ext m n G eta2 y y' v v' : (forall r, (r < m)%nat -> y r = y' r) -> (forall l, (l < n)%nat -> v l = v' l) -> rls m n G eta2 y v -> rls m n G eta2 y' v'.
Proof.
  intros Hy Hv H l Hl. rewrite <- (cap_ext m (adj G) y y' l Hy), <- Hv by exact Hl. rewrite <- (H l Hl). f_equal.
  apply cap_ext. intros r Hr. apply cap_ext. intros; symmetry; auto.
Qed.
Lemma rls_lin m n G eta2 a y v y' v' : rls m n G eta2 y v -> rls m n G eta2 y' v' -> rls m n G eta2 (fun r => y r + a * y' r) (fun l => v l + a * v' l).
Proof.
  intros H H' l Hl. rewrite cap_add, cap_scale, <- (H l Hl), <- (H' l Hl).
  rewrite (cap_ext m (adj G) _ (fun r => cap n G v r + a * cap n G v' r)) by (intros; now rewrite cap_add, cap_scale).
  rewrite cap_add, cap_scale. ring.
Qed.

(** the response to an input: entry l of the solution for y = G e_l is a real number in [0, 1) *)
Lemma rls_diag m n G eta2 l v : (0 < eta2)%R -> (l < n)%nat -> rls m n G eta2 (fun r => G r l) v ->
  let e i := unit l i - v i in
  exists a : R, v l = RtoC a /\ a = (nrm2 n v + nrm2 m (cap n G e) / eta2)%R /\ (1 - a = nrm2 n e + nrm2 m (cap n G e) / eta2)%R /\ (0 <= a < 1)%R.
Proof.
  intros He Hl H e.
  assert (Ge : forall k, (k < n)%nat -> cap m (adj G) (cap n G e) k = RtoC eta2 * v k).
  { intros k Hk. rewrite (cap_ext m (adj G) _ (fun r => G r l - cap n G v r)) by (intros; unfold e; now rewrite cap_sub, cap_unit).
    rewrite cap_sub, <- (H k Hk). ring. }
  assert (Qe : cdot n e v = RtoC (nrm2 m (cap n G e) / eta2)).
  { assert (X : RtoC eta2 * cdot n e v = RtoC (nrm2 m (cap n G e))).
    { rewrite <- cdot_scale_r, <- cdot_self, (cdot_ext n e e _ (cap m (adj G) (cap n G e))) by (intros; try (symmetry; now apply Ge); reflexivity).
      rewrite cdot_adj. apply cdot_ext; [intros; apply cap_adj_adj|reflexivity]. }
    transitivity (RtoC (/ eta2) * (RtoC eta2 * cdot n e v)).
    - rewrite Cmult_assoc, <- RtoC_mult, Rinv_l by lra. ring.
    - rewrite X, <- RtoC_mult. f_equal. unfold Rdiv. ring. }
  assert (S1 : v l = RtoC (nrm2 n v + nrm2 m (cap n G e) / eta2)).
  { rewrite RtoC_plus, <- Qe, <- cdot_self, <- cdot_add_l. rewrite (cdot_ext n _ (unit l) v v) by (intros; unfold e; try reflexivity; ring). now rewrite cdot_unit. }
  assert (S2 : RtoC (nrm2 n e + nrm2 m (cap n G e) / eta2) = RtoC 1 - v l).
  { assert (E : RtoC 1 - v l = e l) by (unfold e, unit; now rewrite Nat.eqb_refl). rewrite E, <- (cdot_unit n l e Hl).
    rewrite (cdot_ext n (unit l) (fun i => e i + v i) e e) by (intros; unfold e; try reflexivity; ring). rewrite cdot_add_l, cdot_self, <- (cdot_conj n e v), Qe, Cconj_R, RtoC_plus. reflexivity. }
  exists (nrm2 n v + nrm2 m (cap n G e) / eta2)%R. split; [exact S1|]. split; [reflexivity|].
  assert (S3 : (1 - (nrm2 n v + nrm2 m (cap n G e) / eta2) = nrm2 n e + nrm2 m (cap n G e) / eta2)%R).
  { apply RtoC_eq. rewrite S2, S1, RtoC_minus. reflexivity. }
  split; [exact S3|]. assert (A1 := nrm2_nonneg n v). assert (A2 := nrm2_nonneg n e). assert (A3 := nrm2_nonneg m (cap n G e)).
  assert (A4 : (0 <= nrm2 m (cap n G e) / eta2)%R) by (apply Rmult_le_pos; [exact A3|left; now apply Rinv_0_lt_compat]). split; [lra|].
  destruct (Req_dec (nrm2 n e) 0) as [E|E]; [|lra]. exfalso.
  assert (Z := nrm2_zero n e E). assert (Zv : v l = RtoC 0).
  { assert (X := Ge l Hl). rewrite (cap_zero m) in X by (intros; now apply cap_zero).
    transitivity (RtoC (/ eta2) * (RtoC eta2 * v l)); [rewrite Cmult_assoc, <- RtoC_mult, Rinv_l by lra; ring|]. rewrite <- X. ring. }
  assert (X := Z l Hl). unfold e, unit in X. rewrite Nat.eqb_refl, Zv in X. apply (f_equal fst) in X. cbn in X. lra.
Qed.
