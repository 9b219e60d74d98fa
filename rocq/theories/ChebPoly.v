(** Polynomials with given roots; Chebyshev polynomials of the first kind. *)
From Coq Require Import List Arith Lia Reals Lra Permutation.
From Coquelicot Require Import Complex.
From Verif Require Import ZpkProofs.
Import ListNotations.
Open Scope R_scope.

(** ** Definitions *)
(** the Chebyshev polynomials T_n(x), T_(n+1)(x) *)
Fixpoint chebs (n : nat) (x : R) : R * R := match n with O => (1, x) | S n => let (a, b) := chebs n x in (b, 2 * x * b - a) end.
Definition cheb (n : nat) (x : R) : R := fst (chebs n x).

(** a polynomial of degree n with leading coefficient c *)
Fixpoint ispoly (n : nat) (c : C) (f : C -> C) : Prop :=
  match n with O => forall x, f x = c | S n => exists a g, ispoly n c g /\ forall x, f x = (a + x * g x)%C end.
Fixpoint cpow (x : C) (n : nat) : C := match n with O => RtoC 1 | S n => (x * cpow x n)%C end.
Fixpoint cchebs (n : nat) (x : C) : C * C := match n with O => (RtoC 1, x) | S n => let (a, b) := cchebs n x in (b, (RtoC 2 * x * b - a)%C) end.
Definition ccheb (n : nat) (x : C) : C := fst (cchebs n x).

(** ** Polynomials *)
Lemma isp_ext n c f g : (forall x, f x = g x) -> ispoly n c f -> ispoly n c g.
Proof.
  destruct n; cbn; intros H.
  - intros Hf x. now rewrite <- H.
  - intros (a & h & Hh & E). exists a, h. split; [exact Hh|]. intros x. now rewrite <- H.
Qed.
Lemma isp_low n : forall m c d f g, (m < n)%nat -> ispoly n c f -> ispoly m d g -> ispoly n c (fun x => f x + g x)%C.
Proof.
  induction n as [|n IH]; intros m c d f g Hm Hf Hg; [lia|]. destruct Hf as (a & f1 & Hf1 & Ef). destruct m as [|m].
  - exists (a + d)%C, f1. split; [exact Hf1|]. intros x. rewrite Ef, Hg. ring.
  - destruct Hg as (b & g1 & Hg1 & Eg). exists (a + b)%C, (fun x => f1 x + g1 x)%C. split; [apply (IH m c d); [lia|assumption..]|]. intros x. rewrite Ef, Eg. ring.
Qed.
Lemma isp_scale n : forall c f k, ispoly n c f -> ispoly n (k * c)%C (fun x => k * f x)%C.
Proof.
  induction n as [|n IH]; intros c f k H; cbn in *; [intros x; now rewrite H|]. destruct H as (a & g & Hg & E). exists (k * a)%C, (fun x => k * g x)%C.
  split; [now apply IH|]. intros x. rewrite E. ring.
Qed.
Lemma isp_shift n c f : ispoly n c f -> ispoly (S n) c (fun x => x * f x)%C.
Proof. intros H. exists (RtoC 0), f. split; [exact H|]. intros x. ring. Qed.
Lemma isp_div n : forall c f r, ispoly (S n) c f -> exists g, ispoly n c g /\ forall x, f x = (f r + (x - r) * g x)%C.
Proof.
  induction n as [|n IH]; intros c f r (a & f1 & H1 & E).
  - exists (fun _ => c). split; [intros x; reflexivity|]. intros x. cbn in H1. rewrite !E, !H1. ring.
  - destruct (IH c f1 r H1) as (g1 & Hg & Eg). exists (fun x => f1 x + r * g1 x)%C. split.
    + apply (isp_low _ n _ (r * c)%C); [lia|exact H1|now apply isp_scale].
    + intros x. rewrite !E. rewrite (Eg x) at 1. transitivity (a + r * f1 r + (x - r) * f1 x + r * (f1 x - f1 r))%C; [rewrite (Eg x); ring|]. rewrite (Eg x). ring.
Qed.
(** a polynomial of degree n with n different roots *)
Lemma factor l : forall c f, ispoly (length l) c f -> NoDup l -> (forall r, In r l -> f r = RtoC 0) -> forall x, f x = (c * cprod x l)%C.
Proof.
  induction l as [|r l IH]; intros c f H ND HR x.
  - cbn in H. rewrite H. unfold cprod. cbn. ring.
  - inversion ND as [|? ? N1 N2]; subst. destruct (isp_div _ c f r H) as (g & Hg & E). rewrite E, (HR r) by now left.
    unfold cprod. cbn [fold_right]. fold (cprod x l). rewrite (IH c g Hg N2); [ring|]. intros q Hq. specialize (E q). rewrite (HR q), (HR r) in E by (first [now left|now right]).
    destruct (Ceq_dec (g q) (RtoC 0)) as [|Ng]; [assumption|]. exfalso. assert (Z : ((q - r) * g q = RtoC 0)%C) by (rewrite E; ring). revert Z. apply Cmult_neq_0; [|exact Ng].
    intros Q. apply N1. replace r with q; [exact Hq|]. transitivity (q - r + r)%C; [ring|]. rewrite Q. ring.
Qed.

Lemma isp_pow n : ispoly n (RtoC 1) (fun x => cpow x n).
Proof. induction n; [intros x; reflexivity|]. exact (isp_shift _ _ _ IHn). Qed.

(** ** Chebyshev polynomials *)
Lemma cheb_SS n x : cheb (S (S n)) x = 2 * x * cheb (S n) x - cheb n x.
Proof. unfold cheb. cbn [chebs]. destruct (chebs n x). reflexivity. Qed.
Lemma ccheb_SS n x : ccheb (S (S n)) x = (RtoC 2 * x * ccheb (S n) x - ccheb n x)%C.
Proof. unfold ccheb. cbn [cchebs]. destruct (cchebs n x). reflexivity. Qed.
Lemma nat_ind2 (P : nat -> Prop) : P O -> P 1%nat -> (forall n, P n -> P (S n) -> P (S (S n))) -> forall n, P n.
Proof. intros H0 H1 H. assert (G : forall n, P n /\ P (S n)) by (induction n as [|n [A B]]; auto). intros n. apply G. Qed.

Lemma ccheb_R n x : ccheb n (RtoC x) = RtoC (cheb n x).
Proof.
  induction n as [| |n IH1 IH2] using nat_ind2; [reflexivity..|]. rewrite ccheb_SS, cheb_SS, IH1, IH2, RtoC_minus, !RtoC_mult. reflexivity.
Qed.
Lemma cosh_plus a b : cosh (a + b) = cosh a * cosh b + sinh a * sinh b.
Proof. unfold cosh, sinh. replace (- (a + b)) with (- a + - b) by ring. rewrite !exp_plus. field. Qed.
Lemma sinh_plus a b : sinh (a + b) = sinh a * cosh b + cosh a * sinh b.
Proof. unfold cosh, sinh. replace (- (a + b)) with (- a + - b) by ring. rewrite !exp_plus. field. Qed.
Lemma sinh_neg a : sinh (- a) = - sinh a.
Proof. unfold sinh. rewrite Ropp_involutive. field. Qed.
Lemma cosh_neg a : cosh (- a) = cosh a.
Proof. unfold cosh. rewrite Ropp_involutive. field. Qed.
Lemma cosh_sinh a : cosh a * cosh a = 1 + sinh a * sinh a.
Proof. unfold cosh, sinh. assert (E : exp a * exp (- a) = 1) by (rewrite <- exp_plus; replace (a + - a) with 0 by ring; apply exp_0). nra. Qed.

(** T_n (cos (p - i a)) = cos (n (p - i a)) *)
Definition ccos (a p : R) : C := (cosh a * cos p, sinh a * sin p).
Lemma ccheb_cos n a p : ccheb n (ccos a p) = ccos (INR n * a) (INR n * p).
Proof.
  induction n as [| |n IH1 IH2] using nat_ind2.
  - unfold ccheb, ccos. cbn [cchebs fst INR]. rewrite !Rmult_0_l, cos_0, sin_0, cosh_0, sinh_0. apply injective_projections; cbn; ring.
  - unfold ccheb. cbn [cchebs fst INR]. now rewrite !Rmult_1_l.
  - rewrite ccheb_SS, IH1, IH2. set (A := INR (S n) * a). set (F := INR (S n) * p).
    replace (INR n * a) with (A + - a) by (unfold A; rewrite S_INR; ring). replace (INR n * p) with (F - p) by (unfold F; rewrite S_INR; ring).
    replace (INR (S (S n)) * a) with (A + a) by (unfold A; rewrite !S_INR; ring). replace (INR (S (S n)) * p) with (F + p) by (unfold F; rewrite !S_INR; ring).
    unfold ccos. rewrite !cosh_plus, !sinh_plus, cosh_neg, sinh_neg, cos_plus, sin_plus, cos_minus, sin_minus. apply injective_projections; cbn; ring.
Qed.
Lemma cheb_cos n p : cheb n (cos p) = cos (INR n * p).
Proof.
  apply RtoC_inj. rewrite <- ccheb_R. replace (RtoC (cos p)) with (ccos 0 p).
  - rewrite ccheb_cos, Rmult_0_r. unfold ccos. rewrite cosh_0, sinh_0. apply injective_projections; cbn; ring.
  - unfold ccos. rewrite cosh_0, sinh_0. apply injective_projections; cbn; ring.
Qed.
Lemma cheb_cosh n a : cheb n (cosh a) = cosh (INR n * a).
Proof.
  apply RtoC_inj. rewrite <- ccheb_R. replace (RtoC (cosh a)) with (ccos a 0).
  - rewrite ccheb_cos, Rmult_0_r. unfold ccos. rewrite cos_0, sin_0. apply injective_projections; cbn; ring.
  - unfold ccos. rewrite cos_0, sin_0. apply injective_projections; cbn; ring.
Qed.
Lemma cheb_neg n x : Rsqr (cheb n (- x)) = Rsqr (cheb n x).
Proof.
  assert (E : (cheb n (- x) = cheb n x /\ cheb (S n) (- x) = - cheb (S n) x) \/ (cheb n (- x) = - cheb n x /\ cheb (S n) (- x) = cheb (S n) x)).
  { induction n as [|n IH]; [left; unfold cheb; cbn; split; ring|]. rewrite !cheb_SS. destruct IH as [[-> ->]|[-> ->]]; [right|left]; split; ring. }
  destruct E as [[-> _]|[-> _]]; [reflexivity|]. symmetry. apply Rsqr_neg.
Qed.
Lemma cheb_pell n x : Rsqr (cheb (S n) x) + Rsqr (cheb n x) - 2 * x * cheb n x * cheb (S n) x = 1 - Rsqr x.
Proof.
  induction n as [|n IH]; [unfold cheb, Rsqr; cbn; ring|]. rewrite cheb_SS. rewrite <- IH. unfold Rsqr. ring.
Qed.
Lemma cheb_double n x : cheb n (2 * Rsqr x - 1) = 2 * Rsqr (cheb n x) - 1.
Proof.
  induction n as [| |n IH1 IH2] using nat_ind2; [unfold cheb, Rsqr; cbn; ring..|]. rewrite !cheb_SS, IH1, IH2. pose proof (cheb_pell n x) as P. unfold Rsqr in *. nra.
Qed.

Lemma isp_cheb2 n : ispoly (S n) (RtoC (2 * 4 ^ n)) (fun y => ccheb (S n) (RtoC 2 * y - RtoC 1))%C.
Proof.
  induction n as [| |n IH1 IH2] using nat_ind2.
  - exists (- RtoC 1)%C, (fun _ => RtoC 2). split; [intros x; cbn; apply (f_equal RtoC); ring|]. intros x. unfold ccheb. cbn [cchebs fst]. ring.
  - assert (H : ispoly 2 (RtoC (2 * 4 ^ 1)) (fun y => (y * (RtoC 8 * y - RtoC 8) + RtoC 1)%C)).
    { exists (RtoC 1), (fun y => (RtoC 8 * y - RtoC 8)%C). split; [|intros; ring]. exists (- RtoC 8)%C, (fun _ => RtoC 8). split; [intros x; cbn beta; apply (f_equal RtoC); ring|intros; ring]. }
    eapply isp_ext; [|exact H]. intros x. rewrite ccheb_SS. unfold ccheb. cbn [cchebs fst]. replace (RtoC 8) with (RtoC 2 * RtoC 2 * RtoC 2)%C by (rewrite <- !RtoC_mult; apply (f_equal RtoC); ring).
    assert (E2 : RtoC 2 = (RtoC 1 + RtoC 1)%C) by (rewrite <- RtoC_plus; apply (f_equal RtoC); ring). rewrite E2. ring.
  - eapply isp_ext; [intros x; symmetry; apply ccheb_SS|].
    set (f := fun y : C => ccheb (S (S n)) (RtoC 2 * y - RtoC 1)%C) in *. set (g := fun y : C => ccheb (S n) (RtoC 2 * y - RtoC 1)%C) in *.
    assert (H1 : ispoly (S (S (S n))) (RtoC (2 * 4 ^ S (S n))) (fun y => RtoC 4 * (y * f y))%C).
    { replace (RtoC (2 * 4 ^ S (S n))) with (RtoC 4 * RtoC (2 * 4 ^ S n))%C by (rewrite <- RtoC_mult; apply (f_equal RtoC); cbn; ring). apply isp_scale, isp_shift, IH2. }
    assert (H2 : ispoly (S (S n)) (- RtoC 2 * RtoC (2 * 4 ^ S n))%C (fun y => (- RtoC 2) * f y)%C) by (apply isp_scale, IH2).
    assert (H3 : ispoly (S n) (- RtoC 1 * RtoC (2 * 4 ^ n))%C (fun y => (- RtoC 1) * g y)%C) by (apply isp_scale, IH1).
    assert (L1 : (S (S n) < S (S (S n)))%nat) by lia. assert (L2 : (S n < S (S (S n)))%nat) by lia.
    pose proof (isp_low _ _ _ _ _ _ L2 (isp_low _ _ _ _ _ _ L1 H1 H2) H3) as H. eapply isp_ext; [|exact H]. intros x. cbn beta. fold (f x) (g x).
    replace (RtoC 4) with (RtoC 2 * RtoC 2)%C by (rewrite <- RtoC_mult; apply (f_equal RtoC); ring). change (ccheb (S (S n)) (RtoC 2 * x - RtoC 1)%C) with (f x). change (ccheb (S n) (RtoC 2 * x - RtoC 1)%C) with (g x). ring.
Qed.
Lemma isp_cheb n : ispoly (S n) (RtoC (2 ^ n)) (ccheb (S n)).
Proof.
  induction n as [| |n IH1 IH2] using nat_ind2.
  - exists (RtoC 0), (fun _ => RtoC 1). split; [intros y; reflexivity|]. intros x. unfold ccheb. cbn. ring.
  - exists (- RtoC 1)%C, (fun x => (RtoC 2 * x)%C). split; [|intros x; rewrite ccheb_SS; unfold ccheb; cbn [cchebs fst]; ring].
    exists (RtoC 0), (fun _ => RtoC 2). split; [intros x; cbn beta; apply (f_equal RtoC); ring|intros; ring].
  - eapply isp_ext; [intros x; symmetry; apply ccheb_SS|].
    assert (H1 : ispoly (S (S (S n))) (RtoC (2 ^ S (S n))) (fun y => RtoC 2 * (y * ccheb (S (S n)) y))%C).
    { replace (RtoC (2 ^ S (S n))) with (RtoC 2 * RtoC (2 ^ S n))%C by (rewrite <- RtoC_mult; reflexivity). apply isp_scale, isp_shift, IH2. }
    assert (H3 : ispoly (S n) (- RtoC 1 * RtoC (2 ^ n))%C (fun y => (- RtoC 1) * ccheb (S n) y)%C) by (apply isp_scale, IH1).
    assert (L2 : (S n < S (S (S n)))%nat) by lia. pose proof (isp_low _ _ _ _ _ _ L2 H1 H3) as H. eapply isp_ext; [|exact H]. intros x. cbn beta. ring.
Qed.
