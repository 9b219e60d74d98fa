(** Eigenvalues of the leap-frog system matrix. *)
From Coq Require Import List Arith Lia Bool Reals Lra.
From Coquelicot Require Import Complex.
From Verif Require Import Base LinAlg FirExtras AnalogSystem AnalogProofs Integrators IntegratorsProofs Stability.
Import ListNotations.
Open Scope R_scope.

(** *** Monic polynomials as functions, in Horner form *)
Inductive monic : nat -> (C -> C) -> Prop :=
| monic_0 f : (forall x, f x = RtoC 1) -> monic 0 f
| monic_S n g c f : monic n g -> (forall x, f x = (x * g x + c)%C) -> monic (S n) f.
Inductive low : nat -> (C -> C) -> Prop :=
| low_0 f : (forall x, f x = RtoC 0) -> low 0 f
| low_S n g c f : low n g -> (forall x, f x = (x * g x + c)%C) -> low (S n) f.

Lemma low_up n f : low n f -> low (S n) f.
Proof.
  intros H. induction H as [f Hf|n g c f Hg IH Hf].
  - eapply low_S with (g := fun _ => RtoC 0) (c := RtoC 0); [now constructor|]. intros x. rewrite Hf. ring.
  - eapply low_S; [exact IH|exact Hf].
Qed.
Lemma monic_low n f : monic n f -> low (S n) (fun x => - f x)%C.
Proof.
  intros H. induction H as [f Hf|n g c f Hg IH Hf].
  - eapply low_S with (g := fun _ => RtoC 0) (c := (- RtoC 1)%C); [now constructor|]. intros x. rewrite Hf. ring.
  - eapply low_S with (c := (- c)%C); [exact IH|]. intros x. cbn beta. rewrite Hf. ring.
Qed.
Lemma monic_add n : forall f g, monic n f -> low n g -> monic n (fun x => f x + g x)%C.
Proof.
  induction n as [|n IH]; intros f g Hf Hg.
  - inversion Hf as [? F|]; inversion Hg as [? G|]; subst. apply monic_0. intros x. rewrite F, G. ring.
  - inversion Hf as [|? f1 c1 ? Hf1 F]; inversion Hg as [|? g1 c2 ? Hg1 G]; subst.
    eapply monic_S with (c := (c1 + c2)%C); [apply IH; [exact Hf1|exact Hg1]|]. intros x. cbn beta. rewrite F, G. ring.
Qed.
Lemma monic_divide n f a : monic (S n) f -> exists q, monic n q /\ forall x, f x = ((x - a) * q x + f a)%C.
Proof.
  revert f. induction n as [|n IH]; intros f H; inversion H as [|? g c ? Hg Hf]; subst.
  - inversion Hg as [? G|]; subst. exists (fun _ => RtoC 1). split; [now constructor|]. intros x. rewrite !Hf, !G. ring.
  - destruct (IH g Hg) as (q & Hq & E). exists (fun x => x * q x + g a)%C. split.
    + eapply monic_S; [exact Hq|]. reflexivity.
    + intros x. rewrite (Hf x), (Hf a), (E x). ring.
Qed.
Lemma monic_roots n : forall f l, monic n f -> NoDup l -> length l = n -> (forall a, In a l -> f a = RtoC 0) ->
  forall x, f x = RtoC 0 -> In x l.
Proof.
  induction n as [|n IH]; intros f l Hf Hnd Hl Hr x Hx.
  - inversion Hf as [? G|]; subst. rewrite G in Hx. apply RtoC_inj in Hx. lra.
  - destruct l as [|a l]; [discriminate|]. destruct (monic_divide n f a Hf) as (q & Hq & E).
    assert (Fa : f a = RtoC 0) by (apply Hr; now left). inversion Hnd as [|? ? Hna Hnd']; subst.
    assert (Z : forall y, f y = RtoC 0 -> y = a \/ q y = RtoC 0).
    { intros y Hy. rewrite (E y), Fa in Hy. assert (Hy' : ((y - a) * q y)%C = RtoC 0) by (rewrite <- Hy; ring).
      destruct (Ceq_dec (y - a)%C (RtoC 0)) as [Ey|Ey]; [left|right].
      - replace y with ((y - a) + a)%C by ring. rewrite Ey. ring.
      - destruct (Ceq_dec (q y) (RtoC 0)) as [Eq|Eq]; [exact Eq|]. exfalso. now apply (Cmult_neq_0 _ _ Ey Eq). }
    destruct (Z x Hx) as [->|Qx]; [now left|]. right. apply (IH q); auto.
    intros b Hb. destruct (Z b) as [->|]; auto; [apply Hr; now right|]. contradiction.
Qed.

(** *** The recurrence w_{n+1} = mu w_n - w_{n-1} *)
Fixpoint cheb (n : nat) (mu : C) : C * C :=  (* (p_n, p_{n-1}) *)
  match n with O => (RtoC 1, RtoC 0) | S n => let '(a, b) := cheb n mu in ((mu * a - b)%C, a) end.
Lemma cheb_snd n mu : snd (cheb (S n) mu) = fst (cheb n mu).
Proof. cbn [cheb]. destruct (cheb n mu). reflexivity. Qed.
Lemma cheb_fst n mu : fst (cheb (S (S n)) mu) = (mu * fst (cheb (S n) mu) - fst (cheb n mu))%C.
Proof. rewrite <- cheb_snd. cbn [cheb]. destruct (cheb n mu). reflexivity. Qed.

Lemma monic_ext n f g : (forall x, f x = g x) -> monic n f -> monic n g.
Proof.
  intros E H. inversion H as [? F|? h c ? Hh F]; subst.
  - apply monic_0. intros x. rewrite <- E. apply F.
  - eapply monic_S; [exact Hh|]. intros x. rewrite <- E. apply F.
Qed.
Lemma cheb_monic n : monic n (fun mu => fst (cheb n mu)) /\ monic (S n) (fun mu => fst (cheb (S n) mu)).
Proof.
  induction n as [|n [H0 H1]].
  - split; [apply monic_0; reflexivity|]. eapply monic_S with (g := fun _ => RtoC 1) (c := RtoC 0); [now constructor|]. intros x. cbn [cheb fst]. ring.
  - split; [exact H1|]. apply monic_ext with (f := fun x => ((x * fst (cheb (S n) x) + RtoC 0) + - fst (cheb n x))%C); [intros x; rewrite cheb_fst; ring|].
    apply monic_add; [eapply monic_S; [exact H1|reflexivity]|]. apply low_up, monic_low, H0.
Qed.
Lemma cheb_sin n th : (fst (cheb n (RtoC (2 * cos th))) * RtoC (sin th))%C = RtoC (sin (INR (S n) * th)).
Proof.
  enough (H : (fst (cheb n (RtoC (2 * cos th))) * RtoC (sin th))%C = RtoC (sin (INR (S n) * th)) /\
              (fst (cheb (S n) (RtoC (2 * cos th))) * RtoC (sin th))%C = RtoC (sin (INR (S (S n)) * th))) by apply H.
  induction n as [|n [H0 H1]].
  - split.
    + cbn [cheb fst INR]. rewrite Rmult_1_l. ring.
    + cbn [cheb fst]. replace (INR 2 * th) with (2 * th) by (simpl; ring). rewrite sin_2a, !RtoC_mult. ring.
  - split; [exact H1|]. rewrite cheb_fst.
    transitivity (RtoC (2 * cos th) * (fst (cheb (S n) (RtoC (2 * cos th))) * RtoC (sin th)) - fst (cheb n (RtoC (2 * cos th))) * RtoC (sin th))%C; [ring|].
    rewrite H0, H1. rewrite <- RtoC_mult, <- RtoC_minus. f_equal.
    replace (INR (S (S (S n))) * th) with (INR (S (S n)) * th + th) by (rewrite (S_INR (S (S n))); ring).
    replace (INR (S n) * th) with (INR (S (S n)) * th - th) by (rewrite (S_INR (S n)); ring).
    rewrite sin_plus, sin_minus. ring.
Qed.

Definition angle_k (N k : nat) : R := INR k * PI / INR (S N).
Lemma angle_range N k : (1 <= k <= N)%nat -> 0 < angle_k N k < PI.
Proof.
  intros H. unfold angle_k. assert (P := PI_RGT_0). assert (0 < INR k) by (apply lt_0_INR; lia). assert (INR k < INR (S N)) by (apply lt_INR; lia).
  assert (Q : 0 < INR (S N)) by lra. split.
  - apply Rdiv_lt_0_compat; nra.
  - apply Rmult_lt_reg_r with (INR (S N)); [exact Q|]. unfold Rdiv. rewrite Rmult_assoc, Rinv_l by lra. nra.
Qed.
Lemma angle_lt N k j : (1 <= k)%nat -> (k < j)%nat -> (j <= N)%nat -> angle_k N k < angle_k N j.
Proof.
  intros. unfold angle_k, Rdiv. assert (P := PI_RGT_0). assert (INR k < INR j) by (apply lt_INR; lia).
  apply Rmult_lt_compat_r; [apply Rinv_0_lt_compat, lt_0_INR; lia|nra].
Qed.
Lemma NoDup_map_inj {A B : Type} (f : A -> B) l : NoDup l -> (forall a b, In a l -> In b l -> f a = f b -> a = b) -> NoDup (map f l).
Proof.
  intros H. induction H as [|a l Ha H IH]; intros Hi; cbn [map]; constructor.
  - intros I. apply in_map_iff in I as (b & E & Hb). assert (b = a) as -> by (apply Hi; auto; [now right|now left]). contradiction.
  - apply IH. intros; apply Hi; auto; now right.
Qed.
Definition cos_roots (N : nat) : list C := map (fun k => RtoC (2 * cos (angle_k N k))) (seq 1 N).
Lemma cos_roots_distinct N : NoDup (cos_roots N).
Proof.
  unfold cos_roots. apply NoDup_map_inj; [apply seq_NoDup|].
  intros k j Hk Hj E. apply in_seq in Hk, Hj. apply RtoC_inj in E.
  destruct (lt_eq_lt_dec k j) as [[L|L]|L]; [exfalso|exact L|exfalso].
  - assert (A := angle_lt N k j ltac:(lia) L ltac:(lia)). assert (B := angle_range N k ltac:(lia)). assert (C := angle_range N j ltac:(lia)).
    assert (D : cos (angle_k N j) < cos (angle_k N k)) by (apply cos_decreasing_1; lra). lra.
  - assert (A := angle_lt N j k ltac:(lia) L ltac:(lia)). assert (B := angle_range N k ltac:(lia)). assert (C := angle_range N j ltac:(lia)).
    assert (D : cos (angle_k N k) < cos (angle_k N j)) by (apply cos_decreasing_1; lra). lra.
Qed.
Lemma cheb_roots N mu : fst (cheb N mu) = RtoC 0 <-> exists k, (1 <= k <= N)%nat /\ mu = RtoC (2 * cos (angle_k N k)).
Proof.
  assert (R : forall k, (1 <= k <= N)%nat -> fst (cheb N (RtoC (2 * cos (angle_k N k)))) = RtoC 0).
  { intros k Hk. assert (A := angle_range N k Hk). assert (S0 : 0 < sin (angle_k N k)) by (apply sin_gt_0; lra).
    assert (E := cheb_sin N (angle_k N k)). replace (INR (S N) * angle_k N k) with (INR k * PI) in E by (unfold angle_k; field; apply not_0_INR; lia).
    replace (sin (INR k * PI)) with 0 in E.
    - destruct (Ceq_dec (fst (cheb N (RtoC (2 * cos (angle_k N k))))) (RtoC 0)) as [Z|Z]; [exact Z|]. exfalso.
      apply (Cmult_neq_0 _ (RtoC (sin (angle_k N k))) Z); [|exact E]. intros F. apply RtoC_inj in F. lra.
    - symmetry. rewrite INR_IZR_INZ. apply sin_eq_0_1. now exists (Z.of_nat k). }
  split.
  - intros H. destruct (cheb_monic N) as [M _]. assert (I := monic_roots N _ (cos_roots N) M (cos_roots_distinct N)).
    assert (L : In mu (cos_roots N)).
    { apply I; auto; [unfold cos_roots; now rewrite map_length, seq_length|]. intros a Ha. apply in_map_iff in Ha as (k & <- & Hk). apply in_seq in Hk. apply R. lia. }
    apply in_map_iff in L as (k & E & Hk). apply in_seq in Hk. exists k. split; [lia|now symmetry].
  - intros (k & Hk & ->). now apply R.
Qed.

(** *** Eigenvalues of a system with one input: the complex vector p + iq is mapped to lam (p + iq) by the undriven system *)
Definition eigen (S : asys Rring) (lam : C) (p q : list R) : Prop :=
  length p = sN S /\ length q = sN S /\ (exists n, nth n p 0 <> 0 \/ nth n q 0 <> 0) /\
  derivative S p [0] (repeat 0 (sM S)) = Ok (map (fun n => Re lam * nth n p 0 - Im lam * nth n q 0) (seq 0 (sN S))) /\
  derivative S q [0] (repeat 0 (sM S)) = Ok (map (fun n => Re lam * nth n q 0 + Im lam * nth n p 0) (seq 0 (sN S))).

Definition pr (p q : list R) (n : nat) : C := (nth n p 0, nth n q 0).
(** the tridiagonal equations *)
Definition tri (N : nat) (beta alpha : R) (lam : C) (v : nat -> C) : Prop :=
  forall n, (n < N)%nat -> (lam * v n = RtoC beta * (if Nat.eqb n 0 then RtoC 0 else v (n - 1)%nat) + RtoC alpha * (if Nat.eqb (n + 1) N then RtoC 0 else v (n + 1)%nat))%C.

Lemma map_seq_ext (f g : nat -> R) N : map f (seq 0 N) = map g (seq 0 N) -> forall n, (n < N)%nat -> f n = g n.
Proof. intros H n Hn. rewrite <- (nth_seq_R f N n Hn), <- (nth_seq_R g N n Hn). now rewrite H. Qed.

Lemma eigen_tri S N beta alpha k lam (p q : list R) : (1 <= N)%nat -> integrator_system S (repeat beta N) (repeat alpha (N - 1)) (repeat 0 N) k ->
  length p = N -> length q = N ->
  (derivative S p [0] (repeat 0 (sM S)) = Ok (map (fun n => Re lam * nth n p 0 - Im lam * nth n q 0) (seq 0 (sN S))) /\
   derivative S q [0] (repeat 0 (sM S)) = Ok (map (fun n => Re lam * nth n q 0 + Im lam * nth n p 0) (seq 0 (sN S)))) <->
  tri N beta alpha lam (pr p q).
Proof.
  intros HN (DN & DL & DM & _ & HD & _) Lp Lq. rewrite repeat_length in *.
  assert (D : forall x : list R, length x = N -> derivative S x [0] (repeat 0 (sM S)) =
     Ok (map (fun n => beta * (if Nat.eqb n 0 then 0 else nth (n - 1) x 0) + alpha * (if Nat.eqb (n + 1) N then 0 else nth (n + 1) x 0)) (seq 0 N))).
  { intros x Hx. rewrite HD; [|exact Hx|now rewrite repeat_length]. f_equal. apply map_ext_in. intros n Hn. apply in_seq in Hn.
    rewrite rsum_zero by (intros i _; rewrite nth_repeat; ring). rewrite !nth_repeat_lt with (n := N) by lia. destruct (Nat.eqb_spec (n + 1) N) as [E|E].
    - rewrite nth_overflow with (l := repeat alpha (N - 1)) by (rewrite repeat_length; lia). cbv [car Rring]. ring.
    - rewrite (nth_repeat_lt alpha) by lia. cbv [car Rring]; ring. }
  rewrite !D by assumption. rewrite DN. split.
  - intros [H1 H2] n Hn. apply Ok_inj in H1, H2. assert (E1 := map_seq_ext _ _ _ H1 n Hn). assert (E2 := map_seq_ext _ _ _ H2 n Hn). cbn beta in E1, E2.
    unfold pr. destruct lam as [a b]. cbn [Re Im fst snd] in *. destruct (Nat.eqb n 0), (Nat.eqb (n + 1) N); unfold Cmult, Cplus, RtoC, Re, Im in *; apply injective_projections; cbn [fst snd] in *; lra.
  - intros H. split; f_equal; apply map_ext_in; intros n Hn; apply in_seq in Hn; specialize (H n ltac:(lia)); unfold pr in H; destruct lam as [a b];
      assert (F := f_equal fst H); assert (G := f_equal snd H); unfold Cmult, Cplus, RtoC, Re, Im in *; destruct (Nat.eqb n 0), (Nat.eqb (n + 1) N); cbn [fst snd] in *; lra.
Qed.

Fixpoint Cpow (z : C) (n : nat) : C := match n with O => RtoC 1 | S n => (z * Cpow z n)%C end.

Section Tri.
Variables (N : nat) (beta alpha w0 : R).
Hypothesis HN : (1 <= N)%nat.
Hypothesis Hw : w0 <> 0.
Hypothesis Hab : alpha * beta = - w0 ^ 2.
Lemma Hb : beta <> 0.
Proof. intros E. rewrite E in Hab. assert (w0 ^ 2 <> 0) by now apply pow_nonzero. lra. Qed.
Let r : C := (0, - (beta / w0)).   (* - i beta / w0 *)
Let iw : C := (0, w0).
Lemma r_nz : r <> RtoC 0.
Proof. intros E. apply (f_equal snd) in E. cbn in E. assert (beta / w0 <> 0) by (unfold Rdiv; apply Rmult_integral_contrapositive_currified; [exact Hb|now apply Rinv_neq_0_compat]). lra. Qed.
Lemma iw_nz : iw <> RtoC 0.
Proof. intros E. apply (f_equal snd) in E. now cbn in E. Qed.
Lemma beta_r : RtoC beta = (iw * r)%C.
Proof. unfold iw, r. apply injective_projections; cbn; field; exact Hw. Qed.
Lemma alpha_r : (RtoC alpha * r)%C = iw.
Proof.
  unfold iw, r. apply injective_projections; cbn; [ring|].
  replace (alpha * - (beta / w0) + 0 * 0) with (- (alpha * beta) / w0) by (field; exact Hw). rewrite Hab. field. exact Hw.
Qed.
Lemma rpow_nz n : Cpow r n <> RtoC 0.
Proof. induction n as [|n IH]; cbn [Cpow]; [intros E; apply RtoC_inj in E; lra|]. apply Cmult_neq_0; [exact r_nz|exact IH]. Qed.

(** the scaled recurrence solves the equations exactly when its N-th term vanishes *)
Lemma tri_cheb mu : fst (cheb N mu) = RtoC 0 -> tri N beta alpha (mu * iw)%C (fun n => (Cpow r n * fst (cheb n mu))%C).
Proof.
  intros Z n Hn.
  assert (E : (if Nat.eqb (n + 1) N then RtoC 0 else (Cpow r (n + 1) * fst (cheb (n + 1) mu))%C) = (Cpow r (n + 1) * fst (cheb (n + 1) mu))%C).
  { destruct (Nat.eqb_spec (n + 1) N) as [->|]; [rewrite Z; ring|reflexivity]. }
  rewrite E, Nat.add_1_r. cbn [Cpow]. destruct n as [|n].
  - cbn [Nat.eqb Cpow cheb fst]. rewrite <- alpha_r. ring.
  - cbn [Nat.eqb]. replace (S n - 1)%nat with n by lia. rewrite cheb_fst. cbn [Cpow]. rewrite beta_r.
    transitivity ((mu * iw * (r * Cpow r n) * fst (cheb (S n) mu) - iw * (r * Cpow r n) * fst (cheb n mu)) + iw * (r * Cpow r n) * fst (cheb n mu))%C; [ring|].
    rewrite <- alpha_r. ring.
Qed.
Lemma tri_forces lam v : tri N beta alpha lam v -> (exists n, (n < N)%nat /\ v n <> RtoC 0) -> fst (cheb N (lam / iw)%C) = RtoC 0.
Proof.
  intros H (m & Hm & Hv). set (mu := (lam / iw)%C).
  assert (El : lam = (mu * iw)%C) by (unfold mu; field; exact iw_nz).
  assert (Step : forall n, (n < N)%nat -> v n = (Cpow r n * fst (cheb n mu) * v O)%C).
  { enough (X : forall n, ((n < N)%nat -> v n = (Cpow r n * fst (cheb n mu) * v O)%C) /\ ((S n < N)%nat -> v (S n) = (Cpow r (S n) * fst (cheb (S n) mu) * v O)%C)) by (intros n; apply X).
    induction n as [|n [H0 H1]].
    - split; [intros; cbn [Cpow cheb fst]; ring|]. intros L. specialize (H O ltac:(lia)). cbn [Nat.eqb] in H. destruct (Nat.eqb_spec (0 + 1) N); [lia|].
      cbn [Nat.add] in H. cbn [Cpow cheb fst]. rewrite El in H.
      assert (HA : RtoC alpha <> RtoC 0) by (intros F; apply iw_nz; rewrite <- alpha_r, F; ring).
      replace (v 1%nat) with (/ RtoC alpha * (RtoC beta * RtoC 0 + RtoC alpha * v 1%nat))%C by (field; exact HA). rewrite <- H, <- alpha_r. field. exact HA.
    - split; [exact H1|]. intros L. specialize (H (S n) ltac:(lia)). cbn [Nat.eqb] in H. destruct (Nat.eqb_spec (S n + 1) N); [lia|].
      replace (S n - 1)%nat with n in H by lia. rewrite Nat.add_1_r in H. rewrite H0, H1 in H by lia.
      assert (HA : RtoC alpha <> RtoC 0) by (intros F; apply iw_nz; rewrite <- alpha_r, F; ring).
      rewrite cheb_fst. set (P1 := fst (cheb (S n) mu)) in *. set (P0 := fst (cheb n mu)) in *. rewrite El, beta_r in H.
      replace (v (S (S n))) with (/ RtoC alpha * (RtoC alpha * v (S (S n))))%C by (field; exact HA).
      replace (RtoC alpha * v (S (S n)))%C with (mu * iw * (Cpow r (S n) * P1 * v O) - iw * r * (Cpow r n * P0 * v O))%C by (rewrite H; ring).
      rewrite <- alpha_r. cbn [Cpow]. field. exact HA. }
  assert (V0 : v O <> RtoC 0) by (intros F; apply Hv; rewrite (Step m Hm), F; ring).
  assert (Key : forall n, S n = N -> (Cpow r N * fst (cheb N mu) * v O)%C = RtoC 0).
  { intros n En. assert (HA : RtoC alpha <> RtoC 0) by (intros F; apply iw_nz; rewrite <- alpha_r, F; ring).
    specialize (H n ltac:(lia)). destruct (Nat.eqb_spec (n + 1) N); [|lia]. rewrite <- En in *. destruct n as [|n].
    - cbn [Nat.eqb] in H. cbn [Cpow cheb fst].
      replace (r * RtoC 1 * (mu * RtoC 1 - RtoC 0) * v O)%C with (/ RtoC alpha * (mu * (RtoC alpha * r) * v O))%C by (field; exact HA).
      rewrite alpha_r, <- El, H. ring.
    - cbn [Nat.eqb] in H. replace (S n - 1)%nat with n in H by lia. rewrite (Step (S n)), (Step n) in H by lia. rewrite cheb_fst. cbn [Cpow] in *.
      set (P1 := fst (cheb (S n) mu)) in *. set (P0 := fst (cheb n mu)) in *. rewrite El, beta_r in H.
      transitivity (/ RtoC alpha * (mu * (RtoC alpha * r) * (r * Cpow r n * P1 * v O) - (RtoC alpha * r) * r * (Cpow r n * P0 * v O)))%C; [field; exact HA|].
      rewrite alpha_r, H. ring. }
  destruct N as [|n] eqn:EN; [lia|]. specialize (Key n eq_refl).
  destruct (Ceq_dec (fst (cheb (S n) mu)) (RtoC 0)) as [Z|Z]; [exact Z|]. exfalso. revert Key. apply Cmult_neq_0; [|exact V0]. apply Cmult_neq_0; [apply rpow_nz|exact Z].
Qed.
End Tri.

(** the poles of a system with alpha beta = - w0^2 *)
Lemma leap_frog_poles S N beta alpha w0 k lam : (1 <= N)%nat -> w0 <> 0 -> alpha * beta = - w0 ^ 2 ->
  integrator_system S (repeat beta N) (repeat alpha (N - 1)) (repeat 0 N) k ->
  (exists p q, eigen S lam p q) <-> exists j, (1 <= j <= N)%nat /\ lam = (0, 2 * w0 * cos (angle_k N j)).
Proof.
  intros HN Hw Hab HS. assert (DN : sN S = N) by (destruct HS as (D & _); now rewrite repeat_length in D).
  split.
  - intros (p & q & Lp & Lq & (n & Hne) & He). rewrite DN in Lp, Lq. apply (eigen_tri S N beta alpha k lam p q HN HS Lp Lq) in He.
    assert (X := tri_forces N beta alpha w0 HN Hw Hab lam (pr p q) He).
    assert (Z : fst (cheb N (lam / (0, w0))%C) = RtoC 0).
    { apply X. exists n. assert (Hn : (n < N)%nat). { destruct (Nat.lt_ge_cases n N); [assumption|]. rewrite (nth_overflow p), (nth_overflow q) in Hne by lia. tauto. }
      split; [exact Hn|]. unfold pr. intros E. assert (E1 := f_equal fst E). assert (E2 := f_equal snd E). cbn [fst snd RtoC] in E1, E2. destruct Hne as [Hne|Hne]; apply Hne; assumption. }
    apply cheb_roots in Z as (j & Hj & E). exists j. split; [exact Hj|].
    assert (NZ : ((0, w0) : C) <> RtoC 0) by (intros F; apply (f_equal snd) in F; now cbn in F).
    replace lam with ((lam / (0, w0)) * (0, w0))%C by (field; exact NZ). rewrite E. apply injective_projections; cbn; ring.
  - intros (j & Hj & ->). set (mu := RtoC (2 * cos (angle_k N j))).
    assert (Z : fst (cheb N mu) = RtoC 0) by (apply cheb_roots; eauto).
    assert (T := tri_cheb N beta alpha w0 HN Hw Hab mu Z).
    set (v := fun n => (Cpow (0%R, (- (beta / w0))%R) n * fst (cheb n mu))%C) in T.
    set (p := map (fun n => fst (v n)) (seq 0 N)). set (q := map (fun n => snd (v n)) (seq 0 N)).
    assert (Lp : length p = N) by (unfold p; now rewrite map_length, seq_length). assert (Lq : length q = N) by (unfold q; now rewrite map_length, seq_length).
    assert (PV : forall n, (n < N)%nat -> pr p q n = v n).
    { intros n Hn. unfold pr, p, q. rewrite !nth_seq_R by exact Hn. now destruct (v n). }
    exists p, q. unfold eigen. rewrite DN at 1 2. split; [exact Lp|]. split; [exact Lq|]. split.
    { exists O. left. change (nth 0 p 0) with (fst (pr p q 0)). rewrite PV by lia. unfold v. cbn. lra. }
    apply (eigen_tri S N beta alpha k _ p q HN HS Lp Lq). intros n Hn. specialize (T n Hn). rewrite PV by exact Hn.
    replace (if Nat.eqb n 0 then RtoC 0 else pr p q (n - 1)%nat) with (if Nat.eqb n 0 then RtoC 0 else v (n - 1)%nat) by (destruct (Nat.eqb_spec n 0); [reflexivity|]; symmetry; apply PV; lia).
    replace (if Nat.eqb (n + 1) N then RtoC 0 else pr p q (n + 1)%nat) with (if Nat.eqb (n + 1) N then RtoC 0 else v (n + 1)%nat) by (destruct (Nat.eqb_spec (n + 1) N); [reflexivity|]; symmetry; apply PV; lia).
    rewrite <- T. f_equal. unfold mu. apply injective_projections; cbn; ring.
Qed.
Lemma poles_in_band N w0 j : (1 <= j <= N)%nat -> w0 <> 0 -> Rabs (2 * w0 * cos (angle_k N j)) < 2 * Rabs w0.
Proof.
  intros Hj Hw. rewrite !Rabs_mult, (Rabs_pos_eq 2) by lra. assert (0 < Rabs w0) by now apply Rabs_pos_lt.
  enough (Rabs (cos (angle_k N j)) < 1) by nra. assert (A := angle_range N j Hj). assert (0 < sin (angle_k N j)) by (apply sin_gt_0; lra).
  assert (B := sin2_cos2 (angle_k N j)). unfold Rsqr in B. apply Rabs_def1; nra.
Qed.
