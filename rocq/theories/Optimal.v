(** The estimates in the time domain: least squares over a window of sampling periods.  Specification words: [integral], [explains],
    [cost]; they do not refer to the filters. *)
From Coq Require Import List Arith Lia Bool Reals Lra ZArith FunctionalExtensionality.
From Coquelicot Require Import Coquelicot.
From Verif Require Import Base LinAlg FirExtras Signals DigitalControl AnalogSystem AnalogProofs Integrators IntegratorsProofs LinearOde FilterCoeff FilterCoeffProofs FilterOde
  Wiener FilterRun FreqProofs.
Import ListNotations.
Open Scope R_scope.

(** I is the integral of f over [0, T]; f may jump at finitely many points *)
Definition integral (T : R) (f : R -> R) (I : R) : Prop := exists (J : R -> R) (ex : list R),
  (forall t, 0 <= t <= T -> continuity_pt J t) /\ (forall t, 0 < t < T -> ~ In t ex -> derivable_pt_lim J t (f t)) /\ I = J T - J 0.
(** the input u and the state x are consistent with the decisions s during the first K periods; [u i], [x i] live on period i *)
Definition explains (S : asys Rring) (d : dc) (K : nat) (s : nat -> nat -> R) (u x : nat -> nat -> R -> R) : Prop := forall i, (i < K)%nat ->
  sol (sN S) (ent (aA S)) (ck_T (d_clk d)) (fun n t => rsum (sL S) (fun l => ent (aB S) n l * u i l t) + ctl S d (s i) n t) (x i) /\
  forall n, (n < sN S)%nat -> x (i + 1)%nat n 0 = x i n (ck_T (d_clk d)).
(** q^T V q *)
Definition quad (N : nat) (V : nat -> nat -> R) (q : nat -> R) : R := rsum N (fun i => q i * rsum N (fun j => V i j * q j)).
Definition psd (N : nat) (V : nat -> nat -> R) : Prop := forall q, 0 <= quad N V q.
(** |u|^2 + |C^T x|^2 / eta2 *)
Definition power (S : asys Rring) (eta2 : R) (u x : nat -> R -> R) (t : R) : R :=
  rsum (sL S) (fun l => Rsqr (u l t)) + / eta2 * rsum (sNt S) (fun r => Rsqr (rsum (sN S) (fun n => ent (aCT S) r n * x n t))).
(** the integral of the power, plus x(0)^T Vf^-1 x(0) and x(KT)^T Vb^-1 x(KT) for the states at both ends (in the range of Vf, Vb) *)
Definition cost (S : asys Rring) (eta2 : R) (Vf Vb : nat -> nat -> R) (T : R) (K : nat) (u x : nat -> nat -> R -> R) (I : R) : Prop := exists E q0 q1,
  (forall i, (i < K)%nat -> integral T (power S eta2 (u i) (x i)) (E i)) /\
  (forall n, (n < sN S)%nat -> x O n 0 = rsum (sN S) (fun j => Vf n j * q0 j)) /\
  (forall n, (n < sN S)%nat -> x K n 0 = rsum (sN S) (fun j => Vb n j * q1 j)) /\
  I = rsum K E + quad (sN S) Vf q0 + quad (sN S) Vb q1.

(** *** Sums *)
Lemma rsum_opp n f : rsum n (fun i => - f i) = - rsum n f.
Proof. rewrite (rsum_ext n _ (fun i => (-1) * f i)) by (intros; ring). rewrite rsum_scale. ring. Qed.
Lemma rsum_minus n f g : rsum n (fun i => f i - g i) = rsum n f - rsum n g.
Proof. unfold Rminus. now rewrite rsum_add, rsum_opp. Qed.
(** <a, M b> = <M^T a, b> *)
Lemma rsum_adj n m (M : nat -> nat -> R) a b : rsum n (fun i => a i * rsum m (fun j => M i j * b j)) = rsum m (fun j => rsum n (fun i => M i j * a i) * b j).
Proof.
  rewrite (rsum_ext n _ (fun i => rsum m (fun j => a i * (M i j * b j)))) by (intros; now rewrite rsum_scale). rewrite rsum_swap. apply rsum_ext. intros j _.
  rewrite Rmult_comm, <- rsum_scale. apply rsum_ext. intros; ring.
Qed.
Lemma rsum_comp n m (A B : nat -> nat -> R) x i : rsum m (fun j => rsum n (fun k => A i k * B k j) * x j) = rsum n (fun k => A i k * rsum m (fun j => B k j * x j)).
Proof.
  rewrite (rsum_ext m _ (fun j => rsum n (fun k => A i k * (B k j * x j)))); [|intros j _; rewrite Rmult_comm, <- rsum_scale; apply rsum_ext; intros; ring].
  rewrite rsum_swap. apply rsum_ext. intros. now rewrite rsum_scale.
Qed.
Lemma rsum_telescope K (f : nat -> R) : rsum K (fun i => f (i + 1)%nat - f i) = f K - f O.
Proof. induction K; [rewrite rsum_0; ring|]. rewrite rsum_S, IHK, Nat.add_1_r. ring. Qed.
Lemma rsum_single n (f : nat -> R) i : (i < n)%nat -> rsum n (fun j => if Nat.eqb j i then f j else 0) = f i.
Proof.
  induction n; intros Hi; [lia|]. rewrite rsum_S. destruct (Nat.eqb_spec n i) as [->|Ne].
  - rewrite rsum_zero; [ring|]. intros j Hj. destruct (Nat.eqb_spec j i); [lia|reflexivity].
  - rewrite IHn by lia. ring.
Qed.

Lemma rsum_cont n (a : nat -> R) (f : nat -> R -> R) t : (forall i, (i < n)%nat -> continuity_pt (f i) t) -> continuity_pt (fun t => rsum n (fun i => a i * f i t)) t.
Proof.
  induction n; intros H.
  - apply continuity_pt_const. intros x y. now rewrite !rsum_0.
  - apply (continuity_pt_locally_ext (fun t => rsum n (fun i => a i * f i t) + a n * f n t) _ 1); [lra|intros y _; now rewrite rsum_S|].
    apply (continuity_pt_plus (fun t => rsum n (fun i => a i * f i t)) (fun t => a n * f n t)); [apply IHn; intros; apply H; lia|]. apply (continuity_pt_scal (f n) (a n)). apply H. lia.
Qed.

(** *** One period *)
Section Period.
Variable S : asys Rring.
Variables eta2 T : R.
Hypothesis He : 0 < eta2.
Hypothesis HT : 0 <= T.
Let N := sN S.
Let A := ent (aA S).
Let B := ent (aB S).
Let C := ent (aCT S).
Let Kc := obsK S eta2.

Lemma obs_dot (a b : nat -> R) : rsum N (fun n => a n * rsum N (fun k => Kc n k * b k)) = / eta2 * rsum (sNt S) (fun r => rsum N (fun n => C r n * a n) * rsum N (fun n => C r n * b n)).
Proof.
  transitivity (rsum N (fun n => a n * (/ eta2 * rsum (sNt S) (fun r => C r n * rsum N (fun k => C r k * b k))))).
  - apply rsum_ext. intros n _. f_equal. unfold Kc, obsK. fold C. rewrite <- (rsum_comp (sNt S) N (fun n r => C r n) C b n). rewrite <- rsum_scale. apply rsum_ext. intros; ring.
  - rewrite (rsum_ext N _ (fun n => / eta2 * (a n * rsum (sNt S) (fun r => C r n * rsum N (fun k => C r k * b k))))) by (intros; ring). rewrite rsum_scale. f_equal.
    rewrite (rsum_adj N (sNt S) (fun n r => C r n)). reflexivity.
Qed.

Lemma balance_id (p m x u : nat -> R) (g : nat -> R) :
  let uh l := rsum N (fun n => B n l * p n) in
  rsum N (fun n => (rsum N (fun k => Kc n k * m k) - rsum N (fun k => A k n * p k)) * (x n - m n) +
    p n * ((rsum N (fun k => A n k * x k) + (rsum (sL S) (fun l => B n l * u l) + g n)) - (rsum N (fun k => A n k * m k) + (rsum (sL S) (fun l => B n l * uh l) + g n)))) =
  rsum (sL S) (fun l => uh l * (u l - uh l)) + / eta2 * rsum (sNt S) (fun r => rsum N (fun n => C r n * (x n - m n)) * rsum N (fun n => C r n * m n)).
Proof.
  intros uh. set (e n := x n - m n). set (v l := u l - uh l).
  transitivity (rsum N (fun n => e n * rsum N (fun k => Kc n k * m k)) - rsum N (fun n => e n * rsum N (fun k => A k n * p k)) +
    (rsum N (fun n => p n * rsum N (fun k => A n k * e k)) + rsum N (fun n => p n * rsum (sL S) (fun l => B n l * v l)))).
  - rewrite <- rsum_minus, <- !rsum_add. apply rsum_ext. intros n _.
    assert (E1 : rsum N (fun k => A n k * e k) = rsum N (fun k => A n k * x k) - rsum N (fun k => A n k * m k)) by (rewrite <- rsum_minus; apply rsum_ext; intros; unfold e; ring).
    assert (E2 : rsum (sL S) (fun l => B n l * v l) = rsum (sL S) (fun l => B n l * u l) - rsum (sL S) (fun l => B n l * uh l)) by (rewrite <- rsum_minus; apply rsum_ext; intros; unfold v; ring).
    rewrite E1, E2. unfold e. ring.
  - rewrite (rsum_adj N N A p e), (rsum_adj N (sL S) B p v), obs_dot. fold N.
    rewrite (rsum_ext N (fun n => e n * rsum N (fun k => A k n * p k)) (fun n => rsum N (fun i => A i n * p i) * e n)) by (intros; ring).
    change (rsum (sL S) (fun j => rsum N (fun i => B i j * p i) * v j)) with (rsum (sL S) (fun l => uh l * (u l - uh l))).
    change (rsum (sNt S) (fun r => rsum N (fun n => C r n * e n) * rsum N (fun n => C r n * m n))) with (rsum (sNt S) (fun r => rsum N (fun n => C r n * (x n - m n)) * rsum N (fun n => C r n * m n))). ring.
Qed.

(** continuous, with derivative d except at finitely many points of the period *)
Definition pw (f d : R -> R) : Prop := (forall t, 0 <= t <= T -> continuity_pt f t) /\ exists ex, forall t, 0 < t < T -> ~ In t ex -> derivable_pt_lim f t (d t).
Lemma pw_plus f g df dg : pw f df -> pw g dg -> pw (fun t => f t + g t) (fun t => df t + dg t).
Proof.
  intros (C1 & e1 & D1) (C2 & e2 & D2). split; [intros; apply (continuity_pt_plus f g); auto|]. exists (e1 ++ e2). intros t Ht Hn.
  apply (derivable_pt_lim_plus f g); [apply D1|apply D2]; auto; intros H; apply Hn, in_or_app; auto.
Qed.
Lemma pw_opp f df : pw f df -> pw (fun t => - f t) (fun t => - df t).
Proof. intros (C1 & e1 & D1). split; [intros; apply (continuity_pt_opp f); auto|]. exists e1. intros t Ht Hn. apply (derivable_pt_lim_opp f). auto. Qed.
Lemma pw_mult f g df dg : pw f df -> pw g dg -> pw (fun t => f t * g t) (fun t => df t * g t + f t * dg t).
Proof.
  intros (C1 & e1 & D1) (C2 & e2 & D2). split; [intros; apply (continuity_pt_mult f g); auto|]. exists (e1 ++ e2). intros t Ht Hn.
  apply (derivable_pt_lim_mult f g); [apply D1|apply D2]; auto; intros H; apply Hn, in_or_app; auto.
Qed.
Lemma pw_scale c f df : pw f df -> pw (fun t => c * f t) (fun t => c * df t).
Proof. intros (C1 & e1 & D1). split; [intros; apply (continuity_pt_scal f c); auto|]. exists e1. intros t Ht Hn. apply (derivable_pt_lim_scal f c). auto. Qed.
Lemma pw_const c : pw (fun _ => c) (fun _ => 0).
Proof. split; [intros; apply continuity_pt_const; now intros ? ?|]. exists []. intros. apply derivable_pt_lim_const. Qed.
Lemma pw_ext f df f' df' : (forall t, f t = f' t) -> (forall t, 0 < t < T -> df t = df' t) -> pw f df -> pw f' df'.
Proof.
  intros E1 E2 (C1 & e1 & D1). assert (f' = f) as -> by (apply functional_extensionality; auto). split; [exact C1|]. exists e1. intros t Ht Hn. rewrite <- E2 by exact Ht. auto.
Qed.
Lemma pw_sum n (f df : nat -> R -> R) : (forall i, (i < n)%nat -> pw (f i) (df i)) -> pw (fun t => rsum n (fun i => f i t)) (fun t => rsum n (fun i => df i t)).
Proof.
  induction n; intros H; [apply (pw_ext (fun _ => 0) (fun _ => 0)); [reflexivity|reflexivity|apply pw_const]|].
  apply (pw_ext (fun t => rsum n (fun i => f i t) + f n t) (fun t => rsum n (fun i => df i t) + df n t)); [intros; now rewrite rsum_S|intros; now rewrite rsum_S|].
  apply pw_plus; auto.
Qed.
Lemma pw_le f df : pw f df -> (forall t, 0 < t < T -> df t <= 0) -> f T <= f 0.
Proof. intros (C1 & ex & D1) H. apply (nonincreasing ex f df 0 T HT C1). intros t Ht Hn. auto. Qed.
Lemma pw_of_sol (M : nat -> nat -> R) b z n : sol N M T b z -> (n < N)%nat -> pw (z n) (fun t => rsum N (fun k => M n k * z k t) + b n t).
Proof. intros (C1 & ex & D1) Hn. split; [auto|]. exists ex. auto. Qed.
Lemma sol_of_pw (M : nat -> nat -> R) b z : (forall n, (n < N)%nat -> pw (z n) (fun t => rsum N (fun k => M n k * z k t) + b n t)) -> sol N M T b z.
Proof.
  intros H. split; [intros n t Hn; now apply (H n Hn)|]. assert (X : forall k, (k <= N)%nat -> exists ex, forall n t, (n < k)%nat -> 0 < t < T -> ~ In t ex -> derivable_pt_lim (z n) t (rsum N (fun k => M n k * z k t) + b n t)).
  { induction k; intros Hk; [exists []; intros; lia|]. destruct (IHk ltac:(lia)) as (e1 & H1). destruct (H k ltac:(lia)) as (_ & e2 & H2). exists (e1 ++ e2). intros n t Hn Ht Hin.
    destruct (Nat.eq_dec n k) as [->|]; [apply H2|apply H1]; auto; try lia; intros Hx; apply Hin, in_or_app; auto. }
  apply (X N). lia.
Qed.

(** the estimate u^ = B^T p with its state m, the adjoint state p, against any other input u with state x for the same control g *)
Lemma period_gain (p m x u : nat -> R -> R) (g : nat -> R -> R) w E E' Ev :
  let uh l t := rsum N (fun n => B n l * p n t) in
  (forall n, (n < N)%nat -> pw (p n) (fun t => rsum N (fun k => Kc n k * m k t) - rsum N (fun k => A k n * p k t))) ->
  sol N A T (fun n t => rsum (sL S) (fun l => B n l * uh l t) + g n t) m ->
  sol N A T (fun n t => rsum (sL S) (fun l => B n l * u l t) + g n t) x ->
  integral T (power S eta2 uh m) E -> integral T (power S eta2 u x) E' ->
  (forall t, w t <= rsum (sL S) (fun l => Rsqr (u l t - uh l t))) -> integral T w Ev ->
  E + Ev + 2 * (rsum N (fun n => p n T * (x n T - m n T)) - rsum N (fun n => p n 0 * (x n 0 - m n 0))) <= E'.
Proof.
  intros uh Hp Hm Hx (J & j1 & JC & JD & ->) (J' & j2 & JC' & JD' & ->) Hw (Jv & j3 & JCv & JDv & ->).
  assert (P1 : pw J (power S eta2 uh m)) by (split; [exact JC|now exists j1]). assert (P2 : pw J' (power S eta2 u x)) by (split; [exact JC'|now exists j2]).
  assert (P3 : pw Jv w) by (split; [exact JCv|now exists j3]).
  set (de n t := (rsum N (fun k => A n k * x k t) + (rsum (sL S) (fun l => B n l * u l t) + g n t)) - (rsum N (fun k => A n k * m k t) + (rsum (sL S) (fun l => B n l * uh l t) + g n t))).
  set (dp n t := rsum N (fun k => Kc n k * m k t) - rsum N (fun k => A k n * p k t)).
  assert (P4 : pw (fun t => rsum N (fun n => p n t * (x n t - m n t))) (fun t => rsum N (fun n => dp n t * (x n t - m n t) + p n t * de n t))).
  { apply pw_sum. intros n Hn. apply pw_mult; [now apply Hp|].
    apply (pw_ext (fun t => x n t + - m n t) (fun t => (rsum N (fun k => A n k * x k t) + (rsum (sL S) (fun l => B n l * u l t) + g n t)) + - (rsum N (fun k => A n k * m k t) + (rsum (sL S) (fun l => B n l * uh l t) + g n t)))); [intros; ring|intros; unfold de; ring|].
    apply pw_plus; [apply (pw_of_sol A _ x n Hx Hn)|]. apply pw_opp. apply (pw_of_sol A _ m n Hm Hn). }
  assert (X := pw_le _ _ (pw_plus _ _ _ _ (pw_plus _ _ _ _ P1 P3) (pw_plus _ _ _ _ (pw_scale 2 _ _ P4) (pw_opp _ _ P2)))). cbn beta in X.
  match type of X with ?H -> _ => assert (X0 : H) end; [|specialize (X X0); lra].
  intros t Ht. assert (EQ : rsum N (fun n => dp n t * (x n t - m n t) + p n t * de n t) = rsum (sL S) (fun l => uh l t * (u l t - uh l t)) + / eta2 * rsum (sNt S) (fun r => rsum N (fun n => C r n * (x n t - m n t)) * rsum N (fun n => C r n * m n t)))
    by exact (balance_id (fun n => p n t) (fun n => m n t) (fun n => x n t) (fun l => u l t) (fun n => g n t)). rewrite EQ. clear EQ.
  specialize (Hw t). unfold power. fold N. fold C.
  set (Cm r := rsum N (fun n => C r n * m n t)). set (Cx r := rsum N (fun n => C r n * x n t)).
  assert (EC : forall r, rsum N (fun n => C r n * (x n t - m n t)) = Cx r - Cm r) by (intros r; unfold Cx, Cm; rewrite <- rsum_minus; apply rsum_ext; intros; ring).
  assert (Q1 : rsum (sL S) (fun l => Rsqr (uh l t)) + rsum (sL S) (fun l => Rsqr (u l t - uh l t)) + 2 * rsum (sL S) (fun l => uh l t * (u l t - uh l t)) = rsum (sL S) (fun l => Rsqr (u l t))).
  { rewrite <- rsum_scale, <- !rsum_add. apply rsum_ext. intros. unfold Rsqr. ring. }
  assert (Q2 : rsum (sNt S) (fun r => Rsqr (Cm r)) + 2 * rsum (sNt S) (fun r => (Cx r - Cm r) * Cm r) <= rsum (sNt S) (fun r => Rsqr (Cx r))).
  { rewrite <- rsum_scale, <- rsum_add. apply rsum_le. intros r _. unfold Rsqr. assert (Z := Rle_0_sqr (Cx r - Cm r)). unfold Rsqr in Z. lra. }
  rewrite (rsum_ext (sNt S) (fun r => rsum N (fun n => C r n * (x n t - m n t)) * rsum N (fun n => C r n * m n t)) (fun r => (Cx r - Cm r) * Cm r)) by (intros r _; now rewrite EC).
  assert (Pe : 0 < / eta2) by (now apply Rinv_0_lt_compat). assert (Q3 := Rmult_le_compat_l (/ eta2) _ _ (Rlt_le _ _ Pe) Q2). rewrite Rmult_plus_distr_l in Q3.
  change (fun r => Rsqr (rsum N (fun n => C r n * m n t))) with (fun r => Rsqr (Cm r)). change (fun r => Rsqr (rsum N (fun n => C r n * x n t))) with (fun r => Rsqr (Cx r)). lra.
Qed.
End Period.

(** *** Existence of the integral of a continuous function *)
Lemma integral_cont T f : 0 <= T -> (forall t, 0 <= t <= T -> continuity_pt f t) -> exists I, integral T f I /\ is_RInt f 0 T I.
Proof.
  intros HT Hc. set (cl t := Rmax 0 (Rmin t T)). set (fc t := f (cl t)).
  assert (Cl : forall t, continuity_pt cl t).
  { intros t. unfold cl. apply continuity_pt_filterlim. apply (continuous_comp (fun t => Rmin t T) (fun y => Rmax 0 y)).
    - apply (continuous_ext (fun t => (t + T - Rabs (t - T)) / 2)); [intros y; unfold Rmin; destruct (Rle_dec y T); [rewrite Rabs_left1|rewrite Rabs_pos_eq]; lra|].
      apply (continuous_mult (fun t => t + T - Rabs (t - T)) (fun _ => / 2)); [|apply continuous_const]. apply (continuous_minus (fun t => t + T) (fun t => Rabs (t - T))).
      + apply (continuous_plus (fun t => t) (fun _ => T)); [apply continuous_id|apply continuous_const].
      + apply (continuous_comp (fun t => t - T) Rabs); [|apply continuous_Rabs]. apply (continuous_minus (fun t => t) (fun _ => T)); [apply continuous_id|apply continuous_const].
    - apply (continuous_ext (fun y => (y + Rabs y) / 2)); [intros y; unfold Rmax; destruct (Rle_dec 0 y); [rewrite Rabs_pos_eq|rewrite Rabs_left1]; lra|].
      apply (continuous_mult (fun y => y + Rabs y) (fun _ => / 2)); [|apply continuous_const]. apply (continuous_plus (fun y => y) Rabs); [apply continuous_id|apply continuous_Rabs]. }
  assert (In : forall t, 0 <= cl t <= T). { intros t. unfold cl. split; [apply Rmax_l|]. apply Rmax_lub; [exact HT|apply Rmin_r]. }
  assert (Ec : forall t, 0 <= t <= T -> cl t = t). { intros t Ht. unfold cl. rewrite Rmin_left, Rmax_right by lra. reflexivity. }
  assert (Fc : forall t, continuous fc t).
  { intros t. apply continuity_pt_filterlim. apply (continuity_pt_comp cl f); [apply Cl|]. now apply Hc. }
  assert (R : forall a b, ex_RInt fc a b) by (intros; apply (ex_RInt_continuous (V := R_CompleteNormedModule)); intros; apply Fc).
  assert (D : forall t, derivable_pt_lim (fun t => RInt fc 0 t) t (fc t)).
  { intros t. apply is_derive_Reals. apply (is_derive_RInt fc (fun t => RInt fc 0 t) 0 t); [|apply Fc]. exists (mkposreal 1 Rlt_0_1). intros y _. apply (RInt_correct (V := R_CompleteNormedModule)). apply R. }
  exists (RInt fc 0 T). split.
  - exists (fun t => RInt fc 0 t), []. split; [intros t _; apply derivable_continuous_pt; eexists; apply D|]. split.
    + intros t Ht _. rewrite <- (Ec t) at 2 by lra. apply D.
    + rewrite RInt_point. change (RInt fc 0 T = RInt fc 0 T - 0). symmetry. apply Rminus_0_r.
  - apply (is_RInt_ext fc); [|apply (RInt_correct (V := R_CompleteNormedModule)), R]. intros t Ht. rewrite Rmin_left, Rmax_right in Ht by lra. unfold fc. rewrite Ec by lra. reflexivity.
Qed.
Lemma integral_zero T : integral T (fun _ => 0) 0.
Proof. exists (fun _ => 0), []. split; [intros; apply continuity_pt_const; now intros ? ?|]. split; [intros; apply derivable_pt_lim_const|ring]. Qed.

(** *** The two filters over a window *)
Section Window.
Variables (S : asys Rring) (d : dc) (eta2 : R) (Vf Vb : nat -> nat -> R) (WT : rmat) (s : nat -> nat -> R) (K : nat).
Let T := ck_T (d_clk d).
Let N := sN S.
Hypothesis He : 0 < eta2.
Hypothesis HT : 0 <= T.
Hypothesis QF : riccati_sol S eta2 1 Vf.
Hypothesis QB : riccati_sol S eta2 (-1) Vb.
Hypothesis HW : weights S Vf Vb WT.
Variable Vi : nat -> nat -> R.
Hypothesis HI : forall i j, (i < N)%nat -> (j < N)%nat -> rsum N (fun k => (Vf i k + Vb i k) * Vi k j) = (if Nat.eqb i j then 1 else 0).
Variables zf zb : nat -> nat -> R -> R.
Hypothesis Tf : fwd_traj S d (fwdA S eta2 Vf) s K zf.
Hypothesis Tb : bwd_traj S d (bwdA S eta2 Vb) s 0 K zb.
Let A := ent (aA S).
Let B := ent (aB S).
Let Kc := obsK S eta2.
Let Q i j := rsum (sL S) (fun l => B i l * B j l).
Let V i j := Vf i j + Vb i j.

Definition adj_state (i n : nat) (t : R) : R := rsum N (fun j => Vi n j * (zb i j t - zf i j t)).
Definition opt_state (i n : nat) (t : R) : R := zf i n t + rsum N (fun j => Vf n j * adj_state i j t).
Definition opt_input (i l : nat) (t : R) : R := rsum N (fun n => B n l * adj_state i n t).
Local Notation p := adj_state.
Local Notation m := opt_state.

Lemma Vi_right (x : nat -> R) i : (i < N)%nat -> rsum N (fun k => V i k * rsum N (fun j => Vi k j * x j)) = x i.
Proof.
  intros Hi. rewrite <- rsum_comp. rewrite (rsum_ext N _ (fun j => if Nat.eqb j i then x j else 0)); [now apply rsum_single|].
  intros j Hj. unfold V. rewrite HI by assumption. rewrite (Nat.eqb_sym i j). destruct (Nat.eqb j i); ring.
Qed.
Lemma V_symm i j : (i < N)%nat -> (j < N)%nat -> V i j = V j i.
Proof. intros Hi Hj. unfold V. destruct QF as [E _], QB as [E' _]. now rewrite (E i j Hi Hj), (E' i j Hi Hj). Qed.
Lemma op_rsum n (M : nat -> nat -> R) x i : op (K := Rring) n M x i = rsum n (fun j => M i j * x j).
Proof. unfold op. apply ksum_rsum. Qed.
Lemma mul_rsum n (M M' : nat -> nat -> R) i j : mul (K := Rring) n M M' i j = rsum n (fun k => M i k * M' k j).
Proof. unfold mul. apply ksum_rsum. Qed.
Lemma V_injR : inj_V (K := Rring) N Vf Vb.
Proof.
  intros x Hx i Hi. change (x i = 0).
  transitivity (rsum N (fun k => Vi k i * rsum N (fun j => V k j * x j))).
  - rewrite (rsum_adj N N V (fun k => Vi k i) x). symmetry. rewrite (rsum_ext N _ (fun j => if Nat.eqb j i then x j else 0)); [now apply rsum_single|]. intros j Hj.
    rewrite (rsum_ext N _ (fun k => (Vf j k + Vb j k) * Vi k i)) by (intros k Hk; fold (V j k); now rewrite V_symm).
    rewrite HI by assumption. destruct (Nat.eqb j i); ring.
  - apply rsum_zero. intros k Hk. specialize (Hx k Hk). rewrite op_rsum in Hx. change (rsum N (fun j => V k j * x j) = 0) in Hx. rewrite Hx. ring.
Qed.
Lemma ricFR : ric_fwd (K := Rring) N A Q Kc Vf.
Proof.
  intros i j Hi Hj. destruct QF as [_ R]. specialize (R i j Hi Hj). rewrite !mul_rsum. 
  rewrite (rsum_ext N (fun k => Vf i k * mul (K := Rring) N Kc Vf k j) (fun k => Vf i k * rsum N (fun l => obsK S eta2 k l * Vf l j))) by (intros; now rewrite mul_rsum).
  change (rsum N (fun k => A i k * Vf k j) + rsum N (fun k => Vf i k * A j k) + Q i j - rsum N (fun k => Vf i k * rsum N (fun l => obsK S eta2 k l * Vf l j)) = 0).
  unfold A, Q, B, N. lra.
Qed.
Lemma ricBR : ric_bwd (K := Rring) N A Q Kc Vb.
Proof.
  intros i j Hi Hj. destruct QB as [_ R]. specialize (R i j Hi Hj). rewrite !mul_rsum. 
  rewrite (rsum_ext N (fun k => Vb i k * mul (K := Rring) N Kc Vb k j) (fun k => Vb i k * rsum N (fun l => obsK S eta2 k l * Vb l j))) by (intros; now rewrite mul_rsum).
  change (- rsum N (fun k => A i k * Vb k j) - rsum N (fun k => Vb i k * A j k) + Q i j - rsum N (fun k => Vb i k * rsum N (fun l => obsK S eta2 k l * Vb l j)) = 0).
  unfold A, Q, B, N. lra.
Qed.

Section OnePeriod.
Variable i : nat.
Hypothesis Hi : (i < K)%nat.
Let g n t := ctl S d (s i) n t.
Let dzf n t := rsum N (fun k => fwdA S eta2 Vf n k * zf i k t) + g n t.
Let dzb n t := rsum N (fun k => bwdA S eta2 Vb n k * zb i k t) + g n t.
Let dp n t := rsum N (fun j => Vi n j * (dzb j t - dzf j t)).

Lemma pw_zf n : (n < N)%nat -> pw T (zf i n) (dzf n).
Proof. intros Hn. destruct (proj2 Tf i Hi) as [SF _]. apply (pw_of_sol S T _ _ _ _ SF Hn). Qed.
Lemma pw_zb n : (n < N)%nat -> pw T (zb i n) (dzb n).
Proof. intros Hn. destruct (proj2 Tb i ltac:(lia)) as [SF _]. apply (pw_of_sol S T _ _ _ _ SF Hn). Qed.
Lemma pw_p n : (n < N)%nat -> pw T (p i n) (dp n).
Proof.
  intros Hn. apply (pw_sum T N (fun j t => Vi n j * (zb i j t - zf i j t)) (fun j t => Vi n j * (dzb j t - dzf j t))). intros j Hj. apply pw_scale.
  apply (pw_ext T (fun t => zb i j t + - zf i j t) (fun t => dzb j t + - dzf j t)); [intros; ring|intros; ring|]. apply pw_plus; [now apply pw_zb|apply pw_opp; now apply pw_zf].
Qed.
Lemma split_filter (M : nat -> nat -> R) c z n : rsum N (fun k => (A n k + c * rsum N (fun j => M n j * Kc j k)) * z k) = rsum N (fun k => A n k * z k) + c * rsum N (fun j => M n j * rsum N (fun k => Kc j k * z k)).
Proof.
  rewrite <- (rsum_comp N N M Kc z n), <- rsum_scale, <- rsum_add. apply rsum_ext. intros; ring.
Qed.
Lemma smooth t : (forall n, (n < N)%nat -> dp n t = rsum N (fun k => Kc n k * m i k t) - rsum N (fun k => A k n * p i k t)) /\
  forall n, (n < N)%nat -> dzf n t + rsum N (fun j => Vf n j * dp j t) = rsum N (fun k => A n k * m i k t) + (rsum (sL S) (fun l => B n l * opt_input i l t) + g n t).
Proof.
  destruct (smoother (K := Rring) N A Q Kc Vf Vb (fun n => zf i n t) (fun n => zb i n t) (fun n => p i n t) (fun n => dzf n t) (fun n => dzb n t) (fun n => dp n t) (fun n => g n t) ricFR ricBR V_injR) as [E1 E2].
  - intros n Hn. rewrite !op_rsum. rewrite (rsum_ext N (fun j => Vf n j * op (K := Rring) N Kc (fun n => zf i n t) j) (fun j => Vf n j * rsum N (fun k => Kc j k * zf i k t))) by (intros; now rewrite op_rsum).
    change (dzf n t = rsum N (fun k => A n k * zf i k t) - rsum N (fun j => Vf n j * rsum N (fun k => Kc j k * zf i k t)) + g n t). unfold dzf. f_equal.
    rewrite (rsum_ext N _ (fun k => (A n k + (-1) * rsum N (fun j => Vf n j * Kc j k)) * zf i k t)) by (intros; unfold fwdA; fold N A Kc; ring). rewrite split_filter. ring.
  - intros n Hn. rewrite !op_rsum. rewrite (rsum_ext N (fun j => Vb n j * op (K := Rring) N Kc (fun n => zb i n t) j) (fun j => Vb n j * rsum N (fun k => Kc j k * zb i k t))) by (intros; now rewrite op_rsum).
    change (dzb n t = rsum N (fun k => A n k * zb i k t) + rsum N (fun j => Vb n j * rsum N (fun k => Kc j k * zb i k t)) + g n t). unfold dzb. f_equal.
    rewrite (rsum_ext N _ (fun k => (A n k + 1 * rsum N (fun j => Vb n j * Kc j k)) * zb i k t)) by (intros; unfold bwdA; fold N A Kc; ring). rewrite split_filter. ring.
  - intros n Hn. rewrite op_rsum. symmetry. exact (Vi_right (fun j => zb i j t - zf i j t) n Hn).
  - intros n Hn. rewrite op_rsum. symmetry. exact (Vi_right (fun j => dzb j t - dzf j t) n Hn).
  - assert (EM : forall k, op (K := Rring) N Vf (fun n => p i n t) k = rsum N (fun j => Vf k j * p i j t)) by (intros; apply op_rsum). split.
    + intros n Hn. assert (X := E1 n Hn). rewrite !op_rsum in X.
      change (dp n t = rsum N (fun j => Kc n j * (zf i j t + op (K := Rring) N Vf (fun n => p i n t) j)) - rsum N (fun k => A k n * p i k t)) in X.
      rewrite X. f_equal. apply rsum_ext. intros k _. now rewrite EM.
    + intros n Hn. assert (X := E2 n Hn). rewrite !op_rsum in X. change (dzf n t + rsum N (fun j => Vf n j * dp j t) = rsum N (fun j => A n j * (zf i j t + op (K := Rring) N Vf (fun n => p i n t) j)) + rsum N (fun j => Q n j * p i j t) + g n t) in X.
      rewrite X, Rplus_assoc. f_equal; [apply rsum_ext; intros k _; now rewrite EM|]. f_equal. unfold opt_input, Q. rewrite (rsum_comp (sL S) N B (fun l j => B j l) (fun j => p i j t) n). reflexivity.
Qed.
Lemma p_adjoint n : (n < N)%nat -> pw T (p i n) (fun t => rsum N (fun k => Kc n k * m i k t) - rsum N (fun k => A k n * p i k t)).
Proof. intros Hn. apply (pw_ext T (p i n) (dp n)); [reflexivity| |now apply pw_p]. intros t _. now apply smooth. Qed.
Lemma m_sol : sol N A T (fun n t => rsum (sL S) (fun l => B n l * opt_input i l t) + g n t) (m i).
Proof.
  apply (sol_of_pw S). intros n Hn. apply (pw_ext T (fun t => zf i n t + rsum N (fun j => Vf n j * p i j t)) (fun t => dzf n t + rsum N (fun j => Vf n j * dp j t))); [reflexivity|intros t _; now apply smooth|].
  apply pw_plus; [now apply pw_zf|]. apply (pw_sum T N (fun j t => Vf n j * p i j t) (fun j t => Vf n j * dp j t)). intros j Hj. apply pw_scale. now apply pw_p.
Qed.
Lemma power_cont t : 0 <= t <= T -> continuity_pt (power S eta2 (opt_input i) (m i)) t.
Proof.
  intros Ht. unfold power. assert (SQ : forall f, continuity_pt f t -> continuity_pt (fun t => Rsqr (f t)) t) by (intros f Hf; unfold Rsqr; now apply (continuity_pt_mult f f)).
  apply (continuity_pt_plus (fun t => rsum (sL S) (fun l => Rsqr (opt_input i l t))) (fun t => / eta2 * rsum (sNt S) (fun r => Rsqr (rsum (sN S) (fun n => ent (aCT S) r n * m i n t))))).
  - apply (continuity_rsum (sL S) (fun l t => Rsqr (opt_input i l t))). intros l _. apply (SQ (opt_input i l)). apply (continuity_rsum N (fun n t => B n l * p i n t)). intros n Hn.
    apply (continuity_pt_scal (p i n)). apply (pw_p n Hn). exact Ht.
  - apply (continuity_pt_scal (fun t => rsum (sNt S) (fun r => Rsqr (rsum (sN S) (fun n => ent (aCT S) r n * m i n t))))).
    apply (continuity_rsum (sNt S) (fun r t => Rsqr (rsum (sN S) (fun n => ent (aCT S) r n * m i n t)))). intros r _. apply (SQ (fun t => rsum (sN S) (fun n => ent (aCT S) r n * m i n t))).
    apply (continuity_rsum (sN S) (fun n t => ent (aCT S) r n * m i n t)). intros n Hn. apply (continuity_pt_scal (m i n)). apply (proj1 m_sol); assumption.
Qed.
Lemma next_state n : (n < N)%nat -> m (i + 1) n 0 = m i n T /\ p (i + 1) n 0 = p i n T.
Proof.
  intros Hn. assert (P : forall n, p (i + 1) n 0 = p i n T).
  { intros k. unfold adj_state. apply rsum_ext. intros j Hj. rewrite (proj2 (proj2 Tf i Hi) j Hj), (proj2 (proj2 Tb i ltac:(lia)) j Hj). reflexivity. }
  split; [|apply P]. unfold opt_state. rewrite (proj2 (proj2 Tf i Hi) n Hn). f_equal. apply rsum_ext. intros j _. now rewrite P.
Qed.
End OnePeriod.

Lemma opt_explains : explains S d K s opt_input m.
Proof. intros i Hi. split; [exact (m_sol i Hi)|]. intros n Hn. exact (proj1 (next_state i Hi n Hn)). Qed.
Lemma opt_input_weights i l t : (l < sL S)%nat -> opt_input i l t = rsum N (fun n => ent WT l n * (zb i n t - zf i n t)).
Proof.
  intros Hl. destruct HW as (_ & _ & W). unfold opt_input.
  rewrite (rsum_ext N (fun n => ent WT l n * (zb i n t - zf i n t)) (fun n => ent WT l n * rsum N (fun k => V n k * p i k t))) by (intros n Hn; f_equal; symmetry; exact (Vi_right (fun j => zb i j t - zf i j t) n Hn)).
  rewrite (rsum_adj N N V (ent WT l) (fun k => p i k t)). apply rsum_ext. intros k Hk. f_equal. unfold B. rewrite <- (W k l Hk Hl). apply rsum_ext. intros j Hj. fold (V k j). now rewrite V_symm.
Qed.
Lemma m_start n : (n < N)%nat -> m 0 n 0 = rsum N (fun j => Vf n j * p 0 j 0).
Proof. intros Hn. unfold opt_state. rewrite (proj1 Tf n Hn). ring. Qed.
Lemma m_end n : (n < N)%nat -> m K n 0 = rsum N (fun j => Vb n j * - p K j 0).
Proof.
  intros Hn. unfold opt_state. assert (X := Vi_right (fun j => zb K j 0 - zf K j 0) n Hn). cbn beta in X. fold (p K) in X.
  change (rsum N (fun k => V n k * p K k 0) = zb K n 0 - zf K n 0) in X. rewrite (proj1 Tb n Hn : zb K n 0 = 0) in X.
  rewrite (rsum_ext N (fun j => Vb n j * - p K j 0) (fun j => - (Vb n j * p K j 0))) by (intros; ring). rewrite rsum_opp.
  unfold V in X. rewrite (rsum_ext N _ (fun k => Vf n k * p K k 0 + Vb n k * p K k 0)) in X by (intros; ring). rewrite rsum_add in X. lra.
Qed.

(** completing the square at an end of the window *)
Lemma quad_end (W : nat -> nat -> R) (q r : nat -> R) : (forall i j, (i < N)%nat -> (j < N)%nat -> W i j = W j i) -> psd N W ->
  2 * rsum N (fun n => r n * (rsum N (fun j => W n j * q j) - rsum N (fun j => W n j * r j))) <= quad N W q - quad N W r.
Proof.
  intros Sy P. assert (X := P (fun n => q n - r n)). unfold quad in *.
  assert (E : rsum N (fun i => (q i - r i) * rsum N (fun j => W i j * (q j - r j))) =
    rsum N (fun i => q i * rsum N (fun j => W i j * q j)) - 2 * rsum N (fun i => r i * rsum N (fun j => W i j * q j)) + rsum N (fun i => r i * rsum N (fun j => W i j * r j))).
  { assert (C : rsum N (fun i => q i * rsum N (fun j => W i j * r j)) = rsum N (fun i => r i * rsum N (fun j => W i j * q j))).
    { rewrite (rsum_adj N N W q r). apply rsum_ext. intros j Hj. rewrite Rmult_comm. f_equal. apply rsum_ext. intros i Hi. now rewrite (Sy i j). }
    rewrite (rsum_ext N _ (fun i => (q i * rsum N (fun j => W i j * q j) - q i * rsum N (fun j => W i j * r j)) + (- (r i * rsum N (fun j => W i j * q j)) + r i * rsum N (fun j => W i j * r j)))).
    2:{ intros i _. rewrite (rsum_ext N (fun j => W i j * (q j - r j)) (fun j => W i j * q j - W i j * r j)) by (intros; ring). rewrite rsum_minus. ring. }
    rewrite !rsum_add, rsum_minus, rsum_opp, C. ring. }
  rewrite E in X. rewrite (rsum_ext N (fun n => r n * (_ - _)) (fun n => r n * rsum N (fun j => W n j * q j) - r n * rsum N (fun j => W n j * r j))) by (intros; ring). rewrite rsum_minus. lra.
Qed.

Hypothesis PF : psd N Vf.
Hypothesis PB : psd N Vb.

Lemma optimal : exists I, cost S eta2 Vf Vb T K opt_input m I /\
  forall u x I', explains S d K s u x -> cost S eta2 Vf Vb T K u x I' ->
    I <= I' /\ forall D, (forall i, (i < K)%nat -> integral T (fun t => rsum (sL S) (fun l => Rsqr (u i l t - opt_input i l t))) (D i)) -> I + rsum K D <= I'.
Proof.
  assert (EX : forall i, (i < K)%nat -> exists I, integral T (power S eta2 (opt_input i) (m i)) I).
  { intros i Hi. destruct (integral_cont T _ HT (power_cont i Hi)) as (I & HI1 & _). now exists I. }
  assert (exists E, forall i, (i < K)%nat -> integral T (power S eta2 (opt_input i) (m i)) (E i)) as (E & HE).
  { clear - EX. induction K as [|k IH]; [exists (fun _ => 0); intros; lia|]. destruct IH as (E & HE); [intros; apply EX; lia|]. destruct (EX k ltac:(lia)) as (I & HI1).
    exists (fun i => if Nat.eqb i k then I else E i). intros i Hi. destruct (Nat.eqb_spec i k) as [->|]; [exact HI1|apply HE; lia]. }
  set (q0 := fun n => p 0 n 0). set (q1 := fun n => - p K n 0).
  exists (rsum K E + quad N Vf q0 + quad N Vb q1). split; [exists E, q0, q1; split; [exact HE|]; split; [exact m_start|]; split; [exact m_end|reflexivity]|].
  intros u x I' Hx (E' & r0 & r1 & HE' & X0 & X1 & ->).
  assert (G : forall (w : nat -> R -> R) D, (forall i t, (i < K)%nat -> w i t <= rsum (sL S) (fun l => Rsqr (u i l t - opt_input i l t))) -> (forall i, (i < K)%nat -> integral T (w i) (D i)) ->
    rsum K E + quad N Vf q0 + quad N Vb q1 + rsum K D <= rsum K E' + quad N Vf r0 + quad N Vb r1).
  { intros w D Hw HD. set (f i := rsum N (fun n => p i n 0 * (x i n 0 - m i n 0))).
    assert (ST : rsum K (fun i => E i + D i + 2 * (f (i + 1)%nat - f i)) <= rsum K E').
    { apply rsum_le. intros i Hi. destruct (Hx i Hi) as [Sx Nx].
      assert (Z := period_gain S eta2 T He HT (p i) (m i) (x i) (u i) (fun n t => ctl S d (s i) n t) (w i) (E i) (E' i) (D i) (fun n Hn => p_adjoint i Hi n Hn) (m_sol i Hi) Sx (HE i Hi) (HE' i Hi) (fun t => Hw i t Hi) (HD i Hi)).
      eapply Rle_trans; [|exact Z]. apply Req_le. do 3 f_equal. unfold f. apply rsum_ext. intros n Hn. destruct (next_state i Hi n Hn) as [M P]. rewrite (Nx n Hn). fold T. now rewrite M, P. }
    rewrite !rsum_add, rsum_scale, rsum_telescope in ST.
    assert (S0 := quad_end Vf r0 q0 (proj1 QF) PF). assert (S1 := quad_end Vb r1 q1 (proj1 QB) PB).
    assert (F0 : f O = rsum N (fun n => q0 n * (rsum N (fun j => Vf n j * r0 j) - rsum N (fun j => Vf n j * q0 j)))).
    { unfold f. apply rsum_ext. intros n Hn. unfold N. rewrite (X0 n Hn). fold N. now rewrite (m_start n Hn). }
    assert (F1 : f K = - rsum N (fun n => q1 n * (rsum N (fun j => Vb n j * r1 j) - rsum N (fun j => Vb n j * q1 j)))).
    { unfold f. rewrite <- rsum_opp. apply rsum_ext. intros n Hn. unfold N. rewrite (X1 n Hn). fold N. rewrite (m_end n Hn). unfold q1. ring. }
    rewrite F0, F1 in ST. lra. }
  split.
  - assert (Z := G (fun _ _ => 0) (fun _ => 0) (fun i t _ => rsum_nonneg _ _ (fun l _ => Rle_0_sqr _)) (fun i _ => integral_zero T)). rewrite (rsum_zero K (fun _ => 0)) in Z by reflexivity. fold N. lra.
  - intros D HD. apply (G (fun i t => rsum (sL S) (fun l => Rsqr (u i l t - opt_input i l t))) D); [intros; apply Rle_refl|exact HD].
Qed.
End Window.
