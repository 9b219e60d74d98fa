(** Least squares over a window of samples: what the passes of the NUV estimator compute.  The first part is the specification; it does
    not refer to the estimator. *)
From Coq Require Import List Arith Lia Bool Reals Lra.
From Coquelicot Require Import Coquelicot.
From Verif Require Import Base LinAlg FirExtras AnalogSystem Integrators IntegratorsProofs LinearOde Optimal NuvAlg.
Import ListNotations.
Open Scope R_scope.

(** *** Specification *)
(** a window of K samples: dimensions, transition, effect of the decisions, observation, prior mean and covariance, process covariance *)
Record window := mkW { w_N : nat; w_P : nat; w_K : nat; w_A : nat -> nat -> R; w_Bs : nat -> nat -> R; w_C : nat -> nat -> R; w_m : nat -> R; w_V : nat -> nat -> R; w_U : nat -> nat -> R }.
(** states x_k and disturbances: x_0 = m + V a_0, x_(k+1) = A x_k + Bs_k + U a_(k+1) *)
Definition path (w : window) (x a : nat -> nat -> R) : Prop :=
  (forall n, (n < w_N w)%nat -> x O n = w_m w n + rsum (w_N w) (fun j => w_V w n j * a O j)) /\
  forall k n, (Datatypes.S k < w_K w)%nat -> (n < w_N w)%nat ->
    x (Datatypes.S k) n = rsum (w_N w) (fun j => w_A w n j * x k j) + w_Bs w k n + rsum (w_N w) (fun j => w_U w n j * a (Datatypes.S k) j).
(** a_0^T V a_0 + sum of a_k^T U a_k, k = 1 .. K-1: the squared Mahalanobis norms of the disturbances *)
Definition energy (w : window) (a : nat -> nat -> R) : R := quad (w_N w) (w_V w) (a O) + rsum (w_K w - 1) (fun k => quad (w_N w) (w_U w) (a (Datatypes.S k))).
(** the observed outputs C^T x_k *)
Definition output (w : window) (x : nat -> nat -> R) (k r : nat) : R := rsum (w_N w) (fun n => w_C w r n * x k n).
(** distances of the outputs from the bounds b and -b, weighted by variances *)
Definition misfit (w : window) (b : R) (s1 s2 : nat -> nat -> R) (x : nat -> nat -> R) : R :=
  rsum (w_K w) (fun k => rsum (w_P w) (fun r => (output w x k r - b) ^ 2 / s1 k r + (output w x k r + b) ^ 2 / s2 k r)).
Definition total (w : window) (b : R) (s1 s2 : nat -> nat -> R) (x a : nat -> nat -> R) : R := energy w a + misfit w b s1 s2 x.
(** Huber's function with slope 2 gamma and floor eps *)
Definition huber (gamma eps z : R) : R := if Rle_dec (gamma * eps) (Rabs z) then 2 * gamma * Rabs z else z ^ 2 / eps + gamma ^ 2 * eps.
(** energy plus a penalty on the outputs outside of the bounds *)
Definition robust (w : window) (b gamma eps : R) (x a : nat -> nat -> R) : R :=
  energy w a + rsum (w_K w) (fun k => rsum (w_P w) (fun r => huber gamma eps (output w x k r - b) + huber gamma eps (output w x k r + b))).

(** *** Stationary points *)
(** [p] are the adjoint variables of (x, - p): p_k = A^T p_(k+1) + C e_k with the weighted residuals e_k *)
Definition resid (w : window) (b : R) (s1 s2 : nat -> nat -> R) (x : nat -> nat -> R) (k r : nat) : R :=
  (output w x k r - b) / s1 k r + (output w x k r + b) / s2 k r.
Definition stationary (w : window) (b : R) (s1 s2 : nat -> nat -> R) (x p : nat -> nat -> R) : Prop :=
  path w x (fun k n => - p k n) /\
  forall k n, (k < w_K w)%nat -> (n < w_N w)%nat ->
    p k n = (if Nat.ltb (Datatypes.S k) (w_K w) then apT (w_N w) (w_A w) (p (Datatypes.S k)) n else 0) + apT (w_P w) (w_C w) (resid w b s1 s2 x k) n.

Section Min.
Variable w : window.
Let N := w_N w. Let P := w_P w. Let K := w_K w. Let A := w_A w. Let C := w_C w. Let V := w_V w. Let U := w_U w.
Variable b : R.
Variables s1 s2 : nat -> nat -> R.
Hypothesis HK : (0 < K)%nat.
Hypothesis HV : symm N V.
Hypothesis HU : symm N U.
Hypothesis H1 : forall k r, (k < K)%nat -> (r < P)%nat -> 0 < s1 k r.
Hypothesis H2 : forall k r, (k < K)%nat -> (r < P)%nat -> 0 < s2 k r.

Lemma quad_shift M q e : symm N M -> quad N M (fun i => q i + e i) = quad N M q + 2 * dotr N q (ap N M e) + quad N M e.
Proof.
  intros HM. rewrite !quad_dotr. rewrite (dotr_ext N (fun i => q i + e i) (fun i => q i + e i) (ap N M (fun i => q i + e i)) (fun i => ap N M q i + ap N M e i)); [|intros i _; reflexivity|intros i _; apply ap_add].
  rewrite dotr_add. rewrite !(dotr_comm N (fun i => q i + e i)), !dotr_add. rewrite (dotr_comm N (ap N M q) q), (dotr_comm N (ap N M q) e), (dotr_comm N (ap N M e) q), (dotr_comm N (ap N M e) e), (form_symm N M e q HM). ring.
Qed.
Lemma penalty_shift v e t1 t2 : 0 < t1 -> 0 < t2 ->
  (v + e - b) ^ 2 / t1 + (v + e + b) ^ 2 / t2 = ((v - b) ^ 2 / t1 + (v + b) ^ 2 / t2) + 2 * (((v - b) / t1 + (v + b) / t2) * e) + (e ^ 2 / t1 + e ^ 2 / t2).
Proof. intros. field. lra. Qed.

(** the difference of two paths *)
Definition homogeneous (e d : nat -> nat -> R) : Prop :=
  (forall n, (n < N)%nat -> e O n = ap N V (d O) n) /\
  forall k n, (Datatypes.S k < K)%nat -> (n < N)%nat -> e (Datatypes.S k) n = ap N A (e k) n + ap N U (d (Datatypes.S k)) n.

Lemma difference x a x' a' : path w x a -> path w x' a' -> homogeneous (fun k n => x' k n - x k n) (fun k n => a' k n - a k n).
Proof.
  intros [P0 P1] [Q0 Q1]. fold N K in P0, P1, Q0, Q1. split.
  - intros n Hn. rewrite Q0, P0 by exact Hn. rewrite ap_sub. unfold ap, V. ring.
  - intros k n Hk Hn. rewrite Q1, P1 by assumption. rewrite !ap_sub. unfold ap, U, A. ring.
Qed.

Lemma cross x p e d : stationary w b s1 s2 x p -> homogeneous e d ->
  rsum K (fun k => dotr P (resid w b s1 s2 x k) (ap N C (e k))) = dotr N (p O) (ap N V (d O)) + rsum (K - 1) (fun k => dotr N (p (Datatypes.S k)) (ap N U (d (Datatypes.S k)))).
Proof.
  intros [_ St] [E0 E1]. fold N P K A C in St.
  assert (X : forall j, (j < K)%nat -> rsum (Datatypes.S j) (fun k => dotr P (resid w b s1 s2 x k) (ap N C (e k))) =
     dotr N (p O) (ap N V (d O)) + rsum j (fun k => dotr N (p (Datatypes.S k)) (ap N U (d (Datatypes.S k)))) - dotr N (fun n => if Nat.ltb (Datatypes.S j) K then apT N A (p (Datatypes.S j)) n else 0) (e j)).
  { assert (Y : forall j, (j < K)%nat -> dotr P (resid w b s1 s2 x j) (ap N C (e j)) = dotr N (p j) (e j) - dotr N (fun n => if Nat.ltb (Datatypes.S j) K then apT N A (p (Datatypes.S j)) n else 0) (e j)).
    { intros j Hj. rewrite dotr_adj. rewrite (dotr_ext N (p j) (fun n => (if Nat.ltb (Datatypes.S j) K then apT N A (p (Datatypes.S j)) n else 0) + apT P C (resid w b s1 s2 x j) n) (e j) (e j)) by (intros n Hn; auto).
      rewrite (dotr_comm N (fun n => _ + _)), dotr_add, !(dotr_comm N (e j)). ring. }
    induction j; intros Hj.
    - rewrite rsum_S, !rsum_0, Y by exact Hj. rewrite (dotr_ext N (p O) (p O) (e O) (ap N V (d O))) by (intros n Hn; auto). ring.
    - rewrite rsum_S, IHj, Y by lia. rewrite rsum_S. destruct (Nat.ltb_spec (Datatypes.S j) K); [|lia].
      rewrite (dotr_ext N (p (Datatypes.S j)) (p (Datatypes.S j)) (e (Datatypes.S j)) (fun n => ap N A (e j) n + ap N U (d (Datatypes.S j)) n)) by (intros n Hn; auto).
      rewrite dotr_add. change (dotr N (fun n => apT N A (p (Datatypes.S j)) n) (e j)) with (dotr N (apT N A (p (Datatypes.S j))) (e j)). rewrite <- dotr_adj. ring. }
  specialize (X (K - 1)%nat ltac:(lia)). replace (Datatypes.S (K - 1)) with K in X by lia. rewrite X, Nat.ltb_irrefl.
  rewrite (dotr_comm N (fun _ => 0)). unfold dotr at 3. rewrite (rsum_zero N (fun i => e (K - 1)%nat i * 0)) by (intros; ring). ring.
Qed.

(** the cost of every other path is that of the stationary one plus the cost of the difference *)
Definition spread (e d : nat -> nat -> R) : R :=
  quad N V (d O) + rsum (K - 1) (fun k => quad N U (d (Datatypes.S k))) +
  rsum K (fun k => rsum P (fun r => (ap N C (e k) r) ^ 2 / s1 k r + (ap N C (e k) r) ^ 2 / s2 k r)).
Lemma pythagoras x p x' a' : stationary w b s1 s2 x p -> path w x' a' ->
  total w b s1 s2 x' a' = total w b s1 s2 x (fun k n => - p k n) + spread (fun k n => x' k n - x k n) (fun k n => a' k n + p k n).
Proof.
  intros St Pa. assert (Df : homogeneous (fun k n => x' k n - x k n) (fun k n => a' k n + p k n)).
  { destruct (difference _ _ _ _ (proj1 St) Pa) as [D0 D1]. split; [intros n Hn; rewrite D0 by exact Hn|intros k n Hk Hn; rewrite D1 by assumption; f_equal]; apply ap_ext; intros i _; ring. }
  assert (Cr := cross x p _ _ St Df).
  set (e := fun k n => x' k n - x k n) in *. set (d := fun k n => a' k n + p k n) in *.
  assert (Q : forall M k, symm N M -> quad N M (a' k) = quad N M (fun n => - p k n) + - (2) * dotr N (p k) (ap N M (d k)) + quad N M (d k)).
  { intros M k HM. transitivity (quad N M (fun i => - p k i + d k i)).
    - unfold quad. apply rsum_ext. intros i _. unfold d. f_equal; [ring|]. apply rsum_ext. intros j _. ring.
    - rewrite (quad_shift M (fun i => - p k i) (d k) HM). f_equal. f_equal. replace (dotr N (fun i => - p k i) (ap N M (d k))) with (- dotr N (p k) (ap N M (d k))); [ring|].
      unfold dotr. rewrite <- rsum_opp. apply rsum_ext. intros; ring. }
  unfold total, energy, misfit, spread. fold N P K V U. rewrite (Q V O HV).
  rewrite (rsum_ext (K - 1) (fun k => quad N U (a' (Datatypes.S k))) (fun k => quad N U (fun n => - p (Datatypes.S k) n) + - (2) * dotr N (p (Datatypes.S k)) (ap N U (d (Datatypes.S k))) + quad N U (d (Datatypes.S k)))) by (intros; apply Q, HU).
  rewrite !rsum_add, rsum_scale.
  assert (Mf : rsum K (fun k => rsum P (fun r => (output w x' k r - b) ^ 2 / s1 k r + (output w x' k r + b) ^ 2 / s2 k r)) =
     rsum K (fun k => rsum P (fun r => (output w x k r - b) ^ 2 / s1 k r + (output w x k r + b) ^ 2 / s2 k r)) + 2 * rsum K (fun k => dotr P (resid w b s1 s2 x k) (ap N C (e k))) +
     rsum K (fun k => rsum P (fun r => (ap N C (e k) r) ^ 2 / s1 k r + (ap N C (e k) r) ^ 2 / s2 k r))).
  { rewrite <- rsum_scale, <- !rsum_add. apply rsum_ext. intros k Hk. unfold dotr. rewrite <- rsum_scale, <- !rsum_add. apply rsum_ext. intros r Hr.
    replace (output w x' k r) with (output w x k r + ap N C (e k) r); [rewrite penalty_shift by auto; unfold resid; ring|].
    unfold output, ap. fold N C. rewrite <- rsum_add. apply rsum_ext. intros n _. unfold e. ring. }
  rewrite Mf, Cr. ring.
Qed.
Hypothesis PV : psd N V.
Hypothesis PU : psd N U.
Lemma spread_nonneg e d : 0 <= spread e d.
Proof.
  unfold spread. apply Rplus_le_le_0_compat; [apply Rplus_le_le_0_compat; [apply PV|apply rsum_nonneg; intros; apply PU]|].
  apply rsum_nonneg. intros k Hk. apply rsum_nonneg. intros r Hr. apply Rplus_le_le_0_compat; (apply Rmult_le_pos; [apply pow2_ge_0|]); apply Rlt_le, Rinv_0_lt_compat; auto.
Qed.
Lemma minimal x p x' a' : stationary w b s1 s2 x p -> path w x' a' -> total w b s1 s2 x (fun k n => - p k n) <= total w b s1 s2 x' a'.
Proof. intros St Pa. rewrite (pythagoras x p x' a' St Pa). assert (X := spread_nonneg (fun k n => x' k n - x k n) (fun k n => a' k n + p k n)). lra. Qed.
(** zero of a nonnegative form *)
Lemma quad_zero M q : symm N M -> psd N M -> quad N M q = 0 -> forall i, (i < N)%nat -> ap N M q i = 0.
Proof.
  intros HM PM Z i Hi.
  assert (X : forall t y, 0 <= t * t * quad N M y + 2 * t * dotr N y (ap N M q)).
  { intros t y. assert (H := PM (fun j => q j + t * y j)). rewrite (quad_shift M q (fun j => t * y j) HM), Z in H.
    rewrite (quad_dotr N M (fun j => t * y j)) in H.
    assert (E1 : dotr N q (ap N M (fun j => t * y j)) = t * dotr N y (ap N M q)).
    { rewrite (form_symm N M y q HM). unfold dotr. rewrite <- rsum_scale. apply rsum_ext. intros j _. rewrite ap_scale. ring. }
    assert (E2 : dotr N (fun j => t * y j) (ap N M (fun j => t * y j)) = t * t * quad N M y).
    { rewrite quad_dotr. unfold dotr. rewrite <- rsum_scale. apply rsum_ext. intros j _. rewrite ap_scale. ring. }
    rewrite E1, E2 in H. lra. }
  set (y := fun j => if Nat.eqb j i then 1 else 0). assert (Ey : dotr N y (ap N M q) = ap N M q i) by (apply dotr_unit; exact Hi).
  set (D := dotr N y (ap N M q)) in *. rewrite <- Ey.
  assert (Qn := PM y). set (Q := quad N M y) in *.
  destruct (Req_dec D 0) as [E|E]; [exact E|exfalso].
  assert (Z2 := X (- D / (Q + 1)) y). fold Q D in Z2.
  assert (E3 : - D / (Q + 1) * (- D / (Q + 1)) * Q + 2 * (- D / (Q + 1)) * D = - (D * D * (Q + 2)) / ((Q + 1) * (Q + 1))) by (field; lra).
  rewrite E3 in Z2. assert (0 < D * D * (Q + 2)) by (apply Rmult_lt_0_compat; [nra|lra]).
  assert (0 < / ((Q + 1) * (Q + 1))) by (apply Rinv_0_lt_compat; nra). unfold Rdiv in Z2. nra.
Qed.
(** every path with minimal cost has the same states and the same disturbances V a_0, U a_k *)
Lemma unique_min x p x' a' : stationary w b s1 s2 x p -> path w x' a' -> total w b s1 s2 x' a' <= total w b s1 s2 x (fun k n => - p k n) ->
  (forall k n, (k < K)%nat -> (n < N)%nat -> x' k n = x k n) /\
  (forall n, (n < N)%nat -> ap N V (fun j => a' O j + p O j) n = 0) /\
  forall k n, (Datatypes.S k < K)%nat -> (n < N)%nat -> ap N U (fun j => a' (Datatypes.S k) j + p (Datatypes.S k) j) n = 0.
Proof.
  intros St Pa Le. rewrite (pythagoras x p x' a' St Pa) in Le.
  assert (Z0 : quad N V (fun j => a' O j + p O j) = 0 /\ rsum (K - 1) (fun k => quad N U (fun j => a' (Datatypes.S k) j + p (Datatypes.S k) j)) = 0).
  { unfold spread in Le.
    assert (A1 := PV (fun j => a' O j + p O j)). assert (A2 : 0 <= rsum (K - 1) (fun k => quad N U (fun j => a' (Datatypes.S k) j + p (Datatypes.S k) j))) by (apply rsum_nonneg; intros; apply PU).
    assert (A3 : 0 <= rsum K (fun k => rsum P (fun r => (ap N C (fun n => x' k n - x k n) r) ^ 2 / s1 k r + (ap N C (fun n => x' k n - x k n) r) ^ 2 / s2 k r))).
    { apply rsum_nonneg. intros k Hk. apply rsum_nonneg. intros r Hr. apply Rplus_le_le_0_compat; (apply Rmult_le_pos; [apply pow2_ge_0|]); apply Rlt_le, Rinv_0_lt_compat; auto. }
    split; lra. }
  destruct Z0 as [Z0 Z1].
  assert (B0 : forall n, (n < N)%nat -> ap N V (fun j => a' O j + p O j) n = 0) by (intros; now apply quad_zero).
  assert (B1 : forall k n, (Datatypes.S k < K)%nat -> (n < N)%nat -> ap N U (fun j => a' (Datatypes.S k) j + p (Datatypes.S k) j) n = 0).
  { intros k n Hk Hn. apply quad_zero; auto. destruct (Req_dec (quad N U (fun j => a' (Datatypes.S k) j + p (Datatypes.S k) j)) 0) as [E|E]; [exact E|exfalso].
    assert (X := rsum_pos (K - 1) (fun k => quad N U (fun j => a' (Datatypes.S k) j + p (Datatypes.S k) j)) k (fun i _ => PU _) ltac:(lia)). cbv beta in X.
    assert (Y := PU (fun j => a' (Datatypes.S k) j + p (Datatypes.S k) j)). rewrite Z1 in X. specialize (X ltac:(lra)). lra. }
  split; [|split; assumption].
  destruct (difference _ _ _ _ (proj1 St) Pa) as [D0 D1].
  intros k. induction k; intros n Hk Hn.
  - specialize (D0 n Hn). cbv beta in D0. rewrite (ap_ext N V _ (fun j => a' O j + p O j)), B0 in D0 by (auto; intros i _; ring). lra.
  - specialize (D1 k n Hk Hn). cbv beta in D1. rewrite (ap_ext N U _ (fun j => a' (Datatypes.S k) j + p (Datatypes.S k) j)), B1 in D1 by (auto; intros i _; ring).
    unfold ap in D1. rewrite rsum_zero in D1; [lra|]. intros j Hj. rewrite IHk by lia. ring.
Qed.
End Min.

(** *** Descent *)
Lemma huber_le gamma eps s z : 0 < gamma -> 0 < eps -> eps <= s -> huber gamma eps z <= z ^ 2 / s + gamma ^ 2 * s.
Proof.
  intros Hg He Hs. unfold huber. replace (z ^ 2) with (Rabs z ^ 2) by apply pow2_abs.
  assert (0 <= Rabs z) by apply Rabs_pos. set (r := Rabs z) in *. destruct (Rle_dec (gamma * eps) r) as [L|L].
  - replace (r ^ 2 / s + gamma ^ 2 * s) with (2 * gamma * r + (r - gamma * s) ^ 2 / s) by (field; lra).
    assert (0 <= (r - gamma * s) ^ 2 / s) by (apply Rmult_le_pos; [apply pow2_ge_0|apply Rlt_le, Rinv_0_lt_compat; lra]). lra.
  - apply Rnot_le_lt in L. assert (E : r ^ 2 / s + gamma ^ 2 * s - (r ^ 2 / eps + gamma ^ 2 * eps) = (s - eps) * (gamma ^ 2 * (s * eps) - r ^ 2) / (s * eps)) by (field; lra).
    assert (0 <= (s - eps) * (gamma ^ 2 * (s * eps) - r ^ 2) / (s * eps)); [|lra].
    assert (r ^ 2 <= (gamma * eps) ^ 2) by (apply pow_incr; lra). assert (0 < s * eps) by (apply Rmult_lt_0_compat; lra).
    assert ((gamma * eps) ^ 2 <= gamma ^ 2 * (s * eps)). { replace (gamma ^ 2 * (s * eps)) with ((gamma * gamma * eps) * s) by ring. replace ((gamma * eps) ^ 2) with (gamma * gamma * eps * eps) by ring. apply Rmult_le_compat_l; [|lra]. apply Rmult_le_pos; [nra|lra]. }
    apply Rmult_le_pos; [apply Rmult_le_pos; lra|apply Rlt_le, Rinv_0_lt_compat; lra].
Qed.
Lemma huber_eq gamma eps z : 0 < gamma -> 0 < eps -> let s := Rmax (Rabs z / gamma) eps in huber gamma eps z = z ^ 2 / s + gamma ^ 2 * s.
Proof.
  intros Hg He s. unfold huber, s. replace (z ^ 2) with (Rabs z ^ 2) by apply pow2_abs.
  assert (0 <= Rabs z) by apply Rabs_pos. set (r := Rabs z) in *. destruct (Rle_dec (gamma * eps) r) as [L|L].
  - assert (eps <= r / gamma) by (apply Rle_div_r; lra). assert (0 < r) by (assert (0 < gamma * eps) by (apply Rmult_lt_0_compat; lra); lra).
    rewrite Rmax_left by lra. field. split; lra.
  - apply Rnot_le_lt in L. assert (r / gamma <= eps) by (apply Rle_div_l; lra). now rewrite Rmax_right.
Qed.
Lemma huber_bounds gamma eps z : 0 < gamma -> 0 < eps -> 2 * gamma * Rabs z <= huber gamma eps z <= 2 * gamma * Rabs z + gamma ^ 2 * eps.
Proof.
  intros Hg He. unfold huber. replace (z ^ 2) with (Rabs z ^ 2) by apply pow2_abs.
  assert (0 <= Rabs z) by apply Rabs_pos. set (r := Rabs z) in *. assert (0 <= gamma ^ 2 * eps) by (apply Rmult_le_pos; [apply pow2_ge_0|lra]). destruct (Rle_dec (gamma * eps) r) as [L|L]; [lra|].
  apply Rnot_le_lt in L. split.
  - replace (r ^ 2 / eps + gamma ^ 2 * eps) with (2 * gamma * r + (r - gamma * eps) ^ 2 / eps) by (field; lra).
    assert (0 <= (r - gamma * eps) ^ 2 / eps) by (apply Rmult_le_pos; [apply pow2_ge_0|apply Rlt_le, Rinv_0_lt_compat; lra]). lra.
  - assert (r ^ 2 / eps <= 2 * gamma * r); [|lra]. apply Rle_div_l; [lra|]. assert (0 <= r * (gamma * eps - r)) by (apply Rmult_le_pos; lra). assert (0 <= r * (gamma * eps)) by (apply Rmult_le_pos; nra). nra.
Qed.
Section Descent.
Variable w : window.
Variables b gamma eps : R.
Hypothesis Hg : 0 < gamma.
Hypothesis He : 0 < eps.
Hypothesis HK : (0 < w_K w)%nat.
Hypothesis HV : symm (w_N w) (w_V w).
Hypothesis HU : symm (w_N w) (w_U w).
Hypothesis PV : psd (w_N w) (w_V w).
Hypothesis PU : psd (w_N w) (w_U w).
(** the variances fitted to a path *)
Definition fitted (x s1 s2 : nat -> nat -> R) : Prop := forall k r, (k < w_K w)%nat -> (r < w_P w)%nat ->
  s1 k r = Rmax (Rabs (output w x k r - b) / gamma) eps /\ s2 k r = Rmax (Rabs (output w x k r + b) / gamma) eps.
Definition slack (s1 s2 : nat -> nat -> R) : R := rsum (w_K w) (fun k => rsum (w_P w) (fun r => gamma ^ 2 * s1 k r + gamma ^ 2 * s2 k r)).
Lemma robust_le s1 s2 x a : (forall k r, (k < w_K w)%nat -> (r < w_P w)%nat -> eps <= s1 k r /\ eps <= s2 k r) ->
  robust w b gamma eps x a <= total w b s1 s2 x a + slack s1 s2.
Proof.
  intros H. unfold robust, total, misfit, slack. rewrite Rplus_assoc. apply Rplus_le_compat_l. rewrite <- rsum_add. apply rsum_le. intros k Hk. rewrite <- rsum_add.
  apply rsum_le. intros r Hr. destruct (H k r Hk Hr). assert (X1 := huber_le gamma eps (s1 k r) (output w x k r - b) Hg He ltac:(assumption)).
  assert (X2 := huber_le gamma eps (s2 k r) (output w x k r + b) Hg He ltac:(assumption)). lra.
Qed.
Lemma robust_eq s1 s2 x a : fitted x s1 s2 -> robust w b gamma eps x a = total w b s1 s2 x a + slack s1 s2.
Proof.
  intros H. unfold robust, total, misfit, slack. rewrite Rplus_assoc. f_equal. rewrite <- rsum_add. apply rsum_ext. intros k Hk. rewrite <- rsum_add.
  apply rsum_ext. intros r Hr. destruct (H k r Hk Hr) as [E1 E2]. rewrite E1, E2. rewrite !(huber_eq gamma eps _ Hg He). cbv zeta. ring.
Qed.
Lemma fitted_pos x s1 s2 : fitted x s1 s2 -> forall k r, (k < w_K w)%nat -> (r < w_P w)%nat -> eps <= s1 k r /\ eps <= s2 k r.
Proof. intros H k r Hk Hr. destruct (H k r Hk Hr) as [-> ->]. split; apply Rmax_r. Qed.
Lemma descent s1 s2 x a x' p' : path w x a -> fitted x s1 s2 -> stationary w b s1 s2 x' p' -> robust w b gamma eps x' (fun k n => - p' k n) <= robust w b gamma eps x a.
Proof.
  intros Pa Fi St. assert (B := fitted_pos _ _ _ Fi). rewrite (robust_eq s1 s2 x a Fi).
  apply Rle_trans with (1 := robust_le s1 s2 x' _ B). apply Rplus_le_compat_r.
  apply (minimal w b s1 s2 HK HV HU); auto; intros k r Hk Hr; destruct (B k r Hk Hr); lra.
Qed.
End Descent.
