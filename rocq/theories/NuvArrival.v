(** What the message carried over between the batches of the NUV estimator says. *)
From Coq Require Import List Arith Lia Bool Reals Lra.
From Verif Require Import Base LinAlg FirExtras AnalogSystem Integrators IntegratorsProofs LinearOde Optimal NuvAlg NuvCost.
Import ListNotations.
Open Scope R_scope.

(** *** Specification *)
(** a path up to the state x_k, its cost without the outputs of x_k *)
Definition path_to (w : window) (k : nat) (x a : nat -> nat -> R) : Prop :=
  (forall n, (n < w_N w)%nat -> x O n = w_m w n + rsum (w_N w) (fun j => w_V w n j * a O j)) /\
  forall i n, (i < k)%nat -> (n < w_N w)%nat -> x (Datatypes.S i) n = rsum (w_N w) (fun j => w_A w n j * x i j) + w_Bs w i n + rsum (w_N w) (fun j => w_U w n j * a (Datatypes.S i) j).
Definition cost_to (w : window) (b : R) (s1 s2 : nat -> nat -> R) (k : nat) (x a : nat -> nat -> R) : R :=
  quad (w_N w) (w_V w) (a O) + rsum k (fun i => quad (w_N w) (w_U w) (a (Datatypes.S i))) +
  rsum k (fun i => rsum (w_P w) (fun r => (output w x i r - b) ^ 2 / s1 i r + (output w x i r + b) ^ 2 / s2 i r)).
(** *** Algebra *)
Definition adj_path (w : window) (b : R) (s1 s2 : nat -> nat -> R) (k : nat) (x p : nat -> nat -> R) : Prop :=
  path_to w k x (fun i n => - p i n) /\
  forall i n, (i < k)%nat -> (n < w_N w)%nat -> p i n = apT (w_N w) (w_A w) (p (Datatypes.S i)) n + apT (w_P w) (w_C w) (resid w b s1 s2 x i) n.
Section Alg.
Variables (w : window) (b : R) (s1 s2 : nat -> nat -> R) (k : nat).
Notation N := (w_N w). Notation P := (w_P w).
Hypothesis HV : symm N (w_V w).
Hypothesis HU : symm N (w_U w).
Hypothesis PV : psd N (w_V w).
Hypothesis PU : psd N (w_U w).
Hypothesis H1 : forall i r, (i < k)%nat -> (r < P)%nat -> 0 < s1 i r.
Hypothesis H2 : forall i r, (i < k)%nat -> (r < P)%nat -> 0 < s2 i r.
Lemma cross_to x p e g : adj_path w b s1 s2 k x p -> (forall i n, (i < k)%nat -> (n < N)%nat -> e (Datatypes.S i) n = ap N (w_A w) (e i) n + g i n) ->
  rsum k (fun i => dotr P (resid w b s1 s2 x i) (ap N (w_C w) (e i))) = dotr N (p O) (e O) + rsum k (fun i => dotr N (p (Datatypes.S i)) (g i)) - dotr N (p k) (e k).
Proof.
  intros [_ St] E1. assert (X : forall j, (j <= k)%nat -> rsum j (fun i => dotr P (resid w b s1 s2 x i) (ap N (w_C w) (e i))) = dotr N (p O) (e O) + rsum j (fun i => dotr N (p (Datatypes.S i)) (g i)) - dotr N (p j) (e j)).
  { induction j; intros Hj; [rewrite !rsum_0; ring|]. rewrite !rsum_S, IHj by lia.
    rewrite (dotr_ext N (p (Datatypes.S j)) (p (Datatypes.S j)) (e (Datatypes.S j)) (fun n => ap N (w_A w) (e j) n + g j n)) by (intros n Hn; auto). rewrite dotr_add.
    rewrite (dotr_ext N (p j) (fun n => apT N (w_A w) (p (Datatypes.S j)) n + apT P (w_C w) (resid w b s1 s2 x j) n) (e j) (e j)) by (intros n Hn; auto).
    rewrite (dotr_comm N (fun n => _ + _)), dotr_add, !(dotr_comm N (e j)). rewrite (dotr_adj P N), (dotr_adj N N). ring. }
  apply X. lia.
Qed.
Definition spread_to (e d : nat -> nat -> R) : R := quad N (w_V w) (d O) + rsum k (fun i => quad N (w_U w) (d (Datatypes.S i))) +
  rsum k (fun i => rsum P (fun r => (ap N (w_C w) (e i) r) ^ 2 / s1 i r + (ap N (w_C w) (e i) r) ^ 2 / s2 i r)).
Lemma spread_to_nonneg e d : 0 <= spread_to e d.
Proof.
  unfold spread_to. apply Rplus_le_le_0_compat; [apply Rplus_le_le_0_compat; [apply PV|apply rsum_nonneg; intros; apply PU]|].
  apply rsum_nonneg. intros i Hi. apply rsum_nonneg. intros r Hr. apply Rplus_le_le_0_compat; (apply Rmult_le_pos; [apply pow2_ge_0|]); apply Rlt_le, Rinv_0_lt_compat; auto.
Qed.
Lemma quad_neg M q : quad N M (fun n => - q n) = quad N M q.
Proof. unfold quad. apply rsum_ext. intros i _. rewrite (rsum_ext N (fun j => M i j * - q j) (fun j => - (M i j * q j))) by (intros; ring). rewrite rsum_opp. ring. Qed.
Lemma ap_neg M q i : ap N M (fun n => - q n) i = - ap N M q i.
Proof. unfold ap. rewrite <- rsum_opp. apply rsum_ext. intros; ring. Qed.
Lemma spread_to_even e d e' d' : (forall i n, e' i n = - e i n) -> (forall i n, d' i n = - d i n) -> spread_to e' d' = spread_to e d.
Proof.
  intros E D. unfold spread_to. assert (Q : forall M i, quad N M (d' i) = quad N M (d i)).
  { intros M i. rewrite <- (quad_neg M (d i)). unfold quad. apply rsum_ext. intros a _. rewrite D. f_equal. apply rsum_ext. intros c _. now rewrite D. }
  rewrite Q. f_equal; [f_equal; apply rsum_ext; intros; apply Q|]. apply rsum_ext. intros i _. apply rsum_ext. intros r _.
  rewrite (ap_ext N (w_C w) (e' i) (fun n => - e i n)) by (intros n _; apply E). rewrite ap_neg. f_equal; f_equal; ring.
Qed.
Lemma pythagoras_to x p x' a' : adj_path w b s1 s2 k x p -> path_to w k x' a' ->
  cost_to w b s1 s2 k x' a' = cost_to w b s1 s2 k x (fun i n => - p i n) + spread_to (fun i n => x' i n - x i n) (fun i n => a' i n + p i n) - 2 * dotr N (p k) (fun n => x' k n - x k n).
Proof.
  intros St [Q0 Q1]. assert (St' := St). destruct St' as [[P0 P1] _].
  set (e := fun i n => x' i n - x i n). set (d := fun i n => a' i n + p i n).
  assert (E0 : forall n, (n < N)%nat -> e O n = ap N (w_V w) (d O) n).
  { intros n Hn. unfold e, d. rewrite Q0, P0 by exact Hn. rewrite ap_add. unfold ap. rewrite (rsum_ext N (fun j => w_V w n j * - p O j) (fun j => - (w_V w n j * p O j))) by (intros; ring). rewrite rsum_opp. ring. }
  assert (E1 : forall i n, (i < k)%nat -> (n < N)%nat -> e (Datatypes.S i) n = ap N (w_A w) (e i) n + ap N (w_U w) (d (Datatypes.S i)) n).
  { intros i n Hi Hn. unfold e, d. rewrite Q1, P1 by assumption. rewrite ap_add, ap_sub. unfold ap. rewrite (rsum_ext N (fun j => w_U w n j * - p (Datatypes.S i) j) (fun j => - (w_U w n j * p (Datatypes.S i) j))) by (intros; ring). rewrite rsum_opp. ring. }
  assert (Cr := cross_to x p e (fun i => ap N (w_U w) (d (Datatypes.S i))) St E1). rewrite (dotr_ext N (p O) (p O) (e O) (ap N (w_V w) (d O))) in Cr by (intros n Hn; auto).
  assert (Q : forall M i, symm N M -> quad N M (a' i) = quad N M (fun n => - p i n) + - (2) * dotr N (p i) (ap N M (d i)) + quad N M (d i)).
  { intros M i HM. transitivity (quad N M (fun n => - p i n + d i n)).
    - unfold quad. apply rsum_ext. intros n _. unfold d. f_equal; [ring|]. apply rsum_ext. intros j _. ring.
    - rewrite (quad_shift w M (fun n => - p i n) (d i) HM). f_equal. f_equal. replace (dotr N (fun n => - p i n) (ap N M (d i))) with (- dotr N (p i) (ap N M (d i))); [ring|].
      unfold dotr. rewrite <- rsum_opp. apply rsum_ext. intros; ring. }
  unfold cost_to, spread_to. rewrite (Q (w_V w) O HV).
  rewrite (rsum_ext k (fun i => quad N (w_U w) (a' (Datatypes.S i))) (fun i => quad N (w_U w) (fun n => - p (Datatypes.S i) n) + - (2) * dotr N (p (Datatypes.S i)) (ap N (w_U w) (d (Datatypes.S i))) + quad N (w_U w) (d (Datatypes.S i)))) by (intros; apply Q, HU).
  rewrite !rsum_add, rsum_scale.
  assert (Mf : rsum k (fun i => rsum P (fun r => (output w x' i r - b) ^ 2 / s1 i r + (output w x' i r + b) ^ 2 / s2 i r)) =
     rsum k (fun i => rsum P (fun r => (output w x i r - b) ^ 2 / s1 i r + (output w x i r + b) ^ 2 / s2 i r)) + 2 * rsum k (fun i => dotr P (resid w b s1 s2 x i) (ap N (w_C w) (e i))) +
     rsum k (fun i => rsum P (fun r => (ap N (w_C w) (e i) r) ^ 2 / s1 i r + (ap N (w_C w) (e i) r) ^ 2 / s2 i r))).
  { rewrite <- rsum_scale, <- !rsum_add. apply rsum_ext. intros i Hi. unfold dotr. rewrite <- rsum_scale, <- !rsum_add. apply rsum_ext. intros r Hr.
    replace (output w x' i r) with (output w x i r + ap N (w_C w) (e i) r).
    - assert (A1 := H1 i r Hi Hr). assert (A2 := H2 i r Hi Hr). unfold resid. field. lra.
    - unfold output, ap. rewrite <- rsum_add. apply rsum_ext. intros n _. unfold e. ring. }
  rewrite Mf, Cr. change (fun n => x' k n - x k n) with (e k). ring.
Qed.
Lemma adj_cost m' V' q x p x0 p0 : adj_path w b s1 s2 k x0 p0 -> (forall n, (n < N)%nat -> p0 k n = 0) -> (forall n, (n < N)%nat -> x0 k n = m' n) ->
  adj_path w b s1 s2 k x p -> (forall n, (n < N)%nat -> p k n = - q n) -> (forall n, (n < N)%nat -> x k n = m' n + ap N V' q n) ->
  cost_to w b s1 s2 k x (fun i n => - p i n) = cost_to w b s1 s2 k x0 (fun i n => - p0 i n) + quad N V' q.
Proof.
  intros A0 Z0 X00 A Hp Hx. assert (Y1 := pythagoras_to x0 p0 x _ A0 (proj1 A)). assert (Y2 := pythagoras_to x p x0 _ A (proj1 A0)). cbv beta in Y1, Y2.
  rewrite (spread_to_even (fun i n => x i n - x0 i n) (fun i n => - p i n + p0 i n)) in Y2 by (intros; ring).
  replace (dotr N (p0 k) (fun n => x k n - x0 k n)) with 0 in Y1 by (symmetry; apply rsum_zero; intros n Hn; rewrite Z0 by exact Hn; ring).
  replace (dotr N (p k) (fun n => x0 k n - x k n)) with (quad N V' q) in Y2 by (rewrite quad_dotr; apply rsum_ext; intros n Hn; rewrite Hp, Hx, X00 by exact Hn; ring).
  lra.
Qed.
End Alg.
