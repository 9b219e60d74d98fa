(** The message carried over between the batches of the NUV estimator in continuous time. *)
From Coq Require Import List Arith Lia Bool Reals Lra ZArith.
From Flocq Require Import Core.
From Verif Require Import Base LinAlg FirExtras AnalogSystem AnalogProofs Signals DigitalControl Integrators IntegratorsProofs Simulator Stability LinearOde LinearExist PreSim Zpk FilterCoeff
  FilterCoeffProofs FilterOde FilterRun Estimators Optimal NuvAlg NuvCost NuvArrival Nuv NuvProofs NuvPass NuvRun NuvBatch NuvCoeff NuvCont.
Import ListNotations.
Open Scope R_scope.

(** *** Specification *)
(** the cost of a trajectory up to the beginning of period k, without the outputs at this time *)
Definition reach_cost (S : asys Rring) (T cov b : R) (w : window) (k : nat) (s1 s2 : nat -> nat -> R) (u x : nat -> nat -> R -> R) (I : R) : Prop :=
  exists a0 E, (forall n, (n < w_N w)%nat -> x O n 0 = w_m w n + rsum (w_N w) (fun j => w_V w n j * a0 j)) /\
    (forall i, (i < k)%nat -> input_energy S T (u i) (E i)) /\
    I = quad (w_N w) (w_V w) a0 + rsum k (fun i => E i / cov ^ 2) +
        rsum k (fun i => rsum (w_P w) (fun r => (output w (fun i n => x i n 0) i r - b) ^ 2 / s1 i r + (output w (fun i n => x i n 0) i r + b) ^ 2 / s2 i r)).
(** the least cost at which a state z is reached is c0 + (z - m')^T V'^-1 (z - m'), in the form that also covers singular V': attained for
    z = m' + V' q, and as a lower bound for all z and q *)
Definition carried (S : asys Rring) (d : dc) (T cov b : R) (w : window) (s1 s2 s : nat -> nat -> R) (k : nat) (m' : nat -> R) (V' : nat -> nat -> R) : Prop :=
  exists c0, (forall q, exists u x, trajectory S d T (Datatypes.S k) s u x /\ (forall n, (n < sN S)%nat -> x k n 0 = m' n + ap (sN S) V' q n) /\ reach_cost S T cov b w k s1 s2 u x (c0 + quad (sN S) V' q)) /\
    forall u x I q, trajectory S d T (Datatypes.S k) s u x -> reach_cost S T cov b w k s1 s2 u x I -> c0 + 2 * dotr (sN S) q (fun n => x k n 0 - m' n) - quad (sN S) V' q <= I.

(** *** Proofs *)
Section Carry.
Variables (S : asys Rring) (d : dc) (ivp : (R -> list R -> result (list R)) -> R -> R -> list R -> result (list R)) (expm : rmat -> R -> result rmat).
Hypothesis NS : nuv_sound S d ivp expm.
Hypothesis FI : fits S d.
Variables (cov T : R) (Af Bf Vu : rmat).
Hypothesis HT : 0 <= T <= ck_T (d_clk d).
Hypothesis HC : nuv_coefficients ivp expm S d cov T = Ok (Af, Bf, Vu).
Hypothesis Hcov : cov <> 0.
Notation N := (sN S).
Variables (w : window) (b : R) (s1 s2 : nat -> nat -> R) (s : nat -> nat -> R) (k : nat).
Notation P := (w_P w).
Hypothesis WN : w_N w = N.
Hypothesis WA : w_A w = ent Af.
Hypothesis WB : forall k, w_Bs w k = ap (sM S) (ent Bf) (s k).
Hypothesis WU : w_U w = ent Vu.
Hypothesis WV : symm N (w_V w).
Hypothesis WP : psd N (w_V w).
Hypothesis H1 : forall i r, (i < k)%nat -> (r < P)%nat -> 0 < s1 i r.
Hypothesis H2 : forall i r, (i < k)%nat -> (r < P)%nat -> 0 < s2 i r.
Let wk := mkW (w_N w) (w_P w) (Datatypes.S k) (w_A w) (w_Bs w) (w_C w) (w_m w) (w_V w) (w_U w).
Let VS : symm N (ent Vu) := Vu_symm S d ivp expm NS FI cov T Af Bf Vu HT HC.
Let VP : psd N (ent Vu) := Vu_psd S d ivp expm NS FI cov T Af Bf Vu HT HC.

Section One.
Variables x p : nat -> nat -> R.
Hypothesis A : adj_path w b s1 s2 k x p.
Let Pth : path wk x (fun i n => - p i n).
Proof. destruct A as [[P0 P1] _]. split; [exact P0|]. intros i n Hi Hn. cbn [wk w_K] in Hi. apply P1; [lia|exact Hn]. Qed.
Lemma carry_best : exists u x', trajectory S d T (Datatypes.S k) s u x' /\ (forall n, (n < N)%nat -> x' k n 0 = x k n) /\ reach_cost S T cov b w k s1 s2 u x' (cost_to w b s1 s2 k x (fun i n => - p i n)).
Proof.
  assert (HK : (0 < w_K wk)%nat) by (cbn; lia).
  destruct (adjoints S d ivp expm NS FI cov T Af Bf Vu HT HC wk WN HK p) as [lam HL].
  destruct (best_exists S d ivp expm NS FI cov T Af Bf Vu HT HC wk s WN WA WB WU HK x p Pth lam HL) as (x' & Tr & X).
  exists (fun i => adjoint_input S cov (lam i)), x'. split; [exact Tr|]. split; [intros n Hn; apply X; [cbn; lia|exact Hn]|].
  exists (fun n => - p O n), (fun i => cov ^ 2 * quad N (ent Vu) (fun n => - p (Datatypes.S i) n)). split; [|split].
  - intros n Hn. rewrite WN in Hn. rewrite X by (cbn; lia || exact Hn). apply A. rewrite WN. exact Hn.
  - intros i Hi. apply (adjoint_energy S d ivp expm NS FI cov T Af Bf Vu HT HC). apply HL. cbn. lia.
  - unfold cost_to. rewrite WN, WU. f_equal; [f_equal; apply rsum_ext; intros; field; exact Hcov|]. apply rsum_ext. intros i Hi. apply rsum_ext. intros r Hr.
    replace (output w (fun i n => x' i n 0) i r) with (output w x i r); [reflexivity|]. unfold output. apply rsum_ext. intros n Hn. rewrite WN in Hn. rewrite X by (cbn; lia || exact Hn). reflexivity.
Qed.
Lemma carry_bound u x' I : trajectory S d T (Datatypes.S k) s u x' -> reach_cost S T cov b w k s1 s2 u x' I ->
  cost_to w b s1 s2 k x (fun i n => - p i n) - 2 * dotr N (p k) (fun n => x' k n 0 - x k n) <= I.
Proof.
  intros Tr (a0 & E & X0 & HE & ->). rewrite WN in X0.
  assert (C2 : 0 < cov ^ 2) by (rewrite <- Rsqr_pow2; apply Rlt_0_sqr; exact Hcov). assert (C3 : 0 < / cov ^ 2) by now apply Rinv_0_lt_compat.
  assert (QO : forall M q, quad N M (fun n => - q n) = quad N M q) by (intros; unfold quad; apply rsum_ext; intros i _; rewrite (rsum_ext N (fun j => M i j * - q j) (fun j => - (M i j * q j))) by (intros; ring); rewrite rsum_opp; ring).
  set (inn := fun i => innovation S T Af Bf (s i) (x' i)).
  assert (EL : forall i, (i < k)%nat -> - (2 * dotr N (p (Datatypes.S i)) (inn i)) - quad N (ent Vu) (p (Datatypes.S i)) <= E i / cov ^ 2).
  { intros i Hi. destruct (Tr i ltac:(lia)) as [Di _]. assert (X := energy_least S d ivp expm NS FI cov T Af Bf Vu HT HC (s i) (u i) (x' i) (fun n => - p (Datatypes.S i) n) (E i) Di (HE i Hi)). rewrite QO in X. fold (inn i) in X.
    replace (dotr N (fun n => - p (Datatypes.S i) n) (inn i)) with (- dotr N (p (Datatypes.S i)) (inn i)) in X by (unfold dotr; rewrite <- rsum_opp; apply rsum_ext; intros; ring).
    replace (- (2 * dotr N (p (Datatypes.S i)) (inn i)) - quad N (ent Vu) (p (Datatypes.S i))) with ((2 * cov ^ 2 * - dotr N (p (Datatypes.S i)) (inn i) - cov ^ 2 * quad N (ent Vu) (p (Datatypes.S i))) / cov ^ 2) by (field; lra).
    unfold Rdiv. apply Rmult_le_compat_r; lra. }
  set (e := fun i n => x' i n 0 - x i n).
  assert (E0 : forall n, (n < N)%nat -> e O n = ap N (w_V w) (fun j => a0 j + p O j) n).
  { intros n Hn. destruct A as [[P0 _] _]. rewrite WN in P0. unfold e. rewrite X0, P0 by exact Hn. rewrite ap_add. unfold ap. rewrite (rsum_ext N (fun j => w_V w n j * - p O j) (fun j => - (w_V w n j * p O j))) by (intros; ring). rewrite rsum_opp. ring. }
  assert (E1 : forall i n, (i < k)%nat -> (n < w_N w)%nat -> e (Datatypes.S i) n = ap (w_N w) (w_A w) (e i) n + (inn i n + ap N (ent Vu) (p (Datatypes.S i)) n)).
  { intros i n Hi Hn. assert (Y := sampled S d T Af Bf Vu wk s WN WA WB WU x p Pth u x' Tr i n). cbn [wk w_K w_N w_A] in Y. apply Y; [lia|exact Hn]. }
  assert (Cr := cross_to w b s1 s2 k x p e (fun i n => inn i n + ap N (ent Vu) (p (Datatypes.S i)) n) A E1). rewrite WN in Cr.
  rewrite (dotr_ext N (p O) (p O) (e O) (ap N (w_V w) (fun j => a0 j + p O j))) in Cr by (intros n Hn; auto).
  rewrite (rsum_ext k (fun i => dotr N (p (Datatypes.S i)) (fun n => inn i n + ap N (ent Vu) (p (Datatypes.S i)) n)) (fun i => dotr N (p (Datatypes.S i)) (inn i) + quad N (ent Vu) (p (Datatypes.S i)))) in Cr by (intros; rewrite dotr_add; f_equal; symmetry; apply quad_dotr).
  rewrite rsum_add in Cr.
  assert (Mf : rsum k (fun i => rsum P (fun r => (output w (fun i n => x' i n 0) i r - b) ^ 2 / s1 i r + (output w (fun i n => x' i n 0) i r + b) ^ 2 / s2 i r)) =
     rsum k (fun i => rsum P (fun r => (output w x i r - b) ^ 2 / s1 i r + (output w x i r + b) ^ 2 / s2 i r)) + 2 * rsum k (fun i => dotr P (resid w b s1 s2 x i) (ap N (w_C w) (e i))) +
     rsum k (fun i => rsum P (fun r => (ap N (w_C w) (e i) r) ^ 2 / s1 i r + (ap N (w_C w) (e i) r) ^ 2 / s2 i r))).
  { rewrite <- rsum_scale, <- !rsum_add. apply rsum_ext. intros i Hi. unfold dotr. rewrite <- rsum_scale, <- !rsum_add. apply rsum_ext. intros r Hr.
    replace (output w (fun i n => x' i n 0) i r) with (output w x i r + ap N (w_C w) (e i) r).
    - assert (A1 := H1 i r Hi Hr). assert (A2 := H2 i r Hi Hr). unfold resid. field. lra.
    - unfold output, ap. rewrite WN, <- rsum_add. apply rsum_ext. intros n _. unfold e. ring. }
  rewrite Mf. unfold cost_to. rewrite WN, WU, QO. rewrite (rsum_ext k (fun i => quad N (ent Vu) (fun n => - p (Datatypes.S i) n)) (fun i => quad N (ent Vu) (p (Datatypes.S i)))) by (intros; apply QO).
  assert (Sq : 0 <= rsum k (fun i => rsum P (fun r => (ap N (w_C w) (e i) r) ^ 2 / s1 i r + (ap N (w_C w) (e i) r) ^ 2 / s2 i r))).
  { apply rsum_nonneg. intros i Hi. apply rsum_nonneg. intros r Hr. apply Rplus_le_le_0_compat; (apply Rmult_le_pos; [apply pow2_ge_0|]); apply Rlt_le, Rinv_0_lt_compat; auto. }
  assert (Qa : quad N (w_V w) (fun j => a0 j + p O j) = quad N (w_V w) a0 + 2 * dotr N (p O) (ap N (w_V w) a0) + quad N (w_V w) (p O)).
  { rewrite !quad_dotr. rewrite (dotr_ext N (fun j => a0 j + p O j) (fun j => a0 j + p O j) _ (fun n => ap N (w_V w) a0 n + ap N (w_V w) (p O) n)) by (intros n Hn; auto using ap_add).
    rewrite dotr_add, !(dotr_comm N (fun j => a0 j + p O j)), !dotr_add, (dotr_comm N (ap N (w_V w) a0) (p O)), (dotr_comm N (ap N (w_V w) (p O)) a0), (form_symm N (w_V w) a0 (p O) WV), !(dotr_comm N (ap N (w_V w) _)). ring. }
  rewrite (dotr_ext N (p O) (p O) (ap N (w_V w) (fun j => a0 j + p O j)) (fun n => ap N (w_V w) a0 n + ap N (w_V w) (p O) n)) in Cr by (intros n Hn; auto using ap_add). rewrite dotr_add, <- (quad_dotr N (w_V w) (p O)) in Cr.
  assert (Qp := WP (fun j => a0 j + p O j)). assert (Es := rsum_le k _ _ EL). cbv beta in Es.
  rewrite (rsum_ext k (fun i => - (2 * dotr N (p (Datatypes.S i)) (inn i)) - quad N (ent Vu) (p (Datatypes.S i))) (fun i => (-2) * dotr N (p (Datatypes.S i)) (inn i) + (-1) * quad N (ent Vu) (p (Datatypes.S i)))) in Es by (intros; ring).
  rewrite rsum_add, !rsum_scale in Es. change (fun n => x' k n 0 - x k n) with (e k). lra.
Qed.
End One.
Lemma carried_of m' V' : symm N V' -> (forall q, exists x p, adj_path w b s1 s2 k x p /\ (forall n, (n < N)%nat -> p k n = - q n) /\ forall n, (n < N)%nat -> x k n = m' n + ap N V' q n) ->
  carried S d T cov b w s1 s2 s k m' V'.
Proof.
  intros SV HA. destruct (HA (fun _ => 0)) as (x0 & p0 & A0 & Z0 & X0).
  assert (Z00 : forall n, (n < w_N w)%nat -> p0 k n = 0). { intros n Hn. rewrite WN in Hn. rewrite Z0 by exact Hn. ring. }
  assert (X00 : forall n, (n < w_N w)%nat -> x0 k n = m' n). { intros n Hn. rewrite WN in Hn. rewrite X0 by exact Hn. unfold ap. rewrite rsum_zero; [ring|intros; ring]. }
  exists (cost_to w b s1 s2 k x0 (fun i n => - p0 i n)).
  assert (Key : forall q x p, adj_path w b s1 s2 k x p -> (forall n, (n < N)%nat -> p k n = - q n) -> (forall n, (n < N)%nat -> x k n = m' n + ap N V' q n) ->
    cost_to w b s1 s2 k x (fun i n => - p i n) = cost_to w b s1 s2 k x0 (fun i n => - p0 i n) + quad N V' q).
  { intros q x p A Hp Hx. rewrite <- WN in Hp, Hx |- *. apply (adj_cost w b s1 s2 k) with m'; auto; rewrite ?WN, ?WU; auto. }
  split.
  - intros q. destruct (HA q) as (x & p & A & Hp & Hx). destruct (carry_best x p A) as (u & x' & Tr & Xk & RC). exists u, x'. split; [exact Tr|]. split; [intros n Hn; rewrite Xk by exact Hn; now apply Hx|].
    rewrite <- (Key q x p A Hp Hx). exact RC.
  - intros u x I q Tr RC. destruct (HA q) as (xq & pq & A & Hp & Hx). assert (Y := carry_bound xq pq A u x I Tr RC).
    rewrite (Key q xq pq A Hp Hx) in Y. rewrite (dotr_ext N (pq k) (fun n => -1 * q n) _ (fun n => (x k n 0 - m' n) - ap N V' q n)) in Y by (intros n Hn; rewrite ?Hp, ?Hx by exact Hn; ring).
    replace (dotr N (fun n => -1 * q n) (fun n => x k n 0 - m' n - ap N V' q n)) with (- (dotr N q (fun n => x k n 0 - m' n) - quad N V' q)) in Y; [lra|].
    rewrite quad_dotr, <- dotr_sub. unfold dotr. rewrite <- rsum_opp. apply rsum_ext. intros; ring.
Qed.
End Carry.
