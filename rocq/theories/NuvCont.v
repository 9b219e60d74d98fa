(** The batches of the NUV estimator in continuous time: the least squares path is that of the input of least energy. *)
From Coq Require Import List Arith Lia Bool Reals Lra ZArith.
From Flocq Require Import Core.
From Verif Require Import Base LinAlg FirExtras AnalogSystem AnalogProofs Signals DigitalControl Integrators IntegratorsProofs Simulator Stability LinearOde LinearExist PreSim Zpk FilterCoeff
  FilterCoeffProofs FilterOde FilterRun Estimators Optimal NuvAlg NuvCost Nuv NuvProofs NuvPass NuvRun NuvBatch NuvCoeff.
Import ListNotations.
Open Scope R_scope.

(** *** Specification *)
(** the state of the analog system over K - 1 periods of length T under the inputs u_k and the decisions s_k *)
Definition trajectory (S : asys Rring) (d : dc) (T : R) (K : nat) (s : nat -> nat -> R) (u x : nat -> nat -> R -> R) : Prop :=
  forall k, (Datatypes.S k < K)%nat -> driven S d T (s k) (u k) (x k) /\ forall n, (n < sN S)%nat -> x (Datatypes.S k) n 0 = x k n T.
(** deviation of the start from the prior m, V; energy of the input in units of cov^2; distance of the outputs, at the period
    boundaries, from the bounds *)
Definition input_cost (S : asys Rring) (T cov b : R) (w : window) (s1 s2 : nat -> nat -> R) (u x : nat -> nat -> R -> R) (I : R) : Prop :=
  exists a0 E, (forall n, (n < w_N w)%nat -> x O n 0 = w_m w n + rsum (w_N w) (fun j => w_V w n j * a0 j)) /\
    (forall k, (Datatypes.S k < w_K w)%nat -> input_energy S T (u k) (E k)) /\
    I = quad (w_N w) (w_V w) a0 + rsum (w_K w - 1) (fun k => E k / cov ^ 2) + misfit w b s1 s2 (fun k n => x k n 0).

(** *** Proofs *)
Lemma lin_zero D Q : 0 <= Q -> (forall t, 0 <= t * t * Q + 2 * t * D) -> D = 0.
Proof.
  intros HQ X. destruct (Req_dec D 0) as [E|E]; [exact E|exfalso]. assert (Z2 := X (- D / (Q + 1))).
  assert (E3 : - D / (Q + 1) * (- D / (Q + 1)) * Q + 2 * (- D / (Q + 1)) * D = - (D * D * (Q + 2)) / ((Q + 1) * (Q + 1))) by (field; lra).
  rewrite E3 in Z2. assert (0 < D * D * (Q + 2)) by (apply Rmult_lt_0_compat; [nra|lra]).
  assert (0 < / ((Q + 1) * (Q + 1))) by (apply Rinv_0_lt_compat; nra). unfold Rdiv in Z2. nra.
Qed.
Section Cross.
Variables (w : window) (b : R) (s1 s2 : nat -> nat -> R).
Notation N := (w_N w). Notation P := (w_P w). Notation K := (w_K w).
Hypothesis HK : (0 < K)%nat.
Lemma cross_gen x p e g : stationary w b s1 s2 x p -> (forall k n, (Datatypes.S k < K)%nat -> (n < N)%nat -> e (Datatypes.S k) n = ap N (w_A w) (e k) n + g k n) ->
  rsum K (fun k => dotr P (resid w b s1 s2 x k) (ap N (w_C w) (e k))) = dotr N (p O) (e O) + rsum (K - 1) (fun k => dotr N (p (Datatypes.S k)) (g k)).
Proof.
  intros [_ St] E1.
  assert (X : forall j, (j < K)%nat -> rsum (Datatypes.S j) (fun k => dotr P (resid w b s1 s2 x k) (ap N (w_C w) (e k))) =
     dotr N (p O) (e O) + rsum j (fun k => dotr N (p (Datatypes.S k)) (g k)) - dotr N (fun n => if Nat.ltb (Datatypes.S j) K then apT N (w_A w) (p (Datatypes.S j)) n else 0) (e j)).
  { assert (Y : forall j, (j < K)%nat -> dotr P (resid w b s1 s2 x j) (ap N (w_C w) (e j)) = dotr N (p j) (e j) - dotr N (fun n => if Nat.ltb (Datatypes.S j) K then apT N (w_A w) (p (Datatypes.S j)) n else 0) (e j)).
    { intros j Hj. rewrite dotr_adj. rewrite (dotr_ext N (p j) (fun n => (if Nat.ltb (Datatypes.S j) K then apT N (w_A w) (p (Datatypes.S j)) n else 0) + apT P (w_C w) (resid w b s1 s2 x j) n) (e j) (e j)) by (intros n Hn; auto).
      rewrite (dotr_comm N (fun n => _ + _)), dotr_add, !(dotr_comm N (e j)). ring. }
    induction j; intros Hj.
    - rewrite rsum_S, !rsum_0, Y by exact Hj. ring.
    - rewrite rsum_S, IHj, Y by lia. rewrite rsum_S. destruct (Nat.ltb_spec (Datatypes.S j) K); [|lia].
      rewrite (dotr_ext N (p (Datatypes.S j)) (p (Datatypes.S j)) (e (Datatypes.S j)) (fun n => ap N (w_A w) (e j) n + g j n)) by (intros n Hn; auto).
      rewrite dotr_add. change (dotr N (fun n => apT N (w_A w) (p (Datatypes.S j)) n) (e j)) with (dotr N (apT N (w_A w) (p (Datatypes.S j))) (e j)). rewrite <- dotr_adj. ring. }
  specialize (X (K - 1)%nat ltac:(lia)). replace (Datatypes.S (K - 1)) with K in X by lia. rewrite X, Nat.ltb_irrefl.
  rewrite (dotr_comm N (fun _ => 0)). unfold dotr at 3. rewrite (rsum_zero N (fun i => e (K - 1)%nat i * 0)) by (intros; ring). ring.
Qed.
Hypothesis H1 : forall k r, (k < K)%nat -> (r < P)%nat -> 0 < s1 k r.
Hypothesis H2 : forall k r, (k < K)%nat -> (r < P)%nat -> 0 < s2 k r.
Definition squares (e : nat -> nat -> R) : R := rsum K (fun k => rsum P (fun r => (ap N (w_C w) (e k) r) ^ 2 / s1 k r + (ap N (w_C w) (e k) r) ^ 2 / s2 k r)).
Lemma squares_nonneg e : 0 <= squares e.
Proof. apply rsum_nonneg. intros k Hk. apply rsum_nonneg. intros r Hr. apply Rplus_le_le_0_compat; (apply Rmult_le_pos; [apply pow2_ge_0|]); apply Rlt_le, Rinv_0_lt_compat; auto. Qed.
Lemma misfit_shift x x' : misfit w b s1 s2 x' = misfit w b s1 s2 x + 2 * rsum K (fun k => dotr P (resid w b s1 s2 x k) (ap N (w_C w) (fun n => x' k n - x k n))) + squares (fun k n => x' k n - x k n).
Proof.
  unfold misfit, squares. rewrite <- rsum_scale, <- !rsum_add. apply rsum_ext. intros k Hk. unfold dotr. rewrite <- rsum_scale, <- !rsum_add. apply rsum_ext. intros r Hr.
  replace (output w x' k r) with (output w x k r + ap N (w_C w) (fun n => x' k n - x k n) r).
  - assert (A1 := H1 k r Hk Hr). assert (A2 := H2 k r Hk Hr). unfold resid. field. lra.
  - unfold output, ap. rewrite <- rsum_add. apply rsum_ext. intros n _. ring.
Qed.
End Cross.

Section Cont.
Variables (S : asys Rring) (d : dc) (ivp : (R -> list R -> result (list R)) -> R -> R -> list R -> result (list R)) (expm : rmat -> R -> result rmat).
Hypothesis NS : nuv_sound S d ivp expm.
Hypothesis FI : fits S d.
Variables (cov T : R) (Af Bf Vu : rmat).
Hypothesis HT : 0 <= T <= ck_T (d_clk d).
Hypothesis HC : nuv_coefficients ivp expm S d cov T = Ok (Af, Bf, Vu).
Hypothesis Hcov : cov <> 0.
Notation N := (sN S).
Let VS : symm N (ent Vu) := Vu_symm S d ivp expm NS FI cov T Af Bf Vu HT HC.
Let VP : psd N (ent Vu) := Vu_psd S d ivp expm NS FI cov T Af Bf Vu HT HC.

Lemma steer_exists s x0 q lam : adjoint S T q lam -> exists x, driven S d T s (adjoint_input S cov lam) x /\ forall n, (n < N)%nat -> x n 0 = x0 n.
Proof.
  intros [Sl _]. destruct (decided S d ivp expm NS FI cov T Af Bf Vu HT HC) as (_ & _ & HD). destruct (HD s x0) as (z & Sz & Z0 & _).
  destruct (sol_exists N (ent (aA S)) T (proj1 HT) (fun n t => rsum (sL S) (fun l => ent (aB S) n l * adjoint_input S cov lam l t)) (fun _ => 0)) as (w & Sw & W0).
  - intros n t Hn Ht. apply continuity_rsum. intros l Hl. apply (continuity_pt_scal (adjoint_input S cov lam l)). unfold adjoint_input. apply (continuity_pt_scal (fun t => rsum N (fun n => ent (aB S) n l * lam n t)) (cov ^ 2)).
    apply continuity_rsum. intros k Hk. apply (continuity_pt_scal (lam k)). now apply (proj1 Sl).
  - exists (fun n t => w n t + 1 * z n t). split.
    + eapply sol_ext; [|exact (sol_comb N _ T 1 _ _ _ _ Sw Sz)]. intros n t _ _. cbv beta. ring.
    + intros n Hn. rewrite W0, Z0 by exact Hn. ring.
Qed.

Variables (w : window) (b : R) (s1 s2 : nat -> nat -> R) (s : nat -> nat -> R).
Notation K := (w_K w). Notation P := (w_P w).
Hypothesis WN : w_N w = N.
Hypothesis WA : w_A w = ent Af.
Hypothesis WB : forall k, w_Bs w k = ap (sM S) (ent Bf) (s k).
Hypothesis WU : w_U w = ent Vu.
Hypothesis WV : symm N (w_V w).
Hypothesis WP : psd N (w_V w).
Hypothesis HK : (0 < K)%nat.
Hypothesis H1 : forall k r, (k < K)%nat -> (r < P)%nat -> 0 < s1 k r.
Hypothesis H2 : forall k r, (k < K)%nat -> (r < P)%nat -> 0 < s2 k r.
Variables x p : nat -> nat -> R.
Hypothesis Pth : path w x (fun k n => - p k n).

Lemma adjoints : exists lam, forall k, (Datatypes.S k < K)%nat -> adjoint S T (fun n => - p (Datatypes.S k) n) (lam k).
Proof.
  assert (G : forall J, exists lam, forall k, (k < J)%nat -> adjoint S T (fun n => - p (Datatypes.S k) n) (lam k)).
  { induction J; [exists (fun _ _ _ => 0); intros; lia|]. destruct IHJ as [lam IH]. destruct (adjoint_exists S d ivp expm NS FI cov T Af Bf Vu HT HC (fun n => - p (Datatypes.S J) n)) as [l Hl].
    exists (fun k => if Nat.eqb k J then l else lam k). intros k Hk. destruct (Nat.eqb_spec k J) as [->|]; [exact Hl|apply IH; lia]. }
  destruct (G K) as [lam Hl]. exists lam. intros k Hk. apply Hl. lia.
Qed.
Variable lam : nat -> nat -> R -> R.
Hypothesis HL : forall k, (Datatypes.S k < K)%nat -> adjoint S T (fun n => - p (Datatypes.S k) n) (lam k).
Let best k := adjoint_input S cov (lam k).

Lemma best_exists : exists x', trajectory S d T K s best x' /\ forall k n, (k < K)%nat -> (n < N)%nat -> x' k n 0 = x k n.
Proof.
  assert (G : forall J, exists x', forall k, (k < J)%nat -> (Datatypes.S k < K)%nat -> driven S d T (s k) (best k) (x' k) /\ forall n, (n < N)%nat -> x' k n 0 = x k n).
  { induction J; [exists (fun _ _ _ => 0); intros; lia|]. destruct IHJ as [x' IH]. destruct (le_lt_dec K (Datatypes.S J)) as [Hj|Hj]; [exists x'; intros; apply IH; lia|].
    destruct (steer_exists (s J) (x J) _ (lam J) (HL J Hj)) as (z & Dz & Z0).
    exists (fun k => if Nat.eqb k J then z else x' k). intros k Hk Hk'. destruct (Nat.eqb_spec k J) as [->|]; [split; [exact Dz|exact Z0]|apply IH; lia]. }
  destruct (G K) as [x' HX]. exists (fun k n t => if Nat.eqb (Datatypes.S k) K then x k n else x' k n t).
  assert (X0 : forall k n, (k < K)%nat -> (n < N)%nat -> (if Nat.eqb (Datatypes.S k) K then x k n else x' k n 0) = x k n).
  { intros k n Hk Hn. destruct (Nat.eqb_spec (Datatypes.S k) K); [reflexivity|]. apply HX; auto; lia. }
  split; [|exact X0]. intros k Hk. destruct (Nat.eqb_spec (Datatypes.S k) K); [lia|]. destruct (HX k ltac:(lia) Hk) as [Dk Ik].
  split; [exact Dk|]. intros n0 Hn. rewrite X0 by auto. destruct Pth as [_ Pa]. rewrite Pa by (rewrite ?WN; assumption).
  rewrite (adjoint_steers S d ivp expm NS FI cov T Af Bf Vu HT HC (s k) (x' k) _ (lam k) (HL k Hk) Dk n0 Hn). rewrite WN, WA, WB, WU. unfold ap. f_equal. f_equal.
  apply rsum_ext. intros j Hj. now rewrite Ik.
Qed.
Let innov (x' : nat -> nat -> R -> R) k := innovation S T Af Bf (s k) (x' k).
Lemma sampled u x' : trajectory S d T K s u x' -> forall k n, (Datatypes.S k < K)%nat -> (n < w_N w)%nat ->
  x' (Datatypes.S k) n 0 - x (Datatypes.S k) n = ap (w_N w) (w_A w) (fun n => x' k n 0 - x k n) n + (innov x' k n + ap N (ent Vu) (p (Datatypes.S k)) n).
Proof.
  intros Tr k n Hk Hn. destruct (Tr k Hk) as [_ E]. destruct Pth as [_ Pa]. rewrite Pa by assumption. rewrite ap_sub, WN, WA, WB, WU in *. rewrite E by exact Hn.
  unfold innov, innovation. rewrite (rsum_ext N (fun j => ent Vu n j * - p (Datatypes.S k) j) (fun j => - (ent Vu n j * p (Datatypes.S k) j))) by (intros; ring). rewrite rsum_opp. unfold ap. ring.
Qed.
Hypothesis St : stationary w b s1 s2 x p.
Lemma cont_gap u x' I : trajectory S d T K s u x' -> input_cost S T cov b w s1 s2 u x' I ->
  exists a0 D, (forall n, (n < N)%nat -> x' O n 0 - x O n = ap N (w_V w) (fun j => a0 j + p O j) n) /\
    (forall k, (Datatypes.S k < K)%nat -> input_energy S T (fun l t => u k l t - best k l t) (D k) /\ exists E, input_energy S T (u k) E /\
       D k = E + 2 * cov ^ 2 * dotr N (p (Datatypes.S k)) (innov x' k) + cov ^ 2 * quad N (ent Vu) (p (Datatypes.S k))) /\
    I = total w b s1 s2 x (fun k n => - p k n) + quad N (w_V w) (fun j => a0 j + p O j) + rsum (K - 1) (fun k => D k / cov ^ 2) + squares w s1 s2 (fun k n => x' k n 0 - x k n).
Proof.
  intros Tr (a0 & E & X0 & HE & ->). rewrite WN in X0.
  set (D := fun k => E k + 2 * cov ^ 2 * dotr N (p (Datatypes.S k)) (innov x' k) + cov ^ 2 * quad N (ent Vu) (p (Datatypes.S k))).
  assert (QO : forall M q, quad N M (fun n => - q n) = quad N M q) by (intros; unfold quad; apply rsum_ext; intros i _; rewrite (rsum_ext N (fun j => M i j * - q j) (fun j => - (M i j * q j))) by (intros; ring); rewrite rsum_opp; ring).
  assert (E0 : forall n, (n < N)%nat -> x' O n 0 - x O n = ap N (w_V w) (fun j => a0 j + p O j) n).
  { intros n Hn. destruct St as [[P0 _] _]. rewrite WN in P0. rewrite X0, P0 by exact Hn. rewrite ap_add. unfold ap. rewrite (rsum_ext N (fun j => w_V w n j * - p O j) (fun j => - (w_V w n j * p O j))) by (intros; ring). rewrite rsum_opp. ring. }
  exists a0, D. split; [exact E0|]. split.
  - intros k Hk. split; [|exists (E k); split; [now apply HE|reflexivity]]. destruct (Tr k Hk) as [Dk _].
    assert (X := energy_gap S d ivp expm NS FI cov T Af Bf Vu HT HC (s k) (u k) (x' k) _ (lam k) (E k) Dk (HL k Hk) (HE k Hk)). fold (best k) in X.
    replace (D k) with (E k - 2 * cov ^ 2 * dotr N (fun n => - p (Datatypes.S k) n) (innovation S T Af Bf (s k) (x' k)) + cov ^ 2 * quad N (ent Vu) (fun n => - p (Datatypes.S k) n)); [exact X|].
    unfold D. rewrite QO. replace (dotr N (fun n => - p (Datatypes.S k) n) (innovation S T Af Bf (s k) (x' k))) with (- dotr N (p (Datatypes.S k)) (innov x' k)); [ring|]. unfold dotr. rewrite <- rsum_opp. apply rsum_ext. intros; unfold innov; ring.
  - rewrite (misfit_shift w b s1 s2 H1 H2 x (fun k n => x' k n 0)).
    rewrite (cross_gen w b s1 s2 HK x p (fun k n => x' k n 0 - x k n) (fun k n => innov x' k n + ap N (ent Vu) (p (Datatypes.S k)) n) St (sampled u x' Tr)).
    unfold total, energy. rewrite WN, WU, QO. rewrite (rsum_ext (K - 1) (fun k => quad N (ent Vu) (fun n => - p (Datatypes.S k) n)) (fun k => quad N (ent Vu) (p (Datatypes.S k)))) by (intros; apply QO).
    rewrite (dotr_ext N (p O) (p O) (fun n => x' O n 0 - x O n) (ap N (w_V w) (fun j => a0 j + p O j))) by (intros n Hn; auto).
    rewrite (rsum_ext (K - 1) (fun k => D k / cov ^ 2) (fun k => E k / cov ^ 2 + 2 * dotr N (p (Datatypes.S k)) (innov x' k) + quad N (ent Vu) (p (Datatypes.S k)))) by (intros; unfold D; field; exact Hcov).
    rewrite (rsum_ext (K - 1) (fun k => dotr N (p (Datatypes.S k)) (fun n => innov x' k n + ap N (ent Vu) (p (Datatypes.S k)) n)) (fun k => dotr N (p (Datatypes.S k)) (innov x' k) + quad N (ent Vu) (p (Datatypes.S k)))) by (intros; rewrite dotr_add; f_equal; symmetry; apply quad_dotr).
    rewrite !rsum_add, !rsum_scale.
    assert (Qa : quad N (w_V w) (fun j => a0 j + p O j) = quad N (w_V w) a0 + 2 * dotr N (p O) (ap N (w_V w) a0) + quad N (w_V w) (p O)).
    { rewrite !quad_dotr. rewrite (dotr_ext N (fun j => a0 j + p O j) (fun j => a0 j + p O j) _ (fun n => ap N (w_V w) a0 n + ap N (w_V w) (p O) n)) by (intros n Hn; auto using ap_add).
      rewrite dotr_add, !(dotr_comm N (fun j => a0 j + p O j)), !dotr_add, (dotr_comm N (ap N (w_V w) a0) (p O)), (dotr_comm N (ap N (w_V w) (p O)) a0), (form_symm N (w_V w) a0 (p O) WV), !(dotr_comm N (ap N (w_V w) _)). ring. }
    rewrite Qa. rewrite (dotr_ext N (p O) (p O) (ap N (w_V w) (fun j => a0 j + p O j)) (fun n => ap N (w_V w) a0 n + ap N (w_V w) (p O) n)) by (intros n Hn; auto using ap_add). rewrite dotr_add, <- (quad_dotr N (w_V w) (p O)). ring.
Qed.
Lemma cont_least u x' I : trajectory S d T K s u x' -> input_cost S T cov b w s1 s2 u x' I -> total w b s1 s2 x (fun k n => - p k n) <= I /\
  (I <= total w b s1 s2 x (fun k n => - p k n) -> (forall k n, (k < K)%nat -> (n < N)%nat -> x' k n 0 = x k n) /\
     forall k, (Datatypes.S k < K)%nat -> input_energy S T (fun l t => u k l t - best k l t) 0).
Proof.
  intros Tr HI. destruct (cont_gap u x' I Tr HI) as (a0 & D & X0 & HD & ->). assert (C2 : 0 < cov ^ 2) by (rewrite <- Rsqr_pow2; apply Rlt_0_sqr; exact Hcov). assert (C3 : 0 < / cov ^ 2) by now apply Rinv_0_lt_compat.
  assert (A1 := WP (fun j => a0 j + p O j)). assert (A2 := squares_nonneg w s1 s2 H1 H2 (fun k n => x' k n 0 - x k n)).
  assert (D0 : forall k, (k < K - 1)%nat -> 0 <= D k / cov ^ 2).
  { intros k Hk. destruct (HD k ltac:(lia)) as [X _]. apply int_nonneg in X; [apply Rmult_le_pos; lra|lra|]. intros t _. apply rsum_nonneg. intros. apply Rle_0_sqr. }
  assert (A3 := rsum_nonneg _ _ D0). split; [lra|]. intros Le.
  assert (Z : forall k, (Datatypes.S k < K)%nat -> D k = 0).
  { intros k Hk. destruct (Req_dec (D k) 0) as [E|E]; [exact E|exfalso]. assert (Y := D0 k ltac:(lia)). assert (X := rsum_pos (K - 1) (fun k => D k / cov ^ 2) k D0 ltac:(lia)). cbv beta in X. specialize (X ltac:(unfold Rdiv in *; destruct Y as [Y|Y]; [exact Y|exfalso; symmetry in Y; apply Rmult_integral in Y; lra])). lra. }
  split; [|intros k Hk; rewrite <- (Z k Hk); apply HD; exact Hk].
  assert (G : forall k n, (Datatypes.S k < K)%nat -> (n < N)%nat -> innov x' k n + ap N (ent Vu) (p (Datatypes.S k)) n = 0).
  { intros k n Hk Hn. destruct (HD k Hk) as [_ (E & HE & EQ)]. rewrite (Z k Hk) in EQ. destruct (Tr k Hk) as [Dk _]. set (q := p (Datatypes.S k)) in *. set (r := unit_vec n).
    apply (lin_zero _ (quad N (ent Vu) r) (VP r)). intros t.
    assert (X := energy_least S d ivp expm NS FI cov T Af Bf Vu HT HC (s k) (u k) (x' k) (fun j => - q j + (- t) * r j) E Dk HE). fold (innov x' k) in X.
    assert (X1 : dotr N (fun j => - q j + - t * r j) (innov x' k) = - dotr N q (innov x' k) - t * innov x' k n).
    { rewrite dotr_comm, dotr_add. replace (dotr N (innov x' k) (fun j => - t * r j)) with (- t * innov x' k n); [|rewrite <- (dotr_unit N (innov x' k) n Hn); unfold dotr; rewrite <- rsum_scale; apply rsum_ext; intros; unfold r, unit_vec; ring].
      replace (dotr N (innov x' k) (fun i => - q i)) with (- dotr N q (innov x' k)); [ring|]. unfold dotr. rewrite <- rsum_opp. apply rsum_ext. intros; ring. }
    assert (X2 : quad N (ent Vu) (fun j => - q j + - t * r j) = quad N (ent Vu) q + 2 * t * ap N (ent Vu) q n + t * t * quad N (ent Vu) r).
    { rewrite !quad_dotr. rewrite (dotr_ext N (fun j => - q j + - t * r j) (fun j => -1 * q j + - t * r j) _ (fun i => -1 * ap N (ent Vu) q i + - t * ap N (ent Vu) r i)).
      - assert (Er : dotr N r (ap N (ent Vu) q) = ap N (ent Vu) q n) by (apply dotr_unit; exact Hn). rewrite <- Er.
        assert (Fs := form_symm N (ent Vu) q r VS). unfold dotr in *. rewrite (rsum_ext N _ (fun i => (q i * ap N (ent Vu) q i + t * (r i * ap N (ent Vu) q i)) + (t * (q i * ap N (ent Vu) r i) + t * t * (r i * ap N (ent Vu) r i)))) by (intros; ring).
        rewrite !rsum_add, !rsum_scale, Fs. ring.
      - intros i _. ring.
      - intros i _. rewrite <- !ap_scale, <- ap_add. apply ap_ext. intros j _. ring. }
    rewrite X1, X2 in X. assert (0 <= cov ^ 2 * (t * t * quad N (ent Vu) r + 2 * t * (innov x' k n + ap N (ent Vu) q n))) by lra.
    apply (Rmult_le_reg_l (cov ^ 2) _ _ C2). lra. }
  assert (B0 : quad N (w_V w) (fun j => a0 j + p O j) = 0) by lra.
  assert (B1 : forall n, (n < N)%nat -> x' O n 0 - x O n = 0).
  { intros n Hn. rewrite X0 by exact Hn. apply lin_zero with (quad N (w_V w) (unit_vec n)); [apply WP|]. intros t. assert (X := WP (fun j => (a0 j + p O j) + t * unit_vec n j)).
    set (q := fun j => a0 j + p O j) in *. change (fun j => a0 j + p O j + t * unit_vec n j) with (fun j => q j + t * unit_vec n j) in X. rewrite quad_dotr in X.
    rewrite (dotr_ext N (fun j => q j + t * unit_vec n j) (fun j => q j + t * unit_vec n j) _ (fun i => ap N (w_V w) q i + t * ap N (w_V w) (unit_vec n) i)) in X by (intros i _; first [reflexivity|rewrite <- ap_scale, <- ap_add; reflexivity]).
    assert (Fs := form_symm N (w_V w) q (unit_vec n) WV). assert (Er : dotr N (unit_vec n) (ap N (w_V w) q) = ap N (w_V w) q n) by (apply dotr_unit; exact Hn). rewrite quad_dotr in B0. rewrite quad_dotr. rewrite <- Er.
    unfold dotr in *. rewrite (rsum_ext N _ (fun i => (q i * ap N (w_V w) q i + t * (unit_vec n i * ap N (w_V w) q i)) + (t * (q i * ap N (w_V w) (unit_vec n) i) + t * t * (unit_vec n i * ap N (w_V w) (unit_vec n) i)))) in X by (intros; ring).
    rewrite !rsum_add, !rsum_scale, Fs, B0 in X. lra. }
  intros k. induction k; intros n Hk Hn; [specialize (B1 n Hn); lra|].
  assert (Y := sampled u x' Tr k n Hk ltac:(rewrite WN; exact Hn)). rewrite G in Y by assumption. rewrite WN in Y. unfold ap in Y. rewrite rsum_zero in Y; [lra|]. intros j Hj. rewrite IHk by (lia || exact Hj). ring.
Qed.
Lemma best_cost x' : trajectory S d T K s best x' -> (forall k n, (k < K)%nat -> (n < N)%nat -> x' k n 0 = x k n) -> input_cost S T cov b w s1 s2 best x' (total w b s1 s2 x (fun k n => - p k n)).
Proof.
  intros Tr X. exists (fun n => - p O n), (fun k => cov ^ 2 * quad N (ent Vu) (fun n => - p (Datatypes.S k) n)). split; [|split].
  - intros n Hn. rewrite WN in Hn. rewrite X by (lia || exact Hn). apply St. rewrite WN. exact Hn.
  - intros k Hk. apply (adjoint_energy S d ivp expm NS FI cov T Af Bf Vu HT HC). now apply HL.
  - unfold total, energy. rewrite WN, WU. f_equal; [f_equal; apply rsum_ext; intros; field; exact Hcov|]. unfold misfit. apply rsum_ext. intros k Hk. apply rsum_ext. intros r Hr.
    replace (output w (fun k n => x' k n 0) k r) with (output w x k r); [reflexivity|]. unfold output. apply rsum_ext. intros n Hn. rewrite WN in Hn. now rewrite X.
Qed.
End Cont.
