(** Algebra of one step of the NUV estimator: matrices as functions. *)
From Coq Require Import List Arith Lia Bool Reals Lra.
From Verif Require Import Base LinAlg FirExtras AnalogSystem Integrators IntegratorsProofs LinearOde Optimal.
Import ListNotations.
Open Scope R_scope.

(** M x and M^T x *)
Definition ap (n : nat) (M : nat -> nat -> R) (x : nat -> R) (i : nat) : R := rsum n (fun j => M i j * x j).
Definition apT (n : nat) (M : nat -> nat -> R) (x : nat -> R) (j : nat) : R := rsum n (fun i => M i j * x i).
Definition dotr (n : nat) (x y : nat -> R) : R := rsum n (fun i => x i * y i).
Definition mulr (n : nat) (A B : nat -> nat -> R) (i j : nat) : R := rsum n (fun k => A i k * B k j).
Definition symm (n : nat) (V : nat -> nat -> R) : Prop := forall i j, (i < n)%nat -> (j < n)%nat -> V i j = V j i.
Definition eqn (n : nat) (x y : nat -> R) : Prop := forall i, (i < n)%nat -> x i = y i.

Lemma ap_ext n M x y i : eqn n x y -> ap n M x i = ap n M y i.
Proof. intros H. apply rsum_ext. intros j Hj. now rewrite H. Qed.
Lemma ap_extM n M M' x i : (forall j, (j < n)%nat -> M i j = M' i j) -> ap n M x i = ap n M' x i.
Proof. intros H. apply rsum_ext. intros j Hj. now rewrite H. Qed.
Lemma apT_ext n M x y i : eqn n x y -> apT n M x i = apT n M y i.
Proof. intros H. apply rsum_ext. intros j Hj. now rewrite H. Qed.
Lemma dotr_ext n x x' y y' : eqn n x x' -> eqn n y y' -> dotr n x y = dotr n x' y'.
Proof. intros H H'. apply rsum_ext. intros j Hj. now rewrite H, H'. Qed.
Lemma ap_add n M x y i : ap n M (fun j => x j + y j) i = ap n M x i + ap n M y i.
Proof. unfold ap. rewrite <- rsum_add. apply rsum_ext. intros; ring. Qed.
Lemma ap_sub n M x y i : ap n M (fun j => x j - y j) i = ap n M x i - ap n M y i.
Proof. unfold ap. rewrite <- rsum_minus. apply rsum_ext. intros; ring. Qed.
Lemma ap_scale n M c x i : ap n M (fun j => c * x j) i = c * ap n M x i.
Proof. unfold ap. rewrite <- rsum_scale. apply rsum_ext. intros; ring. Qed.
Lemma apT_add n M x y i : apT n M (fun j => x j + y j) i = apT n M x i + apT n M y i.
Proof. unfold apT. rewrite <- rsum_add. apply rsum_ext. intros; ring. Qed.
Lemma apT_sub n M x y i : apT n M (fun j => x j - y j) i = apT n M x i - apT n M y i.
Proof. unfold apT. rewrite <- rsum_minus. apply rsum_ext. intros; ring. Qed.
Lemma dotr_add n x y z : dotr n x (fun i => y i + z i) = dotr n x y + dotr n x z.
Proof. unfold dotr. rewrite <- rsum_add. apply rsum_ext. intros; ring. Qed.
Lemma dotr_sub n x y z : dotr n x (fun i => y i - z i) = dotr n x y - dotr n x z.
Proof. unfold dotr. rewrite <- rsum_minus. apply rsum_ext. intros; ring. Qed.
Lemma dotr_comm n x y : dotr n x y = dotr n y x.
Proof. apply rsum_ext. intros; ring. Qed.
(** <a, M b> = <M^T a, b> *)
Lemma dotr_adj n m M a b : dotr n a (ap m M b) = dotr m (apT n M a) b.
Proof. apply rsum_adj. Qed.
Lemma ap_mul n m A B x i : ap m (mulr n A B) x i = ap n A (ap m B x) i.
Proof. apply rsum_comp. Qed.
Lemma apT_mul n k A B x j : apT n (mulr k A B) x j = apT k B (apT n A x) j.
Proof.
  unfold apT, mulr. rewrite (rsum_ext n _ (fun i => rsum k (fun a => A i a * B a j * x i))); [|intros i _; rewrite Rmult_comm, <- rsum_scale; apply rsum_ext; intros; ring].
  rewrite rsum_swap. apply rsum_ext. intros a Ha. rewrite <- rsum_scale. apply rsum_ext. intros; ring.
Qed.
Lemma apT_sym n V x i : symm n V -> (i < n)%nat -> apT n V x i = ap n V x i.
Proof. intros H Hi. apply rsum_ext. intros j Hj. now rewrite H. Qed.
Lemma ap_unit n M j i : (j < n)%nat -> ap n M (fun k => if Nat.eqb k j then 1 else 0) i = M i j.
Proof.
  intros Hj. unfold ap. rewrite (rsum_ext n _ (fun k => if Nat.eqb k j then M i k else 0)); [now rewrite Optimal.rsum_single|].
  intros k _. destruct (Nat.eqb k j); ring.
Qed.
Lemma dotr_unit n x i : (i < n)%nat -> dotr n (fun k => if Nat.eqb k i then 1 else 0) x = x i.
Proof.
  intros Hi. unfold dotr. rewrite (rsum_ext n _ (fun k => if Nat.eqb k i then x k else 0)); [now rewrite Optimal.rsum_single|].
  intros k _. destruct (Nat.eqb k i); ring.
Qed.
(** symmetric matrices are those with symmetric forms *)
Lemma symm_form n V : (forall x y, dotr n x (ap n V y) = dotr n y (ap n V x)) -> symm n V.
Proof.
  intros H i j Hi Hj. specialize (H (fun k => if Nat.eqb k i then 1 else 0) (fun k => if Nat.eqb k j then 1 else 0)).
  now rewrite !dotr_unit, !ap_unit in H.
Qed.
Lemma form_symm n V x y : symm n V -> dotr n x (ap n V y) = dotr n y (ap n V x).
Proof.
  intros H. rewrite dotr_adj, dotr_comm. apply rsum_ext. intros i Hi. now rewrite apT_sym.
Qed.
Lemma quad_dotr n V q : quad n V q = dotr n q (ap n V q).
Proof. reflexivity. Qed.

Section Step.
Variables (N P : nat).
(** V, C^T, observation covariance, gain *)
Variables V C Yc G : nat -> nat -> R.
Hypothesis HV : symm N V.
Hypothesis HYc : symm P Yc.
(** (Yc + C V C^T) G = I *)
Hypothesis HG : forall w i, (i < P)%nat -> ap P Yc (ap P G w) i + ap N C (ap N V (apT P C (ap P G w))) i = w i.

Let CV (z : nat -> R) : nat -> R := ap N C (ap N V z).
Let CTq (q : nat -> R) : nat -> R := apT P C q.

Lemma G_form x y : dotr P x (ap P G y) = dotr P y (ap P G x).
Proof.
  (* <x, Gy> = <(Yc + CVC^T) G x, G y> *)
  assert (H : forall a b, dotr P a (ap P G b) = dotr P (ap P G a) (ap P Yc (ap P G b)) + dotr N (apT P C (ap P G a)) (ap N V (apT P C (ap P G b)))).
  { intros a b. transitivity (dotr P (fun i => ap P Yc (ap P G a) i + ap N C (ap N V (apT P C (ap P G a))) i) (ap P G b)).
    - apply dotr_ext; intros i Hi; [now rewrite HG|reflexivity].
    - rewrite dotr_comm, dotr_add. f_equal.
      + apply form_symm. exact HYc.
      + rewrite dotr_adj. apply form_symm. exact HV. }
  rewrite H, (H y x). f_equal; apply form_symm; assumption.
Qed.
Lemma G_symm : symm P G.
Proof. apply symm_form. exact G_form. Qed.

(** F = I - V C G C^T *)
Definition Fm (i j : nat) : R := (if Nat.eqb i j then 1 else 0) - rsum N (fun a => V i a * rsum P (fun b => C b a * rsum P (fun c => G b c * C c j))).
Lemma ap_eye n x i : (i < n)%nat -> rsum n (fun j => (if Nat.eqb i j then 1 else 0) * x j) = x i.
Proof.
  intros Hi. rewrite (rsum_ext n _ (fun j => if Nat.eqb j i then x j else 0)); [now rewrite Optimal.rsum_single|].
  intros j _. rewrite Nat.eqb_sym. destruct (Nat.eqb j i); ring.
Qed.
Lemma F_ap x i : (i < N)%nat -> ap N Fm x i = x i - ap N V (apT P C (ap P G (ap N C x))) i.
Proof.
  intros Hi. unfold ap at 1, Fm. rewrite (rsum_ext N _ (fun j => (if Nat.eqb i j then 1 else 0) * x j - rsum N (fun a => V i a * rsum P (fun b => C b a * rsum P (fun c => G b c * C c j))) * x j)) by (intros; ring).
  rewrite rsum_minus, ap_eye by exact Hi. f_equal.
  rewrite (rsum_comp N N V (fun a j => rsum P (fun b => C b a * rsum P (fun c => G b c * C c j)))). unfold ap. apply rsum_ext. intros a Ha. f_equal.
  rewrite (rsum_comp P N (fun a b => C b a) (fun b j => rsum P (fun c => G b c * C c j))). unfold apT. apply rsum_ext. intros b Hb. f_equal.
  apply rsum_comp.
Qed.
Lemma F_apT z j : (j < N)%nat -> apT N Fm z j = z j - apT P C (ap P G (ap N C (ap N V z))) j.
Proof.
  intros Hj. rewrite <- (dotr_unit N (apT N Fm z)) by exact Hj. set (e := fun k => if Nat.eqb k j then 1 else 0).
  rewrite dotr_comm, <- dotr_adj. rewrite (dotr_ext N z z (ap N Fm e) (fun i => e i - ap N V (apT P C (ap P G (ap N C e))) i)) by (intros i Hi; auto using F_ap).
  rewrite dotr_sub. f_equal.
  - rewrite dotr_comm. now apply dotr_unit.
  - rewrite (form_symm N V) by exact HV. rewrite <- dotr_adj, dotr_comm, G_form, dotr_comm, dotr_adj, dotr_comm. unfold e. now rewrite dotr_unit.
Qed.

Variables (m y z : nat -> R).
(** xi = F^T z + C G (C^T m - y) *)
Definition xi (n : nat) : R := apT N Fm z n + apT P C (ap P G (fun r => ap N C m r - y r)) n.
Definition gain_res : nat -> R := ap P G (fun r => ap N C m r - y r - ap N C (ap N V z) r).
Lemma xi_split n : (n < N)%nat -> xi n = z n + apT P C gain_res n.
Proof.
  intros Hn. unfold xi. rewrite F_apT by exact Hn.
  enough (E : apT P C gain_res n = apT P C (ap P G (fun r => ap N C m r - y r)) n - apT P C (ap P G (ap N C (ap N V z))) n) by lra.
  rewrite <- apT_sub. apply apT_ext. intros r Hr. unfold gain_res. now rewrite <- ap_sub.
Qed.
(** Yc times the gain residual is the residual of the smoothed state *)
Lemma residual r : (r < P)%nat -> ap P Yc gain_res r = ap N C (fun n => m n - ap N V xi n) r - y r.
Proof.
  intros Hr. rewrite ap_sub. rewrite (ap_ext N C (ap N V xi) (fun i => ap N V z i + ap N V (apT P C gain_res) i)).
  2:{ intros i Hi. rewrite <- ap_add. apply ap_ext. intros n Hn. now apply xi_split. }
  rewrite ap_add. assert (H := HG (fun r => ap N C m r - y r - ap N C (ap N V z) r) r Hr). fold gain_res in H. lra.
Qed.

(** the messages of the next time index *)
Variables (Af : nat -> nat -> R) (Bs : nat -> R) (Vu : nat -> nat -> R) (x' : nat -> R).
Definition m' (n : nat) : R := ap N Af (fun i => ap N Fm m i + ap N V (apT P C (ap P G y)) i) n + Bs n.
Definition V' (i j : nat) : R := rsum N (fun a => Af i a * rsum N (fun b => rsum N (fun c => Fm a c * V c b) * Af j b)) + Vu i j.
Hypothesis Hz : eqn N z (apT N Af x').
Lemma V'_ap w i : ap N V' w i = ap N Af (ap N Fm (ap N V (apT N Af w))) i + ap N Vu w i.
Proof.
  unfold ap at 1, V'. rewrite (rsum_ext N _ (fun j => rsum N (fun a => Af i a * rsum N (fun b => rsum N (fun c => Fm a c * V c b) * Af j b)) * w j + Vu i j * w j)) by (intros; ring).
  rewrite rsum_add. f_equal. rewrite (rsum_comp N N Af (fun a j => rsum N (fun b => rsum N (fun c => Fm a c * V c b) * Af j b))).
  unfold ap at 1. apply rsum_ext. intros a Ha. f_equal.
  rewrite (rsum_comp N N (fun a b => rsum N (fun c => Fm a c * V c b)) (fun b j => Af j b)). apply rsum_comp.
Qed.
Lemma next_state n : (n < N)%nat -> m' n - ap N V' x' n = ap N Af (fun i => m i - ap N V xi i) n + Bs n - ap N Vu x' n.
Proof.
  intros Hn. rewrite V'_ap. unfold m'.
  enough (E : ap N Af (fun i => ap N Fm m i + ap N V (apT P C (ap P G y)) i) n - ap N Af (ap N Fm (ap N V (apT N Af x'))) n = ap N Af (fun i => m i - ap N V xi i) n) by lra.
  rewrite <- ap_sub. apply ap_ext. intros i Hi. rewrite !F_ap by exact Hi.
  rewrite (ap_ext N V xi (fun j => z j + apT P C gain_res j)) by (intros j Hj; now apply xi_split). rewrite ap_add.
  rewrite (ap_ext N V (apT N Af x') z) by (intros j Hj; now rewrite Hz).
  enough (E : ap N V (apT P C gain_res) i = ap N V (apT P C (ap P G (ap N C m))) i - ap N V (apT P C (ap P G y)) i - ap N V (apT P C (ap P G (ap N C (ap N V (apT N Af x'))))) i) by lra.
  rewrite <- !ap_sub. apply ap_ext. intros j Hj. rewrite <- !apT_sub. apply apT_ext. intros r Hr. unfold gain_res. rewrite <- !ap_sub. apply ap_ext.
  intros k Hk. f_equal. apply ap_ext. intros q Hq. apply ap_ext. exact Hz.
Qed.

(** the covariance of the observed state: symmetric and, with V and Yc, nonnegative *)
Lemma FV_form x w : dotr N x (ap N Fm (ap N V w)) = dotr N x (ap N V w) - dotr P (ap N C (ap N V x)) (ap P G (ap N C (ap N V w))).
Proof.
  rewrite (dotr_ext N x x _ (fun i => ap N V w i - ap N V (apT P C (ap P G (ap N C (ap N V w)))) i)) by (intros i Hi; auto using F_ap).
  rewrite dotr_sub. f_equal. rewrite (form_symm N V) by exact HV. rewrite dotr_comm, (dotr_comm P). symmetry. rewrite dotr_adj. apply dotr_comm.
Qed.
Lemma V'_symm : symm N Vu -> symm N V'.
Proof.
  intros HVu. apply symm_form. intros x w.
  assert (H : forall a b, dotr N a (ap N V' b) = dotr N (apT N Af a) (ap N Fm (ap N V (apT N Af b))) + dotr N a (ap N Vu b)).
  { intros a b. rewrite (dotr_ext N a a _ (fun i => ap N Af (ap N Fm (ap N V (apT N Af b))) i + ap N Vu b i)) by (intros i Hi; auto using V'_ap).
    rewrite dotr_add. f_equal. apply dotr_adj. }
  rewrite !H, !FV_form. rewrite (form_symm N Vu _ _ HVu), (form_symm N V (apT N Af x)) by exact HV. now rewrite G_form.
Qed.
Lemma V'_psd : psd P Yc -> psd N V -> psd N Vu -> psd N V'.
Proof.
  intros HY HPV HVu x. rewrite quad_dotr.
  rewrite (dotr_ext N x x _ (fun i => ap N Af (ap N Fm (ap N V (apT N Af x))) i + ap N Vu x i)) by (intros i Hi; auto using V'_ap).
  rewrite dotr_add, dotr_adj, FV_form. apply Rplus_le_le_0_compat; [|apply HVu].
  set (w := apT N Af x). set (q := ap P G (ap N C (ap N V w))).
  assert (E : dotr N w (ap N V w) - dotr P (ap N C (ap N V w)) q = quad N V (fun i => w i - apT P C q i) + quad P Yc q).
  { rewrite !quad_dotr.
    assert (E1 : dotr P q (ap P Yc q) = dotr P q (ap N C (ap N V w)) - dotr N (apT P C q) (ap N V (apT P C q))).
    { rewrite <- dotr_adj. rewrite <- dotr_sub. apply dotr_ext; [intros i _; reflexivity|]. intros i Hi. assert (H := HG (ap N C (ap N V w)) i Hi). fold q in H. lra. }
    rewrite E1. rewrite (dotr_ext N (fun i => w i - apT P C q i) (fun i => w i - apT P C q i) (ap N V (fun i => w i - apT P C q i)) (fun i => ap N V w i - ap N V (apT P C q) i)); [|intros i _; reflexivity|intros i _; apply ap_sub].
    rewrite dotr_sub. rewrite !(dotr_comm N (fun i => w i - apT P C q i)), !dotr_sub. rewrite (dotr_comm N (ap N V w) w), (dotr_comm N (ap N V (apT P C q)) w), (form_symm N V w (apT P C q)) by exact HV.
    rewrite (dotr_comm N (ap N V w)), (dotr_comm N (ap N V (apT P C q))). rewrite (dotr_comm P (ap N C (ap N V w)) q), (dotr_adj P N C q). lra. }
  rewrite E. apply Rplus_le_le_0_compat; [apply HPV|apply HY].
Qed.
End Step.
