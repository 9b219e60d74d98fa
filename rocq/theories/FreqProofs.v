(** Frequency response of the estimator: the forward and backward filters in sinusoidal steady state give the regularised least
    squares estimate. *)
From Coq Require Import List Arith Lia Bool Reals Lra.
From Flocq Require Import Core.
From Coquelicot Require Import Complex.
From Verif Require Import Base LinAlg FirExtras AnalogSystem AnalogProofs Zpk IntegratorsProofs LinearOde FilterCoeff FilterCoeffProofs FilterOde Wiener TransferFn CplxLin TransferProofs.
Import ListNotations.
Open Scope R_scope.
Open Scope C_scope.

(** Vf + Vb is invertible *)
Definition invertible_sum (N : nat) (Vf Vb : nat -> nat -> R) : Prop :=
  exists Vi : nat -> nat -> R, forall i j, (i < N)%nat -> (j < N)%nat -> rsum N (fun k => (Vf i k + Vb i k) * Vi k j)%R = (if Nat.eqb i j then 1 else 0)%R.

(** steady state of a filter z' = F z + g *)
Definition filter_phasor (N : nat) (F : nat -> nat -> R) (w : R) (g z : nat -> C) : Prop :=
  forall i, (i < N)%nat -> (0, w)%R * z i = cap N (fun i j => RtoC (F i j)) z i + g i.
(** the estimate W^T (mb - mf) *)
Definition estimate (S : asys Rring) (WT : rmat) (mf mb : nat -> C) (l : nat) : C := cap (sN S) (ce WT) (fun i => mb i - mf i) l.

Lemma op_cap n (M : nat -> nat -> C) x i : op (K := Cring) n M x i = cap n M x i.
Proof. unfold op, cap. apply (csum_ksum n (fun j => M i j * x j)). Qed.
Lemma mul_csum n (A B : nat -> nat -> C) i j : mul (K := Cring) n A B i j = csum n (fun k => A i k * B k j).
Proof. unfold mul. apply (csum_ksum n (fun k => A i k * B k j)). Qed.
Lemma csum_RR n (f g : nat -> R) : csum n (fun k => RtoC (f k) * RtoC (g k)) = RtoC (rsum n (fun k => f k * g k)%R).
Proof. rewrite <- csum_R. apply csum_ext. intros. now rewrite RtoC_mult. Qed.
Lemma cap_mulR n m (A B : nat -> nat -> R) x i : cap m (fun i j => RtoC (rsum n (fun k => A i k * B k j)%R)) x i = cap n (fun i j => RtoC (A i j)) (cap m (fun i j => RtoC (B i j)) x) i.
Proof. rewrite <- csum_cap. apply csum_ext. intros j _. now rewrite csum_RR. Qed.

Section F.
Variable S : asys Rring.
Variables eta2 w : R.
Variables Vf Vb : nat -> nat -> R.
Variable WT : rmat.
Hypothesis Hv : valid S.
Hypothesis He : (0 < eta2)%R.
Hypothesis QF : riccati_sol S eta2 1 Vf.
Hypothesis QB : riccati_sol S eta2 (-1) Vb.
Hypothesis HW : weights S Vf Vb WT.
Hypothesis HI : invertible_sum (sN S) Vf Vb.
Let N := sN S.
Let A i j : C := RtoC (ent (aA S) i j).
Let Kc i j : C := RtoC (obsK S eta2 i j).
Let Q i j : C := RtoC (rsum (sL S) (fun l => ent (aB S) i l * ent (aB S) j l)%R).
Let F i j : C := RtoC (Vf i j).
Let B i j : C := RtoC (Vb i j).

Lemma ricF : ric_fwd (K := Cring) N A Q Kc F.
Proof.
  intros i j Hi Hj. destruct QF as [_ R]. specialize (R i j Hi Hj). rewrite !mul_csum.
  rewrite (csum_ext N (fun k => F i k * mul (K := Cring) N Kc F k j) (fun k => RtoC (Vf i k) * RtoC (rsum N (fun l => obsK S eta2 k l * Vf l j)%R))).
  2:{ intros k _. unfold F at 1. f_equal. rewrite mul_csum. apply (csum_RR N). }
  unfold F, A, Q. rewrite !(csum_RR N).
  change (RtoC (rsum N (fun k => ent (aA S) i k * Vf k j)%R) + RtoC (rsum N (fun k => Vf i k * ent (aA S) j k)%R) + RtoC (rsum (sL S) (fun l => ent (aB S) i l * ent (aB S) j l)%R) -
    RtoC (rsum N (fun k => Vf i k * rsum N (fun l => obsK S eta2 k l * Vf l j))%R) = RtoC 0).
  rewrite <- !RtoC_plus, <- RtoC_minus. f_equal. unfold N. lra.
Qed.
Lemma ricB : ric_bwd (K := Cring) N A Q Kc B.
Proof.
  intros i j Hi Hj. destruct QB as [_ R]. specialize (R i j Hi Hj). rewrite !mul_csum.
  rewrite (csum_ext N (fun k => B i k * mul (K := Cring) N Kc B k j) (fun k => RtoC (Vb i k) * RtoC (rsum N (fun l => obsK S eta2 k l * Vb l j)%R))).
  2:{ intros k _. unfold B at 1. f_equal. rewrite mul_csum. apply (csum_RR N). }
  unfold B, A, Q. rewrite !(csum_RR N).
  change (- RtoC (rsum N (fun k => ent (aA S) i k * Vb k j)%R) - RtoC (rsum N (fun k => Vb i k * ent (aA S) j k)%R) + RtoC (rsum (sL S) (fun l => ent (aB S) i l * ent (aB S) j l)%R) -
    RtoC (rsum N (fun k => Vb i k * rsum N (fun l => obsK S eta2 k l * Vb l j))%R) = RtoC 0).
  rewrite <- RtoC_opp, <- RtoC_minus, <- RtoC_plus, <- RtoC_minus. f_equal. unfold N. lra.
Qed.

(** V p = d has exactly one solution *)
Lemma V_sym i j : (i < N)%nat -> (j < N)%nat -> (Vf i j + Vb i j = Vf j i + Vb j i)%R.
Proof. intros Hi Hj. destruct QF as [E _], QB as [E' _]. now rewrite (E i j Hi Hj), (E' i j Hi Hj). Qed.
Lemma V_surj d : exists p, forall i, (i < N)%nat -> cap N (fun i j => F i j + B i j) p i = d i.
Proof.
  destruct HI as (Vi & H). exists (cap N (fun i j => RtoC (Vi i j)) d). intros i Hi. rewrite <- csum_cap. unfold cap at 1.
  rewrite (csum_ext N _ (fun j => if Nat.eqb j i then d j else RtoC 0)); [now rewrite csum_single|]. intros j Hj.
  rewrite (csum_ext N _ (fun k => RtoC (Vf i k + Vb i k) * RtoC (Vi k j))) by (intros; now rewrite RtoC_plus).
  rewrite csum_RR, H by assumption. rewrite (Nat.eqb_sym i j). destruct (Nat.eqb j i); ring.
Qed.
Lemma V_inj : inj_V (K := Cring) N F B.
Proof.
  intros x Hx i Hi. destruct HI as (Vi & H).
  transitivity (csum N (fun k => RtoC (Vi k i) * cap N (fun i j => F i j + B i j) x k)).
  - transitivity (csum N (fun j => csum N (fun k => RtoC (Vf i k + Vb i k) * RtoC (Vi k j)) * x j)).
    + rewrite (csum_ext N _ (fun j => if Nat.eqb j i then x j else RtoC 0)); [now rewrite csum_single|]. intros j Hj. rewrite csum_RR, H by assumption. rewrite (Nat.eqb_sym i j). destruct (Nat.eqb j i); ring.
    + (* transpose *)
      transitivity (csum N (fun j => (if Nat.eqb j i then RtoC 1 else RtoC 0) * x j)).
      * apply csum_ext. intros j Hj. f_equal. rewrite csum_RR, H by assumption. rewrite (Nat.eqb_sym i j). now destruct (Nat.eqb j i).
      * transitivity (csum N (fun j => csum N (fun k => RtoC (Vi k i) * ((F k j + B k j) * x j)))).
        -- apply csum_ext. intros j Hj. transitivity (x j * csum N (fun k => RtoC (Vf j k + Vb j k) * RtoC (Vi k i))).
           ++ rewrite csum_RR, H by assumption. destruct (Nat.eqb j i); ring.
           ++ rewrite <- csum_scale. apply csum_ext. intros k Hk. rewrite V_sym by assumption. rewrite RtoC_plus. unfold F, B. ring.
        -- rewrite csum_swap. apply csum_ext. intros k Hk. unfold cap. now rewrite csum_scale.
  - apply csum_zero. intros k Hk. specialize (Hx k Hk). rewrite (op_cap N (fun i j => F i j + B i j)) in Hx. rewrite Hx. change (RtoC (Vi k i) * RtoC 0 = RtoC 0). ring.
Qed.

Lemma weights_adj p l : (l < sL S)%nat -> cap N (ce WT) (cap N (fun i j => F i j + B i j) p) l = csum N (fun k => ce (aB S) k l * p k).
Proof.
  intros Hl. destruct HW as (_ & _ & H). rewrite <- csum_cap. unfold cap. apply csum_ext. intros j Hj. f_equal. unfold ce at 2. rewrite <- (H j l Hj Hl), <- csum_R.
  apply csum_ext. intros k Hk. unfold ce, F, B. rewrite (V_sym j k) by assumption. rewrite RtoC_mult, RtoC_plus. ring.
Qed.

Lemma obs_cap m i : cap N Kc m i = RtoC (/ eta2) * csum (sNt S) (fun r => ce (aCT S) r i * cap N (ce (aCT S)) m r).
Proof.
  unfold Kc, obsK. rewrite <- csum_scale. transitivity (csum N (fun j => csum (sNt S) (fun r => RtoC (/ eta2) * (ce (aCT S) r i * (ce (aCT S) r j * m j))))).
  - unfold cap. apply csum_ext. intros j _. rewrite RtoC_mult, <- csum_R. transitivity (RtoC (/ eta2) * m j * csum (sNt S) (fun r => RtoC (ent (aCT S) r i * ent (aCT S) r j))); [ring|].
    rewrite <- csum_scale. apply csum_ext. intros r _. rewrite RtoC_mult. unfold ce. ring.
  - rewrite csum_swap. apply csum_ext. intros r _. unfold cap. now rewrite !csum_scale.
Qed.

Hypothesis O : off_poles S w.
Hypothesis D0 : forall r l, (r < sNt S)%nat -> (l < sL S)%nat -> ent (aD S) r l = 0%R.
Variable G : nat -> nat -> C.
Hypothesis HG : forall u, exists x, phasor S w u none x.
Hypothesis HG' : forall u x, phasor S w u none x -> forall r, (r < sNt S)%nat -> cap (sL S) G u r = outp S u x r.

Lemma outp0 u x r : (r < sNt S)%nat -> outp S u x r = cap N (ce (aCT S)) x r.
Proof.
  intros Hr. unfold outp. assert (Z : cap (sL S) (ce (aD S)) u r = RtoC 0).
  { apply csum_zero. intros l Hl. unfold ce. rewrite D0 by assumption. ring. }
  rewrite Z. fold N. ring.
Qed.

Lemma freq_response u g x mf mb : phasor S w u g x -> filter_phasor N (fwdA S eta2 Vf) w g mf -> filter_phasor N (bwdA S eta2 Vb) w g mb ->
  rls (sNt S) (sL S) G eta2 (fun r => cap (sL S) G u r - cap N (ce (aCT S)) x r) (estimate S WT mf mb).
Proof.
  intros Hx Hf Hb. destruct (V_surj (fun i => mb i - mf i)) as (p & Hp).
  set (lam := (0, w)%R : C) in *.
  destruct (smoother (K := Cring) N A Q Kc F B mf mb p (fun i => lam * mf i) (fun i => lam * mb i) (fun i => lam * p i) g ricF ricB V_inj) as [E1 E2].
  - intros i Hi. rewrite !op_cap. rewrite (cap_ext N F (op (K := Cring) N Kc mf) (cap N Kc mf)) by (intros; apply op_cap).
    change (lam * mf i = cap N A mf i - cap N F (cap N Kc mf) i + g i). rewrite (Hf i Hi : lam * mf i = _). f_equal. unfold fwdA. fold N. unfold cap at 1 2.
    rewrite (csum_ext N _ (fun j => A i j * mf j - RtoC (rsum N (fun k => Vf i k * obsK S eta2 k j)%R) * mf j)) by (intros; rewrite RtoC_minus; unfold A; ring).
    rewrite csum_sub. f_equal. apply (cap_mulR N N Vf (obsK S eta2) mf i).
  - intros i Hi. rewrite !op_cap. rewrite (cap_ext N B (op (K := Cring) N Kc mb) (cap N Kc mb)) by (intros; apply op_cap).
    change (lam * mb i = cap N A mb i + cap N B (cap N Kc mb) i + g i). rewrite (Hb i Hi : lam * mb i = _). f_equal. unfold bwdA. fold N. unfold cap at 1 2.
    rewrite (csum_ext N _ (fun j => A i j * mb j + RtoC (rsum N (fun k => Vb i k * obsK S eta2 k j)%R) * mb j)) by (intros; rewrite RtoC_plus; unfold A; ring).
    rewrite csum_add. f_equal. apply (cap_mulR N N Vb (obsK S eta2) mb i).
  - intros i Hi. rewrite op_cap. symmetry. exact (Hp i Hi).
  - intros i Hi. rewrite op_cap. rewrite cap_scale. change (lam * mb i - lam * mf i = lam * cap N (fun i j => F i j + B i j) p i). rewrite (Hp i Hi). ring.
  - set (m := fun i => mf i + cap N F p i).
    assert (M1 : forall i, (i < N)%nat -> lam * p i = cap N Kc m i - csum N (fun k => ce (aA S) k i * p k)).
    { intros i Hi. specialize (E1 i Hi). rewrite !op_cap in E1. rewrite E1. change (cap N Kc (fun i0 => mf i0 + op (K := Cring) N F p i0) i - csum N (fun k => ce (aA S) k i * p k) = cap N Kc m i - csum N (fun k => ce (aA S) k i * p k)).
      f_equal. }
    set (uh := fun l => csum N (fun k => ce (aB S) k l * p k)).
    assert (Euh : forall l, (l < sL S)%nat -> estimate S WT mf mb l = uh l).
    { intros l Hl. unfold estimate. fold N. rewrite <- (cap_ext N (ce WT) _ _ l Hp). now apply weights_adj. }
    assert (M2 : phasor S w uh g m).
    { intros i Hi. specialize (E2 i Hi). rewrite !op_cap in E2. fold lam.
      assert (X : cap N F (fun i => lam * p i) i = lam * cap N F p i) by apply cap_scale.
      change (lam * mf i + cap N F (fun i => lam * p i) i = cap N A (fun i0 => mf i0 + op (K := Cring) N F p i0) i + cap N Q p i + g i) in E2.
      rewrite (cap_ext N A _ m) in E2 by (intros; unfold m; f_equal; apply op_cap).
      transitivity (lam * mf i + lam * cap N F p i); [unfold m; ring|]. rewrite <- X, E2. f_equal. f_equal.
      unfold Q. transitivity (cap (sL S) (ce (aB S)) (cap N (fun l k => ce (aB S) k l) p) i); [|reflexivity].
      exact (cap_mulR (sL S) N (fun i l => ent (aB S) i l) (fun l j => ent (aB S) j l) p i). }
    (* the output of the estimated state *)
    set (yh := cap N (ce (aCT S)) m). set (y := cap N (ce (aCT S)) x).
    assert (Y : forall r, (r < sNt S)%nat -> yh r = y r + cap (sL S) G uh r - cap (sL S) G u r).
    { intros r Hr. assert (Pd : phasor S w (fun l => uh l - u l) none (fun i => m i - x i)).
      { eapply phasor_ext; [| | |exact (phasor_sub _ _ _ _ _ _ _ _ M2 Hx)]; intros; unfold none; try reflexivity; ring. }
      assert (X := HG' _ _ Pd r Hr). rewrite outp0, !cap_sub in X by exact Hr. fold yh y in X.
      transitivity (y r + (yh r - y r)); [ring|]. rewrite <- X. ring. }
    assert (U : forall l, (l < sL S)%nat -> RtoC eta2 * uh l = - cap (sNt S) (adj G) yh l).
    { intros l Hl. destruct (HG (unit l)) as (z & Hz).
      assert (Cz : forall k, (k < N)%nat -> ce (aB S) k l = - lam * Cconj (z k) - csum N (fun j => ce (aA S) k j * Cconj (z j))).
      { intros k Hk. assert (X := Hz k Hk). rewrite cap_unit in X by exact Hl. fold lam N in X. apply (f_equal Cconj) in X. unfold none in X.
        rewrite !Cconj_add, Cconj_mul in X. unfold cap in X. rewrite csum_conj in X.
        rewrite (csum_ext N _ (fun j => ce (aA S) k j * Cconj (z j))) in X by (intros; rewrite Cconj_mul; unfold ce; now rewrite Cconj_R).
        assert (L1 : Cconj lam = - lam) by (unfold lam, Cconj, Copp; cbn; now rewrite Ropp_0).
        rewrite L1 in X. rewrite X. unfold ce. rewrite !Cconj_R. ring. }
      assert (S1 : uh l = - csum N (fun k => Cconj (z k) * cap N Kc m k)).
      { unfold uh. rewrite (csum_ext N _ (fun k => (- lam * Cconj (z k)) * p k - csum N (fun j => ce (aA S) k j * Cconj (z j) * p k))).
        2:{ intros k Hk. rewrite (Cz k Hk). rewrite (csum_ext N (fun j => ce (aA S) k j * Cconj (z j) * p k) (fun j => p k * (ce (aA S) k j * Cconj (z j)))) by (intros; ring). rewrite csum_scale. ring. }
        rewrite csum_sub, csum_swap, <- csum_sub. transitivity (csum N (fun k => (- RtoC 1) * (Cconj (z k) * cap N Kc m k))).
        - apply csum_ext. intros k Hk. rewrite (csum_ext N _ (fun j => Cconj (z k) * (ce (aA S) j k * p j))) by (intros; ring). rewrite csum_scale.
          transitivity (- Cconj (z k) * (lam * p k + csum N (fun j => ce (aA S) j k * p j))); [ring|]. rewrite (M1 k Hk). ring.
        - rewrite csum_scale. ring. }
      rewrite S1. rewrite (csum_ext N _ (fun k => RtoC (/ eta2) * csum (sNt S) (fun r => Cconj (z k) * (ce (aCT S) r k * yh r)))).
      2:{ intros k Hk. rewrite obs_cap. fold yh. rewrite csum_scale. ring. }
      rewrite csum_scale. transitivity (- (RtoC eta2 * RtoC (/ eta2)) * csum N (fun k => csum (sNt S) (fun r => Cconj (z k) * (ce (aCT S) r k * yh r)))); [ring|].
      rewrite <- RtoC_mult, Rinv_r by lra. rewrite csum_swap.
      transitivity (- csum (sNt S) (fun r => csum N (fun k => Cconj (z k) * (ce (aCT S) r k * yh r)))); [ring|]. f_equal.
      unfold cap, adj. apply csum_ext. intros r Hr. assert (X := HG' _ _ Hz r Hr). rewrite cap_unit, outp0 in X by assumption. rewrite X. unfold cap. rewrite csum_conj.
      transitivity (yh r * csum N (fun i => Cconj (ce (aCT S) r i * z i))); [|ring]. rewrite <- csum_scale. apply csum_ext. intros k _. rewrite Cconj_mul. unfold ce. rewrite Cconj_R. ring. }
    apply (rls_ext _ _ _ _ (fun r => cap (sL S) G u r - y r) _ uh); [reflexivity|intros; symmetry; now apply Euh|].
    intros l Hl. rewrite (U l Hl). rewrite (cap_ext (sNt S) (adj G) yh (fun r => cap (sL S) G uh r - (cap (sL S) G u r - y r))).
    + rewrite cap_sub. ring.
    + intros r Hr. rewrite Y by exact Hr. ring.
Qed.
End F.
