(** Response of the two filters to sinusoidal inputs: steady states, and what is left of the initial transient. *)
From Coq Require Import List Arith Lia Bool Reals Lra ZArith.
From Flocq Require Import Core.
From Coquelicot Require Import Complex.
From Verif Require Import Base LinAlg Estimators FirExtras AnalogSystem AnalogProofs Signals DigitalControl Simulator Integrators IntegratorsProofs LinearOde Zpk CplxLin
  FilterCoeff FilterCoeffProofs TransferProofs FreqProofs RiccatiAlg RiccatiProofs RiccatiDecay EstimatorDecay ConversionError.
Import ListNotations.
Open Scope R_scope.

(** the signal with phasor c at the angular frequency w: the real part of c exp (i w t) *)
Definition tone (w : R) (c : C) (t : R) : R := fst c * cos (w * t) - snd c * sin (w * t).

Lemma tone_deriv w c t0 t : derivable_pt_lim (fun s => tone w c (t0 + s)) t (tone w ((0, w) * c)%C (t0 + t)).
Proof.
  assert (L : derivable_pt_lim (fun s => w * (t0 + s)) t w).
  { assert (X : derivable_pt_lim (fun s => w * (t0 + s)) t (w * (0 + 1))); [|replace (w * (0 + 1)) with w in X by ring; exact X].
    apply (derivable_pt_lim_scal (fun s => t0 + s)). apply (derivable_pt_lim_plus (fun _ => t0) id); [apply derivable_pt_lim_const|apply derivable_pt_lim_id]. }
  unfold tone. destruct c as [a b]. cbn [fst snd Cmult].
  replace ((0 * a - w * b) * cos (w * (t0 + t)) - (0 * b + w * a) * sin (w * (t0 + t))) with (a * (- sin (w * (t0 + t)) * w) - b * (cos (w * (t0 + t)) * w)) by ring.
  apply (derivable_pt_lim_minus (fun s => a * cos (w * (t0 + s))) (fun s => b * sin (w * (t0 + s)))).
  - apply (derivable_pt_lim_scal (fun s => cos (w * (t0 + s)))). apply (derivable_pt_lim_comp (fun s => w * (t0 + s)) cos); [exact L|apply derivable_pt_lim_cos].
  - apply (derivable_pt_lim_scal (fun s => sin (w * (t0 + s)))). apply (derivable_pt_lim_comp (fun s => w * (t0 + s)) sin); [exact L|apply derivable_pt_lim_sin].
Qed.
Lemma tone_add w a b t : tone w (a + b)%C t = tone w a t + tone w b t.
Proof. unfold tone. destruct a, b. cbn. ring. Qed.
Lemma tone_opp w a t : tone w (- a)%C t = - tone w a t.
Proof. unfold tone. destruct a. cbn. ring. Qed.
Lemma tone_sub w a b t : tone w (a - b)%C t = tone w a t - tone w b t.
Proof. unfold tone. destruct a, b. cbn. ring. Qed.
Lemma tone_scale w r a t : tone w (RtoC r * a)%C t = r * tone w a t.
Proof. unfold tone. destruct a. cbn. ring. Qed.
Lemma tone_0 w t : tone w (RtoC 0) t = 0.
Proof. unfold tone. cbn. ring. Qed.
Lemma tone_cap w n (M : nat -> R) z t : tone w (csum n (fun j => (RtoC (M j) * z j)%C)) t = rsum n (fun j => M j * tone w (z j) t).
Proof. induction n; [apply tone_0|]. cbn [csum]. rewrite tone_add, IHn, rsum_S, tone_scale. reflexivity. Qed.
Lemma tone_le w c t : Rabs (tone w c t) <= Cmod c.
Proof.
  set (e := (cos (w * t), sin (w * t)) : C). assert (E : Cmod e = 1).
  { unfold Cmod, e. cbn [fst snd]. assert (X := sin2_cos2 (w * t)). unfold Rsqr in X. replace (cos (w * t) ^ 2 + sin (w * t) ^ 2) with 1 by lra. apply sqrt_1. }
  replace (Cmod c) with (Cmod (c * e)%C) by (rewrite Cmod_mult, E; ring). apply Rle_trans with (Rmax (Rabs (fst (c * e)%C)) (Rabs (snd (c * e)%C))); [|apply Rmax_Cmod].
  replace (tone w c t) with (fst (c * e)%C) by (unfold tone, e; destruct c; reflexivity). apply Rmax_l.
Qed.
Lemma Cmod_csum n f : Cmod (csum n f) <= rsum n (fun i => Cmod (f i)).
Proof. induction n; [rewrite rsum_0; cbn [csum]; rewrite Cmod_0; lra|]. cbn [csum]. rewrite rsum_S. eapply Rle_trans; [apply Cmod_triangle|]. lra. Qed.
(** the sum of the moduli of the entries *)
Definition gross (m n : nat) (M : nat -> nat -> C) : R := rsum m (fun i => rsum n (fun j => Cmod (M i j))).
Lemma gross_pos m n M : 0 <= gross m n M.
Proof. apply rsum_nonneg. intros. apply rsum_nonneg. intros. apply Cmod_ge_0. Qed.
Lemma cap_le m n M x A i : (i < m)%nat -> 0 <= A -> (forall j, (j < n)%nat -> Cmod (x j) <= A) -> Cmod (cap n M x i) <= gross m n M * A.
Proof.
  intros Hi HA Hx. unfold cap. eapply Rle_trans; [apply Cmod_csum|]. apply Rle_trans with (A * rsum n (fun j => Cmod (M i j))).
  - rewrite <- rsum_scale. apply rsum_le. intros j Hj. rewrite Cmod_mult, Rmult_comm. apply Rmult_le_compat_r; [apply Cmod_ge_0|]. now apply Hx.
  - rewrite Rmult_comm. apply Rmult_le_compat_r; [exact HA|]. apply (term_le m (fun i => rsum n (fun j => Cmod (M i j)))); [|exact Hi]. intros. apply rsum_nonneg. intros. apply Cmod_ge_0.
Qed.

(** *** steady states exist *)
(** every driving phasor has a steady state, at most P times as large *)
Definition responds (n : nat) (M : nat -> nat -> R) (w P : R) : Prop := forall g, exists z, filter_phasor n M w g z /\
  forall A, 0 <= A -> (forall i, (i < n)%nat -> Cmod (g i) <= A) -> forall i, (i < n)%nat -> Cmod (z i) <= P * A.
Lemma diag_phasor n M w : diag_stable n M -> exists P, 0 <= P /\ responds n M w P.
Proof.
  intros (T & Ti & lam & [I1 I2] & L & EV).
  set (rs := rsum n (fun k => / Cmod ((0, w) - lam k)%C)).
  assert (NZ : forall k, (k < n)%nat -> ((0, w) - lam k)%C <> RtoC 0).
  { intros k Hk E. specialize (L k Hk). apply (f_equal fst) in E. destruct (lam k) as [p q]. cbn in E, L. lra. }
  assert (RS : forall k, (k < n)%nat -> 0 <= / Cmod ((0, w) - lam k)%C) by (intros k Hk; apply Rlt_le, Rinv_0_lt_compat, Cmod_gt_0, NZ, Hk).
  assert (G1 := gross_pos n n Ti). assert (G2 := gross_pos n n T). assert (G3 : 0 <= rs) by (apply rsum_nonneg; exact RS).
  exists (gross n n Ti * (gross n n T * rs)). split; [apply Rmult_le_pos; [exact G1|apply Rmult_le_pos; assumption]|]. intros g.
  set (y := fun k => (cap n T g k / ((0, w) - lam k))%C). set (z := cap n Ti y).
  assert (TT : forall x i, (i < n)%nat -> cap n T (cap n Ti x) i = x i).
  { intros x i Hi. rewrite <- cap_mul. apply cap_id; [|exact Hi]. intros j Hj. now apply I1. }
  assert (TI : forall x i, (i < n)%nat -> cap n Ti (cap n T x) i = x i).
  { intros x i Hi. rewrite <- cap_mul. apply cap_id; [|exact Hi]. intros j Hj. now apply I2. }
  assert (TM : forall x k, (k < n)%nat -> cap n T (cap n (fun i j => RtoC (M i j)) x) k = (lam k * cap n T x k)%C).
  { intros x k Hk. rewrite <- cap_mul. unfold cap at 2. rewrite <- (csum_scale n (lam k)). apply csum_ext. intros j Hj. unfold cmul. rewrite EV by assumption. ring. }
  exists z. split.
  2: { intros A HA Hg i Hi. rewrite Rmult_assoc. apply cap_le; [exact Hi|apply Rmult_le_pos; [apply Rmult_le_pos; assumption|exact HA]|]. intros k Hk. unfold y. rewrite Cmod_div by (apply NZ, Hk).
    replace (gross n n T * rs * A) with (gross n n T * A * rs) by ring. unfold Rdiv. apply Rmult_le_compat; [apply Cmod_ge_0|now apply RS|now apply cap_le|]. apply (term_le n (fun k => / Cmod ((0, w) - lam k)%C)); assumption. }
  intros i Hi.
  set (r := fun i => ((0, w) * z i - cap n (fun i j => RtoC (M i j)) z i - g i)%C).
  assert (R0 : forall k, (k < n)%nat -> cap n T r k = RtoC 0).
  { intros k Hk. unfold r. rewrite cap_sub, cap_sub, cap_scale, TM by exact Hk. unfold z. rewrite TT by exact Hk. unfold y. field. apply NZ, Hk. }
  assert (E := TI r i Hi). rewrite cap_zero in E by exact R0. unfold r in E.
  transitivity ((0, w) * z i - RtoC 0)%C; [ring|]. rewrite E. ring.
Qed.
Lemma anti_phasor n M w : diag_stable n (fun i j => - M i j) -> exists P, 0 <= P /\ responds n M w P.
Proof.
  intros H. destruct (diag_phasor n _ (- w) H) as (P & P0 & HP). exists P. split; [exact P0|]. intros g. destruct (HP (fun i => - g i)%C) as (z & Hz & Bz). exists z.
  split; [|intros A HA Hg; apply Bz; [exact HA|]; intros i Hi; rewrite Cmod_opp; now apply Hg]. intros i Hi. specialize (Hz i Hi).
  assert (E : cap n (fun i j => RtoC (- M i j)) z i = (- cap n (fun i j => RtoC (M i j)) z i)%C).
  { unfold cap. transitivity (- RtoC 1 * csum n (fun j => RtoC (M i j) * z j))%C; [|ring]. rewrite <- csum_scale. apply csum_ext. intros j _. rewrite RtoC_opp. ring. }
  cbv beta in Hz. rewrite E in Hz. transitivity (- ((0, (- w)%R) * z i))%C; [|rewrite Hz; ring].
  destruct (z i) as [a b]. unfold Cmult, Copp. cbn. f_equal; ring.
Qed.
Lemma phasor_solves (S : asys Rring) d F lo hi w g z : filter_phasor (sN S) F w g z ->
  solves_on S d F lo hi (fun i n t => tone w (g n) (INR i * ck_T (d_clk d) + t)) (fun i n t => tone w (z n) (INR i * ck_T (d_clk d) + t)).
Proof.
  intros H i Hi. split.
  - split; [intros n t Hn Ht; apply derivable_continuous_pt; eexists; apply tone_deriv|]. exists []. intros n t Hn Ht _.
    replace (rsum (sN S) (fun k => F n k * tone w (z k) (INR i * ck_T (d_clk d) + t)) + tone w (g n) (INR i * ck_T (d_clk d) + t)) with (tone w ((0, w) * z n)%C (INR i * ck_T (d_clk d) + t)); [apply tone_deriv|].
    rewrite (H n Hn), tone_add. f_equal. apply tone_cap.
  - intros n Hn. cbv beta. rewrite plus_INR. cbn [INR]. f_equal. ring.
Qed.
