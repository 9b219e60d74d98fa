(** The batch estimator with these coefficients outputs W^T (mb - mf) of the continuous-time filters. *)
From Coq Require Import List Arith Lia Bool Reals Lra ZArith.
From Flocq Require Import Core.
From Coquelicot Require Import Complex.
From Verif Require Import Base LinAlg Estimators BatchProofs BatchRun FirExtras AnalogSystem AnalogProofs Signals DigitalControl DigitalControlProofs ControlKinds
  Integrators IntegratorsProofs Simulator Stability LinearOde PreSim Zpk FilterCoeff FilterCoeffProofs FilterOde.
Import ListNotations.
Open Scope R_scope.

(** batch_estimator.py:254-275: the coefficients as stored *)
Definition mat_of (M : rmat) : list (list R) := map (fun i => map (fun j => ent M i j) (seq 0 (cols M))) (seq 0 (rows M)).
Definition to_coef (S : asys Rring) (Af Ab Bf Bb WT : rmat) : @coef Rring :=
  @mkCoef Rring (mat_of Af) (mat_of Ab) (mat_of Bf) (mat_of Bb) (mat_of WT) (sN S) (sM S) (sL S).

Lemma mat_of_wf (M : rmat) : wfm (K := Rring) (rows M) (cols M) (mat_of M).
Proof.
  split; [unfold mat_of; now rewrite map_length, seq_length|]. apply Forall_forall. intros r H. apply in_map_iff in H as (i & <- & _). now rewrite map_length, seq_length.
Qed.
Lemma dot_seq (f : nat -> R) : forall n a (v : list R), length v = n -> dot (K := Rring) (map f (seq a n)) v = rsum n (fun k => f (a + k)%nat * nth k v 0).
Proof.
  assert (Sl : forall n g, rsum (S n) g = g O + rsum n (fun i => g (S i))).
  { induction n; intros g; [rewrite rsum_S, !rsum_0; ring|]. rewrite rsum_S, IHn, (rsum_S n). ring. }
  induction n; intros a v Lv; destruct v as [|x v]; try discriminate; [reflexivity|]. cbn [seq map dot]. rewrite IHn by (cbn in Lv; lia). rewrite Sl. cbn [nth].
  rewrite Nat.add_0_r. cbn [radd rmul Rring]. f_equal. apply rsum_ext. intros i _. now rewrite Nat.add_succ_r.
Qed.
Lemma mv_mat (M : rmat) (v : list R) i : length v = cols M -> (i < rows M)%nat -> nth i (mv (K := Rring) (mat_of M) v) 0 = rsum (cols M) (fun k => ent M i k * nth k v 0).
Proof.
  intros Lv Hi. unfold mv, mat_of. rewrite map_map. rewrite nth_seq_R by exact Hi. rewrite dot_seq by exact Lv. reflexivity.
Qed.
Lemma nth_vadd (u v : list R) i : length u = length v -> nth i (vadd (K := Rring) u v) 0 = nth i u 0 + nth i v 0.
Proof.
  revert v i. induction u as [|x u IH]; intros [|y v] i H; try discriminate; [destruct i; cbn; ring|]. destruct i; [reflexivity|]. cbn [vadd map2 nth]. apply IH. cbn in H. lia.
Qed.
Lemma nth_vsub (u v : list R) i : length u = length v -> nth i (vsub (K := Rring) u v) 0 = nth i u 0 - nth i v 0.
Proof.
  revert v i. induction u as [|x u IH]; intros [|y v] i H; try discriminate; [destruct i; cbn; ring|]. destruct i; [reflexivity|]. cbn [vsub map2 nth]. apply IH. cbn in H. lia.
Qed.

(** Trajectories over consecutive periods: [z i] lives on the period that starts at [i T]. *)
Definition fwd_traj (S : asys Rring) (d : dc) (F : nat -> nat -> R) (s : nat -> nat -> R) (k : nat) (z : nat -> nat -> R -> R) : Prop :=
  (forall n, (n < sN S)%nat -> z O n 0 = 0) /\
  forall i, (i < k)%nat -> sol (sN S) F (ck_T (d_clk d)) (ctl S d (s i)) (z i) /\ forall n, (n < sN S)%nat -> z (i + 1)%nat n 0 = z i n (ck_T (d_clk d)).
Definition bwd_traj (S : asys Rring) (d : dc) (F : nat -> nat -> R) (s : nat -> nat -> R) (k m : nat) (z : nat -> nat -> R -> R) : Prop :=
  (forall n, (n < sN S)%nat -> z (k + m)%nat n 0 = 0) /\
  forall i, (k <= i < k + m)%nat -> sol (sN S) F (ck_T (d_clk d)) (ctl S d (s i)) (z i) /\ forall n, (n < sN S)%nat -> z (i + 1)%nat n 0 = z i n (ck_T (d_clk d)).

Section Run.
Variables (S : asys Rring) (d : dc) (eta2 : R) (Af Ab Bf Bb WT : rmat).
Let c := to_coef S Af Ab Bf Bb WT.
Variable sv : nat -> list R.
Hypothesis Lsv : forall i, length (sv i) = sM S.
Let s (i m : nat) : R := nth m (sv i) 0.

Lemma coef_shape Vf Vb F G : weights S Vf Vb WT -> samples_fwd S d F Af Bf -> samples_bwd S d G Ab Bb -> coef_wf c.
Proof.
  intros (H1 & H2 & _) ((A1 & A2 & A3 & A4) & _) ((B1 & B2 & B3 & B4) & _). unfold coef_wf, c, to_coef. cbn [cN cM cL cAf cAb cBf cBb cWT].
  rewrite <- A1 at 1. rewrite <- A2 at 3. repeat split; try apply mat_of_wf.
  all: try (rewrite <- ?A1, <- ?A4; apply mat_of_wf).
  all: unfold mat_of; rewrite ?map_length, ?seq_length; try congruence.
  all: apply Forall_forall; intros r H; apply in_map_iff in H as (i & <- & _); rewrite map_length, seq_length; congruence.
Qed.

Lemma fwd_exists F : samples_fwd S d F Af Bf -> forall k, exists z, fwd_traj S d F s k z.
Proof.
  intros (_ & HE & _). induction k as [|k (z & H0 & Hz)]; [exists (fun _ _ _ => 0); split; [reflexivity|intros; lia]|].
  destruct (HE (s k) (fun n => z k n 0)) as (y & Sy & Y0).
  exists (fun i => if Nat.eqb i k then y else if Nat.eqb i (k + 1) then (fun n _ => y n (ck_T (d_clk d))) else z i). split.
  - intros n Hn. destruct (Nat.eqb_spec 0 k) as [<-|]; [rewrite Y0; auto|]. destruct (Nat.eqb_spec 0 (k + 1)); [lia|auto].
  - intros i Hi. destruct (Nat.eqb_spec i k) as [->|Ni].
    + split; [exact Sy|]. intros n Hn. destruct (Nat.eqb_spec (k + 1) k); [lia|]. now rewrite Nat.eqb_refl.
    + destruct (Nat.eqb_spec i (k + 1)) as [|Nk]; [lia|]. destruct (Hz i ltac:(lia)) as [S1 S2]. split; [exact S1|]. intros n Hn.
      destruct (Nat.eqb_spec (i + 1) k) as [E|]; [rewrite Y0, <- E; auto|]. destruct (Nat.eqb_spec (i + 1) (k + 1)); [lia|auto].
Qed.
Lemma bwd_exists F : samples_bwd S d F Ab Bb -> forall m k, exists z, bwd_traj S d F s k m z.
Proof.
  intros (_ & HE & _). induction m as [|m IH]; intros k; [exists (fun _ _ _ => 0); split; [reflexivity|intros; lia]|].
  destruct (IH (k + 1)%nat) as (z & H0 & Hz). destruct (HE (s k) (fun n => z (k + 1)%nat n 0)) as (y & Sy & Y1).
  exists (fun i => if Nat.eqb i k then y else z i). split.
  - intros n Hn. destruct (Nat.eqb_spec (k + Datatypes.S m) k); [lia|]. replace (k + Datatypes.S m)%nat with (k + 1 + m)%nat by lia. auto.
  - intros i Hi. destruct (Nat.eqb_spec (i + 1) k); [lia|]. destruct (Nat.eqb_spec i k) as [->|]; [split; [exact Sy|]; intros; symmetry; auto|]. apply Hz. lia.
Qed.

Lemma fwd_value F : coef_wf c -> samples_fwd S d F Af Bf -> forall k z, fwd_traj S d F s k z -> forall n, (n < sN S)%nat -> z k n 0 = nth n (Fd c sv k) 0.
Proof.
  intros Wf ((A1 & A2 & A3 & A4) & _ & HA). induction k as [|k IH]; intros z [H0 Hz] n Hn.
  - rewrite H0 by exact Hn. cbn [Fd]. unfold vzero. cbn. symmetry. destruct (nth_in_or_default n (repeat 0 (sN S)) 0) as [X| ->]; [apply repeat_spec in X; exact X|reflexivity].
  - destruct (Hz k ltac:(lia)) as [Sz Ez]. rewrite <- Nat.add_1_r. rewrite Ez by exact Hn. rewrite (HA _ _ Sz) by exact Hn. rewrite Nat.add_1_r. cbn [Fd].
    assert (Lf : length (Fd c sv k) = sN S) by (apply (Fd_length c Wf)).
    rewrite nth_vadd by (rewrite !(mv_length (K := Rring)); unfold c; cbn [to_coef cAf cBf]; unfold mat_of; rewrite !map_length, !seq_length; congruence).
    unfold c. cbn [to_coef cAf cBf]. rewrite !mv_mat by (rewrite ?A1, ?A2, ?A3, ?A4; auto; lia). rewrite A2, A4. f_equal.
    apply rsum_ext. intros j Hj. f_equal. apply IH; [|exact Hj]. split; [exact H0|]. intros; apply Hz; lia.
Qed.
Lemma bwd_value F : coef_wf c -> samples_bwd S d F Ab Bb -> forall m k z, bwd_traj S d F s k m z -> forall n, (n < sN S)%nat -> z k n 0 = nth n (Bd c sv k m) 0.
Proof.
  intros Wf ((A1 & A2 & A3 & A4) & _ & HA). induction m as [|m IH]; intros k z [H0 Hz] n Hn.
  - rewrite Nat.add_0_r in H0. rewrite H0 by exact Hn. cbn [Bd]. unfold vzero. cbn. symmetry. destruct (nth_in_or_default n (repeat 0 (sN S)) 0) as [X| ->]; [apply repeat_spec in X; exact X|reflexivity].
  - destruct (Hz k ltac:(lia)) as [Sz Ez]. rewrite (HA _ _ Sz) by exact Hn. cbn [Bd].
    assert (Lf : length (Bd c sv (Datatypes.S k) m) = sN S) by (apply (Bd_length c Wf)).
    rewrite nth_vadd by (rewrite !(mv_length (K := Rring)); unfold c; cbn [to_coef cAb cBb]; unfold mat_of; rewrite !map_length, !seq_length; congruence).
    unfold c. cbn [to_coef cAb cBb]. rewrite !mv_mat by (rewrite ?A1, ?A2, ?A3, ?A4; auto; lia). rewrite A2, A4. f_equal.
    apply rsum_ext. intros j Hj. f_equal. rewrite <- Ez by exact Hj. rewrite Nat.add_1_r. apply IH; [|exact Hj]. split.
    + intros n' Hn'. replace (Datatypes.S k + m)%nat with (k + Datatypes.S m)%nat by lia. auto.
    + intros; apply Hz; lia.
Qed.

Lemma wiener_value F G Vf Vb k m zf zb : weights S Vf Vb WT -> samples_fwd S d F Af Bf -> samples_bwd S d G Ab Bb ->
  fwd_traj S d F s k zf -> bwd_traj S d G s k m zb ->
  wiener c sv k m = map (fun l => rsum (sN S) (fun n => ent WT l n * (zb k n 0 - zf k n 0))) (seq 0 (sL S)).
Proof.
  intros HW HF HB Tf Tb. assert (Wf : coef_wf c) by (eapply coef_shape; eauto). unfold wiener. rewrite <- Bd_sum, <- Fd_sum by exact Wf.
  destruct HW as (W1 & W2 & _). apply (list_ext _ _ 0).
  - rewrite (mv_length (K := Rring)), map_length, seq_length. unfold c. cbn [to_coef cWT]. unfold mat_of. now rewrite map_length, seq_length.
  - rewrite (mv_length (K := Rring)). unfold c at 1. cbn [to_coef cWT]. unfold mat_of at 1. rewrite map_length, seq_length, W1. intros l Hl. rewrite nth_seq_R by exact Hl.
    assert (Lb : length (Bd c sv k m) = sN S) by (apply (Bd_length c Wf)). assert (Lf : length (Fd c sv k) = sN S) by (apply (Fd_length c Wf)).
    unfold c at 1. cbn [to_coef cWT]. rewrite mv_mat; [|rewrite (vsub_length (K := Rring)), Lb, Lf, W2; lia|lia]. rewrite W2. apply rsum_ext. intros n Hn. f_equal.
    rewrite nth_vsub by (transitivity (sN S); [exact Lb|symmetry; exact Lf]). f_equal; symmetry; [eapply bwd_value; eauto|eapply fwd_value; eauto].
Qed.
End Run.
