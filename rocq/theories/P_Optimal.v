(** Property theorem C79: the estimates are samples of the least squares input.
    Vocabulary (Optimal.v): [explains S d K s u x]: the input u drives the state x through K periods with decisions s;
    [cost ... u x I]: I is the integral of |u|^2 + |C^T x|^2 / eta2 plus the cost of the states at both ends; [psd]: positive semidefinite. *)
From Coq Require Import List Arith Lia Bool Reals Lra ZArith.
From Verif Require Import Base LinAlg FirExtras Signals DigitalControl AnalogSystem AnalogProofs Estimators BatchProofs BatchRun Integrators IntegratorsProofs LinearOde
  FilterCoeff FilterCoeffProofs FilterOde FilterRun FilterExample FreqProofs P_Estimators P_Filter Optimal.
Import ListNotations.
Open Scope R_scope.

(** C79: the estimates of batch j are the samples at the sampling instants of one input that, among all inputs and states consistent with
    the decisions up to the end of the look-ahead of the batch, has the least cost; it is continuous within the periods, and the only one (any other costs more by at
    least the energy of the difference). *)
Theorem C79_batch_estimates_optimal : forall S d eta2 Vf Vb Af Ab Bf Bb WT K1 K2 limit xs j,
  let T := ck_T (d_clk d) in
  let c := to_coef S Af Ab Bf Bb WT in
  let s i m := nth m (dsig c xs i) 0 in
  let K := ((j + 1) * K1 + K2)%nat in
  0 < eta2 -> 0 <= T -> riccati_sol S eta2 1 Vf -> riccati_sol S eta2 (-1) Vb -> psd (sN S) Vf -> psd (sN S) Vb -> invertible_sum (sN S) Vf Vb ->
  weights S Vf Vb WT -> samples_fwd S d (fwdA S eta2 Vf) Af Bf -> samples_bwd S d (bwdA S eta2 Vb) Ab Bb ->
  (1 <= K1)%nat -> Forall (fun x => length x = sM S) xs -> (K <= length xs)%nat ->
  exists u x I, explains S d K s u x /\ cost S eta2 Vf Vb T K u x I /\ (forall i l t, (i < K)%nat -> 0 <= t <= T -> continuity_pt (u i l) t) /\
    (forall u' x' I', explains S d K s u' x' -> cost S eta2 Vf Vb T K u' x' I' ->
      I <= I' /\ forall D, (forall i, (i < K)%nat -> integral T (fun t => rsum (sL S) (fun l => Rsqr (u' i l t - u i l t))) (D i)) -> I + rsum K D <= I') /\
    forall k n, (k / K1 = j)%nat -> (k < n)%nat -> (Z.of_nat (k + 1 + j) <= limit)%Z ->
      nth_error (batch_results c K1 K2 limit (mkSrc xs (SrcObj StopIteration)) n) k = Some (Ok (map (fun l => u k l 0) (seq 0 (sL S)))).
Proof.
  intros S d eta2 Vf Vb Af Ab Bf Bb WT K1 K2 limit xs j T c s K He HT QF QB PF PB (Vi & HI) HW HF HB HK Hxs HL.
  assert (Ls : forall i, length (dsig c xs i) = sM S) by (intros; now apply (dsig_length c)).
  destruct (fwd_exists S d Af Bf (dsig c xs) _ HF K) as (zf & Tf). destruct (bwd_exists S d Ab Bb (dsig c xs) _ HB K 0) as (zb & Tb).
  destruct (optimal S d eta2 Vf Vb s K He HT QF QB Vi HI zf zb Tf Tb PF PB) as (I & HC & HO).
  exists (opt_input S Vi zf zb), (opt_state S Vf Vi zf zb), I. split; [exact (opt_explains S d eta2 Vf Vb s K QF QB Vi HI zf zb Tf Tb)|]. split; [exact HC|]. split; [|split; [exact HO|]].
  { intros i l t Hi Ht. apply rsum_cont. intros n Hn. apply rsum_cont. intros k Hk. apply (continuity_pt_minus (zb i k) (zf i k)); [apply (proj1 (proj1 (proj2 Tb i ltac:(lia)))); auto|apply (proj1 (proj1 (proj2 Tf i Hi))); auto]. }
  intros k n Ek Hk Hlim. assert (Hm : (k + (K1 + K2 - k mod K1) = K)%nat).
  { assert (D := Nat.div_mod k K1 ltac:(lia)). assert (M := Nat.mod_upper_bound k K1 ltac:(lia)). rewrite Ek in D. unfold K. nia. }
  rewrite C22_batch_closed_form; auto.
  - assert (WV : wiener c (dsig c xs) k (K1 + K2 - k mod K1) = map (fun l => rsum (sN S) (fun n => ent WT l n * (zb k n 0 - zf k n 0))) (seq 0 (sL S))).
    { apply (wiener_value S d Af Ab Bf Bb WT (dsig c xs) Ls _ _ Vf Vb k (K1 + K2 - k mod K1) zf zb HW HF HB).
      - destruct Tf as [T0 T1]. split; [exact T0|]. intros i Hi. apply T1. lia.
      - destruct Tb as [T0 T1]. split; [rewrite Hm; exact T0|]. intros i Hi. apply T1. lia. }
    do 2 f_equal. etransitivity; [exact WV|]. apply map_ext_in. intros l Hl. apply in_seq in Hl. symmetry. apply (opt_input_weights S eta2 Vf Vb WT QF QB HW Vi HI). lia.
  - eapply coef_shape; eauto.
  - rewrite Ek. exact HL.
  - rewrite Ek. exact Hlim.
Qed.
Print Assumptions C79_batch_estimates_optimal.
Example C79_ex : exists Vf Vb Af Ab Bf Bb WT, let S := integ in let d := one_wave (WStep 0 1) in
  0 < 1 /\ 0 <= ck_T (d_clk d) /\ riccati_sol S 1 1 Vf /\ riccati_sol S 1 (-1) Vb /\ psd (sN S) Vf /\ psd (sN S) Vb /\ invertible_sum (sN S) Vf Vb /\
  weights S Vf Vb WT /\ samples_fwd S d (fwdA S 1 Vf) Af Bf /\ samples_bwd S d (bwdA S 1 Vb) Ab Bb /\
  (1 <= 2)%nat /\ Forall (fun x : list R => length x = sM S) [[1]; [0]; [1]; [1]; [0]] /\ ((1 + 1) * 2 + 1 <= 5)%nat.
Proof.
  destruct step_numpy as (Af & Ab & Bf & Bb & WT & E & _ & _ & _ & _ & (_ & _ & W)).
  assert (G : good_coefficients integ (one_wave (WStep 0 1)) 1 Af Ab Bf Bb WT) by (eapply C74_numpy_coefficients; [apply sound_step; now left|apply fits_integ; exact I|lra|cbn; lra|exact E]).
  destruct G as (Vf & Vb & QF & QB & HW & HF & HB).
  exists Vf, Vb, Af, Ab, Bf, Bb, WT. cbv zeta.
  assert (Sq : Vf 0%nat 0%nat * Vf 0%nat 0%nat = 1 /\ Vb 0%nat 0%nat * Vb 0%nat 0%nat = 1).
  { destruct QF as [_ QF], QB as [_ QB]. specialize (QF 0%nat 0%nat ltac:(cbn; lia) ltac:(cbn; lia)). specialize (QB 0%nat 0%nat ltac:(cbn; lia) ltac:(cbn; lia)).
    unfold obsK in *. change (sN integ) with 1%nat in *. change (sL integ) with 1%nat in *. change (sNt integ) with 1%nat in *. rewrite !rsum1 in *. cbn in QF, QB. lra. }
  assert (Sm : (Vf 0%nat 0%nat + Vb 0%nat 0%nat) * (1/2) = 1).
  { destruct HW as (_ & _ & H). specialize (H 0%nat 0%nat ltac:(cbn; lia) ltac:(cbn; lia)). change (sN integ) with 1%nat in H. rewrite rsum1, W in H. exact H. }
  assert (V1 : Vf 0%nat 0%nat = 1 /\ Vb 0%nat 0%nat = 1) by (split; nra). destruct V1 as [V1 V2].
  split; [lra|]. split; [cbn; lra|]. split; [exact QF|]. split; [exact QB|]. change (sN integ) with 1%nat.
  split; [intros q; unfold quad; rewrite !rsum1, V1; nra|]. split; [intros q; unfold quad; rewrite !rsum1, V2; nra|].
  split; [exists (fun _ _ => 1/2); intros i k Hi Hk; assert (i = 0%nat) by lia; assert (k = 0%nat) by lia; subst; rewrite rsum1, V1, V2; cbn; lra|].
  split; [exact HW|]. split; [exact HF|]. split; [exact HB|]. split; [lia|]. split; [repeat constructor|cbn; lia].
Qed.
