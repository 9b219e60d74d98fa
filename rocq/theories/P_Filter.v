(** Property theorems C74, C75: the filter coefficients of the digital estimators (_filter_coefficients.py).
    Vocabulary (FilterCoeffProofs.v, FilterOde.v, FilterBackends.v, FilterRun.v), independent of the model:
    [riccati_sol S eta2 sg V]: sg (A V + V A^T) + B B^T - V C eta2^-1 C^T V = 0 with V symmetric;
    [fwdA S eta2 V] = A - V C eta2^-1 C^T, [bwdA S eta2 V] = A + V C eta2^-1 C^T;
    [sol N A T b z]: z' = A z + b on (0, T) but for finitely many times, z continuous on [0, T];
    [ctl S d c n t]: entry n of Gamma times the control waveforms at time t of a period with decisions c;
    [samples_fwd S d F Af Bf]: z(T) = Af z(0) + Bf c for every solution of z' = F z + Gamma s, and such solutions exist;
    [samples_bwd]: z(0) = Ab z(T) + Bb c; [weights]: (Vf + Vb) W = B;
    [good_coefficients]: all of these; [fwd_traj], [bwd_traj]: solutions over consecutive periods, glued at the ends;
    [sound]: the external routines (Riccati solver, inverse, least squares, initial value problems, matrix exponential)
    return exact solutions whenever they return. *)
From Coq Require Import List Arith Lia Bool Reals Lra ZArith.
From Flocq Require Import Core.
From Verif Require Import Base LinAlg Estimators BatchProofs BatchRun FirExtras AnalogSystem AnalogProofs Signals DigitalControl DigitalControlProofs ControlKinds
  Integrators IntegratorsProofs Simulator Stability LinearOde PreSim Zpk FilterCoeff FilterCoeffProofs FilterOde FilterBackends FilterRun FilterExample P_Estimators.
Import ListNotations.
Open Scope R_scope.

(** C74: the coefficients of the numpy solver sample the two continuous-time filters exactly, whatever the waveforms. *)
Theorem C74_numpy_coefficients : forall care_raw inv solve ivp expm S d eta2 Af Ab Bf Bb WT,
  sound S d care_raw inv solve ivp expm -> fits S d -> eta2 <> 0 -> 0 <= ck_T (d_clk d) ->
  coefficients care_raw inv solve ivp expm S d eta2 BNumpy false = Ok (Af, Ab, Bf, Bb, WT) ->
  good_coefficients S d eta2 Af Ab Bf Bb WT.
Proof. intros care_raw inv solve ivp expm S d eta2 Af Ab Bf Bb WT SO. now apply numpy_good. Qed.
Print Assumptions C74_numpy_coefficients.
Example C74_ex : sound integ (one_wave (WStep 0 1)) care1 inv1 solve1 ivp_step expm1 /\ fits integ (one_wave (WStep 0 1)) /\
  exists Af Ab Bf Bb WT, coefficients care1 inv1 solve1 ivp_step expm1 integ (one_wave (WStep 0 1)) 1 BNumpy false = Ok (Af, Ab, Bf, Bb, WT) /\
    ent Af 0 0 = exp (-1) /\ ent Bf 0 0 = 1 - exp (-1) /\ ent Bb 0 0 = - (1 - exp (-1)) /\ ent WT 0 0 = 1/2.
Proof.
  split; [apply sound_step; now left|]. split; [apply fits_integ; exact I|]. destruct step_numpy as (Af & Ab & Bf & Bb & WT & E & H1 & H2 & H3 & H4 & H5).
  exists Af, Ab, Bf, Bb, WT. split; [exact E|]. repeat split; [apply H1|apply H3|apply H4|apply H5].
Qed.

Lemma dsig_length (c : @coef Rring) xs i : Forall (fun x => length x = cM c) xs -> length (dsig c xs i) = cM c.
Proof.
  intros H. unfold dsig. destruct (Nat.lt_ge_cases i (length xs)) as [L|L].
  - rewrite nth_indep with (d' := BatchRun.ctl (K := Rring) []) by now rewrite map_length. rewrite map_nth. unfold BatchRun.ctl. rewrite map_length.
    rewrite Forall_forall in H. apply H. now apply nth_In.
  - rewrite nth_overflow by now rewrite map_length. apply repeat_length.
Qed.

(** C74: with such coefficients every estimate of the batch estimator is W^T (mb - mf), where mf is the continuous-time forward
    filter that starts at rest at time 0 and mb the backward filter that is at rest at the end of the look-ahead, both driven by
    the control waveforms of the decisions. *)
Theorem C74_batch_is_continuous_filter : forall S d eta2 Af Ab Bf Bb WT K1 K2 limit xs n k,
  good_coefficients S d eta2 Af Ab Bf Bb WT ->
  let c := to_coef S Af Ab Bf Bb WT in
  let m := (K1 + K2 - k mod K1)%nat in
  let s i j := nth j (dsig c xs i) 0 in
  (1 <= K1)%nat -> Forall (fun x => length x = sM S) xs -> (k < n)%nat ->
  ((k / K1 + 1) * K1 + K2 <= length xs)%nat -> (Z.of_nat (k + 1 + k / K1) <= limit)%Z ->
  exists Vf Vb, riccati_sol S eta2 1 Vf /\ riccati_sol S eta2 (-1) Vb /\ weights S Vf Vb WT /\
    (exists zf, fwd_traj S d (fwdA S eta2 Vf) s k zf) /\ (exists zb, bwd_traj S d (bwdA S eta2 Vb) s k m zb) /\
    forall zf zb, fwd_traj S d (fwdA S eta2 Vf) s k zf -> bwd_traj S d (bwdA S eta2 Vb) s k m zb ->
      nth_error (batch_results c K1 K2 limit (mkSrc xs (SrcObj StopIteration)) n) k =
      Some (Ok (map (fun l => rsum (sN S) (fun i => ent WT l i * (zb k i 0 - zf k i 0))) (seq 0 (sL S)))).
Proof.
  intros S d eta2 Af Ab Bf Bb WT K1 K2 limit xs n k (Vf & Vb & QF & QB & HW & HF & HB) c m s HK Hxs Hk Hl Hlim.
  exists Vf, Vb. split; [exact QF|]. split; [exact QB|]. split; [exact HW|].
  assert (Ls : forall i, length (dsig c xs i) = sM S) by (intros; now apply (dsig_length c)).
  split; [eapply (fwd_exists S d); exact HF|]. split; [eapply (bwd_exists S d); exact HB|].
  intros zf zb Tf Tb. rewrite C22_batch_closed_form; auto.
  - do 2 f_equal. exact (wiener_value S d Af Ab Bf Bb WT (dsig c xs) Ls _ _ _ _ k m zf zb HW HF HB Tf Tb).
  - eapply coef_shape; eauto.
Qed.
Print Assumptions C74_batch_is_continuous_filter.
Example C74_batch_ex : exists Af Ab Bf Bb WT, good_coefficients integ (one_wave (WStep 0 1)) 1 Af Ab Bf Bb WT /\
  (1 <= 2)%nat /\ Forall (fun x : list R => length x = sM integ) [[1]; [0]; [1]; [1]; [0]] /\ ((1 / 2 + 1) * 2 + 1 <= 5)%nat /\ (Z.of_nat (1 + 1 + 1 / 2) <= 10)%Z.
Proof.
  destruct step_numpy as (Af & Ab & Bf & Bb & WT & E & _). exists Af, Ab, Bf, Bb, WT. split.
  - eapply C74_numpy_coefficients; [apply sound_step; now left|apply fits_integ; exact I|lra|cbn; lra|exact E].
  - split; [lia|]. split; [repeat constructor|]. split; [cbn; lia|cbn; lia].
Qed.

(** C75: the default (mpmath) solver gives the same guarantee if every waveform covers the whole period; it ignores [mid_point]. *)
Theorem C75_mpmath_coefficients : forall care_raw inv solve ivp expm S d eta2 mid Af Ab Bf Bb WT,
  sound S d care_raw inv solve ivp expm -> fits S d -> waves_are d full_period -> eta2 <> 0 -> 0 <= ck_T (d_clk d) ->
  coefficients care_raw inv solve ivp expm S d eta2 BMpmath mid = Ok (Af, Ab, Bf, Bb, WT) ->
  good_coefficients S d eta2 Af Ab Bf Bb WT /\
  coefficients care_raw inv solve ivp expm S d eta2 BMpmath (negb mid) = Ok (Af, Ab, Bf, Bb, WT).
Proof.
  intros care_raw inv solve ivp expm S d eta2 mid Af Ab Bf Bb WT SO Fi Hw He HT H. split; [eapply mpmath_good; eauto|].
  destruct mid; cbn [negb]; [rewrite <- mpmath_ignores_mid|rewrite mpmath_ignores_mid]; exact H.
Qed.
Print Assumptions C75_mpmath_coefficients.
Example C75_mpmath_ex : waves_are (one_wave (WStep 0 1)) full_period /\ waves_are (one_wave (WRC 1 0 1)) full_period /\
  exists Af Ab Bf Bb WT, coefficients care1 inv1 solve1 ivp_step expm1 integ (one_wave (WStep 0 1)) 1 BMpmath true = Ok (Af, Ab, Bf, Bb, WT).
Proof.
  split; [intros w [<-|[]]; cbn; lra|]. split; [intros w [<-|[]]; cbn; split; [lra|apply Rle_refl]|].
  destruct (step_mp 0 true) as (Af & Ab & Bf & Bb & WT & E & _). exists Af, Ab, Bf, Bb, WT. exact E.
Qed.

(** C75, refuted: the mpmath solver does not see a waveform that starts during the period (both backends use exact routines). *)
Theorem C75_mpmath_late_waveform_refuted : exists care_raw inv solve ivp expm S d eta2 Af Ab Bf Bb WT Af' Ab' Bf' Bb' WT',
  sound S d care_raw inv solve ivp expm /\ fits S d /\ eta2 <> 0 /\ 0 < ck_T (d_clk d) /\ Af = Af' /\ (exists t0 amp, In (WStep t0 amp) (d_resp d) /\ 0 < t0 < ck_T (d_clk d)) /\
  coefficients care_raw inv solve ivp expm S d eta2 BNumpy false = Ok (Af, Ab, Bf, Bb, WT) /\
  coefficients care_raw inv solve ivp expm S d eta2 BMpmath false = Ok (Af', Ab', Bf', Bb', WT') /\ ent Bf' 0 0 <> ent Bf 0 0.
Proof.
  exists care1, inv1, solve1, ivp_step, expm1, integ, (one_wave (WStep (1/2) 1)), 1.
  destruct late_numpy as (Af & Ab & Bf & Bb & WT & E & H1 & H2 & H3 & H4 & H5). destruct (step_mp (1/2) false) as (Af' & Ab' & Bf' & Bb' & WT' & E' & H1' & H2' & H3' & H4' & H5').
  exists Af, Ab, Bf, Bb, WT, Af', Ab', Bf', Bb', WT'. split; [apply sound_step; now right|]. split; [apply fits_integ; exact I|]. split; [lra|]. split; [cbn; lra|].
  split.
  { revert E E'. unfold coefficients. destruct ric_integ as (Rm & Vf & Vb & -> & HR & HF & HB). cbn [bind]. unfold numerical, mp_solver.
    destruct (temp_matrices inv1 integ Rm Vf Vb) as [[tAf tAb]|]; [|discriminate]. cbn [bind]. cbn [integ aG]. intros E E'.
    apply bind_Ok in E as (A1 & EA1 & E). apply bind_Ok in E as (? & _ & E). apply bind_Ok in E as (? & _ & E). apply bind_Ok in E as (? & _ & E). apply bind_Ok in E as ([? ?] & _ & E).
    apply Ok_inj in E. injection E as <- _ _ _ _.
    apply bind_Ok in E' as (? & _ & E). apply bind_Ok in E as (? & _ & E). apply bind_Ok in E as (A2 & EA2 & E). apply bind_Ok in E as (? & _ & E). apply bind_Ok in E as (? & _ & E). apply bind_Ok in E as (? & _ & E).
    apply Ok_inj in E. injection E as <- _ _ _ _. apply Ok_inj. rewrite <- EA1, <- EA2. reflexivity. }
  split; [exists (1/2), 1; cbn; split; [now left|lra]|]. split; [exact E|]. split; [exact E'|].
  destruct H3 as (_ & _ & ->). destruct H3' as (_ & _ & ->). intros X. assert (exp (-1) < exp (- (1/2))) by (apply exp_increasing; lra). lra.
Qed.
Print Assumptions C75_mpmath_late_waveform_refuted.

(** C75: the sympy solver is right for waveforms that are constant over the period, and refuses [mid_point]. *)
Theorem C75_sympy_coefficients : forall care_raw inv solve ivp expm S d eta2 Af Ab Bf Bb WT,
  sound S d care_raw inv solve ivp expm -> fits S d -> waves_are d constant_wave -> eta2 <> 0 -> 0 <= ck_T (d_clk d) ->
  coefficients care_raw inv solve ivp expm S d eta2 BSympy false = Ok (Af, Ab, Bf, Bb, WT) ->
  good_coefficients S d eta2 Af Ab Bf Bb WT /\ coefficients care_raw inv solve ivp expm S d eta2 BSympy true = Exn NotImplementedError.
Proof.
  intros care_raw inv solve ivp expm S d eta2 Af Ab Bf Bb WT SO Fi Hw He HT H. split; [eapply sympy_good; eauto|].
  unfold coefficients in H. apply bind_Ok in H as ([[Rm Vf] Vb] & ER & _). eapply sympy_mid. exact ER.
Qed.
Print Assumptions C75_sympy_coefficients.
Example C75_sympy_ex : waves_are (one_wave (WStep 0 1)) constant_wave /\
  exists Af Ab Bf Bb WT, coefficients care1 inv1 solve1 ivp_step expm1 integ (one_wave (WStep 0 1)) 1 BSympy false = Ok (Af, Ab, Bf, Bb, WT).
Proof.
  split; [intros w [<-|[]]; reflexivity|]. destruct step_sym as (Af & Ab & Bf & Bb & WT & E & _). exists Af, Ab, Bf, Bb, WT. exact E.
Qed.

(** C75, refuted: for a decaying (RC) waveform the sympy solver does not reverse the signal of the backward filter. *)
Theorem C75_sympy_decaying_waveform_refuted : exists care_raw inv solve ivp expm S d eta2 Af Ab Bf Bb WT Af' Ab' Bf' Bb' WT',
  sound S d care_raw inv solve ivp expm /\ fits S d /\ waves_are d full_period /\ eta2 <> 0 /\ 0 < ck_T (d_clk d) /\
  coefficients care_raw inv solve ivp expm S d eta2 BNumpy false = Ok (Af, Ab, Bf, Bb, WT) /\
  coefficients care_raw inv solve ivp expm S d eta2 BSympy false = Ok (Af', Ab', Bf', Bb', WT') /\
  ent Bf' 0 0 = ent Bf 0 0 /\ ent Bb' 0 0 <> ent Bb 0 0.
Proof.
  exists care1, inv1, solve1, ivp_rc, expm1, integ, (one_wave (WRC 1 0 1)), 1.
  destruct rc_numpy as (Af & Ab & Bf & Bb & WT & E & H1 & H2 & H3 & H4 & H5). destruct rc_sym as (Af' & Ab' & Bf' & Bb' & WT' & E' & H1' & H2' & H3' & H4' & H5').
  exists Af, Ab, Bf, Bb, WT, Af', Ab', Bf', Bb', WT'. split; [apply sound_rc|]. split; [apply fits_integ; cbn; lra|].
  split; [intros w [<-|[]]; cbn; split; [lra|apply Rle_refl]|]. split; [lra|]. split; [cbn; lra|]. split; [exact E|]. split; [exact E'|].
  destruct H3 as (_ & _ & ->). destruct H3' as (_ & _ & ->). destruct H4 as (_ & _ & ->). destruct H4' as (_ & _ & ->). split; [reflexivity|].
  assert (X := sinh1). assert (P := exp_pos (-1)). intros Y. assert (exp (-1) * (exp 1 - exp (-1) - 2) = 0) by lra. nra.
Qed.
Print Assumptions C75_sympy_decaying_waveform_refuted.

(** C75: [mid_point=True] of the numpy solver does not move the sampling instants of the forward filter. *)
Theorem C75_numpy_midpoint_forward : forall care_raw inv solve ivp expm S d eta2 Af Ab Bf Bb WT,
  sound S d care_raw inv solve ivp expm -> fits S d -> waves_are d constant_wave -> eta2 <> 0 -> 0 <= ck_T (d_clk d) ->
  coefficients care_raw inv solve ivp expm S d eta2 BNumpy true = Ok (Af, Ab, Bf, Bb, WT) ->
  exists Vf Vb, riccati_sol S eta2 1 Vf /\ riccati_sol S eta2 (-1) Vb /\ weights S Vf Vb WT /\ follows_fwd S d (fwdA S eta2 Vf) Af Bf.
Proof. intros care_raw inv solve ivp expm S d eta2 Af Ab Bf Bb WT SO. eapply midpoint_fwd; eauto. Qed.
Print Assumptions C75_numpy_midpoint_forward.
Example C75_midpoint_ex : exists Af Ab Bf Bb WT, coefficients care1 inv1 solve1 ivp_step expm1 integ (one_wave (WStep 0 1)) 1 BNumpy true = Ok (Af, Ab, Bf, Bb, WT) /\ ent Bf 0 0 = 1 - exp (-1).
Proof. destruct step_mid as (Af & Ab & Bf & Bb & WT & E & H1 & H2 & H3 & H4 & H5). exists Af, Ab, Bf, Bb, WT. split; [exact E|apply H3]. Qed.

(** C75, refuted: with [mid_point=True] the backward coefficients do not belong to the backward filter: same Ab, other Bb. *)
Theorem C75_numpy_midpoint_backward_refuted : exists care_raw inv solve ivp expm S d eta2 Af Ab Bf Bb WT Af' Ab' Bf' Bb' WT',
  sound S d care_raw inv solve ivp expm /\ fits S d /\ waves_are d constant_wave /\ eta2 <> 0 /\ 0 < ck_T (d_clk d) /\
  coefficients care_raw inv solve ivp expm S d eta2 BNumpy false = Ok (Af, Ab, Bf, Bb, WT) /\
  coefficients care_raw inv solve ivp expm S d eta2 BNumpy true = Ok (Af', Ab', Bf', Bb', WT') /\
  ent Af' 0 0 = ent Af 0 0 /\ ent Bf' 0 0 = ent Bf 0 0 /\ ent Ab' 0 0 = ent Ab 0 0 /\ ent Bb' 0 0 <> ent Bb 0 0.
Proof.
  exists care1, inv1, solve1, ivp_step, expm1, integ, (one_wave (WStep 0 1)), 1.
  destruct step_numpy as (Af & Ab & Bf & Bb & WT & E & H1 & H2 & H3 & H4 & H5). destruct step_mid as (Af' & Ab' & Bf' & Bb' & WT' & E' & H1' & H2' & H3' & H4' & H5').
  exists Af, Ab, Bf, Bb, WT, Af', Ab', Bf', Bb', WT'. split; [apply sound_step; now left|]. split; [apply fits_integ; exact I|].
  split; [intros w [<-|[]]; reflexivity|]. split; [lra|]. split; [cbn; lra|]. split; [exact E|]. split; [exact E'|].
  destruct H1 as (_ & _ & ->), H1' as (_ & _ & ->), H2 as (_ & _ & ->), H2' as (_ & _ & ->), H3 as (_ & _ & ->), H3' as (_ & _ & ->), H4 as (_ & _ & ->), H4' as (_ & _ & ->).
  split; [reflexivity|]. split; [reflexivity|]. split; [reflexivity|].
  assert (S1 : exp (1/2) > 1) by (assert (X0 := exp_ineq1 (1/2) ltac:(lra)); lra). assert (P := exp_pos (- (1/2))).
  assert (E1 : exp (1/2) * exp (- (1/2)) = 1) by (rewrite <- exp_plus; replace (1/2 + - (1/2)) with 0 by ring; apply exp_0).
  assert (E2 : exp (- (1/2)) * exp (- (1/2)) = exp (-1)) by (rewrite <- exp_plus; f_equal; field). intros X.
  set (a := exp (1/2)) in *. set (b := exp (- (1/2))) in *. assert (Y : (a - b) - (1 - b * b) = 0) by lra. assert (Z1 : b < 1) by nra.
  assert (W : (a - 1) * (a - b) = 0) by (replace ((a - 1) * (a - b)) with (a * ((a - b) - (1 - b * b)) + b * (1 - a * b)) by ring; rewrite Y, E1; ring).
  apply Rmult_integral in W. lra.
Qed.
Print Assumptions C75_numpy_midpoint_backward_refuted.
