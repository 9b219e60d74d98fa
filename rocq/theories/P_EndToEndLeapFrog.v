(** Property theorem C116: from synthesis over simulation to the estimate, for leap-frog filters.
    Vocabulary as in P_EndToEnd.v; [get_lf] (Integrators.v): get_leap_frog. *)
From Coq Require Import List Arith Lia Bool Reals Lra ZArith.
From Flocq Require Import Core.
From Coquelicot Require Import Complex.
From Verif Require Import Base LinAlg Estimators BatchProofs BatchRun FirProofs EstProps FirExtras AnalogSystem AnalogProofs Signals DigitalControl DigitalControlProofs ControlKinds
  Fom Integrators IntegratorsProofs Simulator Stability LinearOde PreSim SynthesisProofs SynthesisExtra Zpk FilterCoeff FilterCoeffProofs FilterOde FilterBackends FilterRun FilterExample P_Estimators
  TransferFn CplxLin TransferProofs FreqProofs TransferExtra TransferExample P_Transfer
  Riccati RiccatiAlg RiccatiProofs RiccatiFilter RiccatiDecay RiccatiExample P_Riccati EstimatorDecay P_EstimatorDecay ConversionError P_ConversionError ToneResponse P_ToneResponse EndToEnd EndToEndExample
  LeapFrogPoles LeapFrogStability EndToEndLeapFrog P_Synthesis P_EndToEnd.
Import ListNotations.
Open Scope R_scope.

(** C116: a synthesised leap-frog, its simulation with a sinusoid within the input range of C115, and the estimators with the coefficients computed for it: the estimate of
    instant j is the sinusoid at that instant times the number that signal_transfer_function reports for its frequency, up to an error that does not depend on the
    frequency, amplitude or phase, and a transient that decays geometrically with the distance from both ends of the window. All frequencies but those of the N poles are covered. *)
Theorem C116_end_to_end : forall gi k h S d h' s0 pinv care_raw inv solve ivp expm eta2 Rm Vf Vb Af Ab Bf Bb WT,
  get_lf gi k h = Ok (S, d, h') -> base_init S d h' 1 None = Ok s0 ->
  sound S d care_raw inv solve ivp expm ->
  (forall A B Q Rm X, rows A = cols A -> symmetric_mat Q -> symmetric_mat Rm -> care_raw A B Q Rm = Ok X -> RiccatiProofs.stabilising A B Q Rm X) ->
  pinv_ok pinv (sN S) -> 0 < eta2 ->
  riccati care_raw S eta2 = Ok (Rm, Vf, Vb) -> coefficients care_raw inv solve ivp expm S d eta2 BNumpy false = Ok (Af, Ab, Bf, Bb, WT) -> invertible_sum (sN S) (ent Vf) (ent Vb) ->
  exists N BW C rho, k_N k = Some N /\ match k_BW k with Some b => BW = b | None => exists o T, k_OSR k = Some o /\ k_T k = Some T /\ 2 * BW * o * T = 1 end /\
    0 <= C /\ 0 <= rho < 1 /\
    let amax := 1 - (2 ^ (N - 1) - 1) * (2 * PI * BW * ck_T (d_clk d)) ^ 2 in 0 < amax ->
    forall w, (forall j, (1 <= j <= N)%nat -> w <> 2 * PI * BW * cos (INR j * PI / (INR N + 1))) ->
    exists g P, signal_transfer_function pinv S eta2 [w] = Ok [[g]] /\ 0 <= g < 1 /\ 0 <= P /\
    forall sim_ivp a ph lo j hi e, 0 <= a <= amax ->
      (forall i s, full_run sim_ivp S [cosine_in a w ph] i s0 = Ok s -> answers_exactly sim_ivp S [cosine_in a w ph] s) ->
      estimate_of (to_coef S Af Ab Bf Bb WT) (handed_out sim_ivp S [cosine_in a w ph] s0) lo j hi e ->
      exists v, e = [v] /\ Rabs (v - g * cosine_in a w ph (INR j * ck_T (d_clk d))) <= C * (1 + (rho ^ (j - lo) + rho ^ (hi - j)) * (1 + P * a)).
Proof.
  intros gi k h S d h' s0 pinv care_raw inv solve ivp expm eta2 Rm Vf Vb Af Ab Bf Bb WT HGC HI0 SO ST PIo He HR H HI.
  destruct (get_lf_inv _ _ _ _ _ _ HGC) as (N & BW & beta & alpha & T & EN & HN & EBW & HBW & HRel & Hdl & HF).
  set (kap := map (fun n => beta * dflt (k_delta k) 1 ^ n) (seq 0 N)) in *. assert (Lkap : length kap = N) by (unfold kap; now rewrite map_length, seq_length).
  destruct HF as (V & HS & Lk & HP & HW & ET). rewrite repeat_length in *.
  assert (HsN : sN S = N) by (destruct HS as (D & _); now rewrite D, repeat_length).
  assert (HsL : sL S = 1%nat) by apply HS.
  assert (HnM : ncontrols (diag0 kap) = N) by (destruct (diag0_diagonal kap) as [E _]; now rewrite E).
  assert (HsM : sM S = N) by (destruct HS as (_ & _ & D & _); now rewrite D).
  assert (HsMt : sMt S = sM S) by (destruct HS as (_ & _ & D & D' & _); now rewrite D, D').
  assert (HG : aG S <> None) by (intros E; unfold sM in HsM; rewrite E in HsM; lia).
  destruct (chain_observed S _ _ _ _ V HS) as [HNt HOb].
  assert (Fi : fits S d) by (constructor; [exact V|exact HG|rewrite HsM; apply HP|exact (plain_waves d N HP)]).
  assert (HT0 : 0 < ck_T (d_clk d)) by (rewrite ET; apply HRel).
  assert (PT : pinv_ok pinv (sNt S)) by (rewrite HNt; exact PIo).
  destruct (C110_signal_transfer pinv care_raw inv solve ivp expm S d eta2 Rm Vf Vb Af Ab Bf Bb WT SO ST PIo PT Fi He HT0 (fun r l _ _ => get_lf_D _ _ _ _ _ _ HGC r l) HR H HI) as (C & rho & C0 & Hrr & HC).
  set (D := Rmax 1 (Rabs (dflt (k_delta k) 1) ^ N)). assert (D1 : 1 <= D) by apply Rmax_l.
  exists N, BW, (C * D), rho. split; [exact EN|]. split; [exact EBW|]. split; [apply Rmult_le_pos; lra|]. split; [exact Hrr|]. intros amax Hamax w Hw.
  assert (HPI := PI_RGT_0).
  assert (OP : off_poles S w).
  { apply (lf_off_poles S N beta alpha (PI * BW) (diag0 kap) w V HG HN); [apply Rmult_integral_contrapositive_currified; [lra|exact HBW]|apply HRel|exact HS|].
    intros j Hj E. apply (Hw j Hj). rewrite E. unfold angle_k. rewrite S_INR. ring. }
  destruct (HC w OP) as (stf & P & Estf & P0 & HE).
  destruct (stf_ok pinv S w V PIo OP eta2 He PT) as (G & stf' & EG & EX & LX & ER & HX).
  assert (EQs : stf' = stf) by (assert (Q := proj1 (mapM1 _ _ _) Estf); rewrite EX in Q; now apply Ok_inj in Q). subst stf'. rewrite HsL in LX. destruct stf as [|g [|]]; try discriminate.
  destruct (ER (fun r => cent G r 0%nat)) as (v1 & RL1). destruct (HX 0%nat v1 ltac:(lia) RL1) as [_ Bg]. cbn [nth] in Bg.
  exists g, P. split; [exact Estf|]. split; [exact Bg|]. split; [exact P0|].
  intros sim_ivp a ph lo j hi e Ha HEX HEs. set (u := cosine_in a w ph) in *.
  assert (Hu : forall t, 0 <= t -> Rabs (u t) <= amax).
  { intros t _. unfold u, cosine_in. assert (B := COS_bound (w * t + ph)). apply Rabs_le. nra. }
  destruct (lf_closed_loop gi k h S d h' sim_ivp s0 u amax HGC HI0 Hamax Hu HEX) as (N' & BW' & EN' & EsN & EBW' & HRun0). rewrite HsN in EsN. subst N'.
  assert (BWe : BW' = BW).
  { destruct (k_BW k) as [b|]; [congruence|]. destruct EBW as (o & T1 & Eo & ET1 & Q1). destruct EBW' as (o' & T1' & Eo' & ET1' & Q2). assert (o' = o) by congruence. assert (T1' = T1) by congruence. subst o' T1'.
    assert (Nz : o * T1 <> 0) by (intros Z; replace (2 * BW * o * T1) with (2 * BW * (o * T1)) in Q1 by ring; rewrite Z in Q1; lra).
    apply (Rmult_eq_reg_r (o * T1)); [lra|exact Nz]. }
  subst BW'. cbv zeta in HRun0. assert (HRun1 := HRun0 ltac:(unfold amax; lra)). clear HRun0.
  assert (Lev : forall x, LeapFrogStability.within N (fun n => Rabs (dflt (k_delta k) 1) ^ (n + 1) * Rmin 1 (1 + (2 * PI * BW * ck_T (d_clk d)) ^ 2 - (1 - amax + (2 * PI * BW * ck_T (d_clk d)) ^ 2) / 2 ^ (n + 1))) x -> forall n, (n < N)%nat -> Rabs (nth n x 0) <= D).
  { intros x Hx n Hn. eapply Rle_trans; [apply Hx, Hn|]. assert (A0 := Rabs_pos (dflt (k_delta k) 1)). apply Rle_trans with (Rabs (dflt (k_delta k) 1) ^ (n + 1) * 1).
    - apply Rmult_le_compat_l; [now apply pow_le|apply Rmin_l].
    - rewrite Rmult_1_r. unfold D. destruct (Rle_dec 1 (Rabs (dflt (k_delta k) 1))) as [G1|G1].
      + eapply Rle_trans; [|apply Rmax_r]. apply Rle_pow; [exact G1|lia].
      + eapply Rle_trans; [|apply Rmax_l]. apply Rle_trans with (1 ^ (n + 1)); [apply pow_incr; lra|rewrite pow1; lra]. }
  assert (HRun : forall i, exists s, full_run sim_ivp S [u] i s0 = Ok s /\ s_t s = INR i * ck_T (d_clk d) /\ length (s_x s) = N /\ (forall n, (n < N)%nat -> Rabs (nth n (s_x s) 0) <= D) /\
    exists h, observe_update S (inputs_at S [u] (0 + s_t s)) s = Ok h /\
    forall y, solves (full_rhs S [u] s h) 0 (ck_T (d_clk d)) (s_x s) y -> forall t, 0 <= t <= ck_T (d_clk d) -> forall n, (n < N)%nat -> Rabs (nth n (y t) 0) <= D).
  { intros i. destruct (HRun1 i) as (s & E1 & E2 & E3 & E4 & hh & E5 & E6). exists s. split; [exact E1|]. split; [exact E2|]. split; [exact E3|]. split; [now apply Lev|]. exists hh. split; [exact E5|].
    intros y Hy t Ht. apply Lev. now apply E6. }
  assert (Es0 : s0 = mkSim 0 (repeat 0 (sN S)) d h') by (unfold base_init in HI0; rewrite HsL in HI0; cbn in HI0; now apply Ok_inj in HI0).
  assert (HP' : plain d (sM S)) by (rewrite HsM; exact HP).
  assert (Ex : forall i, exists s, full_run sim_ivp S [u] i s0 = Ok s) by (intros i; destruct (HRun i) as (s & E & _); eauto).
  assert (Hdec : decisions (sM S) (handed_out sim_ivp S [u] s0)).
  { apply (handed_decisions sim_ivp S d [u] s0 V HsMt HP'); try (rewrite Es0; reflexivity); auto; [discriminate|lra|rewrite Es0; exact HW|rewrite Es0; apply repeat_length]. }
  destruct (sim_front_end sim_ivp S d [u] s0 V HG HsMt HP' ltac:(discriminate) ltac:(now rewrite HsL) ltac:(lra) ltac:(now rewrite Es0) ltac:(rewrite Es0; exact HW) ltac:(now rewrite Es0) ltac:(rewrite Es0; apply repeat_length) HEX hi (fun i _ => Ex i)) as (x & HFE & HXs).
  assert (HFE' : front_end S d lo hi (handed_out sim_ivp S [u] s0) (fun i l t => nth l (map (fun f => f (t + INR i * ck_T (d_clk d))) [u]) 0) x) by (intros i Hi; apply HFE; lia).
  destruct (C109_estimate_is_error_difference care_raw inv solve ivp expm S d eta2 Rm Vf Vb Af Ab Bf Bb WT SO Fi ltac:(lra) HT0 HR H _ lo j hi e _ x Hdec HEs HFE') as (L & (ef & EF & EF0) & (eb & EB & EB0) & EE).
  assert (Ee := EE ef eb (conj EF EF0) (conj EB EB0)). rewrite HsL in Ee. cbn [seq map] in Ee. eexists. split; [exact Ee|].
  assert (St : forall i n, (i <= hi)%nat -> (n < sN S)%nat -> Rabs (x i n 0) <= D).
  { intros i n Hi Hn. destruct (HRun i) as (s & E & _ & Lx & Bx & _). destruct (HXs i s Hi E) as [-> _]. apply Bx. now rewrite <- HsN. }
  assert (Ob : observed_within S d lo hi x D).
  { intros i r t Hi Hr' Ht. rewrite HNt in Hr'. rewrite HOb by exact Hr'. destruct (HRun i) as (s & E & _ & Lx & Bx & hs & Eo & Hy). destruct (HXs i s ltac:(lia) E) as [_ Q].
    destruct (Q ltac:(lia) hs Eo) as (y & Sy & Ey). rewrite Ey by exact Ht. apply (Hy y Sy t Ht). now rewrite <- HsN. }
  destruct (HE (handed_out sim_ivp S [u] s0) lo j hi e (fun i l t => nth l (map (fun f => f (t + INR i * ck_T (d_clk d))) [u]) 0) x D D D 0%nat a ph Hdec HEs HFE') as [_ B]; try lra; auto.
  - lia.
  - intros i t _ _. cbn [map nth]. unfold u, cosine_in. do 2 f_equal. ring.
  - intros i m t _ Hm Nm _. lia.
  - intros n Hn. apply St; [lia|exact Hn].
  - intros n Hn. apply St; [lia|exact Hn].
  - rewrite Ee in B. cbn [nth] in B. unfold u, cosine_in. eapply Rle_trans; [exact B|]. rewrite Rmult_assoc. apply Rmult_le_compat_l; [exact C0|].
    assert (R1 : 0 <= rho ^ (j - lo)) by (apply pow_le; lra). assert (R2 : 0 <= rho ^ (hi - j)) by (apply pow_le; lra).
    assert (Q : 0 <= (D - 1) * ((rho ^ (j - lo) + rho ^ (hi - j)) * (P * a))) by (repeat apply Rmult_le_pos; lra). lra.
Qed.
Print Assumptions C116_end_to_end.

(** The first order filter with OSR = 1 and BW = 1, simulated with cos t and exact integration: every hypothesis holds, and the batch estimator returns estimates from the simulated decisions. *)
Example C116_ex : exists S d h' s0 Rm Vf Vb Af Ab Bf Bb WT e, (forall gi, get_lf gi (kw_osr 1 1 1) [] = Ok (S, d, h')) /\ base_init S d h' 1 None = Ok s0 /\
  sound S d care1 inv1 solve1 ivp_affine expm1 /\ (forall A B Q Rm X, rows A = cols A -> symmetric_mat Q -> symmetric_mat Rm -> care1 A B Q Rm = Ok X -> RiccatiProofs.stabilising A B Q Rm X) /\
  pinv_ok pinv2 (sN S) /\ riccati care1 S 1 = Ok (Rm, Vf, Vb) /\ coefficients care1 inv1 solve1 ivp_affine expm1 S d 1 BNumpy false = Ok (Af, Ab, Bf, Bb, WT) /\ invertible_sum (sN S) (ent Vf) (ent Vb) /\
  (forall i s, full_run ivp_area S [cosine_in 1 1 0] i s0 = Ok s -> answers_exactly ivp_area S [cosine_in 1 1 0] s) /\
  estimate_of (to_coef S Af Ab Bf Bb WT) (handed_out ivp_area S [cosine_in 1 1 0] s0) 0 3 5 e.
Proof.
  assert (X : exists v, lf_osr (kw_osr 1 1 1) 1 1 1 [] = Ok v).
  { assert (HPI := PI_RGT_0). unfold lf_osr. cbn [kw_osr k_delta dflt]. rewrite Req_bool_false by lra. replace (1 * 1 / (2 * PI) * (2 * PI * 1)) with 1 by (field; lra). rewrite Req_bool_false by lra.
    apply lf_build_accepts; lia || lra. }
  destruct X as ([[S d] h] & E). destruct (lf_osr_inv _ _ _ _ _ _ _ _ E) as (_ & _ & _ & _ & _ & HF). cbn [kw_osr k_delta dflt] in HF. cbn [repeat Nat.sub map seq] in HF. rewrite pow_O, !Rmult_1_r in HF.
  assert (ET : ck_T (d_clk d) = 1 / 2) by apply HF. assert (HF' : default_frontend S d h [1] [] [0] [1] (ck_T (d_clk d))) by (rewrite ET; exact HF).
  assert (HT : 0 < ck_T (d_clk d)) by lra.
  destruct HF as (V & HS & _ & HP & HW & _). pose proof HS as (DN & DL & DM & DMt & _). cbn [length] in *.
  assert (EI : base_init S d h 1 None = Ok (mkSim 0 [0] d h)) by (unfold base_init; rewrite DL, DN; reflexivity).
  destruct (one_chain S V HS) as (G & HA & HB & HC & EG & HG1).
  assert (HMd : d_M d = 1%nat) by apply HP. assert (HRd : d_resp d = [WStep 0 1]) by (destruct HP as (_ & -> & _); reflexivity).
  destruct (coeff1 S d G HA HB HC EG HG1 HMd HRd HT) as (Rm & Vf & Vb & Af & Ab & Bf & Bb & WT & ER & HVf & HVb & EC & HWT).
  assert (SO := sound1 S d G HA EG HG1 HMd HRd HT).
  set (u := cosine_in 1 1 0). set (s0 := mkSim 0 [0] d h) in *.
  assert (Hex : forall i s, full_run ivp_area S [u] i s0 = Ok s -> answers_exactly ivp_area S [u] s).
  { intros i s Hi. eapply area_exact; [exact HF'|lra| |reflexivity|exact Hi]. intros t. apply cos_cont. }
  assert (HGn : aG S <> None) by (rewrite EG; discriminate). assert (HM1 : sM S = 1%nat) by (unfold sM; rewrite EG; apply HG1).
  assert (HsMt : sMt S = sM S) by (now rewrite DM, DMt). assert (HP' : plain d (sM S)) by (rewrite HM1; exact HP).
  assert (Hu : forall t, 0 <= t -> Rabs (u t) <= 1) by (intros t _; unfold u, cosine_in; rewrite Rmult_1_l; apply Rabs_le; apply COS_bound).
  destruct (lf_closed_loop (fun _ => 0) (kw_osr 1 1 1) [] S d h ivp_area s0 u 1 E EI ltac:(lra) Hu Hex) as (N & BW & EN & _ & _ & HRun0). injection EN as <-.
  assert (HRun := HRun0 ltac:(cbn [Nat.sub]; rewrite pow_O; lra)). clear HRun0.
  assert (Hdec : decisions (sM S) (handed_out ivp_area S [u] s0)).
  { apply (handed_decisions ivp_area S d [u] s0 V HsMt HP'); auto; try discriminate; try lra. intros i. destruct (HRun i) as (s & Es & _). eauto. }
  assert (Fi : fits S d) by (constructor; [exact V|exact HGn|now rewrite HM1|exact (plain_waves d 1 HP)]).
  destruct (numpy_good_with care1 inv1 solve1 ivp_affine expm1 S d SO 1 Af Ab Bf Bb WT Fi ltac:(lra) ltac:(lra) EC) as (Rm' & Vf' & Vb' & _ & _ & _ & HW' & HF1 & HB1).
  assert (Wf := coef_shape S _ Af Ab Bf Bb WT _ _ _ _ HW' HF1 HB1).
  destruct (batch_window S Af Ab Bf Bb WT Wf (handed_out ivp_area S [u] s0) 3 Hdec 2 1 10 5 4 ltac:(lia) ltac:(lia) ltac:(cbn; lia) ltac:(cbn; lia)) as [_ E1].
  eexists S, d, h, s0, Rm, Vf, Vb, Af, Ab, Bf, Bb, WT, _. split; [intros gi; exact E|]. split; [exact EI|]. split; [exact SO|]. split; [exact (proj1 (proj2 C104_forgets_ex))|]. split; [rewrite DN; exact pinv2_1|].
  split; [exact ER|]. split; [exact EC|]. split.
  { rewrite DN. exists (fun _ _ => 1/2). intros i j Hi Hj. replace i with O by lia. replace j with O by lia. rewrite rsum1. cbn [Nat.eqb]. destruct HVf as (_ & _ & ->). destruct HVb as (_ & _ & ->). lra. }
  split; [exact Hex|]. left. exists 2%nat, 1%nat, 10%Z, 5%nat, 4%nat. split; [lia|]. split; [lia|]. split; [lia|]. split; [cbn; lia|]. split; [reflexivity|]. split; [reflexivity|exact E1].
Qed.
(** input range and excluded frequency of this filter; a fourth order filter with OSR = 32 takes amplitudes up to 0.89 *)
Example C116_range : 1 - (2 ^ (1 - 1) - 1) * (2 * PI * 1 * (1 / 2)) ^ 2 = 1 /\ 1 <> 2 * PI * 1 * cos (INR 1 * PI / (INR 1 + 1)) /\ 89 / 100 <= 1 - (2 ^ (4 - 1) - 1) * (2 * PI * 1 * (1 / (2 * 32 * 1))) ^ 2.
Proof.
  assert (HPI := PI_RGT_0). assert (HP4 := PI_4). split; [cbn [Nat.sub]; rewrite pow_O; ring|]. split.
  - cbn [INR]. replace (1 * PI / (1 + 1)) with (PI / 2) by field. rewrite cos_PI2. lra.
  - replace (2 * PI * 1 * (1 / (2 * 32 * 1))) with (PI / 32) by field. cbn [Nat.sub]. assert ((PI / 32) ^ 2 <= (1 / 8) ^ 2) by (apply pow_incr; lra). lra.
Qed.
