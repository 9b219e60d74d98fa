(** Property theorem C111: from synthesis over simulation to the estimate.
    Vocabulary: [get_coi] (Integrators.v): get_chain_of_integrator; [base_init], [full_run] (Simulator.v): the constructor and successive calls of [next] of FullSimulator;
    [answers_exactly] (Stability.v): the ODE solver returned the end of an exact solution; [handed_out] (EndToEnd.v): the control signals that the simulator handed out;
    [estimate_of] (P_ConversionError.v): what the batch, FIR and IIR estimators return for instant j from the decisions of the periods lo, ..., hi - 1. *)
From Coq Require Import List Arith Lia Bool Reals Lra ZArith.
From Flocq Require Import Core.
From Coquelicot Require Import Complex.
From Verif Require Import Base LinAlg Estimators BatchProofs BatchRun FirProofs EstProps FirExtras AnalogSystem AnalogProofs Signals DigitalControl DigitalControlProofs ControlKinds
  Integrators IntegratorsProofs Simulator Stability LinearOde PreSim SynthesisProofs Zpk FilterCoeff FilterCoeffProofs FilterOde FilterBackends FilterRun FilterExample P_Estimators
  TransferFn CplxLin TransferProofs FreqProofs TransferExtra TransferExample P_Transfer
  Riccati RiccatiAlg RiccatiProofs RiccatiFilter RiccatiDecay RiccatiExample P_Riccati EstimatorDecay P_EstimatorDecay ConversionError P_ConversionError ToneResponse P_ToneResponse EndToEnd EndToEndExample P_Synthesis.
Import ListNotations.
Open Scope R_scope.

Definition cosine_in (a w ph : R) (t : R) : R := a * cos (w * t + ph).

(** C111: a synthesised chain of integrators, its simulation with a sinusoid of amplitude at most 1, and the estimators with the coefficients computed for it: the estimate of
    instant j is the sinusoid at that instant times the number that signal_transfer_function reports for its frequency, up to an error that does not depend on the
    frequency, amplitude or phase, and a transient that decays geometrically with the distance from both ends of the window. *)
Theorem C111_end_to_end : forall k h S d h' s0 pinv care_raw inv solve ivp expm eta2 Rm Vf Vb Af Ab Bf Bb WT,
  get_coi k h = Ok (S, d, h') -> k_swcap k = false -> dflt (k_rho k) 0 <= 0 -> (forall BW, k_BW k = Some BW -> 0 <= BW) -> base_init S d h' 1 None = Ok s0 ->
  sound S d care_raw inv solve ivp expm ->
  (forall A B Q Rm X, rows A = cols A -> symmetric_mat Q -> symmetric_mat Rm -> care_raw A B Q Rm = Ok X -> RiccatiProofs.stabilising A B Q Rm X) ->
  pinv_ok pinv (sN S) -> 0 < eta2 ->
  riccati care_raw S eta2 = Ok (Rm, Vf, Vb) -> coefficients care_raw inv solve ivp expm S d eta2 BNumpy false = Ok (Af, Ab, Bf, Bb, WT) -> invertible_sum (sN S) (ent Vf) (ent Vb) ->
  exists C rho, 0 <= C /\ 0 <= rho < 1 /\ forall w, w <> 0 -> exists g P, signal_transfer_function pinv S eta2 [w] = Ok [[g]] /\ 0 <= g < 1 /\ 0 <= P /\
    forall sim_ivp a ph lo j hi e, 0 <= a <= 1 ->
      (forall i s, full_run sim_ivp S [cosine_in a w ph] i s0 = Ok s -> answers_exactly sim_ivp S [cosine_in a w ph] s) ->
      estimate_of (to_coef S Af Ab Bf Bb WT) (handed_out sim_ivp S [cosine_in a w ph] s0) lo j hi e ->
      exists v, e = [v] /\ Rabs (v - g * cosine_in a w ph (INR j * ck_T (d_clk d))) <= C * (1 + (rho ^ (j - lo) + rho ^ (hi - j)) * (1 + P * a)).
Proof.
  intros k h S d h' s0 pinv care_raw inv solve ivp expm eta2 Rm Vf Vb Af Ab Bf Bb WT HGC Hsw Hr HB HI0 SO ST PI He HR H HI.
  destruct (get_coi_inv _ _ _ _ _ HGC Hsw) as (N & beta & rh & T & EN & HN & HT & HTb & Hrho & HF).
  destruct HF as (V & HS & Lk & HP & HW & ET). rewrite repeat_length in *.
  assert (HsN : sN S = N) by (destruct HS as (D & _); now rewrite D, repeat_length).
  assert (HsL : sL S = 1%nat) by apply HS.
  assert (HnM : ncontrols (diag0 (repeat beta N)) = N) by (destruct (diag0_diagonal (repeat beta N)) as [E _]; rewrite E; apply repeat_length).
  assert (HsM : sM S = N) by (destruct HS as (_ & _ & D & _); now rewrite D).
  assert (HsMt : sMt S = sM S) by (destruct HS as (_ & _ & D & D' & _); now rewrite D, D').
  assert (HG : aG S <> None) by (intros E; unfold sM in HsM; rewrite E in HsM; lia).
  assert (HS' : integrator_system S (repeat beta N) (repeat 0 (length (repeat beta N) - 1)) (repeat rh N) (diag0 (repeat beta N))) by (rewrite repeat_length; exact HS).
  destruct (chain_observed S _ _ _ _ V HS) as [HNt HOb].
  assert (Fi : fits S d) by (constructor; [exact V|exact HG|rewrite HsM; apply HP|exact (plain_waves d N HP)]).
  assert (HT0 : 0 < ck_T (d_clk d)) by (rewrite ET; exact HT).
  assert (PT : pinv_ok pinv (sNt S)) by (rewrite HNt; exact PI).
  destruct (C110_signal_transfer pinv care_raw inv solve ivp expm S d eta2 Rm Vf Vb Af Ab Bf Bb WT SO ST PI PT Fi He HT0 (fun r l _ _ => get_coi_D _ _ _ _ _ HGC r l) HR H HI) as (C & rho & C0 & Hrr & HC).
  exists C, rho. split; [exact C0|]. split; [exact Hrr|]. intros w Hw. assert (OP := chain_off_poles S _ _ _ w V HG HS' Hw).
  destruct (HC w OP) as (stf & P & Estf & P0 & HE).
  destruct (stf_ok pinv S w V PI OP eta2 He PT) as (G & stf' & EG & EX & LX & ER & HX).
  assert (EQs : stf' = stf) by (assert (Q := proj1 (mapM1 _ _ _) Estf); rewrite EX in Q; now apply Ok_inj in Q). subst stf'. rewrite HsL in LX. destruct stf as [|g [|]]; try discriminate.
  destruct (ER (fun r => cent G r 0%nat)) as (v1 & RL1). destruct (HX 0%nat v1 ltac:(lia) RL1) as [_ Bg]. cbn [nth] in Bg.
  exists g, P. split; [exact Estf|]. split; [exact Bg|]. split; [exact P0|].
  intros sim_ivp a ph lo j hi e Ha HEX HEs. set (u := cosine_in a w ph) in *.
  assert (Hu : forall t, 0 <= t -> Rabs (u t) <= 1).
  { intros t _. unfold u, cosine_in. assert (B := COS_bound (w * t + ph)). apply Rabs_le. nra. }
  destruct (coi_closed_loop k h S d h' sim_ivp s0 u HGC Hsw Hr HB HI0 Hu HEX) as (N' & EN' & EsN & HRun). rewrite HsN in EsN. subst N'.
  assert (Es0 : s0 = mkSim 0 (repeat 0 (sN S)) d h') by (unfold base_init in HI0; rewrite HsL in HI0; cbn in HI0; now apply Ok_inj in HI0).
  assert (HP' : plain d (sM S)) by (rewrite HsM; exact HP).
  assert (Ex : forall i, exists s, full_run sim_ivp S [u] i s0 = Ok s) by (intros i; destruct (HRun i) as (s & E & _); eauto).
  assert (Hdec : decisions (sM S) (handed_out sim_ivp S [u] s0)).
  { apply (handed_decisions sim_ivp S d [u] s0 V HsMt HP'); try (rewrite Es0; reflexivity); auto; [discriminate|lra|rewrite Es0; exact HW|rewrite Es0; apply repeat_length]. }
  destruct (sim_front_end sim_ivp S d [u] s0 V HG HsMt HP' ltac:(discriminate) ltac:(now rewrite HsL) ltac:(lra) ltac:(now rewrite Es0) ltac:(rewrite Es0; exact HW) ltac:(now rewrite Es0) ltac:(rewrite Es0; apply repeat_length) HEX hi (fun i _ => Ex i)) as (x & HFE & HXs).
  assert (HFE' : front_end S d lo hi (handed_out sim_ivp S [u] s0) (fun i l t => nth l (map (fun f => f (t + INR i * ck_T (d_clk d))) [u]) 0) x) by (intros i Hi; apply HFE; lia).
  destruct (C109_estimate_is_error_difference care_raw inv solve ivp expm S d eta2 Rm Vf Vb Af Ab Bf Bb WT SO Fi ltac:(lra) HT0 HR H _ lo j hi e _ x Hdec HEs HFE') as (L & (ef & EF & EF0) & (eb & EB & EB0) & EE).
  assert (Ee := EE ef eb (conj EF EF0) (conj EB EB0)). rewrite HsL in Ee. cbn [seq map] in Ee. eexists. split; [exact Ee|].
  assert (St : forall i n, (i <= hi)%nat -> (n < sN S)%nat -> Rabs (x i n 0) <= 1).
  { intros i n Hi Hn. destruct (HRun i) as (s & E & _ & Lx & Bx & _). destruct (HXs i s Hi E) as [-> _]. apply Bx. now rewrite <- HsN. }
  assert (Ob : observed_within S d lo hi x 1).
  { intros i r t Hi Hr' Ht. rewrite HNt in Hr'. rewrite HOb by exact Hr'. destruct (HRun i) as (s & E & _ & Lx & Bx & hs & Eo & Hy). destruct (HXs i s ltac:(lia) E) as [_ Q].
    destruct (Q ltac:(lia) hs Eo) as (y & Sy & Ey). rewrite Ey by exact Ht. apply (Hy y Sy t Ht). now rewrite <- HsN. }
  destruct (HE (handed_out sim_ivp S [u] s0) lo j hi e (fun i l t => nth l (map (fun f => f (t + INR i * ck_T (d_clk d))) [u]) 0) x 1 1 1 0%nat a ph Hdec HEs HFE') as [_ B]; try lra; auto.
  - lia.
  - intros i t _ _. cbn [map nth]. unfold u, cosine_in. do 2 f_equal. ring.
  - intros i m t _ Hm Nm _. lia.
  - intros n Hn. apply St; [lia|exact Hn].
  - intros n Hn. apply St; [lia|exact Hn].
  - rewrite Ee in B. cbn [nth] in B. unfold u, cosine_in. eapply Rle_trans; [exact B|]. apply Rmult_le_compat_l; [exact C0|]. lra.
Qed.
Print Assumptions C111_end_to_end.

(** One integrator with OSR = 1 and BW = 1, simulated with cos t and exact integration: every hypothesis holds, and the batch estimator returns estimates from the simulated decisions. *)
Example C111_ex : exists S d h' s0 Rm Vf Vb Af Ab Bf Bb WT e, get_coi (kw_osr 1 1 1) [] = Ok (S, d, h') /\ base_init S d h' 1 None = Ok s0 /\
  sound S d care1 inv1 solve1 ivp_affine expm1 /\ (forall A B Q Rm X, rows A = cols A -> symmetric_mat Q -> symmetric_mat Rm -> care1 A B Q Rm = Ok X -> RiccatiProofs.stabilising A B Q Rm X) /\
  pinv_ok pinv2 (sN S) /\ riccati care1 S 1 = Ok (Rm, Vf, Vb) /\ coefficients care1 inv1 solve1 ivp_affine expm1 S d 1 BNumpy false = Ok (Af, Ab, Bf, Bb, WT) /\ invertible_sum (sN S) (ent Vf) (ent Vb) /\
  (forall i s, full_run ivp_area S [cosine_in 1 1 0] i s0 = Ok s -> answers_exactly ivp_area S [cosine_in 1 1 0] s) /\
  estimate_of (to_coef S Af Ab Bf Bb WT) (handed_out ivp_area S [cosine_in 1 1 0] s0) 0 3 5 e.
Proof.
  assert (X : exists v, coi_osr 1 1 1 0 [] = Ok v) by (apply coi_osr_iff; split; [lia|lra]).
  destruct X as ([[S d] h] & E). destruct (coi_osr_inv _ _ _ _ _ _ _ _ E) as (_ & _ & _ & HF). replace (1 * 1) with 1 in HF by ring. cbn [repeat Nat.sub] in HF.
  assert (ET : ck_T (d_clk d) = 1 / (2 * 1 * 1)) by apply HF. assert (HF' : default_frontend S d h [1] [] [0] [1] (ck_T (d_clk d))) by (rewrite ET; exact HF).
  assert (HT : 0 < ck_T (d_clk d)) by lra.
  destruct HF as (V & HS & _ & HP & HW & _). pose proof HS as (DN & DL & DM & DMt & _). cbn [length] in *.
  assert (EI : base_init S d h 1 None = Ok (mkSim 0 [0] d h)) by (unfold base_init; rewrite DL, DN; reflexivity).
  destruct (one_chain S V HS) as (G & HA & HB & HC & EG & HG1).
  assert (HMd : d_M d = 1%nat) by apply HP. assert (HRd : d_resp d = [WStep 0 1]) by (destruct HP as (_ & -> & _); reflexivity).
  destruct (coeff1 S d G HA HB HC EG HG1 HMd HRd HT) as (Rm & Vf & Vb & Af & Ab & Bf & Bb & WT & ER & HVf & HVb & EC & HWT).
  assert (SO := sound1 S d G HA EG HG1 HMd HRd HT).
  set (u := cosine_in 1 1 0). set (s0 := mkSim 0 [0] d h) in *.
  assert (Hex : forall i s, full_run ivp_area S [u] i s0 = Ok s -> answers_exactly ivp_area S [u] s).
  { intros i s Hi. eapply area_exact; [exact HF'|lra| |reflexivity|exact Hi]. intros t. apply cos_cont. }
  assert (HGn : aG S <> None) by (rewrite EG; discriminate). assert (HM1 : sM S = 1%nat) by (unfold sM; rewrite EG; apply HG1).
  assert (HsMt : sMt S = sM S) by (now rewrite DM, DMt). assert (HP' : plain d (sM S)) by (rewrite HM1; exact HP).
  assert (Hu : forall t, 0 <= t -> Rabs (u t) <= 1) by (intros t _; unfold u, cosine_in; rewrite Rmult_1_l; apply Rabs_le; apply COS_bound).
  destruct (coi_closed_loop (kw_osr 1 1 1) [] S d h ivp_area s0 u E eq_refl ltac:(cbn; lra) ltac:(intros BW HB'; injection HB' as <-; lra) EI Hu Hex) as (N & _ & _ & HRun).
  assert (Hdec : decisions (sM S) (handed_out ivp_area S [u] s0)).
  { apply (handed_decisions ivp_area S d [u] s0 V HsMt HP'); auto; try discriminate; try lra. intros i. destruct (HRun i) as (s & Es & _). eauto. }
  assert (Fi : fits S d) by (constructor; [exact V|exact HGn|now rewrite HM1|exact (plain_waves d 1 HP)]).
  destruct (numpy_good_with care1 inv1 solve1 ivp_affine expm1 S d SO 1 Af Ab Bf Bb WT Fi ltac:(lra) ltac:(lra) EC) as (Rm' & Vf' & Vb' & _ & _ & _ & HW' & HF1 & HB1).
  assert (Wf := coef_shape S _ Af Ab Bf Bb WT _ _ _ _ HW' HF1 HB1).
  destruct (batch_window S Af Ab Bf Bb WT Wf (handed_out ivp_area S [u] s0) 3 Hdec 2 1 10 5 4 ltac:(lia) ltac:(lia) ltac:(cbn; lia) ltac:(cbn; lia)) as [_ E1].
  eexists S, d, h, s0, Rm, Vf, Vb, Af, Ab, Bf, Bb, WT, _. split; [exact E|]. split; [exact EI|]. split; [exact SO|]. split; [exact (proj1 (proj2 C104_forgets_ex))|]. split; [rewrite DN; exact pinv2_1|].
  split; [exact ER|]. split; [exact EC|]. split.
  { rewrite DN. exists (fun _ _ => 1/2). intros i j Hi Hj. replace i with O by lia. replace j with O by lia. rewrite rsum1. cbn [Nat.eqb]. destruct HVf as (_ & _ & ->). destruct HVb as (_ & _ & ->). lra. }
  split; [exact Hex|]. left. exists 2%nat, 1%nat, 10%Z, 5%nat, 4%nat. split; [lia|]. split; [lia|]. split; [lia|]. split; [cbn; lia|]. split; [reflexivity|]. split; [reflexivity|exact E1].
Qed.
