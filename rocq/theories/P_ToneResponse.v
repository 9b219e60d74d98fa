(** Property theorems C110: sinusoidal inputs come out with the gain of the reported signal transfer function.
    Vocabulary: [tone w c t] (ToneResponse.v): the real part of c exp (i w t); [front_end], [observed_within], [starts] (ConversionError.v): a run of the analog
    system, a bound on its observations and on the states at one instant; [estimate_of] (P_ConversionError.v): what the batch, FIR and IIR estimators return
    for instant k from the decisions of the periods lo, ..., hi - 1; [rls] (CplxLin.v): regularised least squares; [off_poles], [phasor] (TransferProofs.v). *)
From Coq Require Import List Arith Lia Bool Reals Lra ZArith.
From Flocq Require Import Core.
From Coquelicot Require Import Complex.
From Verif Require Import Base LinAlg Estimators BatchProofs BatchRun FirProofs EstProps FirExtras AnalogSystem AnalogProofs Signals DigitalControl DigitalControlProofs ControlKinds
  Integrators IntegratorsProofs Simulator Stability LinearOde PreSim Zpk FilterCoeff FilterCoeffProofs FilterOde FilterBackends FilterRun FilterExample P_Estimators
  TransferFn CplxLin TransferProofs FreqProofs TransferExtra TransferExample P_Transfer
  Riccati RiccatiAlg RiccatiProofs RiccatiFilter RiccatiDecay RiccatiExample P_Riccati EstimatorDecay P_EstimatorDecay ConversionError P_ConversionError ToneResponse.
Import ListNotations.
Open Scope R_scope.

(** the inputs are sinusoids with phasors U *)
Definition tones (S : asys Rring) (d : dc) (lo hi : nat) (w : R) (U : nat -> C) (u : nat -> nat -> R -> R) : Prop :=
  forall i l t, (lo <= i < hi)%nat -> (l < sL S)%nat -> 0 <= t <= ck_T (d_clk d) -> u i l t = tone w (U l) (INR i * ck_T (d_clk d) + t).

Lemma solves_ext (S : asys Rring) d F lo hi b b' z z' : (forall i n t, (lo <= i < hi)%nat -> (n < sN S)%nat -> 0 < t < ck_T (d_clk d) -> b i n t = b' i n t) ->
  (forall i n t, z i n t = z' i n t) -> solves_on S d F lo hi b z -> solves_on S d F lo hi b' z'.
Proof.
  intros Hb Hz H i Hi. destruct (H i Hi) as [S1 E1]. split; [|intros n Hn; rewrite <- !Hz; now apply E1]. eapply sol_ext; [|eapply sol_ext_z; [|exact S1]]; [|intros; apply Hz]. intros n t Hn Ht. now apply Hb.
Qed.
Lemma solves_neg (S : asys Rring) d F lo hi b z : solves_on S d F lo hi b z -> solves_on S d F lo hi (fun i n t => - b i n t) (fun i n t => - z i n t).
Proof.
  intros H. apply (solves_ext S d F lo hi (fun i n t => - b i n t) _ (fun i n t => 0 - z i n t)); [reflexivity|intros; ring|].
  apply (solves_minus S d F lo hi (fun _ _ _ => 0) b _ (fun _ _ _ => 0) z); [intros; ring| |exact H]. intros i Hi. split; [|reflexivity]. split; [intros; apply continuity_pt_const; intros ? ?; reflexivity|].
  exists []. intros n t Hn Ht _. rewrite rsum_zero by (intros; ring). rewrite Rplus_0_r. apply derivable_pt_lim_const.
Qed.

(** C110: sinusoidal inputs of one frequency w.  The estimates are sinusoids whose phasors are the regularised least squares solution for the transfer function
    matrix at w, up to an error of the order of the bound b on the observations plus a transient of the order of the states and of the amplitudes that decays
    geometrically with the distance from both ends of the window.  C and rho do not depend on the frequency. *)
Theorem C110_sinusoids : forall pinv care_raw inv solve ivp expm S d eta2 Rm Vf Vb Af Ab Bf Bb WT,
  sound S d care_raw inv solve ivp expm ->
  (forall A B Q Rm X, rows A = cols A -> symmetric_mat Q -> symmetric_mat Rm -> care_raw A B Q Rm = Ok X -> stabilising A B Q Rm X) ->
  pinv_ok pinv (sN S) -> fits S d -> 0 < eta2 -> 0 < ck_T (d_clk d) -> (forall r l, (r < sNt S)%nat -> (l < sL S)%nat -> ent (aD S) r l = 0) ->
  riccati care_raw S eta2 = Ok (Rm, Vf, Vb) -> coefficients care_raw inv solve ivp expm S d eta2 BNumpy false = Ok (Af, Ab, Bf, Bb, WT) -> invertible_sum (sN S) (ent Vf) (ent Vb) ->
  exists C rho, 0 <= C /\ 0 <= rho < 1 /\ forall w, off_poles S w -> exists G P, transfer_function_matrix pinv S false [w] = Ok [G] /\ 0 <= P /\
    forall U a, 0 <= a -> (forall l, (l < sL S)%nat -> Cmod (U l) <= a) -> exists v, rls (sNt S) (sL S) (cent G) eta2 (cap (sL S) (cent G) U) v /\
    forall s lo k hi e u x b X X', decisions (sM S) s -> estimate_of (to_coef S Af Ab Bf Bb WT) s lo k hi e -> front_end S d lo hi s u x -> tones S d lo hi w U u ->
      0 <= b -> 0 <= X -> 0 <= X' -> observed_within S d lo hi x b -> starts S (x lo) X -> starts S (x hi) X' ->
      within (C * (b + rho ^ (k - lo) * (X + P * a) + rho ^ (hi - k) * (X' + P * a))) e (map (fun l => tone w (v l) (INR k * ck_T (d_clk d))) (seq 0 (sL S))).
Proof.
  intros pinv care_raw inv solve ivp expm S d eta2 Rm Vf Vb Af Ab Bf Bb WT SO ST PI Fi He HT D0 HR H HI. assert (He' : eta2 <> 0) by lra. set (T := ck_T (d_clk d)) in *.
  destruct (constants care_raw inv solve ivp expm S d eta2 Rm Vf Vb Af Ab Bf Bb WT SO ST Fi He' HT HR H) as (C & rho & C0 & Hr & HC). exists C, rho. split; [exact C0|]. split; [exact Hr|].
  destruct (filters_stable care_raw S eta2 Rm Vf Vb (fi_valid _ _ Fi) He' HR ST) as [[_ D1] [_ D2]].
  destruct (numpy_good_with care_raw inv solve ivp expm S d SO eta2 Af Ab Bf Bb WT Fi He' ltac:(fold T; lra) H) as (Rm' & Vf' & Vb' & HR' & QF & QB & HW & HF & HB).
  assert (EV := eq_trans (eq_sym HR) HR'). injection EV as <- <- <-.
  intros w OP. destruct (diag_phasor (sN S) (fwdA S eta2 (ent Vf)) w D1) as (P1 & P10 & R1). destruct (anti_phasor (sN S) (bwdA S eta2 (ent Vb)) w D2) as (P2 & P20 & R2).
  destruct (tfm_ok pinv S w (fi_valid _ _ Fi) PI OP) as (G & EG & _ & _ & Ex & HG). set (gB := gross (sN S) (sL S) (ce (aB S))). assert (GB := gross_pos (sN S) (sL S) (ce (aB S))). fold gB in GB.
  exists G, ((P1 + P2) * gB). split; [now apply mapM1|]. split; [apply Rmult_le_pos; lra|].
  intros U a Ha HU. set (g := fun n => (- cap (sL S) (ce (aB S)) U n)%C).
  destruct (R1 g) as (mf & MF & BF). destruct (R2 g) as (mb & MB & BB).
  assert (Hg : forall n, (n < sN S)%nat -> Cmod (g n) <= gB * a) by (intros n Hn; unfold g; rewrite Cmod_opp; now apply cap_le).
  assert (A0 : 0 <= gB * a) by (apply Rmult_le_pos; assumption).
  assert (Hx : phasor S w U g none). { intros n Hn. unfold g, none. rewrite (cap_zero (sN S) (ce (aA S))) by reflexivity. ring. }
  assert (RL := freq_response S eta2 w (ent Vf) (ent Vb) WT He QF QB HW HI D0 (cent G) Ex HG U g none mf mb Hx MF MB).
  exists (estimate S WT mf mb). split.
  { eapply rls_ext; [| |exact RL]; [|reflexivity]. intros r Hr'. cbv beta. rewrite (cap_zero (sN S) (ce (aCT S)) none) by reflexivity. ring. }
  intros s lo k hi e u x b X X' Hs HE HX HTn Hb HX0 HX0' HO H0 H1.
  destruct (C109_estimate_is_error_difference care_raw inv solve ivp expm S d eta2 Rm Vf Vb Af Ab Bf Bb WT SO Fi He' HT HR H s lo k hi e u x Hs HE HX) as (L & (ef & EF & EF0) & (eb & EB & EB0) & EE).
  rewrite (EE ef eb (conj EF EF0) (conj EB EB0)). apply map_within. intros l Hl.
  set (gf := fun i n t => - tone w (mf n) (INR i * T + t)). set (gb := fun i n t => - tone w (mb n) (INR i * T + t)).
  assert (ET : tone w (estimate S WT mf mb l) (INR k * T) = rsum (sN S) (fun n => ent WT l n * (gf k n 0 - gb k n 0))).
  { unfold estimate, cap, ce. rewrite tone_cap. apply rsum_ext. intros n Hn. rewrite tone_sub. unfold gf, gb. rewrite Rplus_0_r. f_equal. ring. }
  assert (DR : forall i n t, (lo <= i < hi)%nat -> (n < sN S)%nat -> 0 < t < T -> - tone w (g n) (INR i * T + t) = input_drive S (u i) n t).
  { intros i n t Hi Hn Ht. unfold g. rewrite tone_opp, Ropp_involutive. unfold cap, ce. rewrite tone_cap. apply rsum_ext. intros j Hj. f_equal. symmetry. apply HTn; [exact Hi|exact Hj|fold T; lra]. }
  assert (GF : solves_on S d (fwdA S eta2 (ent Vf)) lo k (fun i => input_drive S (u i)) gf).
  { eapply solves_ext; [| |exact (solves_neg _ _ _ _ _ _ _ (phasor_solves S d _ lo k w g mf MF))]; [|reflexivity]. intros i n t Hi Hn Ht. apply DR; [lia|exact Hn|exact Ht]. }
  assert (GB' : solves_on S d (bwdA S eta2 (ent Vb)) k hi (fun i => input_drive S (u i)) gb).
  { eapply solves_ext; [| |exact (solves_neg _ _ _ _ _ _ _ (phasor_solves S d _ k hi w g mb MB))]; [|reflexivity]. intros i n t Hi Hn Ht. apply DR; [lia|exact Hn|exact Ht]. }
  fold T. rewrite ET, wsum_minus.
  assert (Q1 : 0 <= P1 * (gB * a)) by (apply Rmult_le_pos; assumption). assert (Q2 : 0 <= P2 * (gB * a)) by (apply Rmult_le_pos; assumption).
  apply (HC lo k hi x (fun i n t => ef i n t - gf i n t) (fun i n t => eb i n t - gb i n t) b (X + (P1 + P2) * gB * a) (X' + (P1 + P2) * gB * a) L Hb); [lra|lra| | |exact HO| | |exact Hl].
  - eapply solves_minus; [|exact EF|exact GF]. intros i n t _ _. cbv beta. ring.
  - eapply solves_minus; [|exact EB|exact GB']. intros i n t _ _. cbv beta. ring.
  - intros n Hn. cbv beta. rewrite EF0 by exact Hn. unfold Rminus. eapply Rle_trans; [apply Rabs_triang|]. rewrite Rabs_Ropp. unfold gf. rewrite Rabs_Ropp. assert (Z := tone_le w (mf n) (INR lo * T + 0)). assert (Z2 := BF _ A0 Hg n Hn). assert (Z3 := H0 n Hn). lra.
  - intros n Hn. cbv beta. rewrite EB0 by exact Hn. unfold Rminus. eapply Rle_trans; [apply Rabs_triang|]. rewrite Rabs_Ropp. unfold gb. rewrite Rabs_Ropp. assert (Z := tone_le w (mb n) (INR hi * T + 0)). assert (Z2 := BB _ A0 Hg n Hn). assert (Z3 := H1 n Hn). lra.
Qed.
Print Assumptions C110_sinusoids.

(** C110, signal transfer function: one sinusoidal input l of amplitude a and phase ph, the others zero.  Estimate l is the same sinusoid, without delay or phase shift, times the
    number that signal_transfer_function reports, up to the same errors. *)
Theorem C110_signal_transfer : forall pinv care_raw inv solve ivp expm S d eta2 Rm Vf Vb Af Ab Bf Bb WT,
  sound S d care_raw inv solve ivp expm ->
  (forall A B Q Rm X, rows A = cols A -> symmetric_mat Q -> symmetric_mat Rm -> care_raw A B Q Rm = Ok X -> stabilising A B Q Rm X) ->
  pinv_ok pinv (sN S) -> pinv_ok pinv (sNt S) -> fits S d -> 0 < eta2 -> 0 < ck_T (d_clk d) -> (forall r l, (r < sNt S)%nat -> (l < sL S)%nat -> ent (aD S) r l = 0) ->
  riccati care_raw S eta2 = Ok (Rm, Vf, Vb) -> coefficients care_raw inv solve ivp expm S d eta2 BNumpy false = Ok (Af, Ab, Bf, Bb, WT) -> invertible_sum (sN S) (ent Vf) (ent Vb) ->
  exists C rho, 0 <= C /\ 0 <= rho < 1 /\ forall w, off_poles S w -> exists stf P, signal_transfer_function pinv S eta2 [w] = Ok [stf] /\ 0 <= P /\
    forall s lo k hi e u x b X X' l a ph, decisions (sM S) s -> estimate_of (to_coef S Af Ab Bf Bb WT) s lo k hi e -> front_end S d lo hi s u x -> (l < sL S)%nat -> 0 <= a ->
      (forall i t, (lo <= i < hi)%nat -> 0 <= t <= ck_T (d_clk d) -> u i l t = a * cos (w * (INR i * ck_T (d_clk d) + t) + ph)) ->
      (forall i m t, (lo <= i < hi)%nat -> (m < sL S)%nat -> m <> l -> 0 <= t <= ck_T (d_clk d) -> u i m t = 0) ->
      0 <= b -> 0 <= X -> 0 <= X' -> observed_within S d lo hi x b -> starts S (x lo) X -> starts S (x hi) X' ->
      0 <= nth l stf 0 < 1 /\
      Rabs (nth l e 0 - nth l stf 0 * (a * cos (w * (INR k * ck_T (d_clk d)) + ph))) <= C * (b + rho ^ (k - lo) * (X + P * a) + rho ^ (hi - k) * (X' + P * a)).
Proof.
  intros pinv care_raw inv solve ivp expm S d eta2 Rm Vf Vb Af Ab Bf Bb WT SO ST PI PT Fi He HT D0 HR H HI. set (T := ck_T (d_clk d)) in *.
  destruct (C110_sinusoids pinv care_raw inv solve ivp expm S d eta2 Rm Vf Vb Af Ab Bf Bb WT SO ST PI Fi He HT D0 HR H HI) as (C & rho & C0 & Hr & HC). exists C, rho. split; [exact C0|]. split; [exact Hr|].
  intros w OP. destruct (HC w OP) as (G & P & EG & P0 & HP). apply (proj1 (mapM1 _ _ _)) in EG.
  destruct (stf_ok pinv S w (fi_valid _ _ Fi) PI OP eta2 He PT) as (G' & stf & EG' & EX & _ & ER & HX). rewrite EG in EG'. apply Ok_inj in EG'. subst G'.
  exists stf, P. split; [now apply mapM1|]. split; [exact P0|].
  intros s lo k hi e u x b X X' l a ph Hs HE HFE Hl Ha Hu Hu0 Hb HX0 HX0' HO H0 H1.
  set (c := (a * cos ph, a * sin ph) : Complex.C). set (U := fun m => (c * unit l m)%C).
  assert (Mc : Cmod c = a).
  { unfold Cmod, c. cbn [fst snd]. assert (X2 := sin2_cos2 ph). unfold Rsqr in X2. replace ((a * cos ph) ^ 2 + (a * sin ph) ^ 2) with (a ^ 2 * (sin ph * sin ph + cos ph * cos ph)) by ring. rewrite X2, Rmult_1_r. now apply sqrt_pow2. }
  assert (Tc : forall t, tone w c t = a * cos (w * t + ph)) by (intros t; unfold tone, c; cbn [fst snd]; rewrite cos_plus; ring).
  assert (HU : forall m, (m < sL S)%nat -> Cmod (U m) <= a).
  { intros m _. unfold U, unit. rewrite Cmod_mult, Mc. destruct (Nat.eqb m l); [rewrite Cmod_1|rewrite Cmod_0]; lra. }
  destruct (HP U a Ha HU) as (v & RL & W).
  assert (HT' : tones S d lo hi w U u).
  { intros i m t Hi Hm Ht. fold T. unfold U, unit. destruct (Nat.eqb_spec m l) as [->|N].
    - replace (c * RtoC 1)%C with c by ring. rewrite Tc. now apply Hu.
    - replace (c * RtoC 0)%C with (RtoC 0) by ring. rewrite tone_0. now apply Hu0. }
  destruct (W s lo k hi e u x b X X' Hs HE HFE HT' Hb HX0 HX0' HO H0 H1) as [Le We]. rewrite map_length, seq_length in Le. rewrite Le in We. specialize (We l Hl). rewrite nth_seq_R in We by exact Hl.
  destruct (ER (fun r => cent G r l)) as (v1 & RL1).
  destruct (HX l v1 Hl RL1) as [V1 B1]. split; [exact B1|].
  assert (EVl : v l = (RtoC (nth l stf 0%R) * c)%C).
  { rewrite <- V1. assert (Z : rls (sNt S) (sL S) (cent G) eta2 (fun _ => RtoC 0) (fun _ => RtoC 0)).
    { intros m Hm. rewrite (cap_zero (sNt S) (adj (cent G)) (fun _ => RtoC 0)), (cap_zero (sNt S)) by (intros; try reflexivity; now apply cap_zero). ring. }
    assert (Q := rls_lin _ _ _ _ c _ _ _ _ Z RL1). transitivity (RtoC 0 + c * v1 l)%C; [|ring].
    apply (rls_unique _ _ _ _ _ v (fun m => RtoC 0 + c * v1 m)%C He RL); [|exact Hl]. eapply rls_ext; [| |exact Q]; [|reflexivity]. intros r Hr'. cbv beta. unfold U. rewrite cap_scale, cap_unit by exact Hl. ring. }
  fold T in We. rewrite EVl, tone_scale, Tc in We. exact We.
Qed.
Print Assumptions C110_signal_transfer.

(** *** The integrator with a step control, the input cos t and alternating decisions. *)
Definition alt (i : nat) : list R := [if Nat.even i then 1 else 0].
Definition cosine (i _ : nat) (t : R) : R := cos (INR i + t).
Definition zigzag (i _ : nat) (t : R) : R := sin (INR i + t) + if Nat.even i then t else 1 - t.
Lemma zigzag_front lo hi : front_end integ (one_wave (WStep 0 1)) lo hi alt cosine zigzag.
Proof.
  intros i Hi. split.
  - assert (D : forall t, derivable_pt_lim (fun t => sin (INR i + t) + ((if Nat.even i then 0 else 1) + (if Nat.even i then 1 else -1) * t)) t (cos (INR i + t) * 1 + (if Nat.even i then 1 else -1))).
    { intros t. apply (derivable_pt_lim_plus (fun t => sin (INR i + t)) (fun t => (if Nat.even i then 0 else 1) + (if Nat.even i then 1 else -1) * t)); [|apply deriv_lin].
      apply (derivable_pt_lim_comp (fun t => INR i + t) sin); [|apply derivable_pt_lim_sin].
      assert (X : derivable_pt_lim (fun t => INR i + t) t (0 + 1)) by (apply (derivable_pt_lim_plus (fun _ => INR i) id); [apply derivable_pt_lim_const|apply derivable_pt_lim_id]). rewrite Rplus_0_l in X. exact X. }
    apply (sol1 _ _ _ (fun t => sin (INR i + t) + ((if Nat.even i then 0 else 1) + (if Nat.even i then 1 else -1) * t))).
    + intros t. unfold zigzag. destruct (Nat.even i); ring.
    + intros t Ht. rewrite integ_ctl, integ_input by (auto; lra). cbn [alt nth]. unfold cosine.
      match goal with |- derivable_pt_lim _ _ ?r => replace r with (cos (INR i + t) * 1 + (if Nat.even i then 1 else -1)); [apply D|] end.
      change (ent (aA integ) 0 0) with 0. destruct (Nat.even i); ring.
    + intros. apply derivable_continuous_pt. eexists. apply D.
  - intros n Hn. unfold zigzag. change (ck_T (d_clk (one_wave (WStep 0 1)))) with 1. rewrite plus_INR, Nat.add_1_r, Nat.even_succ, <- Nat.negb_even. cbn [INR]. replace (INR i + 1 + 0) with (INR i + 1) by ring. destruct (Nat.even i); cbn [negb]; ring.
Qed.
Lemma alt_decisions : decisions (sM integ) alt.
Proof. intros i; (split; [reflexivity|]); intros m Hm; cbn in Hm; replace m with O by lia; unfold alt; cbn [nth]; destruct (Nat.even i); lra. Qed.
Lemma integ_off : off_poles integ 1.
Proof.
  intros x Hx i Hi. specialize (Hx i Hi). change (sN integ) with 1%nat in *. replace i with O in * by (cbn in Hi; lia). unfold cap in Hx. change (sL integ) with 1%nat in Hx. cbn [csum] in Hx. unfold ce, none in Hx.
  change (ent (aA integ) 0 0) with 0 in Hx. destruct (x O) as [p q]. apply (f_equal (fun c => (fst c, snd c))) in Hx. cbn in Hx. injection Hx as E1 E2. unfold RtoC. f_equal; cbn in *; lra.
Qed.
Example C110_ex : let d := one_wave (WStep 0 1) in sound integ d care1 inv1 solve1 ivp_step expm1 /\
  (forall A B Q Rm X, rows A = cols A -> symmetric_mat Q -> symmetric_mat Rm -> care1 A B Q Rm = Ok X -> stabilising A B Q Rm X) /\ pinv_ok pinv2 (sN integ) /\ pinv_ok pinv2 (sNt integ) /\ fits integ d /\ 0 < ck_T (d_clk d) /\
  (forall r l, (r < sNt integ)%nat -> (l < sL integ)%nat -> ent (aD integ) r l = 0) /\ off_poles integ 1 /\
  exists Rm Vf Vb Af Ab Bf Bb WT e, riccati care1 integ 1 = Ok (Rm, Vf, Vb) /\ coefficients care1 inv1 solve1 ivp_step expm1 integ d 1 BNumpy false = Ok (Af, Ab, Bf, Bb, WT) /\
    invertible_sum (sN integ) (ent Vf) (ent Vb) /\ decisions (sM integ) alt /\ estimate_of (to_coef integ Af Ab Bf Bb WT) alt 0 3 5 e /\ front_end integ d 0 5 alt cosine zigzag /\
    (forall i t, (0 <= i < 5)%nat -> 0 <= t <= ck_T (d_clk d) -> cosine i 0 t = 1 * cos (1 * (INR i * ck_T (d_clk d) + t) + 0)) /\ tones integ d 0 5 1 (fun _ => RtoC 1) cosine /\
    observed_within integ d 0 5 zigzag 2 /\ starts integ (zigzag 0%nat) 2 /\ starts integ (zigzag 5%nat) 2.
Proof.
  cbv zeta. destruct C104_forgets_ex as (SO & ST & Fi & _). split; [exact SO|]. split; [exact ST|]. split; [exact pinv2_1|]. split; [exact pinv2_1|]. split; [exact Fi|]. split; [cbn; lra|].
  split; [intros r l Hr Hl; cbn in Hr, Hl; replace r with O by lia; replace l with O by lia; reflexivity|]. split; [exact integ_off|].
  destruct step_numpy as (Af & Ab & Bf & Bb & WT & E & _ & _ & _ & _ & (_ & _ & W)).
  destruct (numpy_good_with care1 inv1 solve1 ivp_step expm1 integ (one_wave (WStep 0 1)) SO 1 Af Ab Bf Bb WT Fi ltac:(lra) ltac:(cbn; lra) E) as (Rm & Vf & Vb & HR & QF & QB & HW & HF & HB).
  assert (Wf := coef_shape integ _ Af Ab Bf Bb WT _ _ _ _ HW HF HB).
  assert (Sm : (ent Vf 0%nat 0%nat + ent Vb 0%nat 0%nat) * (1/2) = 1).
  { destruct HW as (_ & _ & H). specialize (H 0%nat 0%nat ltac:(cbn; lia) ltac:(cbn; lia)). change (sN integ) with 1%nat in H. rewrite rsum1, W in H. exact H. }
  assert (O1 := alt_decisions).
  destruct (batch_window integ Af Ab Bf Bb WT Wf alt 3 O1 2 1 10 5 4 ltac:(lia) ltac:(lia) ltac:(cbn; lia) ltac:(cbn; lia)) as [_ E1].
  eexists Rm, Vf, Vb, Af, Ab, Bf, Bb, WT, _. split; [exact HR|]. split; [exact E|].
  split; [exists (fun _ _ => 1/2); intros i j Hi Hj; change (sN integ) with 1%nat in *; replace i with O by lia; replace j with O by lia; rewrite rsum1; cbn [Nat.eqb]; exact Sm|]. split; [exact O1|].
  split; [left; exists 2%nat, 1%nat, 10%Z, 5%nat, 4%nat; split; [lia|]; split; [lia|]; split; [lia|]; split; [cbn; lia|]; split; [reflexivity|]; split; [reflexivity|exact E1]|].
  split; [apply zigzag_front|]. change (ck_T (d_clk (one_wave (WStep 0 1)))) with 1.
  assert (Z : forall i n t, 0 <= t <= 1 -> Rabs (zigzag i n t) <= 2).
  { intros i n t Ht. unfold zigzag. assert (B := SIN_bound (INR i + t)). apply Rabs_le. destruct (Nat.even i); lra. }
  split; [intros i t _ _; unfold cosine; rewrite Rmult_1_l; f_equal; ring|].
  split; [intros i l t _ _ _; unfold cosine, tone; cbn [fst snd RtoC]; change (ck_T (d_clk (one_wave (WStep 0 1)))) with 1; replace (1 * (INR i * 1 + t)) with (INR i + t) by ring; ring|].
  split; [intros i r t _ Hr Ht; rewrite integ_obs by exact Hr; apply Z; exact Ht|]. split; intros n _; apply Z; lra.
Qed.
