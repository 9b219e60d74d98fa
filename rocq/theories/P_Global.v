(** Property theorems C87, C88: the global control, the inverse of the state trajectory. *)
From Coq Require Import List Arith Lia Bool Reals Lra.
From Flocq Require Import Core.
From Verif Require Import Base LinAlg FirExtras AnalogSystem AnalogProofs Signals DigitalControl Integrators IntegratorsProofs Simulator Stability LinearOde PreSim Zpk FilterCoeff
  FilterCoeffProofs FilterOde FilterExample Optimal Nuv NuvCoeff GlobalControl GlobalProofs GlobalWitness.
Import ListNotations.
Open Scope R_scope.

(** what the theorems need: a system and a control that fit, phases within the period, exact routines *)
Definition g_setting (S : asys Rring) (d : dc) ivp expm (phi : list R) (S' : asys Rring) (d' : dc) : Prop :=
  fits S d /\ 0 <= ck_T (d_clk d) /\ (forall p, In p phi -> 0 <= p <= ck_T (d_clk d)) /\ global_sound S d ivp expm phi /\ get_global_control ivp expm S d phi = Ok (S', d').
Lemma g_setting_integ p : 0 <= p < 1 -> exists S', g_setting integ (gl_dc p) (gl_ivp p) expm1 [p] S' (gl_dc p) /\ forall x u a : R, control_observation S' [x] (Some [u]) (Some [a]) = Ok [gl_obs p x u].
Proof.
  intros Hp. destruct (gl_control p) as (S' & E & O); [unfold gl_Q; cbn [gl_end nth]; set (c := 1 - p); assert (0 < c) by (unfold c; lra); assert (0 < c ^ 3) by (now apply pow_lt); assert (0 <= c ^ 2 * (1 - c)); [apply Rmult_le_pos; [apply pow2_ge_0|unfold c; lra]|lra]|].
  exists S'. split; [|exact O]. split; [apply fits_integ; exact I|]. split; [cbn; lra|]. split; [intros q [<-|[]]; cbn; lra|]. split; [apply gl_sound; lra|exact E].
Qed.

(** C87: only the control observation changes; D is lost *)
Theorem C87_frontend : forall S d ivp expm phi S' d', g_setting S d ivp expm phi S' d' ->
  d' = d /\ aA S' = aA S /\ aB S' = aB S /\ aCT S' = aCT S /\ aG S' = aG S /\ aD S' = zeros (K := Rring) (sNt S) (sL S) /\ sMt S' = sMt S /\ valid S'.
Proof. intros S d ivp expm phi S' d' (H1 & H2 & H3 & H4 & H5). destruct (global_control ivp expm S d phi S' d' H1 H2 H3 H4 H5) as (A1 & A2 & A3 & A4 & A5 & A6 & A7 & A8 & _). auto 10. Qed.
Print Assumptions C87_frontend.
Example C87_frontend_ex : exists S', g_setting integ (gl_dc (1/2)) (gl_ivp (1/2)) expm1 [1/2] S' (gl_dc (1/2)).
Proof. destruct (g_setting_integ (1/2)) as (S' & H & _); [lra|]. now exists S'. Qed.

(** C87: the observation of control [own] is the amplitude of this control that gives the least energy of C^T x over the coming period, for
    the state, the input and the other controls as they are; the energy is a parabola around it *)
Theorem C87_energy : forall S d ivp expm phi S' d' mt (x0 u a : list R), g_setting S d ivp expm phi S' d' -> (mt < sMt S)%nat ->
  length x0 = sN S -> length u = sL S -> length a = sM S ->
  let own := (mt + (sM S - sMt S))%nat in let T := ck_T (d_clk d) in
  exists p Q s, nth_error phi mt = Some p /\ 0 < Q /\ control_observation S' x0 (Some u) (Some a) = Ok s /\ length s = sMt S /\
  forall v, (exists sv, control_observation S' x0 (Some u) (Some (upd own v a)) = Ok sv /\ nth mt sv 0 = nth mt s 0) /\
    (exists x I, one_period S T p (held d own) (gv x0) (gv u) (gv (upd own v a)) x /\ output_energy S T x I) /\
    forall x x' I I', one_period S T p (held d own) (gv x0) (gv u) (gv a) x -> one_period S T p (held d own) (gv x0) (gv u) (gv (upd own v a)) x' ->
      output_energy S T x I -> output_energy S T x' I' -> I' - I = Q * (Rsqr (v - nth mt s 0) - Rsqr (gv a own - nth mt s 0)).
Proof.
  intros S d ivp expm phi S' d' mt x0 u a (H1 & H2 & H3 & H4 & H5) Hm Hx Hu Ha own T. destruct (global_control ivp expm S d phi S' d' H1 H2 H3 H4 H5) as (_ & _ & _ & _ & _ & _ & _ & _ & G).
  destruct (G mt Hm) as (p & Q & E & HQ & G1). destruct (G1 x0 u a Hx Hu Ha) as (s & Es & Ls & G2). exists p, Q, s. repeat (split; [assumption|]). intros v. destruct (G2 v) as (sv & A1 & A2 & A3 & A4).
  split; [exists sv; auto|]. auto.
Qed.
Print Assumptions C87_energy.
Example C87_energy_ex : exists S', g_setting integ (gl_dc 0) (gl_ivp 0) expm1 [0] S' (gl_dc 0) /\ (0 < sMt integ)%nat /\ (exists s : R, control_observation S' [1] (Some [1/2]) (Some [1]) = Ok [s] /\ s = -2).
Proof.
  destruct (g_setting_integ 0) as (S' & H & O); [lra|]. exists S'. split; [exact H|]. split; [cbn; lia|]. exists (gl_obs 0 1 (1/2)). split; [apply O|]. unfold gl_obs, gl_Q. cbn [gl_end nth]. field.
Qed.

Theorem C87_least_energy : forall S d ivp expm phi S' d' mt (x0 u a : list R) s, g_setting S d ivp expm phi S' d' -> (mt < sMt S)%nat ->
  length x0 = sN S -> length u = sL S -> length a = sM S -> control_observation S' x0 (Some u) (Some a) = Ok s ->
  let own := (mt + (sM S - sMt S))%nat in let T := ck_T (d_clk d) in
  exists p, nth_error phi mt = Some p /\ exists x I, one_period S T p (held d own) (gv x0) (gv u) (gv (upd own (nth mt s 0) a)) x /\ output_energy S T x I /\
  forall v x' I', v <> nth mt s 0 -> one_period S T p (held d own) (gv x0) (gv u) (gv (upd own v a)) x' -> output_energy S T x' I' -> I < I'.
Proof.
  intros S d ivp expm phi S' d' mt x0 u a s H Hm Hx Hu Ha Es own T. set (ao := upd own (nth mt s 0) a).
  destruct (C87_energy S d ivp expm phi S' d' mt x0 u a H Hm Hx Hu Ha) as (p0 & Q0 & s' & E0 & _ & Es' & _ & G0). rewrite Es in Es'. injection Es' as <-.
  destruct (G0 (nth mt s 0)) as ((sv & Ev & Nv) & (x & I & Px & PI) & _).
  destruct (C87_energy S d ivp expm phi S' d' mt x0 u ao H Hm Hx Hu) as (p & Q & s1 & E & HQ & E1 & _ & G); [unfold ao; now rewrite upd_length|].
  assert (X : Ok sv = Ok s1) by exact (eq_trans (eq_sym Ev) E1). injection X as <-. rewrite E0 in E. injection E as <-.
  exists p0. split; [exact E0|]. exists x, I. split; [exact Px|]. split; [exact PI|]. intros v x' I' Hv Px' PI'.
  destruct (G v) as (_ & _ & G2). assert (UU : upd own v ao = upd own v a) by (unfold ao; apply BatchProofs.upd_upd).
  assert (Px2 : one_period S T p0 (held d own) (gv x0) (gv u) (gv (upd own v ao)) x') by (rewrite UU; exact Px'). specialize (G2 x x' I I' Px Px2 PI PI').
  assert (Hl : (own < length a)%nat) by (destruct H as (_ & _ & _ & _ & H5); rewrite Ha; unfold get_global_control in H5; destruct (Nat.ltb_spec (sM S) (sMt S)); [discriminate|]; unfold own; lia).
  assert (GA : gv ao own = nth mt s 0) by (unfold gv, ao; now rewrite BatchProofs.nth_upd_same). fold own in G2. rewrite GA, Nv in G2. unfold Rsqr in G2. rewrite Rminus_eq_0 in G2.
  assert (0 < (v - nth mt s 0) * (v - nth mt s 0)) by (apply Rsqr_pos_lt; lra). assert (0 < Q * ((v - nth mt s 0) * (v - nth mt s 0))) by now apply Rmult_lt_0_compat. lra.
Qed.
Print Assumptions C87_least_energy.
Example C87_least_energy_ex := C87_energy_ex.

(** C87: deciding by the sign of the observation is the better of the two amplitudes *)
Theorem C87_decision : forall S d ivp expm phi S' d' mt (x0 u a : list R) s, g_setting S d ivp expm phi S' d' -> (mt < sMt S)%nat ->
  length x0 = sN S -> length u = sL S -> length a = sM S -> control_observation S' x0 (Some u) (Some a) = Ok s ->
  let own := (mt + (sM S - sMt S))%nat in let T := ck_T (d_clk d) in
  exists p, nth_error phi mt = Some p /\ forall x1 x2 I1 I2,
  one_period S T p (held d own) (gv x0) (gv u) (gv (upd own 1 a)) x1 -> output_energy S T x1 I1 ->
  one_period S T p (held d own) (gv x0) (gv u) (gv (upd own (-1) a)) x2 -> output_energy S T x2 I2 -> (I1 <= I2 <-> 0 <= nth mt s 0).
Proof.
  intros S d ivp expm phi S' d' mt x0 u a s H Hm Hx Hu Ha Es own T.
  destruct (C87_energy S d ivp expm phi S' d' mt x0 u a H Hm Hx Hu Ha) as (p & Q & s' & E & HQ & Es' & _ & G). rewrite Es in Es'. injection Es' as <-. exists p. split; [exact E|]. intros x1 x2 I1 I2 P1 E1 P2 E2.
  assert (Hl : upd own (nth own a 0) a = a) by apply BatchProofs.upd_nth_id.
  destruct (G (nth own a 0)) as (_ & (x & I & Px & PI) & _). fold own in Px. rewrite Hl in Px.
  destruct (G 1) as (_ & _ & G1). specialize (G1 x x1 I I1 Px P1 PI E1). destruct (G (-1)) as (_ & _ & G2). specialize (G2 x x2 I I2 Px P2 PI E2).
  assert (X : I2 - I1 = 4 * Q * nth mt s 0) by (unfold Rsqr in G1, G2; replace (I2 - I1) with ((I2 - I) - (I1 - I)) by ring; rewrite G1, G2; ring). split; intros Y.
  - apply (Rmult_le_reg_l (4 * Q)); lra.
  - assert (0 <= 4 * Q * nth mt s 0) by (apply Rmult_le_pos; lra). lra.
Qed.
Print Assumptions C87_decision.
Example C87_decision_ex := C87_energy_ex.

Theorem C87_arguments : forall S d ivp expm phi, (sMt S <> 0)%nat -> (sMt S <= sM S)%nat -> (length phi < sMt S)%nat -> get_global_control ivp expm S d phi = Exn IndexError.
Proof.
  intros S d ivp expm phi H1 H2 H3. unfold get_global_control. destruct (Nat.ltb_spec (sM S) (sMt S)); [lia|]. destruct (Nat.eqb_spec (sMt S) 0); [lia|]. cbn [orb]. destruct (Nat.ltb_spec (length phi) (sMt S)); [reflexivity|lia].
Qed.
Print Assumptions C87_arguments.
Example C87_arguments_ex : (sMt integ <> 0)%nat /\ (sMt integ <= sM integ)%nat /\ (length (@nil R) < sMt integ)%nat.
Proof. cbn. lia. Qed.

(** C87: with a phase, the waveform that is held past the end of the clock period is cut off in the computation; the decision can then be the
    worse one *)
Theorem C87_phase_refuted : exists S d ivp expm phi S' p x0 u s x1 x2 I1 I2, g_setting S d ivp expm phi S' d /\ nth_error phi 0 = Some p /\
  (forall a, control_observation S' [x0] (Some [u]) (Some [a]) = Ok [s]) /\ s < 0 /\
  one_period S (ck_T (d_clk d)) p (wave d) (gv [x0]) (gv [u]) (gv [1]) x1 /\ output_energy S (ck_T (d_clk d)) x1 I1 /\
  one_period S (ck_T (d_clk d)) p (wave d) (gv [x0]) (gv [u]) (gv [-1]) x2 /\ output_energy S (ck_T (d_clk d)) x2 I2 /\ I1 < I2.
Proof.
  destruct (g_setting_integ (1/2)) as (S' & H & O); [lra|].
  assert (W : forall t, 0 < t < 1 -> wave (gl_dc (1/2)) 0 (1/2 + t) = 1) by (intros t Ht; apply (gl_wave_on (1/2) 0 t); lra).
  destruct (gl_line (wave (gl_dc (1/2))) (1/2) 1 (-8/5) 1 W) as [P1 E1]. destruct (gl_line (wave (gl_dc (1/2))) (1/2) 1 (-8/5) (-1) W) as [P2 E2].
  assert (EXT : forall a x, one_period integ 1 (1/2) (wave (gl_dc (1/2))) (fun _ => 1) (fun _ => -8/5) (fun _ => a) x -> one_period integ 1 (1/2) (wave (gl_dc (1/2))) (gv [1]) (gv [-8/5]) (gv [a]) x).
  { intros a x [A1 A2]. split; [|intros n Hn; rewrite A2 by exact Hn; change (sN integ) with 1%nat in Hn; rewrite (idx1 n Hn); reflexivity].
    eapply sol_ext; [|exact A1]. intros n t Hn Ht. cbv beta. change (sL integ) with 1%nat. change (sM integ) with 1%nat. rewrite !rsum1. reflexivity. }
  exists integ, (gl_dc (1/2)), (gl_ivp (1/2)), expm1, [1/2], S', (1/2), 1, (-8/5), (gl_obs (1/2) 1 (-8/5)). do 4 eexists.
  split; [exact H|]. split; [reflexivity|]. split; [intros a; apply O|]. split; [unfold gl_obs, gl_Q; cbn [gl_end nth]; lra|].
  split; [exact (EXT _ _ P1)|]. split; [exact E1|]. split; [exact (EXT _ _ P2)|]. split; [exact E2|]. lra.
Qed.
Print Assumptions C87_phase_refuted.

(** C88: the first matrix takes the state at the start to the integral of the state; the second takes the integral back to the start *)
Theorem C88_inverse : forall A T ivp expm inv res X, trajectory_sound A T ivp expm inv -> 0 <= T -> cols A = rows A ->
  inverse_state_trajectory ivp expm inv A T = Ok (res, X) ->
  rows res = rows A /\ cols res = rows A /\ rows X = rows A /\ cols X = rows A /\
  (forall x, sol (rows A) (ent A) T (fun _ _ => 0) x -> forall v, (forall i, (i < rows A)%nat -> integral T (x i) (v i)) ->
     (forall i, (i < rows A)%nat -> v i = rsum (rows A) (fun j => ent res i j * x j 0)) /\ (forall i, (i < rows A)%nat -> x i 0 = rsum (rows A) (fun j => ent X i j * v j))) /\
  forall v, exists x, sol (rows A) (ent A) T (fun _ _ => 0) x /\ (forall i, (i < rows A)%nat -> x i 0 = rsum (rows A) (fun j => ent X i j * v j)) /\ forall i, (i < rows A)%nat -> integral T (x i) (v i).
Proof. intros A T ivp expm inv res X H1 H2 H3 H4. exact (inverse_trajectory A T ivp expm inv H1 H2 H3 res X H4). Qed.
Print Assumptions C88_inverse.
Example C88_ex : trajectory_sound (s11 1) 1 tr_ivp expm1 inv1 /\ exists res X, inverse_state_trajectory tr_ivp expm1 inv1 (s11 1) 1 = Ok (res, X) /\ ent res 0 0 = exp 1 - 1.
Proof.
  split; [exact tr_sound|]. unfold inverse_state_trajectory. cbn [tr_ivp bind s11 rows cols]. unfold inv1, scalar. cbn [rows cols Nat.eqb andb bind ent Nat.mul Nat.add nth].
  assert (exp 1 - 1 <> 0) by (assert (X := exp_ineq1 1 ltac:(lra)); lra). rewrite Req_bool_false by assumption. cbn [bind]. eexists _, _. split; reflexivity.
Qed.

(** C88: no result when a state other than zero integrates to zero over the period, as for an oscillator over a full turn *)
Theorem C88_full_turn : forall A T ivp expm inv x n, trajectory_sound A T ivp expm inv -> 0 <= T -> cols A = rows A -> sol (rows A) (ent A) T (fun _ _ => 0) x ->
  (forall i, (i < rows A)%nat -> integral T (x i) 0) -> (n < rows A)%nat -> x n 0 <> 0 -> forall r, inverse_state_trajectory ivp expm inv A T <> Ok r.
Proof.
  intros A T ivp expm inv x n H1 H2 H3 Hx Hi Hn Hz [res X] E. destruct (C88_inverse A T ivp expm inv res X H1 H2 H3 E) as (_ & _ & _ & _ & G & _).
  destruct (G x Hx (fun _ => 0) Hi) as [_ G2]. apply Hz. rewrite (G2 n Hn). apply rsum_zero. intros; ring.
Qed.
Print Assumptions C88_full_turn.
Example C88_full_turn_ex : trajectory_sound turn (2 * PI) turn_ivp turn_expm turn_inv /\ exists x, sol 2 (ent turn) (2 * PI) (fun _ _ => 0) x /\ (forall i, (i < 2)%nat -> integral (2 * PI) (x i) 0) /\ x O 0 <> 0.
Proof. split; [exact turn_sound|exact turn_traj]. Qed.
