(** Properties C80-C82: quadrature front ends, chains of oscillators, parallel leap-frogs. *)
From Coq Require Import List Arith Lia Bool Reals Lra.
From Coquelicot Require Import Coquelicot.
From Verif Require Import Base LinAlg FirExtras AnalogSystem AnalogProofs Signals DigitalControl DigitalControlProofs Fom Integrators IntegratorsProofs Simulator Stability SynthesisProofs SynthesisExtra LinearOde LeapFrogPoles Quadrature QuadratureProofs QuadratureRun QuadratureOsc QuadraturePar QuadraturePoles.
Import ListNotations.
Open Scope R_scope.

(** a baseband front end: [n] integrators with control gains [g], direct path [dd] *)
Definition baseband (n : nat) (g : nat -> R) (dd : R) : asys Rring :=
  mkAS (zeros (K := Rring) n n) (mk2 (K := Rring) n 1 (fun _ _ => 1)) (eye2 (K := Rring) n n) (Some (mk2 (K := Rring) n n (fun i j => if Nat.eqb i j then g i else 0)))
    (Some (mk2 (K := Rring) n n (fun i j => if Nat.eqb i j then -1 else 0))) (mk2 (K := Rring) n 1 (fun _ _ => dd)) (zeros (K := Rring) n 1) (zeros (K := Rring) n n).
Lemma baseband_valid n g dd : valid (baseband n g dd).
Proof. constructor; cbn; auto. Qed.
(** a control of [m] signals, period [T], impulse responses [ws], delay [td] *)
Definition ctl (T : R) (m : nat) (ws : list waveform) (td : R) : dc := mkDC (mkClock T 0 0 (1 / 2) (T / 2)) m ws td (repeat 0 m) KBin 0 1 2.
Definition bp0 (S0 : asys Rring) (d0 : dc) (fc : R) (mo sc : bool) : bpkw := mkBp (Some (S0, d0)) (Some fc) mo None None sc.

Definition bp0_inv S0 d0 fc mo sc h S d h' (V : valid S0) (E : get_bandpass (bp0 S0 d0 fc mo sc) h = Ok (S, d, h')) :=
  bandpass_inv (bp0 S0 d0 fc mo sc) h S d h' S0 d0 fc eq_refl eq_refl V E.

(** *** C80: get_bandpass *)
(** accepted iff: square equal numbers of states, controls and observations and a carrier that is no multiple of 1/T (non-modulated case) *)
Theorem C80_accepts : forall k h S0 d0 fc, b_front k = Some (S0, d0) -> b_fc k = Some fc -> valid S0 ->
  let n := sN S0 in let T := ck_T (d_clk d0) in
  ((exists v, get_bandpass k h = Ok v) <->
   exists g0, aG S0 = Some g0 /\ (1 <= n)%nat /\ (1 <= sM S0)%nat /\
     (b_modulate k = false -> sM S0 = n /\ sMt S0 = n /\ sin (2 * PI * fc * T / 2) <> 0 /\ ent g0 0%nat 0%nat * T <> 0) /\
     (b_scalar k = true -> (1 <= sL S0)%nat)).
Proof. exact bandpass_total. Qed.
Print Assumptions C80_accepts.

Lemma bp0_ok n g dd T ws td mo sc : (1 <= n)%nat -> g 0%nat * T <> 0 -> exists v, get_bandpass (bp0 (baseband n g dd) (ctl T n ws td) (1 / (4 * T)) mo sc) [] = Ok v.
Proof.
  intros Hn Hg. apply (C80_accepts _ [] (baseband n g dd) (ctl T n ws td) (1 / (4 * T))); try reflexivity; [apply baseband_valid|].
  eexists. split; [reflexivity|]. split; [exact Hn|]. split; [exact Hn|]. split; [|intros _; cbn; lia]. intros _. split; [reflexivity|]. split; [reflexivity|].
  assert (HT : T <> 0) by (intros ->; apply Hg; ring). split; [|exact Hg]. cbn [ctl d_clk ck_T]. replace (2 * PI * (1 / (4 * T)) * T / 2) with (PI / 4) by (field; exact HT).
  rewrite sin_PI4. apply Rmult_integral_contrapositive_currified; [lra|]. apply Rinv_neq_0_compat. assert (X := sqrt_lt_R0 2 ltac:(lra)). lra.
Qed.
Example C80_example : exists v, get_bandpass (bp0 (baseband 2 (fun _ => 3) 0) (ctl 1 2 [] 0) (1 / (4 * 1)) false false) [] = Ok v.
Proof. apply bp0_ok; [lia|lra]. Qed.

(** the envelope e^{-i w t}(x + i y) obeys the baseband equations, with the turned inputs and the controls turned to the phase of the carrier *)
Theorem C80_envelope : forall k h S d h' S0 d0 fc, b_front k = Some (S0, d0) -> b_fc k = Some fc -> valid S0 -> get_bandpass k h = Ok (S, d, h') ->
  b_scalar k = false -> (b_modulate k = false -> equal_gains S0) ->
  let n := sN S0 in let w := 2 * PI * fc in let T := ck_T (d_clk d0) in
  let g := if b_modulate k then 1 else w * T / 2 / sin (w * T / 2) in let ph := if b_modulate k then 0 else dflt (b_phi k) 0 in
  forall (x y : R -> list R) (u uq c cq : list R) t v,
  (forall s, length (x s) = n) -> (forall s, length (y s) = n) -> length u = sL S0 -> length uq = sL S0 -> length c = sM S0 -> length cq = sM S0 ->
  derivative S (x t ++ y t) (u ++ uq) (c ++ cq) = Ok v ->
  (forall i, (i < n + n)%nat -> derivable_pt_lim (fun s => nth i (x s ++ y s) 0) t (nth i v 0)) ->
  exists vI vQ,
    derivative S0 (turnI 1 (w * t) (x t) (y t)) (turnI 1 (w * t) u uq) (turnI g (w * t - ph) c cq) = Ok vI /\
    derivative S0 (turnQ 1 (w * t) (x t) (y t)) (turnQ 1 (w * t) u uq) (turnQ g (w * t - ph) c cq) = Ok vQ /\
    forall i, (i < n)%nat -> derivable_pt_lim (fun s => nth i (turnI 1 (w * s) (x s) (y s)) 0) t (nth i vI 0) /\
                             derivable_pt_lim (fun s => nth i (turnQ 1 (w * s) (x s) (y s)) 0) t (nth i vQ 0).
Proof. intros k h S d h' S0 d0 fc EF EC V H Es HE n w T g ph x y u uq c cq t v. exact (bp_envelope k h S d h' S0 d0 fc EF EC V H x y u uq c cq t v Es HE). Qed.
Print Assumptions C80_envelope.
Example C80_envelope_example : exists S d h', get_bandpass (bp0 (baseband 1 (fun _ => 3) 0) (ctl 1 1 [] 0) (1 / (4 * 1)) false false) [] = Ok (S, d, h') /\ equal_gains (baseband 1 (fun _ => 3) 0) /\
  exists v, derivative S ([1] ++ [2]) ([3] ++ [4]) ([1] ++ [-1]) = Ok v.
Proof.
  destruct (bp0_ok 1 (fun _ => 3) 0 1 [] 0 false false ltac:(lia) ltac:(lra)) as ([[S d] h'] & E). exists S, d, h'. split; [exact E|]. split.
  - exists 3. eexists. split; [reflexivity|]. intros i j Hi Hj. cbn in Hi, Hj. assert (i = 0%nat) as -> by lia. assert (j = 0%nat) as -> by lia. reflexivity.
  - destruct (bp0_inv _ _ _ _ _ _ _ _ _ (baseband_valid _ _ _) E) as (VS & SN & _ & _ & _ & _ & _ & (g0 & g & gt & _ & EG & _ & HG) & HB). cbn [bp0 b_modulate b_scalar] in HG, HB.
    destruct HG as (_ & _ & _ & _ & Eg & _). destruct HB as (_ & CB & _). eexists. apply derivative_rhs; [exact VS|congruence|rewrite SN; reflexivity|unfold sL; rewrite CB; reflexivity|unfold sM; rewrite EG, Eg; reflexivity].
Qed.

(** in the non-modulated case the control removes from each envelope, over one period, exactly the value observed delta before its beginning:
    [WI], [WQ] collect what the undisturbed baseband system adds meanwhile *)
Theorem C80_alignment : forall k h S d h' S0 d0 fc, b_front k = Some (S0, d0) -> b_fc k = Some fc -> valid S0 -> get_bandpass k h = Ok (S, d, h') ->
  b_scalar k = false -> b_modulate k = false ->
  let n := sN S0 in let w := 2 * PI * fc in let T := ck_T (d_clk d0) in let delta := dflt (b_delta k) 0 in 0 < T ->
  forall (x y u uq : R -> list R) (cc : list R) t0,
  (forall s, length (x s) = n) -> (forall s, length (y s) = n) -> (forall s, length (u s) = sL S0) -> (forall s, length (uq s) = sL S0) ->
  control_observation S (x (t0 - delta) ++ y (t0 - delta)) None None = Ok cc ->
  (forall t i, t0 <= t <= t0 + T -> (i < n + n)%nat -> continuity_pt (fun s => nth i (x s ++ y s) 0) t) ->
  (forall t, t0 < t < t0 + T -> exists v, derivative S (x t ++ y t) (u t ++ uq t) cc = Ok v /\
      forall i, (i < n + n)%nat -> derivable_pt_lim (fun s => nth i (x s ++ y s) 0) t (nth i v 0)) ->
  forall i WI WQ, (i < n)%nat ->
  (forall t, t0 <= t <= t0 + T -> continuity_pt WI t) -> (forall t, t0 <= t <= t0 + T -> continuity_pt WQ t) ->
  (forall t, t0 < t < t0 + T -> exists v, derivative S0 (turnI 1 (w * t) (x t) (y t)) (turnI 1 (w * t) (u t) (uq t)) (repeat 0 (sM S0)) = Ok v /\ derivable_pt_lim WI t (nth i v 0)) ->
  (forall t, t0 < t < t0 + T -> exists v, derivative S0 (turnQ 1 (w * t) (x t) (y t)) (turnQ 1 (w * t) (u t) (uq t)) (repeat 0 (sM S0)) = Ok v /\ derivable_pt_lim WQ t (nth i v 0)) ->
  let zI s := nth i (turnI 1 (w * s) (x s) (y s)) 0 in let zQ s := nth i (turnQ 1 (w * s) (x s) (y s)) 0 in
  zI (t0 + T) = zI t0 - zI (t0 - delta) + (WI (t0 + T) - WI t0) /\
  zQ (t0 + T) = zQ t0 - zQ (t0 - delta) + (WQ (t0 + T) - WQ t0).
Proof.
  intros k h S d h' S0 d0 fc EF EC V H Es Em n w T delta HT x y u uq cc t0.
  exact (bp_deadbeat k h S d h' S0 d0 fc EF EC V H x y u uq cc t0 delta Es Em eq_refl HT).
Qed.
Print Assumptions C80_alignment.

(** one integrator, period 1, carrier 1/4: from the state 1 the control takes the envelope to 0 within the period *)
Definition ax (t : R) : list R := [1 / 2 + (cos (PI / 2 * t) - sin (PI / 2 * t)) / 2].
Definition ay (t : R) : list R := [- (1 / 2) + (sin (PI / 2 * t) + cos (PI / 2 * t)) / 2].
Example C80_alignment_example : exists S d h' cc, get_bandpass (bp0 (baseband 1 (fun _ => 1) 0) (ctl 1 1 [] 0) (1 / (4 * 1)) false false) [] = Ok (S, d, h') /\
  control_observation S (ax (0 - 0) ++ ay (0 - 0)) None None = Ok cc /\ ax 0 = [1] /\ ay 0 = [0] /\
  (forall t i, 0 <= t <= 0 + 1 -> (i < 1 + 1)%nat -> continuity_pt (fun s => nth i (ax s ++ ay s) 0) t) /\
  (forall t, 0 < t < 0 + 1 -> exists v, derivative S (ax t ++ ay t) ([0] ++ [0]) cc = Ok v /\ forall i, (i < 1 + 1)%nat -> derivable_pt_lim (fun s => nth i (ax s ++ ay s) 0) t (nth i v 0)) /\
  (forall (z : list R), length z = 1%nat -> derivative (baseband 1 (fun _ => 1) 0) z [0] (repeat 0 1) = Ok [0]).
Proof.
  destruct (bp0_ok 1 (fun _ => 1) 0 1 [] 0 false false ltac:(lia) ltac:(lra)) as ([[S d] h'] & E).
  destruct (bp0_inv _ _ _ _ _ _ _ _ _ (baseband_valid _ _ _) E) as (VS & SN & _ & _ & HA & _ & _ & (g0 & g & gt & EG0 & EG & EGt & HG) & HB). cbn [bp0 b_modulate b_scalar b_phi b_delta dflt] in HG, HB. injection EG0 as <-.
  destruct HG as (_ & _ & _ & _ & Eg & Egt). cbn [ctl d_clk ck_T ent Nat.eqb] in Eg, Egt. unfold bp_freq in *.
  assert (W : 2 * PI * (1 / (4 * 1)) = PI / 2) by field. rewrite W in *. assert (P := PI_RGT_0).
  assert (R2 : sqrt 2 * sqrt 2 = 2) by (apply sqrt_sqrt; lra). assert (R0 : 0 < sqrt 2) by (apply sqrt_lt_R0; lra).
  replace (PI / 2 * 1 / 2) with (PI / 4) in Eg by field. replace (PI / 2 * (1 / 2 + 0) - 0) with (PI / 4) in Egt by field. rewrite sin_PI4, cos_0, sin_0 in Eg. rewrite cos_PI4, sin_PI4 in Egt.
  set (kk := 1 * 1 * (PI / 2) / (2 * (1 / sqrt 2)) * 1) in *. assert (KK : kk * (1 / sqrt 2) = PI / 4) by (unfold kk; field; lra).
  assert (D : forall t a b c, derivable_pt_lim (fun s => a + (b * cos (PI / 2 * s) + c * sin (PI / 2 * s)) / 2) t ((b * (- (PI / 2) * sin (PI / 2 * t)) + c * (PI / 2 * cos (PI / 2 * t))) / 2)).
  { intros t a b c. apply der_ext with (f := fun s => a + (/ 2 * (b * cos (PI / 2 * s) + c * sin (PI / 2 * s)))) (l := 0 + / 2 * (b * (- (PI / 2) * sin (PI / 2 * t)) + c * (PI / 2 * cos (PI / 2 * t)))); [intros; field|field|].
    apply derivable_pt_lim_plus with (f1 := fun _ => a) (f2 := fun s => / 2 * (b * cos (PI / 2 * s) + c * sin (PI / 2 * s))); [apply derivable_pt_lim_const|].
    apply derivable_pt_lim_scal with (f := fun s => b * cos (PI / 2 * s) + c * sin (PI / 2 * s)). apply derivable_pt_lim_plus with (f1 := fun s => b * cos (PI / 2 * s)) (f2 := fun s => c * sin (PI / 2 * s)).
    - apply derivable_pt_lim_scal with (f := fun s => cos (PI / 2 * s)). apply der_cos.
    - apply derivable_pt_lim_scal with (f := fun s => sin (PI / 2 * s)). apply der_sin. }
  assert (DX : forall t i, (i < 1 + 1)%nat -> derivable_pt_lim (fun s => nth i (ax s ++ ay s) 0) t (if Nat.eqb i 0 then - (PI / 2) * (sin (PI / 2 * t) + cos (PI / 2 * t)) / 2 else PI / 2 * (cos (PI / 2 * t) - sin (PI / 2 * t)) / 2)).
  { intros t i Hi. destruct i as [|[|i]]; [| |lia]; cbn [Nat.eqb ax ay app nth].
    - eapply der_ext; [| |exact (D t (1 / 2) 1 (-1))]; [intros s; cbv beta; field|field].
    - eapply der_ext; [| |exact (D t (- (1 / 2)) 1 1)]; [intros s; cbv beta; field|field]. }
  assert (A0 : ax 0 = [1] /\ ay 0 = [0]) by (unfold ax, ay; rewrite !Rmult_0_r, cos_0, sin_0; split; f_equal; field). destruct A0 as [X0 Y0].
  assert (EO : control_observation S ([1] ++ [0]) None None = Ok [- (1 / sqrt 2); - (1 / sqrt 2)]).
  { unfold control_observation. rewrite EGt. cbn [dotv_opt]. unfold dotv. subst gt. cbn. f_equal. f_equal; [field; lra|f_equal; field; lra]. }
  exists S, d, h', [- (1 / sqrt 2); - (1 / sqrt 2)]. split; [exact E|]. split; [rewrite Rminus_0_r, X0, Y0; exact EO|]. split; [exact X0|]. split; [exact Y0|]. split; [|split].
  - intros t i _ Hi. apply derivable_continuous_pt. eexists. apply DX. exact Hi.
  - intros t Ht. destruct HB as (_ & CB & _). eexists. split.
    + apply derivative_rhs; [exact VS|congruence|rewrite SN; reflexivity|unfold sL; rewrite CB; reflexivity|unfold sM; rewrite EG, Eg; reflexivity].
    + intros i Hi. eapply der_ext; [reflexivity| |apply (DX t i Hi)]. rewrite rhs_nth by (rewrite SN; exact Hi). destruct (HA (ax t) (ay t) 0%nat eq_refl eq_refl ltac:(cbn; lia)) as [H0 H1].
      assert (Z : forall j, lin (aB S) ([0] ++ [0]) j = 0) by (intros j; rewrite lin_rsum; apply rsum_zero; intros m _; destruct m as [|[|[|m]]]; apply Rmult_0_r).
      assert (GC : forall j, (j < 2)%nat -> lino (aG S) [- (1 / sqrt 2); - (1 / sqrt 2)] j = - (PI / 4)).
      { intros j Hj. rewrite EG. cbn [lino]. rewrite lin_rsum, Eg, <- KK. destruct j as [|[|j]]; [| |lia]; cbn; ring. }
      rewrite Z. destruct i as [|[|i]]; [| |lia]; rewrite GC by lia; cbn [Nat.eqb].
      * match type of H0 with _ = ?r => match goal with |- _ = ?q + _ + _ => replace q with r by (symmetry; exact H0) end end. rewrite lin_rsum. cbn. field.
      * match type of H1 with _ = ?r => match goal with |- _ = ?q + _ + _ => replace q with r by (symmetry; exact H1) end end. rewrite lin_rsum. cbn. field.
  - intros z Hz. destruct z as [|z [|z' l]]; try discriminate. rewrite derivative_rhs; [|apply baseband_valid|discriminate|reflexivity|reflexivity|reflexivity]. cbn. f_equal. f_equal. ring.
Qed.

(** every pole of the baseband system appears shifted by plus and by minus the carrier, and there are no others *)
Theorem C80_poles : forall k h S d h' S0 d0 fc lam, b_front k = Some (S0, d0) -> b_fc k = Some fc -> valid S0 -> get_bandpass k h = Ok (S, d, h') ->
  pole_of S lam <-> exists mu, pole_of S0 mu /\ (lam = mu + (0%R, (2 * PI * fc)%R) \/ lam = mu - (0%R, (2 * PI * fc)%R))%C.
Proof. exact bp_poles. Qed.
Print Assumptions C80_poles.
Example C80_poles_example : exists S d h', get_bandpass (bp0 (baseband 2 (fun _ => 3) 0) (ctl 1 2 [] 0) (1 / (4 * 1)) false false) [] = Ok (S, d, h') /\ pole_of S (0, PI / 2).
Proof.
  destruct (bp0_ok 2 (fun _ => 3) 0 1 [] 0 false false ltac:(lia) ltac:(lra)) as ([[S d] h'] & E). exists S, d, h'. split; [exact E|].
  apply (C80_poles (bp0 (baseband 2 (fun _ => 3) 0) (ctl 1 2 [] 0) (1 / (4 * 1)) false false) [] S d h' _ _ _ (0, PI / 2) eq_refl eq_refl (baseband_valid _ _ _) E). exists (RtoC 0). split.
  - exists [1; 0], [0; 0]. split; [reflexivity|]. split; [reflexivity|]. split; [exists 0%nat; left; cbn; lra|].
    split; (etransitivity; [apply undriven; [apply baseband_valid|discriminate|reflexivity]|]); f_equal; cbn; f_equal; [ring|f_equal; ring|ring|f_equal; ring].
  - left. apply injective_projections; cbn; field.
Qed.

(** scalar_input: one input, the difference of the two quadrature inputs *)
Theorem C80_scalar_input : forall k h S d h' S0 d0 fc, b_front k = Some (S0, d0) -> b_fc k = Some fc -> valid S0 -> b_scalar k = true -> get_bandpass k h = Ok (S, d, h') ->
  exists S', get_bandpass (mkBp (b_front k) (b_fc k) (b_modulate k) (b_phi k) (b_delta k) false) h = Ok (S', d, h') /\ sL S = 1%nat /\ sL S' = (sL S0 + sL S0)%nat /\
   forall z u c, length z = sN S -> length c = sM S ->
     derivative S z [u] c = derivative S' z (if Nat.eqb (sL S0) 1 then [u; - u] else u :: repeat 0 (sL S0 + sL S0 - 1)) c.
Proof. exact bp_scalar_input. Qed.
Print Assumptions C80_scalar_input.
Example C80_scalar_input_example : exists v, get_bandpass (bp0 (baseband 2 (fun _ => 3) 0) (ctl 1 2 [] 0) (1 / (4 * 1)) false true) [] = Ok v.
Proof. apply bp0_ok; [lia|lra]. Qed.

(** the control is a new one: the clock of the baseband control, twice as many signals, unit steps, no delay *)
Theorem C80_control : forall k h S d h' S0 d0 fc, b_front k = Some (S0, d0) -> b_fc k = Some fc -> valid S0 -> get_bandpass k h = Ok (S, d, h') -> 0 <= ck_tt (d_clk d0) ->
  plain d (2 * d_M d0) /\ wf d h' /\ d_clk d = d_clk d0.
Proof.
  intros k h S d h' S0 d0 fc EF EC V H Htt. destruct (bandpass_inv _ _ _ _ _ _ _ _ EF EC V H) as (_ & _ & _ & Ed & _). now apply dc_init_plain in Ed.
Qed.
Print Assumptions C80_control.
Example C80_control_example : exists v, get_bandpass (bp0 (baseband 2 (fun _ => 3) 0) (ctl 1 2 [WStep (1 / 4) 1; WStep (1 / 4) 1] (1 / 4)) (1 / (4 * 1)) false false) [] = Ok v /\
  0 <= ck_tt (d_clk (ctl 1 2 [WStep (1 / 4) 1; WStep (1 / 4) 1] (1 / 4))).
Proof. destruct (bp0_ok 2 (fun _ => 3) 0 1 [WStep (1 / 4) 1; WStep (1 / 4) 1] (1 / 4) false false ltac:(lia) ltac:(lra)) as (v & E). exists v. split; [exact E|cbn; lra]. Qed.

(** the waveforms and the delay of the baseband control are lost *)
Theorem C80_keeps_control_refuted : exists k h S d h' S0 d0 fc, b_front k = Some (S0, d0) /\ b_fc k = Some fc /\ valid S0 /\ get_bandpass k h = Ok (S, d, h') /\
  d_tdelay d <> d_tdelay d0 /\ nth 0 (d_resp d) (WStep 0 1) <> nth 0 (d_resp d0) (WStep 0 1).
Proof.
  set (ws := [WStep (1 / 4) 1]). destruct (bp0_ok 1 (fun _ => 3) 0 1 ws (1 / 4) false false ltac:(lia) ltac:(lra)) as ([[S d] h'] & E).
  eexists (bp0 (baseband 1 (fun _ => 3) 0) (ctl 1 1 ws (1 / 4)) (1 / (4 * 1)) false false), [], S, d, h', _, _, _. split; [reflexivity|]. split; [reflexivity|]. split; [apply baseband_valid|]. split; [exact E|].
  destruct (C80_control (bp0 (baseband 1 (fun _ => 3) 0) (ctl 1 1 ws (1 / 4)) (1 / (4 * 1)) false false) [] S d h' _ _ _ eq_refl eq_refl (baseband_valid _ _ _) E ltac:(cbn; lra)) as ((_ & ER & ET & _) & _). rewrite ER, ET. cbn. split; [lra|]. intros X. injection X as X. lra.
Qed.
Print Assumptions C80_keeps_control_refuted.

(** carrier 0 is no baseband front end: it is refused *)
Theorem C80_zero_carrier_refuted : exists S0 d0 h, valid S0 /\ equal_gains S0 /\ 0 < ck_T (d_clk d0) /\ get_bandpass (bp0 S0 d0 0 false false) h = Exn ArithmeticError.
Proof.
  exists (baseband 1 (fun _ => 3) 0), (ctl 1 1 [] 0), []. split; [apply baseband_valid|]. split.
  { exists 3. eexists. split; [reflexivity|]. intros i j Hi Hj. cbn in Hi, Hj. assert (i = 0%nat) as -> by lia. assert (j = 0%nat) as -> by lia. reflexivity. }
  split; [cbn; lra|]. unfold get_bandpass. cbn [bp0 b_front b_fc b_modulate b_phi b_delta]. destruct (stack2 (baseband 1 (fun _ => 3) 0) (baseband_valid _ _ _)) as (S2 & g & gt & ES & _).
  unfold gamma00. cbn [baseband aG rows cols Nat.eqb orb ent bind]. fold (baseband 1 (fun _ => 3) 0). rewrite ES. cbn [bind]. unfold bp_gammas.
  rewrite Raux.Req_bool_true by (replace (2 * PI * 0 * ck_T (d_clk (ctl 1 1 [] 0)) / 2) with 0 by (cbn; field); rewrite sin_0; ring). reflexivity.
Qed.
Print Assumptions C80_zero_carrier_refuted.

(** the gains of the baseband controls are all replaced by the first *)
Theorem C80_gains_refuted : exists k h S d h' S0 d0 fc g0 g, b_front k = Some (S0, d0) /\ b_fc k = Some fc /\ valid S0 /\ get_bandpass k h = Ok (S, d, h') /\ b_modulate k = false /\
  aG S0 = Some g0 /\ aG S = Some g /\ ent g0 0%nat 0%nat <> ent g0 1%nat 1%nat /\ ent g 0%nat 0%nat = ent g 1%nat 1%nat.
Proof.
  destruct (bp0_ok 2 (fun i => INR i + 1) 0 1 [] 0 false false ltac:(lia) ltac:(cbn; lra)) as ([[S d] h'] & E).
  destruct (bp0_inv _ _ _ _ _ _ _ _ _ (baseband_valid _ _ _) E) as (_ & _ & _ & _ & _ & _ & _ & (g0 & g & gt & EG0 & EG & _ & HG) & _). cbn [bp0 b_modulate] in HG. destruct HG as (_ & _ & _ & _ & Eg & _).
  eexists (bp0 (baseband 2 (fun i => INR i + 1) 0) (ctl 1 2 [] 0) (1 / (4 * 1)) false false), [], S, d, h', _, _, _, g0, g. split; [reflexivity|]. split; [reflexivity|]. split; [apply baseband_valid|]. split; [exact E|]. split; [reflexivity|]. split; [exact EG0|]. split; [exact EG|].
  injection EG0 as <-. split; [cbn; lra|]. rewrite Eg. reflexivity.
Qed.
Print Assumptions C80_gains_refuted.

(** the direct path of the baseband system is lost *)
Theorem C80_direct_path_refuted : exists k h S d h' S0 d0 fc, b_front k = Some (S0, d0) /\ b_fc k = Some fc /\ valid S0 /\ get_bandpass k h = Ok (S, d, h') /\
  ent (aD S0) 0%nat 0%nat <> 0 /\ forall i j, ent (aD S) i j = 0.
Proof.
  destruct (bp0_ok 1 (fun _ => 3) 5 1 [] 0 true false ltac:(lia) ltac:(lra)) as ([[S d] h'] & E).
  destruct (bp0_inv _ _ _ _ _ _ _ _ _ (baseband_valid _ _ _) E) as (_ & _ & _ & _ & _ & _ & HD & _).
  eexists (bp0 (baseband 1 (fun _ => 3) 5) (ctl 1 1 [] 0) (1 / (4 * 1)) true false), [], S, d, h', _, _, _. split; [reflexivity|]. split; [reflexivity|]. split; [apply baseband_valid|]. split; [exact E|]. split; [cbn; lra|exact HD].
Qed.
Print Assumptions C80_direct_path_refuted.

(** *** C81: get_chain_of_oscillators *)
(** a returned chain: bandwidth and oversampling ratio were given or follow from the period; neither ENOB nor SNR was given with a bandwidth *)
Theorem C81_synthesis : forall gi k fp h S d h', get_osc gi k fp h = Ok (S, d, h') ->
  exists n f BW OSR, k_N k = Some n /\ fp = Some f /\ k_OSR k = Some OSR /\
    match k_BW k with Some b => BW = b /\ k_ENOB k = None /\ k_SNR k = None | None => exists T, k_T k = Some T /\ 2 * BW * OSR * T = 1 end /\
    BW <> 0 /\ OSR <> 0 /\ 2 / 100000000000000 <= 1 / (2 * BW * OSR) /\
    sN S = (2 * n)%nat /\ sL S = 2%nat /\ plain d n /\ wf d h' /\ ck_T (d_clk d) = 1 / (2 * BW * OSR) /\
    (forall x c i, length x = (2 * n)%nat -> length c = (2 * n)%nat -> (i < 2 * n)%nat -> exists v v0, derivative S x [0; 0] c = Ok v /\ derivative S x [0; 0] (repeat 0 (2 * n)) = Ok v0 /\
       nth i v 0 = nth i v0 0 + BW * OSR * nth i c 0) /\
    forall lam, (1 <= n)%nat -> (pole_of S lam <-> exists j, (1 <= j <= n)%nat /\
      (lam = (dflt (k_rho k) 0, 2 * PI * BW * cos (INR j * PI / (INR n + 1)) + 2 * PI * f) \/ lam = (dflt (k_rho k) 0, 2 * PI * BW * cos (INR j * PI / (INR n + 1)) - 2 * PI * f))).
Proof.
  intros gi k fp h S d h' H. destruct (get_osc_inv _ _ _ _ _ _ _ H) as (n & f & BW & OSR & E1 & E2 & E3 & E4 & HB & HO & HT & D & P & W & ET).
  exists n, f, BW, OSR. do 7 (split; [assumption|]). pose proof D as (V & SN & SL & SM & G & HA & HBl & HG). do 2 (split; [assumption|]). do 3 (split; [assumption|]). split.
  - intros x c i Lx Lc Hi. exists (rhs S x [0; 0] c), (rhs S x [0; 0] (repeat 0 (2 * n))). split; [apply derivative_rhs; auto; congruence|]. split; [apply derivative_rhs; auto; try congruence; rewrite repeat_length; congruence|].
    rewrite !rhs_nth by lia. rewrite !HG by exact Hi. rewrite nth_repeat. rring.
  - intros lam Hn. rewrite (osc_poles n _ _ _ _ _ (PI * BW) S lam Hn) with (3 := D).
    + assert (EQ : forall j, 2 * (PI * BW) * cos (angle_k n j) = 2 * PI * BW * cos (INR j * PI / (INR n + 1))) by (intros j; unfold angle_k; rewrite S_INR; ring).
      split; intros (j & Hj & E); exists j; (split; [exact Hj|]); [rewrite EQ in E|rewrite EQ]; exact E.
    + apply Rmult_integral_contrapositive_currified; [apply PI_neq0|exact HB].
    + field. auto.
Qed.
Print Assumptions C81_synthesis.
Example C81_example : exists S d h', get_osc (fun _ => 1) (mkKw None None (Some 8) (Some 3%nat) (Some 1) None None None None false None false false) (Some 10) [] = Ok (S, d, h').
Proof. apply get_osc_ok with (n := 3%nat) (BW := 1) (OSR := 8); try reflexivity; lra. Qed.

(** ENOB or SNR with a bandwidth never give a front end *)
Theorem C81_enob_refused : forall gi k fp h v BW, k_BW k = Some BW -> k_ENOB k <> None \/ k_SNR k <> None -> get_osc gi k fp h <> Ok v.
Proof.
  intros gi k fp h v BW EB HE. unfold get_osc. rewrite EB. destruct (k_N k) as [n|]; [|discriminate]. destruct fp as [f|]; [|discriminate].
  destruct (k_ENOB k) as [e|]; [apply osc_enob_never|]. destruct (k_SNR k) as [s|]; [apply osc_enob_never|]. destruct HE; congruence.
Qed.
Print Assumptions C81_enob_refused.
Example C81_enob_refused_example : let k := mkKw (Some 12) None (Some 8) (Some 3%nat) (Some 1) None None None None false None false false in k_BW k = Some 1 /\ (k_ENOB k <> None \/ k_SNR k <> None).
Proof. split; [reflexivity|]. left. discriminate. Qed.

(** the returned control has n signals, the system needs 2n: the pair cannot be simulated *)
Theorem C81_unusable : forall gi k fp h S d h', get_osc gi k fp h = Ok (S, d, h') -> sN S <> 0%nat ->
  forall x u c, length x = sN S -> length u = sL S -> length c = d_M d -> derivative S x u c = Exn ValueError.
Proof.
  intros gi k fp h S d h' H HN x u c Lx Lu Lc. destruct (get_osc_inv _ _ _ _ _ _ _ H) as (n & f & BW & OSR & _ & _ & _ & _ & _ & _ & _ & (V & SN & SL & SM & G & _) & (HM & _) & _).
  unfold derivative, dotv. rewrite (v_A _ V). fold (sL S). rewrite Lx, Lu, !Nat.eqb_refl. cbn [bind]. unfold sM in SM. destruct (aG S) as [g|]; [|congruence]. cbn [dotv_opt]. unfold dotv.
  destruct (Nat.eqb_spec (cols g) (length c)) as [X|X]; [lia|reflexivity].
Qed.
Print Assumptions C81_unusable.
Example C81_unusable_example : exists gi k fp h S d h', get_osc gi k fp h = Ok (S, d, h') /\ sN S <> 0%nat.
Proof.
  destruct C81_example as (S & d & h' & E). eexists _, _, _, _, S, d, h'. split; [exact E|]. destruct (get_osc_inv _ _ _ _ _ _ _ E) as (n & f & BW & OSR & EN & _ & _ & _ & _ & _ & _ & (_ & SN & _) & _).
  cbn in EN. injection EN as <-. rewrite SN. lia.
Qed.
Theorem C81_simulable_refuted : exists gi k fp h S d h', get_osc gi k fp h = Ok (S, d, h') /\ d_M d <> sM S.
Proof.
  destruct C81_example as (S & d & h' & E). eexists _, _, _, _, S, d, h'. split; [exact E|]. destruct (get_osc_inv _ _ _ _ _ _ _ E) as (n & f & BW & OSR & EN & _ & _ & _ & _ & _ & _ & (_ & _ & _ & SM & _) & (HM & _) & _).
  cbn in EN. injection EN as <-. rewrite SM, HM. lia.
Qed.
Print Assumptions C81_simulable_refuted.

(** *** C82: get_parallel_leapfrog *)
Definition plf (e : R) (n M : nat) (BW fp : R) (fps : option (list R)) : plfkw := mkPlf (Some e) (Some n) (Some M) (Some BW) (Some fp) fps.
(** the couplings used: the given ones, else one angular frequency 2 pi fp per pair of branches *)
Definition couplings (fp : R) (M : nat) (fps : option (list R)) : list R := match fps with Some l => l | None => repeat (2 * PI * fp) (M * (M - 1) / 2) end.

(** which numbers of branches come back *)
Theorem C82_widths : forall gi k h S h', get_plf gi k h = Ok (S, h') ->
  exists e n M BW fp, k = plf e n M BW fp (p_fps k) /\ let L := length (couplings fp M (p_fps k)) in
  (M = 3%nat /\ (3 <= L)%nat \/ M = 4%nat /\ (6 <= L)%nat \/ (2 <= M)%nat /\ M <> 3%nat /\ M <> 4%nat /\ (M * (M - 1) <= L)%nat) /\
  exists v, get_lf gi (mkKw (Some e) None None (Some n) (Some BW) None None None None false None false false) h = Ok v.
Proof.
  intros gi k h S h' H. destruct (plf_inv gi k h S h' H) as (e & n & M & BW & fp & E1 & E2 & E3 & E4 & E5 & S0 & d0 & h0 & E0 & HM).
  exists e, n, M, BW, fp. split; [destruct k; cbn in *; subst; reflexivity|]. cbn zeta. split; [|eexists; exact E0].
  fold (plf_poles fp M (p_fps k)) in *. change (couplings fp M (p_fps k)) with (plf_poles fp M (p_fps k)). tauto.
Qed.
Print Assumptions C82_widths.
(** ... without given couplings only three and four, and these whenever one leap-frog is *)
Theorem C82_default_widths : forall gi e n M BW fp h, (exists v, get_plf gi (plf e n M BW fp None) h = Ok v) <->
  (M = 3%nat \/ M = 4%nat) /\ exists v, get_lf gi (mkKw (Some e) None None (Some n) (Some BW) None None None None false None false false) h = Ok v.
Proof.
  intros gi e n M BW fp h. split.
  - intros ([S h'] & H). destruct (C82_widths _ _ _ _ _ H) as (e' & n' & M' & BW' & fp' & E & HM & HL). unfold plf in E. cbn [p_fps] in *. injection E as <- <- <- <- <-. split; [|exact HL].
    cbn zeta in HM. cbn [plf p_fps couplings] in HM. rewrite repeat_length in HM. destruct HM as [[-> _]|[[-> _]|(H2 & _ & _ & HD)]]; auto.
    exfalso. assert (X := Nat.div_lt (M * (M - 1)) 2 ltac:(nia) ltac:(lia)). lia.
  - intros (HM & ([[S0 d0] h0] & E0)). destruct (plf_ok gi (plf e n M BW fp None) h e n M BW fp S0 d0 h0 eq_refl eq_refl eq_refl eq_refl eq_refl E0) as (S & h' & E); [|eauto].
    cbn [plf p_fps]. unfold plf_poles. rewrite repeat_length. destruct HM as [-> | ->]; [left|right]; (split; [reflexivity|]); cbn; lia.
Qed.
Print Assumptions C82_default_widths.

(** a leap-frog with one integrator and bandwidth 1 *)
Lemma plf_lf : exists v, get_lf (fun _ => 6 / 1000) (mkKw (Some 0) None None (Some 1%nat) (Some 1) None None None None false None false false) [] = Ok v.
Proof.
  set (gi := fun _ : nat => 6 / 1000). set (k := mkKw (Some 0) None None (Some 1%nat) (Some 1) None None None None false None false false).
  assert (G : lf_gamma gi (4 / 1000) 0 1 = 1).
  { destruct (lf_gamma_spec gi (4 / 1000) 0 1 ltac:(lia) ltac:(unfold gi; lra)) as [A B]. rewrite Rmult_0_l, exp_0 in B. unfold gi in B at 2.
    replace (4 / 1000 / (6 / 1000) * (3 / 2 * 1)) with 1 in B by field. apply pow_pos_inj with (2 * 1)%nat; [exact A|lra|lia|]. rewrite B. cbn. ring. }
  assert (P := PI_RGT_0). assert (P4 := PI_4). unfold get_lf, k. cbn [k_N k_BW k_ENOB]. apply lf_enob_accepts; cbn [k_delta k_xi dflt]; unfold gi; try lra; [lia|]. fold gi.
  rewrite G, Rabs_pos_eq by lra. apply Rmult_le_reg_r with (4 * PI * 1 * 1); [lra|]. unfold Rdiv at 2. rewrite Rmult_1_l, Rinv_l by lra. lra.
Qed.
Lemma plf_some M fps : (M = 3%nat \/ M = 4%nat) -> (6 <= length (couplings 1 M fps))%nat \/ fps = None -> exists v, get_plf (fun _ => 6 / 1000) (plf 0 1 M 1 1 fps) [] = Ok v.
Proof.
  intros HM HF. destruct plf_lf as ([[S0 d0] h0] & E0). destruct (plf_ok _ (plf 0 1 M 1 1 fps) [] 0 1 M 1 1 S0 d0 h0 eq_refl eq_refl eq_refl eq_refl eq_refl E0) as (S & h' & E); [|eauto].
  cbn [plf p_fps]. destruct HF as [HF| ->]; [change (plf_poles 1 M fps) with (couplings 1 M fps); destruct HM; [left|right]; split; auto; lia|].
  unfold plf_poles. rewrite repeat_length. destruct HM as [-> | ->]; [left|right]; (split; [reflexivity|]); cbn; lia.
Qed.
Example C82_default_widths_example : exists v, get_plf (fun _ => 6 / 1000) (plf 0 1 4 1 1 None) [] = Ok v.
Proof. apply plf_some; auto. Qed.
Example C82_widths_example : exists v, get_plf (fun _ => 6 / 1000) (plf 0 1 3 1 1 (Some [1; 2; 3; 4; 5; 6])) [] = Ok v.
Proof. apply plf_some; auto. Qed.

(** the system: M copies of the leap-frog, the input to each; branch a feeds branch b > a with gain p_{b(b-1)/2+a} and is fed back with minus it *)
Theorem C82_dynamics : forall gi k h S h' e n M BW fp fps, k = plf e n M BW fp fps -> M = 3%nat \/ M = 4%nat -> get_plf gi k h = Ok (S, h') ->
  exists S0 d0 h0, get_lf gi (mkKw (Some e) None None (Some n) (Some BW) None None None None false None false false) h = Ok (S0, d0, h0) /\
  sN S = (M * n)%nat /\ sL S = 1%nat /\ sM S = (M * n)%nat /\
  forall X u C, length X = (M * n)%nat -> length C = (M * n)%nat -> exists v, derivative S X [u] C = Ok v /\
    forall a, (a < M)%nat -> exists va, derivative S0 (firstn n (skipn (a * n) X)) [u] (firstn n (skipn (a * n) C)) = Ok va /\
      forall i, (i < n)%nat -> nth (a * n + i) v 0 = nth i va 0 + rsum M (fun b => if Nat.eqb a b then 0 else
        (if Nat.ltb b a then nth (a * (a - 1) / 2 + b) (couplings fp M fps) 0 else - nth (b * (b - 1) / 2 + a) (couplings fp M fps) 0) * nth (b * n + i) X 0).
Proof.
  intros gi k h S h' e n M BW fp fps -> HM H. destruct (plf_inv gi _ h S h' H) as (e' & n' & M' & BW' & fp' & E1 & E2 & E3 & E4 & E5 & S0 & d0 & h0 & E0 & HD). cbn [plf p_ENOB p_N p_M p_BW p_fp p_fps] in *.
  injection E1 as <-. injection E2 as <-. injection E3 as <-. injection E4 as <-. injection E5 as <-. cbn zeta in HD.
  assert (D : parallel_dyn S0 S M n (coupling (plf_poles fp M fps))) by (destruct HD as [(_ & _ & D)|[(_ & _ & D)|(_ & N3 & N4 & _)]]; [exact D|exact D|tauto]).
  destruct D as (_ & SN & SL & SM & _ & _ & _ & _ & D). exists S0, d0, h0. split; [exact E0|]. split; [exact SN|]. split; [exact SL|]. split; [exact SM|]. exact D.
Qed.
Print Assumptions C82_dynamics.

Example C82_dynamics_example : exists v, get_plf (fun _ => 6 / 1000) (plf 0 1 3 1 1 None) [] = Ok v.
Proof. apply plf_some; auto. Qed.

Lemma plf_lf_poles gi e n BW h S0 d0 h0 mu : get_lf gi (lfkw e n BW) h = Ok (S0, d0, h0) -> pole_of S0 mu <-> exists j, (1 <= j <= n)%nat /\ mu = (0, 2 * PI * BW * cos (INR j * PI / (INR n + 1))).
Proof.
  intros E0. destruct (lf_parts gi e n BW h S0 d0 h0 E0) as (Hn & _ & _ & SL & _ & _ & HB & _ & beta & alpha & kk & Hab & IS).
  assert (X := leap_frog_poles S0 n beta alpha (PI * BW) kk mu Hn ltac:(apply Rmult_integral_contrapositive_currified; [apply PI_neq0|exact HB]) Hab IS).
  assert (EQ : forall j, 2 * (PI * BW) * cos (angle_k n j) = 2 * PI * BW * cos (INR j * PI / (INR n + 1))) by (intros j; unfold angle_k; rewrite S_INR; ring).
  unfold pole_of, mode. rewrite SL. unfold eigen in X. cbn [repeat]. rewrite X. split; intros (j & Hj & E); exists j; (split; [exact Hj|]); [rewrite EQ in E|rewrite EQ]; exact E.
Qed.
(** three branches: every pole of the leap-frog three times, shifted by 0 and by plus and minus the length of the coupling vector *)
Theorem C82_poles_three : forall gi e n BW fp fps h S h' lam, get_plf gi (plf e n 3 BW fp fps) h = Ok (S, h') ->
  let p i := nth i (couplings fp 3 fps) 0 in let c := sqrt (p 0%nat * p 0%nat + p 1%nat * p 1%nat + p 2%nat * p 2%nat) in
  pole_of S lam <-> exists j s, (1 <= j <= n)%nat /\ (s = 0 \/ s = 1 \/ s = -1) /\ lam = (0, 2 * PI * BW * cos (INR j * PI / (INR n + 1)) + s * c).
Proof.
  intros gi e n BW fp fps h S h' lam H p c. destruct (plf_inv gi _ h S h' H) as (e' & n' & M' & BW' & fp' & E1 & E2 & E3 & E4 & E5 & S0 & d0 & h0 & E0 & HD). cbn [plf p_ENOB p_N p_M p_BW p_fp p_fps] in *.
  injection E1 as <-. injection E2 as <-. injection E3 as <-. injection E4 as <-. injection E5 as <-. cbn zeta in HD.
  destruct HD as [(_ & _ & D)|[(X & _)|(_ & N3 & _)]]; [|discriminate X|exfalso; now apply N3].
  destruct (lf_parts gi e n BW h S0 d0 h0 E0) as (_ & V & SN & _ & _ & _ & _ & (g0 & _ & EG & _) & _).
  rewrite (parallel3_poles S0 S n _ lam V ltac:(congruence) SN D). change (pole_norm (plf_poles fp 3 fps)) with c. split.
  - intros (mu & Hmu & HL). apply (plf_lf_poles _ _ _ _ _ _ _ _ _ E0) in Hmu as (j & Hj & ->). destruct HL as [->|[->| ->]]; [exists j, 0|exists j, 1|exists j, (-1)]; (split; [exact Hj|]); (split; [tauto|]); apply injective_projections; cbn; ring.
  - intros (j & s & Hj & Hs & ->). exists (0, 2 * PI * BW * cos (INR j * PI / (INR n + 1))). split; [apply (plf_lf_poles _ _ _ _ _ _ _ _ _ E0); eauto|].
    destruct Hs as [->|[->| ->]]; [left|right; left|right; right]; apply injective_projections; cbn; ring.
Qed.
Print Assumptions C82_poles_three.
Example C82_poles_three_example : exists S h', get_plf (fun _ => 6 / 1000) (plf 0 1 3 1 1 (Some [3; 4; 12; 0; 0; 0])) [] = Ok (S, h') /\ pole_of S (0, 13).
Proof.
  destruct (plf_some 3 (Some [3; 4; 12; 0; 0; 0])) as ([S h'] & E); [auto|left; cbn; lia|]. exists S, h'. split; [exact E|].
  apply (C82_poles_three _ _ _ _ _ _ _ _ _ (0, 13) E). cbn [couplings nth]. exists 1%nat, 1. split; [lia|]. split; [tauto|].
  replace (3 * 3 + 4 * 4 + 12 * 12) with (13 * 13) by ring. rewrite sqrt_square by lra. cbn [INR]. replace (1 * PI / (1 + 1)) with (PI / 2) by field. rewrite cos_PI2. f_equal. ring.
Qed.
(** four branches: four times, shifted by the sums and differences of two frequencies *)
Theorem C82_poles_four : forall gi e n BW fp fps h S h' lam, get_plf gi (plf e n 4 BW fp fps) h = Ok (S, h') ->
  let p i := nth i (couplings fp 4 fps) 0 in
  let r := sqrt ((p 0%nat + p 5%nat) * (p 0%nat + p 5%nat) + (p 1%nat - p 4%nat) * (p 1%nat - p 4%nat) + (p 2%nat + p 3%nat) * (p 2%nat + p 3%nat)) / 2 in
  let r' := sqrt ((p 0%nat - p 5%nat) * (p 0%nat - p 5%nat) + (p 1%nat + p 4%nat) * (p 1%nat + p 4%nat) + (p 3%nat - p 2%nat) * (p 3%nat - p 2%nat)) / 2 in
  pole_of S lam <-> exists j s t, (1 <= j <= n)%nat /\ (s = 1 \/ s = -1) /\ (t = 1 \/ t = -1) /\ lam = (0, 2 * PI * BW * cos (INR j * PI / (INR n + 1)) + s * r + t * r').
Proof.
  intros gi e n BW fp fps h S h' lam H p r r'. destruct (plf_inv gi _ h S h' H) as (e' & n' & M' & BW' & fp' & E1 & E2 & E3 & E4 & E5 & S0 & d0 & h0 & E0 & HD). cbn [plf p_ENOB p_N p_M p_BW p_fp p_fps] in *.
  injection E1 as <-. injection E2 as <-. injection E3 as <-. injection E4 as <-. injection E5 as <-. cbn zeta in HD.
  destruct HD as [(X & _)|[(_ & _ & D)|(_ & _ & N4 & _)]]; [discriminate X| |exfalso; now apply N4].
  destruct (lf_parts gi e n BW h S0 d0 h0 E0) as (_ & V & SN & _ & _ & _ & _ & (g0 & _ & EG & _) & _).
  rewrite (parallel4_poles S0 S n _ lam V ltac:(congruence) SN D). change (pole_plus (plf_poles fp 4 fps)) with r. change (pole_minus (plf_poles fp 4 fps)) with r'. split.
  - intros (mu & s & t & Hmu & Hs & Ht & ->). apply (plf_lf_poles _ _ _ _ _ _ _ _ _ E0) in Hmu as (j & Hj & ->). exists j, s, t. do 3 (split; [assumption|]). apply injective_projections; cbn; ring.
  - intros (j & s & t & Hj & Hs & Ht & ->). exists (0, 2 * PI * BW * cos (INR j * PI / (INR n + 1))), s, t. split; [apply (plf_lf_poles _ _ _ _ _ _ _ _ _ E0); eauto|]. do 2 (split; [assumption|]). apply injective_projections; cbn; ring.
Qed.
Print Assumptions C82_poles_four.
Example C82_poles_four_example : exists S h', get_plf (fun _ => 6 / 1000) (plf 0 1 4 1 1 (Some [5; 0; 0; 0; 0; 3])) [] = Ok (S, h') /\ pole_of S (0, 5) /\ pole_of S (0, 3).
Proof.
  destruct (plf_some 4 (Some [5; 0; 0; 0; 0; 3])) as ([S h'] & E); [auto|left; cbn; lia|]. exists S, h'. split; [exact E|].
  assert (S8 : sqrt ((5 + 3) * (5 + 3) + (0 - 0) * (0 - 0) + (0 + 0) * (0 + 0)) = 8) by (replace ((5 + 3) * (5 + 3) + (0 - 0) * (0 - 0) + (0 + 0) * (0 + 0)) with (8 * 8) by ring; apply sqrt_square; lra).
  assert (S2 : sqrt ((5 - 3) * (5 - 3) + (0 + 0) * (0 + 0) + (0 - 0) * (0 - 0)) = 2) by (replace ((5 - 3) * (5 - 3) + (0 + 0) * (0 + 0) + (0 - 0) * (0 - 0)) with (2 * 2) by ring; apply sqrt_square; lra).
  split; apply (C82_poles_four _ _ _ _ _ _ _ _ _ _ E); cbn [couplings nth]; rewrite S8, S2; [exists 1%nat, 1, 1|exists 1%nat, 1, (-1)];
    (split; [lia|]); (split; [tauto|]); (split; [tauto|]); cbn [INR]; replace (1 * PI / (1 + 1)) with (PI / 2) by field; rewrite cos_PI2; f_equal; field.
Qed.

(** the resonances are not at fp: three branches of one integrator resonate at 0 and sqrt 3 fp *)
Theorem C82_resonance_refuted : exists gi e n BW fp h S h', get_plf gi (plf e n 3 BW fp None) h = Ok (S, h') /\ ~ pole_of S (0, 2 * PI * fp) /\ pole_of S (0, sqrt 3 * (2 * PI * fp)) /\ pole_of S (0, 0).
Proof.
  destruct (plf_some 3 None (or_introl eq_refl) (or_intror eq_refl)) as ([S h'] & E). exists (fun _ => 6 / 1000), 0, 1%nat, 1, 1, [], S, h'. split; [exact E|].
  assert (X := fun lam => C82_poles_three _ _ _ _ _ _ _ _ _ lam E). cbn zeta in X. unfold couplings in X. change (3 * (3 - 1) / 2)%nat with 3%nat in X. cbn [repeat nth] in X.
  assert (P := PI_RGT_0). assert (S3 : sqrt (2 * PI * 1 * (2 * PI * 1) + 2 * PI * 1 * (2 * PI * 1) + 2 * PI * 1 * (2 * PI * 1)) = sqrt 3 * (2 * PI * 1)).
  { replace (2 * PI * 1 * (2 * PI * 1) + 2 * PI * 1 * (2 * PI * 1) + 2 * PI * 1 * (2 * PI * 1)) with (3 * ((2 * PI * 1) * (2 * PI * 1))) by ring. rewrite sqrt_mult, sqrt_square by nra. reflexivity. }
  rewrite S3 in X. assert (C0 : cos (INR 1 * PI / (INR 1 + 1)) = 0) by (cbn [INR]; replace (1 * PI / (1 + 1)) with (PI / 2) by field; apply cos_PI2).
  assert (Q := sqrt_sqrt 3 ltac:(lra)). assert (Q0 := sqrt_pos 3). split; [|split].
  - intros HP. apply X in HP as (j & s & Hj & Hs & EL). assert (j = 1%nat) as -> by lia. rewrite C0 in EL. apply (f_equal snd) in EL. cbn [snd] in EL. destruct Hs as [->|[->| ->]]; nra.
  - apply X. exists 1%nat, 1. split; [lia|]. split; [tauto|]. rewrite C0. f_equal. ring.
  - apply X. exists 1%nat, 0. split; [lia|]. split; [tauto|]. rewrite C0. f_equal. ring.
Qed.
Print Assumptions C82_resonance_refuted.
