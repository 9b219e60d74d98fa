(** Properties C36, C43-C45, C47: integrator chains, leap-frog filters, their synthesis, figures of merit. *)
From Coq Require Import List Arith Lia Bool Reals Lra.
From Coquelicot Require Import Coquelicot.
From Verif Require Import Base LinAlg FirExtras AnalogSystem AnalogProofs Signals DigitalControl DigitalControlProofs Fom Integrators IntegratorsProofs Simulator Stability SynthesisProofs SynthesisExtra LeapFrogPoles.
Import ListNotations.
Open Scope R_scope.

(** *** C36: every chain of integrators returned with its default control is stable for ever.
    [full_run] iterates [next]; [answers_exactly] says that the ODE solver returned the end of an exact solution. *)
Theorem C36_states_bounded : forall k h S d h' ivp s0 (u : R -> R),
  get_coi k h = Ok (S, d, h') -> k_swcap k = false -> dflt (k_rho k) 0 <= 0 -> (forall BW, k_BW k = Some BW -> 0 <= BW) ->
  base_init S d h' 1 None = Ok s0 -> (forall t, 0 <= t -> Rabs (u t) <= 1) ->
  (forall i s, full_run ivp S [u] i s0 = Ok s -> answers_exactly ivp S [u] s) ->
  exists N, k_N k = Some N /\ sN S = N /\ forall i, exists s, full_run ivp S [u] i s0 = Ok s /\ s_t s = INR i * ck_T (d_clk d) /\
    length (s_x s) = N /\ (forall n, (n < N)%nat -> Rabs (nth n (s_x s) 0) <= 1) /\
    exists hs, observe_update S (inputs_at S [u] (0 + s_t s)) s = Ok hs /\
    forall y, solves (full_rhs S [u] s hs) 0 (ck_T (d_clk d)) (s_x s) y ->
    forall t, 0 <= t <= ck_T (d_clk d) -> forall n, (n < N)%nat -> Rabs (nth n (y t) 0) <= 1.
Proof. exact coi_closed_loop. Qed.
Print Assumptions C36_states_bounded.

(** ... and so is any chain whose control is at least as strong as the drive of each integrator and acts within 1/(|beta|+|kappa|). *)
Theorem C36_any_chain : forall ivp S beta rho k kap d s0 (u : R -> R),
  coi_init beta rho (D2 k) = Ok S -> rows k = length beta -> diagonal_gain k kap -> stabilising beta rho kap (ck_T (d_clk d)) ->
  plain d (length beta) -> s_d s0 = d -> wf d (s_h s0) -> 0 <= s_t s0 -> (forall t, 0 <= t -> Rabs (u t) <= 1) ->
  length (s_x s0) = length beta -> bounded (length beta) (s_x s0) ->
  (forall i s, full_run ivp S [u] i s0 = Ok s -> answers_exactly ivp S [u] s) ->
  forall i, exists s, full_run ivp S [u] i s0 = Ok s /\ bounded (length beta) (s_x s) /\
    exists h, observe_update S (inputs_at S [u] (0 + s_t s)) s = Ok h /\
    forall y, solves (full_rhs S [u] s h) 0 (ck_T (d_clk d)) (s_x s) y -> forall t, 0 <= t <= ck_T (d_clk d) -> bounded (length beta) (y t).
Proof.
  intros ivp S beta rho k kap d s0 u E Rk Hg Hst Hpl Hd W Ht Hu Lx Hb Hex i.
  pose proof Hst as (Lr & Lk & HN & _ & Hp). pose proof Hg as [Hnc Hge].
  destruct (coi_init_ok beta rho k HN Lr Rk) as (S' & E' & _ & HS).
  { intros m Hm. rewrite Hnc, Lk in Hm. exists m. split; [exact Hm|]. rewrite Hge by lia. rewrite Nat.eqb_refl. apply Hp. exact Hm. }
  rewrite E in E'. apply Ok_inj in E'. subst S'.
  destruct (loop_run ivp S beta rho k kap d s0 u HS Hg Hst Hpl Hd W Ht Hu Lx Hb Hex i) as (s & A & _ & _ & _ & _ & B & C). eauto.
Qed.
Print Assumptions C36_any_chain.

Definition kw0 : kwargs := mkKw None None None None None None None None None false None false false.
Definition kw_osr (N : nat) (OSR BW : R) : kwargs := mkKw None None (Some OSR) (Some N) (Some BW) None None None None false None false false.
(** one integrator, unit period, input 1/3: the hypotheses of both theorems hold and the state moves *)
Example C36_example : exists S d h s0, get_coi (kw_osr 1 1 (1 / 2)) [] = Ok (S, d, h) /\ base_init S d h 1 None = Ok s0 /\
  (forall i s, full_run euler S [fun _ => 1 / 3] i s0 = Ok s -> answers_exactly euler S [fun _ => 1 / 3] s) /\
  exists s, full_run euler S [fun _ => 1 / 3] 1 s0 = Ok s /\ s_x s = [2 / 3].
Proof.
  assert (X : exists v, coi_osr 1 1 (1 / 2) 0 [] = Ok v) by (apply coi_osr_iff; split; [lia|lra]).
  destruct X as ([[S d] h] & E). destruct (coi_osr_inv _ _ _ _ _ _ _ _ E) as (_ & _ & _ & HF).
  replace (1 / (2 * (1 / 2) * 1)) with 1 in HF by field. replace (1 / 2 * 1) with (1 / 2) in HF by ring. cbn [repeat Nat.sub] in HF.
  assert (ET : ck_T (d_clk d) = 1) by apply HF.
  assert (HF' : default_frontend S d h [1 / 2] [] [0] [1 / 2] (ck_T (d_clk d))) by (rewrite ET; exact HF).
  destruct HF as (V & HS & _ & HP & HW & _). pose proof HS as (DN & DL & _). cbn [length] in *.
  assert (EI : base_init S d h 1 None = Ok (mkSim 0 [0] d h)) by (unfold base_init; rewrite DL, DN; reflexivity).
  exists S, d, h, (mkSim 0 [0] d h). split; [exact E|]. split; [exact EI|].
  assert (Hex : forall i s, full_run euler S [fun _ => 1 / 3] i (mkSim 0 [0] d h) = Ok s -> answers_exactly euler S [fun _ => 1 / 3] s).
  { intros i s Hi. eapply euler_exact; [exact HF'|lra|reflexivity|exact Hi]. }
  split; [exact Hex|]. destruct (diag0_diagonal [1 / 2]) as [Hnc Hge]. cbn [length] in Hnc, Hge.
  pose proof HS as (_ & _ & _ & _ & HD & _ & HO). cbn [length] in HD, HO. rewrite Hnc in HD, HO.
  cbn [full_run bind]. unfold full_next, observe_update. cbn [s_d s_h s_x s_t].
  rewrite (plain_contribution d 1 h 0 HP HW (Rle_refl 0)). cbn [bind inputs_at map]. rewrite HO by reflexivity. cbn [bind].
  set (st := map _ (seq 0 1)). assert (Es : nth 0 st 0 = 0).
  { unfold st. cbn [map seq nth]. rewrite rsum_S, rsum_0. cbn [nth]. unfold Rdiv. rewrite Rmult_0_r, Rplus_0_r, Ropp_0. apply Rmult_0_l. }
  destruct (plain_update d 1 h st HP HW) as (h2 & EU & W2 & Hdec); [unfold st; cbn; lia|]. rewrite EU. cbn [bind].
  destruct (Hdec 0%nat ltac:(lia)) as [Ed _]. rewrite Es, Raux.Rle_bool_true in Ed by lra.
  unfold euler, full_rhs. cbn [s_d s_t map]. rewrite (plain_contribution d 1 h2 _ HP W2) by (rewrite ET; lra). cbn [bind map seq].
  rewrite HD by reflexivity. cbn [map seq map2 bind]. eexists. split; [reflexivity|]. cbn [s_x]. f_equal. rewrite rsum_S, rsum_0, ET. rewrite Hge by lia. cbn [nth Nat.eqb Nat.add]. rewrite Ed. field.
Qed.

(** *** C43: the two constructors *)
Theorem C43_chain : forall beta rho k, (1 <= length beta)%nat -> length rho = length beta -> rows k = length beta ->
  (controls_act (length beta) k -> exists S, coi_init beta rho (D2 k) = Ok S /\ valid S /\ integrator_system S beta (repeat 0 (length beta - 1)) rho k) /\
  (forall m, (m < ncontrols k)%nat -> (forall n, (n < length beta)%nat -> gain k n m = 0) -> coi_init beta rho (D2 k) = Exn ArithmeticError).
Proof. intros beta rho k HN Lr Rk. split; [now apply coi_init_ok|]. intros m Hm HZ. now apply coi_zero with m. Qed.
Print Assumptions C43_chain.
Theorem C43_leap_frog : forall beta alpha rho k, (1 <= length beta)%nat -> length rho = length beta -> (length alpha = length beta - 1)%nat -> rows k = length beta ->
  (controls_act (length beta) k -> exists S, lf_init beta alpha rho (D2 k) = Ok S /\ valid S /\ integrator_system S beta alpha rho k) /\
  (forall m, (m < ncontrols k)%nat -> (forall n, (n < length beta)%nat -> gain k n m = 0) -> lf_init beta alpha rho (D2 k) = Exn ArithmeticError).
Proof. intros beta alpha rho k HN Lr La Rk. split; [now apply lf_init_ok|]. intros m Hm HZ. now apply lf_zero with m. Qed.
Print Assumptions C43_leap_frog.
Example C43_example : exists S, lf_init [1; 2; 3] [4; 5] [6; 7; 8] (D2 (mk2 (K := Rring) 3 1 (fun i _ => 1 + INR i))) = Ok S /\
  derivative S [1; 10; 100] [2] [1; -1; 1] = Ok [6 * 1 + 1 * 2 + 4 * 10 + 1; 7 * 10 + 2 * 1 + 5 * 100 - 2; 8 * 100 + 3 * 10 + 3].
Proof.
  destruct (proj1 (C43_leap_frog [1; 2; 3] [4; 5] [6; 7; 8] (mk2 (K := Rring) 3 1 (fun i _ => 1 + INR i)) ltac:(cbn; lia) eq_refl eq_refl eq_refl)) as (S & E & _ & HS).
  { intros m Hm. exists m. split; [exact Hm|]. unfold gain. cbn [cols Nat.eqb ent]. rewrite Nat.eqb_refl. assert (P := pos_INR m). lra. }
  exists S. split; [exact E|]. destruct HS as (_ & _ & _ & _ & HD & _). rewrite HD by reflexivity. f_equal. cbn [length seq map].
  unfold ncontrols. cbn [cols rows Nat.eqb]. rewrite !rsum_S, !rsum_0. unfold gain. cbn [cols ent Nat.eqb nth Nat.add Nat.sub INR]. f_equal; [ring|]. f_equal; [ring|]. f_equal. ring.
Qed.

(** the constructor's length tests have no effect: one [rho] for several integrators is accepted and fills all of A *)
Theorem C43_length_checked_refuted : exists beta rho k S, length rho <> length beta /\ coi_init beta rho (D2 k) = Ok S /\
  ent (aA S) 0 2 <> 0.
Proof.
  destruct (coi_broadcast [1; 1; 1] (-1) (eye_m 1 3)) as (S & E & _ & _ & HA); cbn [length eye_m rows cols]; try lia.
  { intros m Hm. change (ncontrols (eye_m 1 3)) with 3%nat in Hm. exists m. split; [exact Hm|]. rewrite (gain_square _ 3) by auto. cbn [eye_m ent]. rewrite Nat.eqb_refl. lra. }
  exists [1; 1; 1], [-1], (eye_m 1 3), S. split; [cbn; lia|]. split; [exact E|]. rewrite HA by (cbn; lia). cbn [Nat.eqb]. lra.
Qed.
Print Assumptions C43_length_checked_refuted.
Theorem C43_broadcast : forall beta r k, (2 <= length beta)%nat -> rows k = length beta -> (1 <= cols k)%nat -> controls_act (length beta) k ->
  exists S, coi_init beta [r] (D2 k) = Ok S /\ rows (aA S) = length beta /\ cols (aA S) = length beta /\
    forall i j, (i < length beta)%nat -> (j < length beta)%nat -> ent (aA S) i j = r + (if Nat.eqb i (Datatypes.S j) then nth i beta 0 else 0).
Proof. exact coi_broadcast. Qed.
Print Assumptions C43_broadcast.
Example C43_broadcast_example : controls_act 2 (eye_m 1 2).
Proof. intros m Hm. change (ncontrols (eye_m 1 2)) with 2%nat in Hm. exists m. split; [exact Hm|]. rewrite (gain_square _ 2) by auto. cbn [eye_m ent]. rewrite Nat.eqb_refl. lra. Qed.

(** *** C44: the poles of every leap-frog filter returned by get_leap_frog.  [gi] stands for the integral g_i(N). *)
Theorem C44_poles : forall gi k h S d h' lam, get_lf gi k h = Ok (S, d, h') ->
  exists N BW, k_N k = Some N /\ match k_BW k with Some b => BW = b | None => exists o T, k_OSR k = Some o /\ k_T k = Some T /\ 2 * BW * o * T = 1 end /\
  ((exists p q, eigen S lam p q) <-> exists j, (1 <= j <= N)%nat /\ lam = (0, 2 * PI * BW * cos (INR j * PI / (INR N + 1)))).
Proof.
  intros gi k h S d h' lam H. destruct (get_lf_inv _ _ _ _ _ _ H) as (N & BW & beta & alpha & T & EN & HN & HB & HB0 & (_ & _ & _ & Hab) & _ & (_ & HS & _)).
  exists N, BW. split; [exact EN|]. split; [exact HB|]. assert (P := PI_RGT_0).
  rewrite (leap_frog_poles S N beta alpha (PI * BW) _ lam HN ltac:(apply Rmult_integral_contrapositive_currified; [lra|exact HB0]) Hab HS).
  split; intros (j & Hj & ->); exists j; (split; [exact Hj|]); f_equal; unfold angle_k; rewrite S_INR; ring.
Qed.
Print Assumptions C44_poles.
Theorem C44_in_band : forall N BW j, (1 <= j <= N)%nat -> BW <> 0 -> Rabs (2 * PI * BW * cos (INR j * PI / (INR N + 1))) < 2 * PI * Rabs BW.
Proof.
  intros N BW j Hj HB. assert (P := PI_RGT_0). assert (A := poles_in_band N (PI * BW) j Hj ltac:(apply Rmult_integral_contrapositive_currified; [lra|exact HB])).
  unfold angle_k in A. rewrite S_INR in A. rewrite (Rabs_mult PI), (Rabs_pos_eq PI) in A by lra. replace (2 * (PI * BW)) with (2 * PI * BW) in A by ring. lra.
Qed.
Print Assumptions C44_in_band.
Example C44_example : exists v, get_lf (fun _ => 1) (kw_osr 4 8 1) [] = Ok v.
Proof. apply (proj2 (lf_osr_iff (kw_osr 4 8 1) 8 4 1 [])). split; [lia|]. cbn [kw_osr k_delta dflt]. lra. Qed.

(** *** C45: parameters *)
(** chain, by oversampling ratio and bandwidth *)
Theorem C45_chain_osr : forall k h N OSR BW, k_N k = Some N -> k_BW k = Some BW -> k_OSR k = Some OSR -> k_ENOB k = None -> k_SNR k = None ->
  ((exists v, get_coi k h = Ok v) <-> (1 <= N)%nat /\ BW * OSR <> 0 /\ 2 / 100000000000000 <= 1 / (2 * BW * OSR)) /\
  forall S d h', get_coi k h = Ok (S, d, h') ->
    default_frontend S d h' (repeat (BW * OSR) N) (repeat 0 (N - 1)) (repeat (dflt (k_rho k) 0) N) (repeat (BW * OSR) N) (1 / (2 * BW * OSR)).
Proof.
  intros k h N OSR BW EN EB EO EE ES. assert (X : get_coi k h = coi_osr OSR N BW (dflt (k_rho k) 0) h) by (unfold get_coi; now rewrite EN, EB, EE, ES, EO).
  rewrite X. split; [apply coi_osr_iff|]. intros S d h' E. now destruct (coi_osr_inv _ _ _ _ _ _ _ _ E) as (_ & _ & _ & H).
Qed.
Print Assumptions C45_chain_osr.
Example C45_chain_osr_example : exists v, get_coi (kw_osr 3 8 100) [] = Ok v.
Proof. apply (C45_chain_osr (kw_osr 3 8 100) [] 3 8 100); try reflexivity. split; [lia|lra]. Qed.
(** chain, by oversampling ratio and period: the clock has exactly that period and the gain does not depend on the ratio *)
Theorem C45_chain_period : forall k h N OSR T, k_N k = Some N -> k_BW k = None -> k_OSR k = Some OSR -> k_T k = Some T ->
  ((exists v, get_coi k h = Ok v) <-> (1 <= N)%nat /\ OSR <> 0 /\ 2 / 100000000000000 <= T) /\
  forall S d h', get_coi k h = Ok (S, d, h') ->
    default_frontend S d h' (repeat (1 / (2 * T)) N) (repeat 0 (N - 1)) (repeat (dflt (k_rho k) 0) N) (repeat (1 / (2 * T)) N) T.
Proof.
  intros k h N OSR T EN EB EO ET.
  assert (X : get_coi k h = if Raux.Req_bool (2 * T * OSR) 0 then Exn ZeroDivisionError else coi_osr OSR N (1 / (2 * T * OSR)) (dflt (k_rho k) 0) h)
    by (unfold get_coi; now rewrite EN, EB, EO, ET).
  rewrite X. destruct (Raux.Req_bool_spec (2 * T * OSR) 0) as [Z|Z].
  { split; [|intros; discriminate]. split; [intros (v & E); discriminate|]. intros (_ & HO & HT). exfalso. apply Rmult_integral in Z as [Z|Z]; lra. }
  assert (HT0 : T <> 0) by (intros E; apply Z; rewrite E; ring). assert (HO : OSR <> 0) by (intros E; apply Z; rewrite E; ring).
  assert (E1 : 1 / (2 * (1 / (2 * T * OSR)) * OSR) = T) by (field; auto). assert (E2 : 1 / (2 * T * OSR) * OSR = 1 / (2 * T)) by (field; auto).
  split.
  - rewrite coi_osr_iff, E1, E2. split; [intros (A & _ & B); auto|]. intros (A & _ & B). split; [exact A|]. split; [|exact B].
    unfold Rdiv. rewrite Rmult_1_l. apply Rinv_neq_0_compat. lra.
  - intros S d h' E. destruct (coi_osr_inv _ _ _ _ _ _ _ _ E) as (_ & _ & _ & H). rewrite E1, E2 in H. exact H.
Qed.
Print Assumptions C45_chain_period.
Definition kw_period (N : nat) (OSR T : R) : kwargs := mkKw None None (Some OSR) (Some N) None (Some T) None None None false None false false.
Example C45_chain_period_example : exists v, get_coi (kw_period 3 8 (1 / 100)) [] = Ok v.
Proof. apply (C45_chain_period (kw_period 3 8 (1 / 100)) [] 3 8 (1 / 100)); try reflexivity. split; [lia|lra]. Qed.

(** chain, by effective number of bits, or by signal-to-noise ratio in dB; [g] is the integrator gain per radian of bandwidth *)
Definition target_snr (k : kwargs) : option R :=
  match k_ENOB k, k_SNR k with
  | Some e, _ => Some (3 / 2 * exp (e * ln 4))
  | None, Some s => Some (exp (s / 10 * ln 10))
  | None, None => None
  end.
Theorem C45_chain_snr : forall k h N BW snr g, k_N k = Some N -> k_BW k = Some BW -> target_snr k = Some snr -> k_swcap k = false ->
  (1 <= N)%nat -> 0 < g -> g ^ (2 * N) * (2 * INR N + 1) = dflt (k_xi k) (23 / 10000) * snr ->
  let w := 2 * PI * BW in
  let rho := (if k_local k then - w / g else dflt (k_rho k) 0) + (if k_fg k then - w / g ^ (2 * N) else 0) in
  ((exists v, get_coi k h = Ok v) <-> BW <> 0 /\ 2 / 100000000000000 <= 1 / (2 * Rabs (g * w)) /\ 0 <= dflt (k_excess k) 0 <= 1) /\
  forall S d h', get_coi k h = Ok (S, d, h') ->
    default_frontend S d h' (repeat (- (g * w)) N) (repeat 0 (N - 1)) (repeat rho N) (repeat (- (g * w)) N) (1 / (2 * Rabs (g * w))).
Proof.
  intros k h N BW snr g EN EB ET Hsw HN Hg Hgg w rho.
  assert (X : exists e, get_coi k h = coi_enob k e N BW h /\ snr = 3 / 2 * exp (e * ln 4)).
  { unfold get_coi, target_snr in *. rewrite EN, EB. destruct (k_ENOB k) as [e|]; [exists e; split; [reflexivity|congruence]|].
    destruct (k_SNR k) as [s|]; [|discriminate]. exists (snr_to_enob s). split; [reflexivity|]. rewrite <- snr_of_enob, enob_inverse.
    injection ET as <-. reflexivity. }
  destruct X as (e & X & Es). rewrite X.
  assert (Hsnr : 0 < snr) by (rewrite Es; assert (Q := exp_pos (e * ln 4)); lra).
  assert (HP : 0 < INR N) by (apply lt_0_INR; lia).
  assert (Hxi : 0 < dflt (k_xi k) (23 / 10000)).
  { apply Rmult_lt_reg_r with snr; [exact Hsnr|]. rewrite Rmult_0_l, <- Hgg. apply Rmult_lt_0_compat; [now apply pow_lt|lra]. }
  destruct (coi_gamma_spec (dflt (k_xi k) (23 / 10000)) e N HN Hxi) as [Gp Ge].
  assert (EG : coi_gamma (dflt (k_xi k) (23 / 10000)) e N = g).
  { apply pow_pos_inj with (2 * N)%nat; auto; [lia|]. apply Rmult_eq_reg_r with (2 * INR N + 1); [|lra]. rewrite Ge, Hgg, Es. reflexivity. }
  split.
  - split.
    + intros ([[S d] h'] & E). destruct (coi_enob_inv _ _ _ _ _ _ _ _ E Hsw) as (_ & _ & HB & HT & He & _). rewrite EG, Rabs_Ropp in HT. auto.
    + intros (HB & HT & He). apply coi_enob_accepts; auto. rewrite EG. exact HT.
  - intros S d h' E. destruct (coi_enob_inv _ _ _ _ _ _ _ _ E Hsw) as (_ & _ & _ & _ & _ & HF). rewrite EG, Rabs_Ropp in HF. exact HF.
Qed.
Print Assumptions C45_chain_snr.
Example C45_chain_snr_example : exists k g, target_snr k = Some (3 / 2 * exp (0 * ln 4)) /\ k_N k = Some 1%nat /\ 0 < g /\ g ^ 2 * 3 = dflt (k_xi k) (23 / 10000) * (3 / 2 * exp (0 * ln 4)).
Proof.
  exists (mkKw (Some 0) None None (Some 1%nat) (Some 1) None (Some 8) None None false None false false), 2.
  split; [reflexivity|]. split; [reflexivity|]. split; [lra|]. cbn [k_xi dflt]. rewrite Rmult_0_l, exp_0. lra.
Qed.

(** the excess delay, if accepted, is ignored *)
Theorem C45_excess_delay_ignored : forall k e e' h, k_swcap k = false -> 0 <= dflt e 0 <= 1 -> 0 <= dflt e' 0 <= 1 ->
  get_coi (with_excess k e) h = get_coi (with_excess k e') h.
Proof. exact get_coi_excess. Qed.
Print Assumptions C45_excess_delay_ignored.
Example C45_excess_delay_ignored_example : 0 <= dflt (Some (3 / 4)) 0 <= 1 /\ 0 <= dflt None 0 <= 1.
Proof. cbn. lra. Qed.

(** the switched-capacitor variant: 25 times the gain, time constant a 25th of the period, and per period the charge of the default control
    up to the factor 1 - exp(-25) *)
Theorem C45_switched_capacitor : forall k ENOB N BW h S d h', k_N k = Some N -> k_BW k = Some BW -> k_ENOB k = Some ENOB -> k_swcap k = true -> k_fg k = false ->
  get_coi k h = Ok (S, d, h') ->
  exists beta rho, let T := 1 / (2 * Rabs beta) in let tau := T / 25 in
  integrator_system S (repeat beta N) (repeat 0 (N - 1)) (repeat rho N) (diag0 (repeat (25 * beta) N)) /\
  d_M d = N /\ ck_T (d_clk d) = T /\ d_resp d = repeat (WRC tau (T * dflt (k_excess k) 0) 1) N /\
  (forall t, 0 <= t -> w_eval (WRC tau 0 1) t = Ok (exp (- t / tau))) /\
  is_RInt (fun t => 25 * beta * exp (- t / tau)) 0 T (beta * T * (1 - exp (- 25))).
Proof.
  intros k ENOB N BW h S d h' EN EB EE Hsw Hfg E. unfold get_coi in E. rewrite EN, EB, EE in E.
  destruct (coi_enob_swcap _ _ _ _ _ _ _ _ E Hsw Hfg) as (_ & HS & Hb & _ & HM & HT & _ & _ & Hr). eexists _, _. cbv zeta. split; [exact HS|].
  set (beta := - (_ * _)) in *. assert (HA : 0 < Rabs beta) by now apply Rabs_pos_lt.
  assert (Et : 1 / (2 * Rabs beta) / 25 = 1 / (50 * Rabs beta)) by (field; lra). rewrite Et.
  split; [exact HM|]. split; [exact HT|]. split; [exact Hr|]. exact (swcap_charge beta Hb).
Qed.
Print Assumptions C45_switched_capacitor.
Example C45_switched_capacitor_example : exists v, get_coi (mkKw (Some 0) None None (Some 2%nat) (Some (1 / 10)) None (Some 5) None None true (Some (1 / 2)) true false) [] = Ok v.
Proof.
  apply coi_enob_accepts; cbn [k_xi k_excess dflt]; try lra; [lia|].
  destruct (coi_gamma_spec 5 0 2 ltac:(lia) ltac:(lra)) as [Gp Ge]. rewrite Rmult_0_l, exp_0 in Ge.
  set (g := coi_gamma 5 0 2) in *. cbn [Nat.mul Nat.add INR] in Ge.
  assert (Hg2 : g < 2). { apply Rnot_le_lt. intros L. assert (A : 2 ^ 4 <= g ^ 4) by (apply pow_incr; lra). change (2 * 2)%nat with 4%nat in Ge. lra. }
  assert (P := PI_RGT_0). assert (P4 := PI_4). assert (HU : 0 < g * (2 * PI * (1 / 10)) < 2) by nra.
  rewrite Rabs_pos_eq by lra. apply Rmult_le_reg_r with (2 * (g * (2 * PI * (1 / 10)))); [lra|]. unfold Rdiv at 3. rewrite Rmult_1_l, Rinv_l by lra. lra.
Qed.

(** leap-frog *)
Theorem C45_leap_frog : forall gi k h S d h', get_lf gi k h = Ok (S, d, h') ->
  exists N BW beta alpha T, let delta := dflt (k_delta k) 1 in
    k_N k = Some N /\ (1 <= N)%nat /\
    match k_BW k with Some b => BW = b | None => exists o T, k_OSR k = Some o /\ k_T k = Some T /\ 2 * BW * o * T = 1 end /\
    0 < T /\ 2 * T * Rabs beta = Rabs delta /\ alpha * beta = - (PI * BW) ^ 2 /\ delta <> 0 /\
    default_frontend S d h' (repeat beta N) (repeat alpha (N - 1)) (repeat 0 N) (map (fun n => beta * delta ^ n) (seq 0 N)) T.
Proof.
  intros gi k h S d h' H. destruct (get_lf_inv _ _ _ _ _ _ H) as (N & BW & beta & alpha & T & EN & HN & HB & HB0 & (HT & _ & Hb & Hab) & Hd & HF).
  exists N, BW, beta, alpha, T. cbv zeta. auto 10.
Qed.
Print Assumptions C45_leap_frog.
Theorem C45_leap_frog_osr : forall gi k h N OSR BW, k_N k = Some N -> k_BW k = Some BW -> k_OSR k = Some OSR -> k_ENOB k = None ->
  let delta := dflt (k_delta k) 1 in let beta := delta * (OSR * BW) in
  ((exists v, get_lf gi k h = Ok v) <-> (1 <= N)%nat /\ delta <> 0 /\ OSR * BW <> 0 /\ 2 / 100000000000000 <= 1 / (2 * OSR * BW)) /\
  forall S d h', get_lf gi k h = Ok (S, d, h') ->
    default_frontend S d h' (repeat beta N) (repeat (- (PI * BW) ^ 2 / beta) (N - 1)) (repeat 0 N) (map (fun n => beta * delta ^ n) (seq 0 N)) (1 / (2 * OSR * BW)).
Proof.
  intros gi k h N OSR BW EN EB EO EE delta beta. assert (X : get_lf gi k h = lf_osr k OSR N BW h) by (unfold get_lf; now rewrite EN, EB, EE, EO).
  rewrite X. split; [apply lf_osr_iff|]. intros S d h' E. now destruct (lf_osr_inv _ _ _ _ _ _ _ _ E) as (_ & _ & _ & _ & _ & HF).
Qed.
Print Assumptions C45_leap_frog_osr.
Theorem C45_leap_frog_period : forall gi k h N OSR T, k_N k = Some N -> k_BW k = None -> k_OSR k = Some OSR -> k_T k = Some T -> k_ENOB k = None ->
  ((exists v, get_lf gi k h = Ok v) <-> (1 <= N)%nat /\ dflt (k_delta k) 1 <> 0 /\ OSR <> 0 /\ 2 / 100000000000000 <= T) /\
  forall S d h', get_lf gi k h = Ok (S, d, h') -> ck_T (d_clk d) = T.
Proof.
  intros gi k h N OSR T EN EB EO ET EE.
  assert (X : get_lf gi k h = if Raux.Req_bool (2 * OSR * T) 0 then Exn ZeroDivisionError else lf_osr k OSR N (1 / (2 * OSR * T)) h)
    by (unfold get_lf; now rewrite EN, EB, EO, ET, EE).
  rewrite X. destruct (Raux.Req_bool_spec (2 * OSR * T) 0) as [Z|Z].
  { split; [|intros; discriminate]. split; [intros (v & E); discriminate|]. intros (_ & _ & HO & HT). exfalso. apply Rmult_integral in Z as [Z|Z]; lra. }
  assert (HT0 : T <> 0) by (intros E; apply Z; rewrite E; ring). assert (HO : OSR <> 0) by (intros E; apply Z; rewrite E; ring).
  assert (E1 : 1 / (2 * OSR * (1 / (2 * OSR * T))) = T) by (field; auto). assert (E2 : OSR * (1 / (2 * OSR * T)) = 1 / (2 * T)) by (field; auto).
  split.
  - rewrite lf_osr_iff, E1, E2. split; [intros (A & B & _ & C); auto|]. intros (A & B & _ & C). split; [exact A|]. split; [exact B|]. split; [|exact C].
    unfold Rdiv. rewrite Rmult_1_l. apply Rinv_neq_0_compat. lra.
  - intros S d h' E. destruct (lf_osr_inv _ _ _ _ _ _ _ _ E) as (_ & _ & _ & _ & _ & HF). rewrite E1 in HF. apply HF.
Qed.
Print Assumptions C45_leap_frog_period.
Example C45_leap_frog_period_example : exists v, get_lf (fun _ => 1) (kw_period 3 8 (1 / 100)) [] = Ok v.
Proof. apply (C45_leap_frog_period (fun _ => 1) (kw_period 3 8 (1 / 100)) [] 3 8 (1 / 100)); try reflexivity. split; [lia|]. cbn [kw_period k_delta dflt]. lra. Qed.
(** with ENOB present the period asked for is not the one of the clock *)
Theorem C45_leap_frog_period_refuted : exists gi k N OSR T ENOB S d h, k_N k = Some N /\ k_OSR k = Some OSR /\ k_T k = Some T /\ k_ENOB k = Some ENOB /\ k_BW k = None /\
  get_lf gi k [] = Ok (S, d, h) /\ ck_T (d_clk d) <> T.
Proof.
  set (k := mkKw (Some 0) None (Some 1) (Some 1%nat) None (Some 1) (Some 1) None None false None false false).
  set (gi := fun _ : nat => 3 / 2).
  assert (G : lf_gamma gi 1 0 1 = 1).
  { destruct (lf_gamma_spec gi 1 0 1 ltac:(lia) ltac:(unfold gi; lra)) as [A B]. rewrite Rmult_0_l, exp_0 in B. unfold gi in B at 2.
    replace (1 / (3 / 2) * (3 / 2 * 1)) with 1 in B by field. apply pow_pos_inj with (2 * 1)%nat; [exact A|lra|lia|]. rewrite B. cbn. ring. }
  assert (P := PI_RGT_0). assert (P4 := PI_4).
  assert (X : exists v, lf_enob gi k 0 1 (1 / (2 * 1 * 1)) [] = Ok v).
  { apply lf_enob_accepts; cbn [k k_delta k_xi dflt]; unfold gi; try lra; [lia|]. fold gi. rewrite G, Rabs_pos_eq by lra.
    replace (4 * PI * (1 / (2 * 1 * 1)) * 1) with (2 * PI) by field. apply Rmult_le_reg_r with (2 * PI); [lra|]. unfold Rdiv at 2. rewrite Rmult_1_l, Rinv_l by lra. lra. }
  destruct X as ([[S d] h] & E). exists gi, k, 1%nat, 1, 1, 0, S, d, h. do 5 (split; [reflexivity|]). split.
  - unfold get_lf, k. cbn [k_N k_BW k_OSR k_T k_ENOB]. rewrite Raux.Req_bool_false by lra. exact E.
  - destruct (lf_enob_inv _ _ _ _ _ _ _ _ _ E) as (_ & _ & _ & _ & _ & _ & HF). cbn [k k_delta k_xi dflt] in HF. rewrite G in HF. destruct HF as (_ & _ & _ & _ & _ & ->).
    rewrite Rabs_pos_eq by lra. replace (4 * PI * (1 / (2 * 1 * 1)) * 1) with (2 * PI) by field. intros Z.
    assert (A : 1 / (2 * PI) * (2 * PI) = 1) by (field; lra). rewrite Z in A. assert (B := PI2_1). lra.
Qed.
Print Assumptions C45_leap_frog_period_refuted.

(** *** C47: conversions *)
Theorem C47_enob_inverse : forall x, enob_to_snr (snr_to_enob x) = x /\ snr_to_enob (enob_to_snr x) = x.
Proof. intros x. split; [apply enob_inverse|]. unfold enob_to_snr, snr_to_enob. assert (P := twenty_pos). field. lra. Qed.
Print Assumptions C47_enob_inverse.
Theorem C47_dB_inverse : forall x, 0 < snr_from_dB x /\ snr_to_dB (snr_from_dB x) = Ok x /\
  (0 < x -> exists y, snr_to_dB x = Ok y /\ snr_from_dB y = x) /\ (x <= 0 -> snr_to_dB x = Exn ArithmeticError).
Proof.
  intros x. assert (P : 0 < snr_from_dB x) by apply ppow_pos. split; [exact P|]. split; [|split].
  - unfold snr_to_dB. rewrite Raux.Rle_bool_false by exact P. f_equal. unfold snr_from_dB. rewrite log10_ppow. field.
  - intros Hx. unfold snr_to_dB. rewrite Raux.Rle_bool_false by exact Hx. eexists. split; [reflexivity|]. unfold snr_from_dB.
    replace (10 * log10 x / 10) with (log10 x) by field. now apply ppow_log10.
  - intros Hx. unfold snr_to_dB. now rewrite Raux.Rle_bool_true.
Qed.
Print Assumptions C47_dB_inverse.
Theorem C47_increasing : forall x y, x < y -> snr_to_enob x < snr_to_enob y /\ enob_to_snr x < enob_to_snr y /\ snr_from_dB x < snr_from_dB y /\
  (0 < x -> exists a b, snr_to_dB x = Ok a /\ snr_to_dB y = Ok b /\ a < b).
Proof.
  intros x y H. assert (P := twenty_pos). assert (Q := ln10_pos). split; [|split; [|split]].
  - unfold snr_to_enob. apply Rmult_lt_compat_r; [now apply Rinv_0_lt_compat|lra].
  - unfold enob_to_snr. nra.
  - unfold snr_from_dB, ppow. apply exp_increasing. nra.
  - intros Hx. unfold snr_to_dB. rewrite !Raux.Rle_bool_false by lra. eexists _, _. split; [reflexivity|]. split; [reflexivity|]. assert (A := log10_lt x y Hx H). lra.
Qed.
Print Assumptions C47_increasing.
Example C47_increasing_example : 0 < 1 < 2.
Proof. lra. Qed.
(** an ideal B-bit quantiser has the power ratio 3/2 4^B *)
Theorem C47_bits : forall B, snr_from_dB (enob_to_snr B) = 3 / 2 * exp (B * ln 4) /\ snr_from_dB (enob_to_snr (B + 1)) = 4 * snr_from_dB (enob_to_snr B).
Proof.
  intros B. split; [apply snr_of_enob|]. rewrite !snr_of_enob. rewrite Rmult_plus_distr_r, exp_plus, Rmult_1_l, exp_ln by lra. ring.
Qed.
Print Assumptions C47_bits.
(** figures of merit of a converter with the survey's energy per sample are the ones asked for *)
Theorem C47_FoM_S : forall F SNDR fs, 0 < fs -> FoM_S (FoMS_SNDR_to_p_fs F SNDR * fs) fs SNDR = Ok F.
Proof.
  intros F SNDR fs Hf. unfold FoM_S, FoMS_SNDR_to_p_fs, nyquist_frequency. set (e := ppow 10 (- (F - SNDR) / 10)). assert (He : 0 < e) by apply ppow_pos.
  assert (HP : 0 < e / 2 * fs) by nra. rewrite Raux.Req_bool_false by lra.
  assert (E : fs / 2 / (e / 2 * fs) = / e) by (field; lra). rewrite E. rewrite Raux.Rle_bool_false by now apply Rinv_0_lt_compat. f_equal.
  assert (L : log10 (/ e) = (F - SNDR) / 10). { unfold log10. rewrite ln_Rinv by exact He. unfold e, ppow. rewrite ln_exp. assert (Q := ln10_pos). field. lra. }
  rewrite L. field.
Qed.
Print Assumptions C47_FoM_S.
Theorem C47_FoM_W : forall F SNDR fs, 0 < fs -> FoM_W (FoMW_SNDR_to_p_fs F SNDR * fs) fs (snr_to_enob SNDR) = Ok F.
Proof.
  intros F SNDR fs Hf. unfold FoM_W, FoMW_SNDR_to_p_fs. set (e := ppow 2 (snr_to_enob SNDR)). assert (He : 0 < e) by apply ppow_pos.
  assert (0 < fs * e) by nra. rewrite Raux.Req_bool_false by lra. f_equal. field. lra.
Qed.
Print Assumptions C47_FoM_W.
(** ten times the frequency, or the jitter, costs 20 dB *)
Theorem C47_jitter : forall f sigma, 0 < f -> 0 < sigma -> exists s, f_sigma_to_jitter_sndr f sigma = Ok s /\
  f_sigma_to_jitter_sndr (10 * f) sigma = Ok (s - 20) /\ f_sigma_to_jitter_sndr f (10 * sigma) = Ok (s - 20).
Proof.
  intros f sigma Hf Hs. assert (P := PI_RGT_0). unfold f_sigma_to_jitter_sndr.
  assert (A : 0 < 2 * PI * sigma * f) by (apply Rmult_lt_0_compat; [apply Rmult_lt_0_compat; lra|exact Hf]).
  replace (2 * PI * sigma * (10 * f)) with (10 * (2 * PI * sigma * f)) by ring. replace (2 * PI * (10 * sigma) * f) with (10 * (2 * PI * sigma * f)) by ring.
  rewrite !Raux.Rle_bool_false by lra. eexists. split; [reflexivity|].
  assert (L : log10 10 = 1) by (unfold log10; assert (Q := ln10_pos); field; lra). rewrite log10_mult by lra. rewrite L. split; f_equal; ring.
Qed.
Print Assumptions C47_jitter.
Example C47_jitter_example : 0 < 1000 /\ 0 < 1 / 1000. Proof. lra. Qed.
