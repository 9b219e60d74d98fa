(** Property C115: leap-frog frontends in closed loop. *)
From Coq Require Import List Arith Lia Bool Reals Lra.
From Coquelicot Require Import Coquelicot.
From Verif Require Import Base LinAlg FirExtras AnalogSystem AnalogProofs Signals DigitalControl DigitalControlProofs Fom Integrators IntegratorsProofs Simulator Stability SynthesisProofs LeapFrogStability LeapFrogWitness.
Import ListNotations.
Open Scope R_scope.

(** *** Every leap-frog returned by get_leap_frog, started at rest, with an input bounded by [v]: with r = (2 pi BW T)^2, the square of the angular
    bandwidth times the clock period, inputs up to 1 - (2^(N-1) - 1) r keep state n below |delta|^(n+1) for ever, at and between the clock ticks;
    smaller inputs keep the states smaller. *)
Theorem C115_states_bounded : forall gi k h S d h' ivp s0 (u : R -> R) v,
  get_lf gi k h = Ok (S, d, h') -> base_init S d h' 1 None = Ok s0 -> 0 < v -> (forall t, 0 <= t -> Rabs (u t) <= v) ->
  (forall i s, full_run ivp S [u] i s0 = Ok s -> answers_exactly ivp S [u] s) ->
  exists N BW, k_N k = Some N /\ sN S = N /\
   match k_BW k with Some b => BW = b | None => exists o T, k_OSR k = Some o /\ k_T k = Some T /\ 2 * BW * o * T = 1 end /\
   let T := ck_T (d_clk d) in let delta := dflt (k_delta k) 1 in let r := (2 * PI * BW * T) ^ 2 in
   let level n := Rabs delta ^ (n + 1) * Rmin 1 (1 + r - (1 - v + r) / 2 ^ (n + 1)) in
   (v <= 1 - (2 ^ (N - 1) - 1) * r ->
    forall i, exists s, full_run ivp S [u] i s0 = Ok s /\ s_t s = INR i * T /\ length (s_x s) = N /\
    (forall n, (n < N)%nat -> Rabs (nth n (s_x s) 0) <= level n) /\
    exists h, observe_update S (inputs_at S [u] (0 + s_t s)) s = Ok h /\
    forall y, solves (full_rhs S [u] s h) 0 T (s_x s) y -> forall t, 0 <= t <= T -> forall n, (n < N)%nat -> Rabs (nth n (y t) 0) <= level n).
Proof. exact lf_closed_loop. Qed.
Print Assumptions C115_states_bounded.

(** by oversampling ratio, with the default distribution of the gains: every state stays in [-1, 1] for inputs up to 1 - (2^(N-1) - 1) (pi/OSR)^2 *)
Theorem C115_oversampling : forall gi k h S d h' ivp s0 (u : R -> R) N OSR BW,
  k_N k = Some N -> k_BW k = Some BW -> k_OSR k = Some OSR -> k_ENOB k = None -> k_delta k = None ->
  get_lf gi k h = Ok (S, d, h') -> base_init S d h' 1 None = Ok s0 ->
  let v := 1 - (2 ^ (N - 1) - 1) * (PI / OSR) ^ 2 in 0 < v -> (forall t, 0 <= t -> Rabs (u t) <= v) ->
  (forall i s, full_run ivp S [u] i s0 = Ok s -> answers_exactly ivp S [u] s) ->
  forall i, exists s, full_run ivp S [u] i s0 = Ok s /\ s_t s = INR i / (2 * OSR * BW) /\ length (s_x s) = N /\ forall n, (n < N)%nat -> Rabs (nth n (s_x s) 0) <= 1.
Proof.
  intros gi k h S d h' ivp s0 u N OSR BW EN EB EO EE ED H Hi v Hv Hu Hex i.
  assert (X : get_lf gi k h = lf_osr k OSR N BW h) by (unfold get_lf; now rewrite EN, EB, EE, EO).
  assert (Y := H). rewrite X in Y. destruct (lf_osr_inv _ _ _ _ _ _ _ _ Y) as (_ & _ & _ & Hob & _ & HF). destruct HF as (_ & _ & _ & _ & _ & ET).
  destruct (C115_states_bounded gi k h S d h' ivp s0 u v H Hi Hv Hu Hex) as (N' & BW' & EN' & _ & EB' & HH).
  rewrite EN in EN'. injection EN' as <-. rewrite EB in EB'. subst BW'. cbv zeta in HH. rewrite ET, ED in HH. cbn [dflt] in HH.
  assert (Er : (2 * PI * BW * (1 / (2 * OSR * BW))) ^ 2 = (PI / OSR) ^ 2) by (f_equal; field; split; intros E; rewrite E in Hob; lra). rewrite Er in HH.
  destruct (HH ltac:(unfold v; lra) i) as (s & A & B & C & D & _). exists s. split; [exact A|]. split; [rewrite B; unfold Rdiv; ring|]. split; [exact C|].
  intros n Hn. specialize (D n Hn). eapply Rle_trans; [exact D|]. rewrite Rabs_R1, pow1, Rmult_1_l. apply Rmin_l.
Qed.
Print Assumptions C115_oversampling.

(** *** Any integrators coupled to their neighbours: levels [B] are kept when every control overcomes what the two neighbours at their levels feed into its integrator,
    and does so within a period; [w], [q] say that an excess of the neighbours is passed on diminished. *)
Theorem C115_any_levels : forall ivp S beta alpha rho k kap d s0 (u : R -> R) v (B w : nat -> R) q,
  let N := length beta in let T := ck_T (d_clk d) in
  lf_init beta alpha rho (D2 k) = Ok S -> rows k = N -> diagonal_gain k kap ->
  length alpha = (N - 1)%nat -> length rho = N -> length kap = N -> (1 <= N)%nat -> 0 <= T -> 0 <= q < 1 -> 0 <= v ->
  (forall n, (n < N)%nat -> 0 <= B n /\ 0 < w n /\ nth n rho 0 <= 0 /\ nth n kap 0 <> 0 /\
    (let W := Rabs (nth n beta 0) * (if Nat.eqb n 0 then v else B (n - 1)%nat) + Rabs (nth n alpha 0) * (if Nat.eqb (n + 1) N then 0 else B (n + 1)%nat) in
     W <= Rabs (nth n kap 0) /\ T * (W + Rabs (nth n kap 0)) <= B n) /\
    T * (Rabs (nth n beta 0) * (if Nat.eqb n 0 then 0 else w (n - 1)%nat) + Rabs (nth n alpha 0) * (if Nat.eqb (n + 1) N then 0 else w (n + 1)%nat)) <= q * w n) ->
  plain d N -> s_d s0 = d -> wf d (s_h s0) -> 0 <= s_t s0 -> (forall t, 0 <= t -> Rabs (u t) <= v) ->
  length (s_x s0) = N -> (forall n, (n < N)%nat -> Rabs (nth n (s_x s0) 0) <= B n) ->
  (forall i s, full_run ivp S [u] i s0 = Ok s -> answers_exactly ivp S [u] s) ->
  forall i, exists s, full_run ivp S [u] i s0 = Ok s /\ (forall n, (n < N)%nat -> Rabs (nth n (s_x s) 0) <= B n) /\
    exists h, observe_update S (inputs_at S [u] (0 + s_t s)) s = Ok h /\
    forall y, solves (full_rhs S [u] s h) 0 T (s_x s) y -> forall t, 0 <= t <= T -> forall n, (n < N)%nat -> Rabs (nth n (y t) 0) <= B n.
Proof.
  intros ivp S beta alpha rho k kap d s0 u v B w q N T E Rk Hg La Lr Lk HN HT Hq Hv Hp Hpl Hd W Ht Hu Lx Hb Hex i.
  pose proof Hg as [Hnc Hge].
  destruct (lf_init_ok beta alpha rho k HN Lr La Rk) as (S' & E' & _ & HS).
  { intros m Hm. rewrite Hnc, Lk in Hm. exists m. split; [exact Hm|]. rewrite Hge by (rewrite Lk; exact Hm). rewrite Nat.eqb_refl. apply (Hp m Hm). }
  rewrite E in E'. apply Ok_inj in E'. subst S'.
  assert (HL : holds_levels beta alpha rho kap T v B w q) by (unfold holds_levels; auto 10).
  destruct (lf_run ivp S beta alpha rho k kap d s0 u v B w q HS Hg HL Hpl Hd W Ht Hu Lx Hb Hex i) as (s & A & _ & _ & _ & _ & BB & C). eauto.
Qed.
Print Assumptions C115_any_levels.

(** *** Unlike for chains of integrators (C36), inputs up to full scale do not keep the states in [-1, 1]: from a state in this range
    the first state leaves it within one period although its control opposes it. *)
Theorem C115_full_scale_refuted : exists k S d h h' s y, (forall gi, get_lf gi k h = Ok (S, d, h')) /\ k_delta k = None /\ k_OSR k = Some 32 /\
  s_d s = d /\ s_h s = h' /\ s_t s = 0 /\ length (s_x s) = 2%nat /\ (forall n, (n < 2)%nat -> Rabs (nth n (s_x s) 0) <= 1) /\
  (exists h2, observe_update S (inputs_at S [fun _ => 1] (0 + s_t s)) s = Ok h2 /\ solves (full_rhs S [fun _ => 1] s h2) 0 (ck_T (d_clk d)) (s_x s) y) /\
  1 < nth 0 (y (ck_T (d_clk d))) 0.
Proof.
  set (k := mkKw None None (Some 32) (Some 2%nat) (Some (1 / 64)) None None None None false None false false).
  destruct (lf_two (fun _ => 0) k 32 (1 / 64) [] eq_refl eq_refl eq_refl eq_refl eq_refl ltac:(lra) ltac:(lra)) as (S & d & h' & E & ET & HF & EA).
  replace (1 / (2 * 32 * (1 / 64))) with 1 in ET by field. replace (32 * (1 / 64)) with (1 / 2) in HF, EA by field.
  set (om := PI * (1 / 64)) in *. set (alpha := - om ^ 2 / (1 / 2)) in *. assert (HPI := PI_RGT_0). assert (HP4 := PI_4).
  assert (Ho : 0 < om) by (unfold om; lra).
  assert (HW : wf d h') by apply HF.
  set (s := mkSim 0 [1; -1] d h').
  destruct (two_decisions S d h' alpha (1 / 2) (1 / 2) (1 / 2) HF ltac:(lra) ltac:(lra) s (fun _ => 1) 1 (-1) eq_refl HW eq_refl) as (h2 & EO & W2 & D0 & D1).
  rewrite Raux.Rle_bool_false in D0 by lra. rewrite Raux.Rle_bool_true in D1 by lra.
  exists k, S, d, [], h', s. eexists.
  split; [intros gi; exact E|]. do 6 (split; [reflexivity|]). split.
  { intros n Hn. destruct n as [|[|n]]; [| |lia]; cbn [s s_x nth]; unfold Rabs; destruct Rcase_abs; lra. }
  split; [exists h2; split; [exact EO|]; apply (two_solves S d h' alpha (1 / 2) om (1 / 2) (1 / 2) HF EA ltac:(lra) s h2 1 1 (-1)); [reflexivity|exact W2|reflexivity]|].
  rewrite ET, D0, D1. cbn [flow nth]. rewrite !Rmult_1_r.
  assert (G := cos_sin_gt om ltac:(unfold om; lra)).
  match goal with |- 1 < ?e => replace e with (-1 + 2 * (cos om + om * sin om)) by (unfold alpha; field; lra) end. lra.
Qed.
Print Assumptions C115_full_scale_refuted.

(** a second order leap-frog with oversampling ratio 8 and constant input 1/2: the hypotheses hold, and an exact solver exists *)
Example C115_example : exists k S d h s0 ivp, (forall gi, get_lf gi k [] = Ok (S, d, h)) /\ k_N k = Some 2%nat /\ k_OSR k = Some 8 /\ base_init S d h 1 None = Ok s0 /\
  1 / 2 <= 1 - (2 ^ (2 - 1) - 1) * (PI / 8) ^ 2 /\
  forall i s, full_run ivp S [fun _ => 1 / 2] i s0 = Ok s -> answers_exactly ivp S [fun _ => 1 / 2] s.
Proof.
  set (k := mkKw None None (Some 8) (Some 2%nat) (Some (1 / 16)) None None None None false None false false).
  destruct (lf_two (fun _ => 0) k 8 (1 / 16) [] eq_refl eq_refl eq_refl eq_refl eq_refl ltac:(lra) ltac:(lra)) as (S & d & h' & E & ET & HF & EA).
  replace (1 / (2 * 8 * (1 / 16))) with 1 in ET by field. replace (8 * (1 / 16)) with (1 / 2) in HF, EA by field.
  set (om := PI * (1 / 16)) in *. set (alpha := - om ^ 2 / (1 / 2)) in *. assert (HPI := PI_RGT_0). assert (HP4 := PI_4).
  pose proof HF as (_ & HS & _ & _ & HW & _). destruct HS as (DN & DL & _). cbn [length] in DN.
  exists k, S, d, h', (mkSim 0 [0; 0] d h'), (oscillate alpha (1 / 2) om).
  split; [intros gi; exact E|]. do 2 (split; [reflexivity|]). split; [unfold base_init; rewrite DL, DN; reflexivity|]. split.
  - cbn [Nat.sub]. rewrite pow_1. assert ((PI / 8) ^ 2 <= (1 / 2) ^ 2) by (apply pow_incr; lra). lra.
  - eapply (oscillate_exact S d h' alpha (1 / 2) om (1 / 2) (1 / 2) (1 / 2) HF); auto; try lra; unfold om; lra.
Qed.

(** a fourth order leap-frog with oversampling ratio 32 accepts inputs up to 0.89 *)
Example C115_fourth_order : 89 / 100 <= 1 - (2 ^ (4 - 1) - 1) * (PI / 32) ^ 2.
Proof.
  assert (HPI := PI_RGT_0). assert (HP4 := PI_4). cbn [Nat.sub]. assert ((PI / 32) ^ 2 <= (1 / 8) ^ 2) by (apply pow_incr; lra). lra.
Qed.
