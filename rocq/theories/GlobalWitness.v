(** One integrator with a step response that starts at p, period 1: the global control, with exact routines. *)
From Coq Require Import List Arith Lia Bool Reals Lra.
From Flocq Require Import Core.
From Coquelicot Require Import Coquelicot.
From Verif Require Import Base LinAlg FirExtras AnalogSystem AnalogProofs Signals DigitalControl Integrators IntegratorsProofs Simulator Stability LinearOde LinearExist PreSim Zpk FilterCoeff
  FilterCoeffProofs FilterOde FilterRun FilterExample Estimators Optimal NuvAlg Nuv NuvProofs NuvCoeff GlobalControl GlobalProofs QuadratureRun.
Import ListNotations.
Open Scope R_scope.

(** what solve_ivp returns for the control with phase p: the responses of the input and of the control, and the integrals *)
Definition gl_end (p : R) : list R := let c := 1 - p in [1; c; c ^ 2 / 2 + c * (1 - c); c ^ 3 / 3 + c * (1 - c ^ 2) / 2; c ^ 3 / 3 + c ^ 2 * (1 - c)].
Definition gl_ivp (p : R) (f : R -> list R -> result (list R)) (a b : R) (y0 : list R) : result (list R) := Ok (gl_end p).
Definition gl_dc (p : R) : dc := one_wave (WStep p 1).

Lemma gl_wave p t : 0 <= p -> 0 < t -> dc_impulse_response (gl_dc p) 0 (p + t) = Ok [if Rle_bool t (1 - p) then 1 else 0].
Proof.
  intros Hp Ht. unfold dc_impulse_response. cbn [gl_dc one_wave d_clk ck_T d_resp d_M nth_error w_eval]. rewrite (Rle_bool_true 0 (p + t)) by lra. cbn [andb].
  rewrite (Rle_bool_true p (p + t)) by lra. destruct (Rle_lt_dec (p + t) 1).
  - rewrite !Rle_bool_true by lra. reflexivity.
  - rewrite !Rle_bool_false by lra. reflexivity.
Qed.
Lemma gl_rhs p t a b x y z : 0 <= p -> 0 < t < 1 -> global_rhs expm1 integ (gl_dc p) p 0 (p + t) [a; b; x; y; z] = Ok [1; if Rle_bool t (1 - p) then 1 else 0; b; b * a; b * b].
Proof.
  intros Hp Ht. unfold global_rhs. change (sN integ) with 1%nat. change (sM integ) with 1%nat. change (sMt integ) with 1%nat. change (sL integ) with 1%nat.
  cbn [Nat.add Nat.sub seq mapM Nat.ltb Nat.leb]. unfold block. cbn [Nat.mul Nat.add skipn firstn].
  rewrite gl_wave by lra. set (w := if Rle_bool t (1 - p) then 1 else 0).
  cbn [gl_dc one_wave d_clk ck_T]. replace (p + t - p) with t by ring. unfold zero_order_hold. rewrite Rle_bool_true, Rlt_bool_true by lra. cbn [andb]. change (sL integ) with 1%nat. cbn [repeat upd].
  rewrite !(dotv1 (aCT integ)) by reflexivity. rewrite !(dotv1 (aA integ)) by reflexivity. cbn [bind].
  cbn [bind aG integ dotv_opt]. rewrite (dotv1 (s11 1)) by reflexivity. cbn [bind].
  unfold expm1, scalar. cbn [integ aA aCT s11 rows cols Nat.eqb andb bind ent]. unfold dotm. cbn [s11 rows cols Nat.eqb negb bind ent].
  rewrite (dotv1 (tr _)) by reflexivity. cbn [bind tr ent]. rewrite ksum_rsum, rsum1. unfold inner. cbn [length Nat.eqb bind map2 fold_right concat app s11 ent].
  unfold rvadd, vadd. cbn [map2 radd Rring app]. apply (f_equal (@Ok (list R))). repeat apply f_equal2; try reflexivity; cbn; rewrite ?Rmult_0_l, ?exp_0; ring.
Qed.
(** *** The solution *)
Lemma cc_plus f g t : continuity_pt f t -> continuity_pt g t -> continuity_pt (fun s => f s + g s) t.
Proof. apply continuity_pt_plus. Qed.
Lemma cc_minus f g t : continuity_pt f t -> continuity_pt g t -> continuity_pt (fun s => f s - g s) t.
Proof. apply continuity_pt_minus. Qed.
Lemma cc_mult f g t : continuity_pt f t -> continuity_pt g t -> continuity_pt (fun s => f s * g s) t.
Proof. apply continuity_pt_mult. Qed.
Lemma cc_const c t : continuity_pt (fun _ => c) t.
Proof. apply continuity_pt_const. intros a b. reflexivity. Qed.
Lemma cc_id t : continuity_pt (fun s => s) t.
Proof. apply derivable_continuous_pt, derivable_pt_id. Qed.
Section Run.
Variable p : R.
Hypothesis Hp : 0 <= p <= 1.
Let c := 1 - p.
Let m := fun t => Rmin t c.
Lemma m_cont t : continuity_pt m t.
Proof.
  apply (cont_ext (fun t => (t + c - Rabs (t - c)) / 2)); [intros s; unfold m, Rmin, Rabs; destruct (Rle_dec s c), (Rcase_abs (s - c)); lra|]. reg.
Qed.
Lemma m_deriv t : t <> c -> is_derive m t (if Rle_bool t c then 1 else 0).
Proof.
  intros H. destruct (Rle_lt_dec t c) as [H1|H1].
  - rewrite Rle_bool_true by exact H1. apply (is_derive_ext_loc (fun s => s)); [|apply @is_derive_id].
    exists (mkposreal (c - t) ltac:(lra)). intros s Hs. unfold ball in Hs. cbn in Hs. unfold AbsRing_ball, abs, minus, plus, opp in Hs. cbn in Hs. apply Rabs_lt_between in Hs. unfold m. rewrite Rmin_left; lra.
  - rewrite Rle_bool_false by exact H1. apply (is_derive_ext_loc (fun s => c)); [|apply @is_derive_const].
    exists (mkposreal (t - c) ltac:(lra)). intros s Hs. unfold ball in Hs. cbn in Hs. unfold AbsRing_ball, abs, minus, plus, opp in Hs. cbn in Hs. apply Rabs_lt_between in Hs. unfold m. rewrite Rmin_right; lra.
Qed.
Definition gl_y (t : R) : list R := [t; m t; m t ^ 2 / 2 + c * (t - m t); m t ^ 3 / 3 + c * (t ^ 2 - m t ^ 2) / 2; m t ^ 3 / 3 + c ^ 2 * (t - m t)].
Lemma gl_solves : solves_pw (fun t => global_rhs expm1 integ (gl_dc p) p 0 (p + t)) 1 (repeat 0 5) gl_y.
Proof.
  assert (M0 : m 0 = 0) by (unfold m, c; rewrite Rmin_left; lra).
  split; [unfold gl_y; rewrite M0; cbn [repeat]; repeat apply f_equal2; try reflexivity; field|].
  split; [reflexivity|]. split.
  - intros i t Ht. do 5 (try destruct i as [|i]); cbn [gl_y nth]; unfold Rdiv; cbn [pow];
      repeat first [apply m_cont | apply cc_const | apply cc_id | apply cc_minus | apply cc_plus | apply cc_mult].
  - exists [c]. intros t Ht Hc. assert (Hc' : t <> c) by (intros ->; apply Hc; now left). unfold gl_y at 1. rewrite gl_rhs by lra. fold c.
    eexists. split; [reflexivity|]. split; [reflexivity|]. cbn [repeat length]. assert (DM := m_deriv t Hc'). assert (EX : ex_derive m t) by (eexists; exact DM). apply is_derive_unique in DM.
    assert (Cs : (if Rle_bool t c then 1 else 0) = 1 /\ m t = t \/ (if Rle_bool t c then 1 else 0) = 0 /\ m t = c).
    { unfold m. destruct (Rle_lt_dec t c); [left; rewrite Rle_bool_true, Rmin_left by lra|right; rewrite Rle_bool_false, Rmin_right by lra]; auto. }
    set (w := if Rle_bool t c then 1 else 0) in *. change (Derive m t = w) in DM. clearbody w.
    intros n Hn. apply is_derive_Reals. do 5 (try destruct n as [|n]); try lia; cbn [gl_y nth].
    + apply @is_derive_id.
    + rewrite <- DM. change (fun s : R => m s) with m. now apply Derive_correct.
    + clearbody m. auto_derive; [auto|]. change (fun x : R => m x) with m. rewrite DM. destruct Cs as [[-> ->]|[-> ->]]; field.
    + clearbody m. auto_derive; [auto|]. change (fun x : R => m x) with m. rewrite DM. destruct Cs as [[-> ->]|[-> ->]]; field.
    + clearbody m. auto_derive; [auto|]. change (fun x : R => m x) with m. rewrite DM. destruct Cs as [[-> ->]|[-> ->]]; field.
Qed.
Lemma gl_final : gl_y 1 = gl_end p.
Proof. unfold gl_y, gl_end. fold c. replace (m 1) with c by (unfold m, c; rewrite Rmin_right; lra). repeat apply f_equal2; try reflexivity; field. Qed.
Lemma gl_sound : global_sound integ (gl_dc p) (gl_ivp p) expm1 [p].
Proof.
  constructor; [intros t E Ht HE; exact (expm1_sound (aA integ) t E Ht HE)|]. intros mt p' y1 Hmt Hn y0. change (sMt integ) with 1%nat in Hmt. assert (mt = O) by lia. subst mt. injection Hn as <-.
  intros H. injection H as <-. exists gl_y. split; [exact gl_solves|]. now rewrite <- gl_final.
Qed.
End Run.
(** the observation that comes out *)
Definition gl_Q (p : R) : R := nth 4 (gl_end p) 0.
Definition gl_obs (p x u : R) : R := - (nth 2 (gl_end p) 0 * x + nth 3 (gl_end p) 0 * u) / gl_Q p.
Lemma gl_control p : gl_Q p <> 0 -> exists S', get_global_control (gl_ivp p) expm1 integ (gl_dc p) [p] = Ok (S', gl_dc p) /\
  forall x u a : R, control_observation S' [x] (Some [u]) (Some [a]) = Ok [gl_obs p x u].
Proof.
  intros HQ. unfold get_global_control. change (sM integ) with 1%nat. change (sMt integ) with 1%nat. change (sN integ) with 1%nat. change (sL integ) with 1%nat. cbn [Nat.ltb Nat.leb Nat.eqb orb length seq mapM].
  unfold global_row. cbn [nth_error]. change (sM integ) with 1%nat. change (sMt integ) with 1%nat. change (sN integ) with 1%nat. change (sL integ) with 1%nat. unfold gl_ivp at 1. cbn [bind Nat.add Nat.sub Nat.mul].
  fold (gl_Q p). rewrite Req_bool_false by exact HQ. cbn [bind seq map Nat.eqb]. unfold as_init, table. cbn [integ aA aB aCT aG option_map chk_gamma chk_gammat shape0 s11 rows cols Nat.eqb negb bind as_column as_row chk_opt length fst snd].
  eexists. split; [reflexivity|]. intros x u a. unfold control_observation. cbn [aGt aBt aAt dotv_opt]. rewrite !dotv1 by reflexivity. cbn [bind ent nth]. unfold vadd. cbn [map2 radd Rring].
  apply (f_equal (@Ok (list R))). apply f_equal2; [|reflexivity]. unfold gl_obs. set (q := gl_Q p) in *. clearbody q. set (e := gl_end p). clearbody e. cbn [nth]. match goal with |- ?a = ?b => change (@eq R a b) end. cbn. field. exact HQ.
Qed.
(** the trajectories for a held control *)
Lemma gl_line (w : nat -> R -> R) p x0 u a : (forall t, 0 < t < 1 -> w O (p + t) = 1) -> let x := fun (_ : nat) t => x0 + (u + a) * t in
  one_period integ 1 p w (fun _ => x0) (fun _ => u) (fun _ => a) x /\ output_energy integ 1 x (x0 ^ 2 + x0 * (u + a) + (u + a) ^ 2 / 3).
Proof.
  intros Hw x. assert (D : forall t, derivable_pt_lim (fun t => x0 + (u + a) * t) t (u + a)) by (intros t; apply is_derive_Reals; auto_derive; [exact I|ring]). split.
  - split; [|intros; unfold x; ring]. change (sN integ) with 1%nat. split; [intros n t _ _; apply derivable_continuous_pt; exists (u + a); apply D|]. exists []. intros n t Hn Ht _.
    rewrite (idx1 n Hn). change (sL integ) with 1%nat. change (sM integ) with 1%nat. rewrite !rsum1, Hw by exact Ht. unfold gent. cbn [integ aA aB aG s11 ent]. replace (0 * x O t + _) with (u + a) by ring. apply D.
  - exists (fun t => x0 ^ 2 * t + x0 * (u + a) * t ^ 2 + (u + a) ^ 2 / 3 * t ^ 3), [].
    assert (DJ : forall t, derivable_pt_lim (fun t => x0 ^ 2 * t + x0 * (u + a) * t ^ 2 + (u + a) ^ 2 / 3 * t ^ 3) t ((x0 + (u + a) * t) ^ 2)) by (intros t; apply is_derive_Reals; auto_derive; [exact I|field]).
    split; [intros t _; apply derivable_continuous_pt; eexists; apply DJ|]. split; [|field]. intros t _ _. change (sNt integ) with 1%nat. change (sN integ) with 1%nat. rewrite !rsum1. cbn [integ aCT s11 ent].
    replace (Rsqr _) with ((x0 + (u + a) * t) ^ 2) by (unfold Rsqr, x; ring). apply DJ.
Qed.
Lemma gl_wave_on p m t : 0 < t -> wave (gl_dc p) m (p + t) = match m with O => 1 | _ => 0 end.
Proof.
  intros Ht. unfold wave. destruct m as [|m]; cbn [gl_dc one_wave d_resp nth w_eval].
  - now rewrite Rle_bool_true by lra.
  - destruct m; cbn [nth w_eval]; now case Rle_bool.
Qed.
(** ∫ e^t dt over one period *)
Definition tr_ivp (f : R -> list R -> result (list R)) (a b : R) (y0 : list R) : result (list R) := Ok [exp 1 - 1].
Lemma tr_sound : trajectory_sound (s11 1) 1 tr_ivp expm1 inv1.
Proof.
  constructor.
  - intros t E Ht HE. exact (expm1_sound (s11 1) t E Ht HE).
  - intros y1 f y0 H. injection H as <-. exists (fun t => [exp t - 1]). split; [|reflexivity].
    split; [rewrite exp_0; cbn; f_equal; ring|]. split; [reflexivity|].
    assert (D : forall t, derivable_pt_lim (fun t => exp t - 1) t (exp t)) by (intros t; apply is_derive_Reals; auto_derive; [exact I|ring]). split.
    + intros [|n] t _; cbn [nth]; [apply derivable_continuous_pt; eexists; apply D|destruct n; apply cc_const].
    + exists []. intros t _ _. exists [exp t]. split; [|split; [reflexivity|]].
      * unfold f, expm1, scalar. cbn [s11 rows cols Nat.eqb andb bind ent]. unfold flatten. cbn [s11 rows cols ent seq flat_map map app]. now rewrite Rmult_1_l.
      * intros [|n] Hn; [apply D|cbn in Hn; lia].
  - intros M X H. split; [now apply inv1_sound|]. assert (H' := inv1_sound _ _ H). unfold inv1 in H. apply bind_ok in H as (x & E & H). apply scalar_Ok in E as (E1 & E2 & ->).
    destruct (Req_bool_spec (ent M 0 0) 0); [discriminate|]. injection H as <-. split; [cbn; congruence|]. split; [cbn; congruence|]. cbn [s11 rows cols ent].
    intros i j Hi Hj. rewrite (idx1 i Hi), (idx1 j Hj), rsum1. cbn. field. assumption.
Qed.

(** an oscillator over a full turn *)
Definition turn : rmat := mk2 (K := Rring) 2 2 (fun i j => match i, j with O, S _ => -1 | S _, O => 1 | _, _ => 0 end).
Definition turn_expm (_ : rmat) (t : R) : result rmat := Ok (mk2 (K := Rring) 2 2 (fun i j => match i, j with O, S _ => - sin t | S _, O => sin t | _, _ => cos t end)).
Definition turn_ivp (f : R -> list R -> result (list R)) (a b : R) (y0 : list R) : result (list R) := Ok [0; 0; 0; 0].
Definition turn_inv (_ : rmat) : result rmat := Exn GenericException.
Lemma idx2 i : (i < 2)%nat -> i = O \/ i = 1%nat.
Proof. lia. Qed.
Lemma rsum2 f : rsum 2 f = f O + f 1%nat.
Proof. rewrite !rsum_S, rsum_0. ring. Qed.
Lemma dotv2 (M : rmat) (x y : R) : rows M = 2%nat -> cols M = 2%nat -> dotv M (@cons R x (@cons R y nil)) = Ok [ent M O O * x + ent M O 1%nat * y; ent M 1%nat O * x + ent M 1%nat 1%nat * y].
Proof. intros H1 H2. rewrite dotv_R by (now rewrite H2). rewrite H1, H2. cbn [seq map]. now rewrite !rsum2. Qed.
Lemma turn_sound : trajectory_sound turn (2 * PI) turn_ivp turn_expm turn_inv.
Proof.
  constructor; [| |discriminate].
  - intros t E Ht HE. injection HE as <-. split; [reflexivity|]. split; [reflexivity|]. intros x Hx. destruct x as [|x [|y [|z x']]]; try discriminate. 
    rewrite dotv2 by reflexivity. cbn [ent]. exists (fun t => [cos t * x + - sin t * y; sin t * x + cos t * y]). split; [|reflexivity].
    assert (D1 : forall t, derivable_pt_lim (fun t => cos t * x + - sin t * y) t (- (sin t * x + cos t * y))) by (intros; apply is_derive_Reals; auto_derive; [exact I|ring]).
    assert (D2 : forall t, derivable_pt_lim (fun t => sin t * x + cos t * y) t (cos t * x + - sin t * y)) by (intros; apply is_derive_Reals; auto_derive; [exact I|ring]).
    split; [rewrite cos_0, sin_0; repeat apply f_equal2; try reflexivity; ring|]. split; [reflexivity|]. split.
    + intros n s _. destruct n as [|[|n]]; cbn [nth]; [apply derivable_continuous_pt; eexists; apply D1|apply derivable_continuous_pt; eexists; apply D2|destruct n; apply cc_const].
    + exists []. intros s _ _. rewrite dotv2 by reflexivity. eexists. split; [reflexivity|]. split; [reflexivity|]. intros n Hn. cbn [length] in Hn. destruct (idx2 n Hn) as [->| ->]; cbn [nth turn ent].
      * replace (0 * _ + _) with (- (sin s * x + cos s * y)) by ring. apply D1.
      * replace (1 * _ + _) with (cos s * x + - sin s * y) by ring. apply D2.
  - intros y1 f y0 H. injection H as <-. exists (fun t => [sin t; cos t - 1; 1 - cos t; sin t]). split; [|rewrite sin_2PI, cos_2PI; okeq; repeat apply f_equal2; try reflexivity; ring].
    split; [rewrite cos_0, sin_0; cbn; repeat apply f_equal2; try reflexivity; ring|]. split; [reflexivity|].
    assert (D1 : forall t, derivable_pt_lim sin t (cos t)) by (intros; apply derivable_pt_lim_sin).
    assert (D2 : forall t, derivable_pt_lim (fun t => cos t - 1) t (- sin t)) by (intros; apply is_derive_Reals; auto_derive; [exact I|ring]).
    assert (D3 : forall t, derivable_pt_lim (fun t => 1 - cos t) t (sin t)) by (intros; apply is_derive_Reals; auto_derive; [exact I|ring]). split.
    + intros n s _. destruct n as [|[|[|[|n]]]]; cbn [nth]; [| | | |destruct n; apply cc_const]; apply derivable_continuous_pt; eexists; [apply D1|apply D2|apply D3|apply D1].
    + exists []. intros t _ _. exists [cos t; - sin t; sin t; cos t]. split; [reflexivity|]. split; [reflexivity|]. intros n Hn. cbn in Hn. destruct n as [|[|[|[|n]]]]; cbn [nth]; [apply D1|apply D2|apply D3|apply D1|lia].
Qed.
Lemma turn_traj : exists x, sol 2 (ent turn) (2 * PI) (fun _ _ => 0) x /\ (forall i, (i < 2)%nat -> integral (2 * PI) (x i) 0) /\ x O 0 <> 0.
Proof.
  exists (fun n => match n with O => cos | _ => sin end). split; [|split; [|cbn; rewrite cos_0; lra]].
  - split; [intros n t Hn _; destruct (idx2 n Hn) as [->| ->]; [apply derivable_continuous_pt, derivable_pt_cos|apply derivable_continuous_pt, derivable_pt_sin]|].
    exists []. intros n t Hn _ _. rewrite rsum2. destruct (idx2 n Hn) as [->| ->]; cbn [turn ent].
    + replace (_ + 0) with (- sin t) by ring. apply derivable_pt_lim_cos.
    + replace (_ + 0) with (cos t) by ring. apply derivable_pt_lim_sin.
  - intros i Hi. destruct (idx2 i Hi) as [->| ->].
    + exists sin, []. split; [intros; apply derivable_continuous_pt, derivable_pt_sin|]. split; [intros; apply derivable_pt_lim_sin|]. rewrite sin_2PI, sin_0. ring.
    + exists (fun t => - cos t), []. assert (D : forall t, derivable_pt_lim (fun t => - cos t) t (sin t)) by (intros; apply is_derive_Reals; auto_derive; [exact I|ring]).
      split; [intros; apply derivable_continuous_pt; eexists; apply D|]. split; [intros; apply D|]. rewrite cos_2PI, cos_0. ring.
Qed.
