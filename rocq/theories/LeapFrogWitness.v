(** Two coupled integrators between two clock ticks: the exact solution, for examples and counterexamples. *)
From Coq Require Import List Arith Lia Bool Reals Lra.
From Coquelicot Require Import Coquelicot.
From Flocq Require Import Core.
From Verif Require Import Base LinAlg FirExtras AnalogSystem AnalogProofs Signals DigitalControl DigitalControlProofs Fom Integrators IntegratorsProofs Simulator Stability SynthesisProofs LeapFrogStability.
Import ListNotations.
Open Scope R_scope.

Definition flow (alpha beta om c0 c1 x0 x1 t : R) : list R :=
  [- c1 / beta + (x0 + c1 / beta) * cos (om * t) + alpha / om * (x1 + c0 / alpha) * sin (om * t);
   - c0 / alpha + (x1 + c0 / alpha) * cos (om * t) + beta / om * (x0 + c1 / beta) * sin (om * t)].

(** an exact solver for such systems: the constant part of the right hand side is its value at the zero state *)
Definition oscillate (alpha beta om : R) (f : R -> list R -> result (list R)) (a b : R) (y : list R) : result (list R) :=
  bind (f b [0; 0]) (fun c => match c, y with [c0; c1], [x0; x1] => Ok (flow alpha beta om c0 c1 x0 x1 (b - a)) | _, _ => Exn ValueError end).

Lemma flow_0 alpha beta om c0 c1 x0 x1 : alpha <> 0 -> beta <> 0 -> om <> 0 -> flow alpha beta om c0 c1 x0 x1 0 = [x0; x1].
Proof. intros. unfold flow. rewrite Rmult_0_r, cos_0, sin_0. f_equal; [field; auto|]. f_equal. field; auto. Qed.

Lemma flow_derive alpha beta om c0 c1 x0 x1 t : alpha * beta = - om ^ 2 -> om <> 0 -> forall n, (n < 2)%nat ->
  derivable_pt_lim (fun s => nth n (flow alpha beta om c0 c1 x0 x1 s) 0) t
    (nth n [alpha * nth 1 (flow alpha beta om c0 c1 x0 x1 t) 0 + c0; beta * nth 0 (flow alpha beta om c0 c1 x0 x1 t) 0 + c1] 0).
Proof.
  intros E Ho n Hn. assert (om ^ 2 <> 0) by now apply pow_nonzero. assert (Ha : alpha <> 0) by (intros ->; lra). assert (Hb : beta <> 0) by (intros ->; lra).
  assert (EA : alpha = - om ^ 2 / beta) by (rewrite <- E; field; exact Hb).
  apply is_derive_Reals. destruct n as [|[|n]]; [| |lia]; cbn [nth flow]; auto_derive; auto.
  - rewrite EA. field. auto.
  - rewrite EA. field. auto.
Qed.

Lemma two_rhs S d h0 alpha beta kap0 kap1 : default_frontend S d h0 [beta; beta] [alpha] [0; 0] [kap0; kap1] (ck_T (d_clk d)) ->
  forall s h (u : R -> R), s_d s = d -> wf d h -> forall t y, 0 <= t -> length y = 2%nat ->
  full_rhs S [u] s h t y = Ok [alpha * nth 1 y 0 + (beta * u (t + s_t s) + kap0 * rd h (d_dec d) 0%nat); beta * nth 0 y 0 + kap1 * rd h (d_dec d) 1%nat].
Proof.
  intros (V & HS & _ & HP & HW & _) s h u Ed W t y Ht Hy. cbn [length] in *.
  destruct (diag0_diagonal [kap0; kap1]) as [Hnc Hge]. cbn [length] in Hnc, Hge.
  pose proof HS as (DN & DL & DM & _ & HD & _ & HO). cbn [length] in *. rewrite Hnc in *.
  unfold full_rhs. rewrite Ed. rewrite (plain_contribution d 2 h t HP W Ht). cbn [bind map seq].
  rewrite HD by (auto; reflexivity). cbn [map seq]. f_equal. rewrite !rsum_S, !rsum_0. rewrite !Hge by lia. cbn [Nat.eqb nth Nat.add Nat.sub].
  f_equal; [ring|]. f_equal. ring.
Qed.

Lemma two_decisions S d h0 alpha beta kap0 kap1 : default_frontend S d h0 [beta; beta] [alpha] [0; 0] [kap0; kap1] (ck_T (d_clk d)) -> kap0 <> 0 -> kap1 <> 0 ->
  forall s (u : R -> R) x0 x1, s_d s = d -> wf d (s_h s) -> s_x s = [x0; x1] ->
  exists h, observe_update S (inputs_at S [u] (0 + s_t s)) s = Ok h /\ wf d h /\
   rd h (d_dec d) 0%nat = (if Rle_bool 0 (- (kap0 * x0)) then 1 else -1) /\ rd h (d_dec d) 1%nat = (if Rle_bool 0 (- (kap1 * x1)) then 1 else -1).
Proof.
  intros (V & HS & _ & HP & HW & _) H0 H1 s u x0 x1 Ed W Ex. cbn [length] in *.
  assert (Hg := diag0_diagonal [kap0; kap1]). pose proof Hg as [Hnc Hge]. cbn [length] in Hnc, Hge.
  pose proof HS as (DN & DL & DM & _ & HD & _ & HO). cbn [length] in *. rewrite Hnc in *.
  unfold observe_update. rewrite Ed, (plain_contribution d 2 (s_h s) 0 HP W (Rle_refl 0)). cbn [bind inputs_at map].
  rewrite HO; [|now rewrite Ex|reflexivity]. cbn [bind]. set (st := map _ (seq 0 2)).
  assert (Q : forall m, (m < 2)%nat -> nth m st 0 = - (nth m [kap0; kap1] 0 * nth m (s_x s) 0) / Rabs (nth m [kap0; kap1] 0)).
  { intros m Hm. unfold st. rewrite nth_seq_R by exact Hm. 
    assert (C1 := diagonal_sum_col _ [kap0; kap1] (s_x s) m Hg Hm). assert (C2 := diagonal_colnorm _ [kap0; kap1] m Hg Hm). cbn [length] in C1, C2. now rewrite C1, C2. }
  destruct (plain_update d 2 (s_h s) st HP W) as (h & EU & W' & HU); [unfold st; cbn; lia|]. rewrite EU. exists h. split; [reflexivity|]. split; [exact W'|].
  assert (Sg : forall z k, k <> 0 -> Rle_bool 0 (- z / Rabs k) = Rle_bool 0 (- z)).
  { intros z k Hk. assert (P : 0 < / Rabs k) by (apply Rinv_0_lt_compat; now apply Rabs_pos_lt). unfold Rdiv.
    destruct (Rle_bool_spec 0 (- z)) as [L|L]; [apply Rle_bool_true|apply Rle_bool_false]; nra. }
  destruct (HU 0%nat ltac:(lia)) as [-> _]. destruct (HU 1%nat ltac:(lia)) as [-> _]. rewrite !Q by lia. rewrite Ex. cbn [nth]. rewrite !Sg by assumption. auto.
Qed.

(** the flow solves the equation of the simulator when the input is constant *)
Lemma two_solves S d h0 alpha beta om kap0 kap1 : default_frontend S d h0 [beta; beta] [alpha] [0; 0] [kap0; kap1] (ck_T (d_clk d)) -> alpha * beta = - om ^ 2 -> om <> 0 ->
  forall s h c x0 x1 T, s_d s = d -> wf d h -> s_x s = [x0; x1] ->
  solves (full_rhs S [fun _ => c] s h) 0 T [x0; x1] (flow alpha beta om (beta * c + kap0 * rd h (d_dec d) 0%nat) (kap1 * rd h (d_dec d) 1%nat) x0 x1).
Proof.
  intros HF E Ho s h c x0 x1 T Ed W Ex. assert (om ^ 2 <> 0) by now apply pow_nonzero. assert (Ha : alpha <> 0) by (intros ->; lra). assert (Hb : beta <> 0) by (intros ->; lra).
  set (c0 := beta * c + kap0 * rd h (d_dec d) 0%nat). set (c1 := kap1 * rd h (d_dec d) 1%nat).
  split; [now apply flow_0|]. split; [reflexivity|]. split.
  - intros n t _. destruct (lt_dec n 2) as [Hn|Hn].
    + apply derivable_continuous_pt. eexists. now apply flow_derive.
    + apply continuity_pt_ext with (f := fct_cte 0); [intros; symmetry; apply nth_overflow; cbn; lia|]. apply continuity_pt_const; now intros ? ?.
  - intros t Ht. eexists. split; [apply (two_rhs S d h0 alpha beta kap0 kap1 HF s h (fun _ => c) Ed W); [lra|reflexivity]|]. split; [reflexivity|].
    intros n Hn. fold c0 c1. now apply flow_derive.
Qed.

Lemma oscillate_exact S d h0 alpha beta om kap0 kap1 c : default_frontend S d h0 [beta; beta] [alpha] [0; 0] [kap0; kap1] (ck_T (d_clk d)) -> kap0 <> 0 -> kap1 <> 0 ->
  alpha * beta = - om ^ 2 -> om <> 0 -> 0 <= ck_T (d_clk d) -> forall s0, s_d s0 = d -> wf d (s_h s0) -> length (s_x s0) = 2%nat ->
  forall i s, full_run (oscillate alpha beta om) S [fun _ => c] i s0 = Ok s -> answers_exactly (oscillate alpha beta om) S [fun _ => c] s.
Proof.
  intros HF H0 H1 E Ho HT s0 Ed0 W0 L0. set (u := fun _ : R => c).
  assert (ANS : forall s h, s_d s = d -> wf d h -> forall x0 x1, s_x s = [x0; x1] ->
     oscillate alpha beta om (full_rhs S [u] s h) 0 (ck_T (d_clk d)) (s_x s) = Ok (flow alpha beta om (beta * c + kap0 * rd h (d_dec d) 0%nat) (kap1 * rd h (d_dec d) 1%nat) x0 x1 (ck_T (d_clk d)))).
  { intros s h Ed W x0 x1 Ex. unfold oscillate. rewrite (two_rhs S d h0 alpha beta kap0 kap1 HF s h u Ed W) by (auto; reflexivity). cbn [bind nth]. rewrite Ex.
    f_equal. f_equal; unfold u; ring. }
  assert (Inv : forall i s, full_run (oscillate alpha beta om) S [u] i s0 = Ok s -> s_d s = d /\ wf d (s_h s) /\ length (s_x s) = 2%nat).
  { induction i as [|i IH]; intros s Es; cbn [full_run] in Es.
    - apply Ok_inj in Es. now rewrite <- Es.
    - apply bind_ok in Es as (s1 & E1 & Es). destruct (IH s1 E1) as (Ed & W & L). apply bind_ok in Es as ([r s2] & E2 & Es). apply Ok_inj in Es. subst s2.
      unfold full_next in E2. apply bind_ok in E2 as (h & Eh & E2). apply bind_ok in E2 as (x & Ex & E2). apply Ok_inj in E2. inversion E2 as [[Er Es]].
      destruct (s_x s1) as [|x0 [|x1 [|]]] eqn:X1; cbn in L; try lia.
      destruct (two_decisions S d h0 alpha beta kap0 kap1 HF H0 H1 s1 u x0 x1 Ed W X1) as (h2 & E3 & W2 & _). rewrite E3 in Eh. apply Ok_inj in Eh. subst h2.
      cbn. rewrite Ed. split; [reflexivity|]. split; [exact W2|]. rewrite Ed in Ex. rewrite <- X1 in Ex. rewrite (ANS s1 h Ed W2 x0 x1 X1) in Ex. apply Ok_inj in Ex. now rewrite <- Ex. }
  intros i s Es h Eh. destruct (Inv i s Es) as (Ed & W & L). destruct (s_x s) as [|x0 [|x1 [|]]] eqn:X1; cbn in L; try lia.
  destruct (two_decisions S d h0 alpha beta kap0 kap1 HF H0 H1 s u x0 x1 Ed W X1) as (h2 & E3 & W2 & _). rewrite E3 in Eh. apply Ok_inj in Eh. subst h2.
  eexists. rewrite Ed. split; [apply (two_solves S d h0 alpha beta om kap0 kap1 HF E Ho s h c x0 x1 _ Ed W2 X1)|]. rewrite <- X1. now apply ANS.
Qed.

(** a second order leap-frog *)
Lemma lf_two gi k OSR BW h : k_N k = Some 2%nat -> k_BW k = Some BW -> k_OSR k = Some OSR -> k_ENOB k = None -> k_delta k = None -> 0 < OSR * BW -> 2 / 100000000000000 <= 1 / (2 * OSR * BW) ->
  exists S d h', get_lf gi k h = Ok (S, d, h') /\ ck_T (d_clk d) = 1 / (2 * OSR * BW) /\
    let beta := OSR * BW in let alpha := - (PI * BW) ^ 2 / beta in default_frontend S d h' [beta; beta] [alpha] [0; 0] [beta; beta] (ck_T (d_clk d)) /\ alpha * beta = - (PI * BW) ^ 2.
Proof.
  intros EN EB EO EE ED Hob HT. assert (X : get_lf gi k h = lf_osr k OSR 2 BW h) by (unfold get_lf; now rewrite EN, EB, EE, EO). rewrite X.
  assert (Y : exists v, lf_osr k OSR 2 BW h = Ok v).
  { unfold lf_osr. rewrite Req_bool_false by lra. rewrite ED. cbn [dflt].
    assert (HPI := PI_RGT_0). assert (Eb : 1 * OSR / (2 * PI) * (2 * PI * BW) = OSR * BW) by (field; lra). rewrite Eb. rewrite Req_bool_false by lra.
    apply lf_build_accepts; [lia|exact HT|lra|lra]. }
  destruct Y as ([[S d] h'] & Y). exists S, d, h'. split; [exact Y|]. destruct (lf_osr_inv _ _ _ _ _ _ _ _ Y) as (_ & _ & _ & _ & (_ & _ & _ & E2) & HF).
  rewrite ED in HF, E2. cbn [dflt] in HF, E2. rewrite !Rmult_1_l in HF, E2. cbn [repeat map seq Nat.sub] in HF. rewrite pow_O, pow_1, !Rmult_1_r in HF.
  assert (ET : ck_T (d_clk d) = 1 / (2 * OSR * BW)) by apply HF. split; [exact ET|]. cbv zeta. rewrite ET. split; [exact HF|exact E2].
Qed.

(** cos a + a sin a exceeds 1 *)
Lemma cos_sin_gt a : 0 < a < PI / 2 -> 1 < cos a + a * sin a.
Proof.
  intros Ha. set (f := fun x => cos x + x * sin x).
  assert (D : forall x, derivable_pt_lim f x (x * cos x)).
  { intros x. apply is_derive_Reals. unfold f. auto_derive; auto. ring. }
  destruct (MVT_cor2 f (fun x => x * cos x) 0 a (proj1 Ha)) as (c & Ec & Hc); [intros; apply D|].
  assert (0 < cos c) by (apply cos_gt_0; lra). assert (E0 : f 0 = 1) by (unfold f; rewrite cos_0; ring).
  assert (0 < c * cos c * (a - 0)) by (apply Rmult_lt_0_compat; [apply Rmult_lt_0_compat|]; lra). fold (f a). lra.
Qed.
