(** Property theorems C76-C78: frequency response of the estimator, evaluation of transfer functions, noise budgets.
    Vocabulary (CplxLin.v, TransferProofs.v, FreqProofs.v, BudgetProofs.v), independent of the model:
    [cap n M x] the vector M x; [unit l] a unit vector; [nrm2] the squared length;
    [phasor S w u g x]: i w x = A x + B u + g, the sinusoidal steady state with input u and sources g at the states;
    [outp S u x] = C^T x + D u; [off_poles S w]: i w is no eigenvalue of A;
    [rls m n G eta2 y v]: v is the minimiser of |G v - y|^2 + eta2 |v|^2 (normal equations);
    [filter_phasor N F w g z]: i w z = F z + g; [estimate S WT mf mb] = W^T (mb - mf);
    [riccati_sol], [fwdA], [bwdA], [weights]: as in P_Filter.v; [largest n f m], [largest_in l f m]: m is the maximum;
    [pinv_ok pinv n], [inv_ok inv n]: the external routine inverts every invertible n x n matrix. *)
From Coq Require Import List Arith Lia Bool Reals Lra ZArith.
From Flocq Require Import Core.
From Coquelicot Require Import Complex.
From Verif Require Import Base LinAlg FirExtras AnalogSystem AnalogProofs Zpk Integrators Fom IntegratorsProofs LinearOde FilterCoeff FilterCoeffProofs FilterOde TransferFn CplxLin TransferProofs
  TransferExtra BudgetProofs FreqProofs TransferExample.
Import ListNotations.
Open Scope R_scope.
Open Scope C_scope.

Lemma mapM_spec {A B} (f : A -> result B) (P : A -> B -> Prop) l : (forall a, In a l -> exists b, f a = Ok b /\ P a b) -> exists r, mapM f l = Ok r /\ Forall2 P l r.
Proof.
  induction l as [|a l IH]; intros H; [exists []; split; [reflexivity|constructor]|]. destruct (H a (or_introl eq_refl)) as (b & E & Hb).
  destruct IH as (r & Er & Hr); [intros; apply H; now right|]. exists (b :: r). cbn [mapM]. rewrite E. cbn [bind]. rewrite Er. split; [reflexivity|now constructor].
Qed.
Lemma mapM1 {A B} (f : A -> result B) a b : mapM f [a] = Ok [b] <-> f a = Ok b.
Proof. cbn [mapM]. destruct (f a) as [c|e]; cbn [bind]; split; intros H; try discriminate; apply Ok_inj in H; [injection H as <-|subst]; reflexivity. Qed.

(** C77: transfer_function_matrix evaluates the response of the outputs to the inputs, at every frequency of the array. *)
Theorem C77_transfer_function : forall pinv S ws, valid S -> pinv_ok pinv (sN S) -> (forall w, In w ws -> off_poles S w) ->
  exists Gs, transfer_function_matrix pinv S false ws = Ok Gs /\
    Forall2 (fun w (G : cmat) => rows G = sNt S /\ cols G = sL S /\ (forall u, exists x, phasor S w u none x) /\
      forall u x, phasor S w u none x -> forall r, (r < sNt S)%nat -> cap (sL S) (cent G) u r = outp S u x r) ws Gs.
Proof.
  intros pinv S ws V P O. apply (mapM_spec (tfm pinv S false)). intros w Hw. destruct (tfm_ok pinv S w V P (O w Hw)) as (G & E & H). now exists G.
Qed.
Print Assumptions C77_transfer_function.

(** C77: with [general=True], the response of the outputs to sources at the states. *)
Theorem C77_general_response : forall pinv S ws, valid S -> pinv_ok pinv (sN S) -> (forall w, In w ws -> off_poles S w) ->
  exists Ts, transfer_function_matrix pinv S true ws = Ok Ts /\
    Forall2 (fun w (T : cmat) => rows T = sNt S /\ cols T = sN S /\ (forall g, exists x, phasor S w none g x) /\
      forall g x, phasor S w none g x -> forall r, (r < sNt S)%nat -> cap (sN S) (cent T) g r = cap (sN S) (ce (aCT S)) x r) ws Ts.
Proof.
  intros pinv S ws V P O. apply (mapM_spec (tfm pinv S true)). intros w Hw. destruct (tfm_general_ok pinv S w V P (O w Hw)) as (G & E & H). now exists G.
Qed.
Print Assumptions C77_general_response.

(** C77: entry (l, r) of noise_transfer_function is the magnitude of estimate l for a unit signal in observation r. *)
Theorem C77_noise_transfer : forall pinv S eta2 ws, valid S -> pinv_ok pinv (sN S) -> pinv_ok pinv (sNt S) -> 0 < eta2 -> (forall w, In w ws -> off_poles S w) ->
  exists Xs, noise_transfer_function pinv S eta2 ws = Ok Xs /\
    Forall2 (fun w (X : cmat) => rows X = sL S /\ cols X = sNt S /\ exists G, transfer_function_matrix pinv S false [w] = Ok [G] /\
      (forall y, exists v, rls (sNt S) (sL S) (cent G) eta2 y v) /\
      forall r v, (r < sNt S)%nat -> rls (sNt S) (sL S) (cent G) eta2 (unit r) v -> forall l, (l < sL S)%nat -> cent X l r = RtoC (Cmod (v l))) ws Xs.
Proof.
  intros pinv S eta2 ws V P PT He O. apply (mapM_spec (ntf pinv S eta2)). intros w Hw. destruct (ntf_ok pinv S w V P (O w Hw) eta2 He PT) as (G & X & EG & EX & X1 & X2 & H).
  exists X. split; [exact EX|]. split; [exact X1|]. split; [exact X2|]. exists G. split; [now apply mapM1|exact H].
Qed.
Print Assumptions C77_noise_transfer.

(** C77: entry l of signal_transfer_function is the response of estimate l to a unit input l; it is real and in [0, 1). *)
Theorem C77_signal_transfer : forall pinv S eta2 ws, valid S -> pinv_ok pinv (sN S) -> pinv_ok pinv (sNt S) -> 0 < eta2 -> (forall w, In w ws -> off_poles S w) ->
  exists Xs, signal_transfer_function pinv S eta2 ws = Ok Xs /\
    Forall2 (fun w (X : list R) => length X = sL S /\ exists G, transfer_function_matrix pinv S false [w] = Ok [G] /\
      (forall y, exists v, rls (sNt S) (sL S) (cent G) eta2 y v) /\
      forall l v, (l < sL S)%nat -> rls (sNt S) (sL S) (cent G) eta2 (cap (sL S) (cent G) (unit l)) v -> v l = RtoC (nth l X 0%R) /\ (0 <= nth l X 0 < 1)%R) ws Xs.
Proof.
  intros pinv S eta2 ws V P PT He O. apply (mapM_spec (stf pinv S eta2)). intros w Hw. destruct (stf_ok pinv S w V P (O w Hw) eta2 He PT) as (G & X & EG & EX & X1 & H1 & H2).
  exists X. split; [exact EX|]. split; [exact X1|]. exists G. split; [now apply mapM1|]. split; [exact H1|]. intros l v Hl Hv. apply (H2 l v Hl).
  eapply rls_ext; [| |exact Hv]; [intros; now apply cap_unit|reflexivity].
Qed.
Print Assumptions C77_signal_transfer.

(** C77: for one input the magnitudes are |G_r| / (|G|^2 + eta2) and |G|^2 / (|G|^2 + eta2). *)
Theorem C77_one_input : forall pinv S eta2 w, valid S -> pinv_ok pinv (sN S) -> pinv_ok pinv (sNt S) -> 0 < eta2 -> off_poles S w -> sL S = 1%nat ->
  exists G X s, transfer_function_matrix pinv S false [w] = Ok [G] /\ noise_transfer_function pinv S eta2 [w] = Ok [X] /\
    signal_transfer_function pinv S eta2 [w] = Ok [[s]] /\
    let g2 := nrm2 (sNt S) (fun r => cent G r O) in
    (forall r, (r < sNt S)%nat -> cent X O r = RtoC (Cmod (cent G r O) / (g2 + eta2))) /\ s = (g2 / (g2 + eta2))%R.
Proof.
  intros pinv S eta2 w V P PT He O L1. destruct (ntf_one pinv S w eta2 V P PT O He L1) as (G & X & EG & EX & HX). destruct (stf_one pinv S w eta2 V P PT O He L1) as (G' & s & EG' & ES & Hs).
  rewrite EG in EG'. apply Ok_inj in EG'. subst G'. destruct (tfm_ok pinv S w V P O) as (G' & EG' & G1 & _). rewrite EG in EG'. apply Ok_inj in EG'. subst G'.
  exists G, X, s. repeat split; try (now apply mapM1); unfold gain2 in *; rewrite G1 in *; assumption.
Qed.
Print Assumptions C77_one_input.

(** C77: with eta2 = AnalogSystem.eta2(BW) a single-input system has signal transfer function 1/2 at the angular frequency 2 pi BW. *)
Theorem C77_half_at_bandwidth : forall pinv S BW e, valid S -> pinv_ok pinv (sN S) -> pinv_ok pinv (sNt S) -> off_poles S (2 * PI * BW) -> sL S = 1%nat ->
  eta2_of pinv S BW = Ok e -> e <> 0%R -> (0 < e)%R /\ signal_transfer_function pinv S e [(2 * PI * BW)%R] = Ok [[(1/2)%R]].
Proof.
  intros pinv S BW e V P PT OP L1 E NZ. destruct (eta2_of_ok pinv S BW V P OP) as (G & e' & EG & E' & He). rewrite E in E'. apply Ok_inj in E'. subst e'.
  destruct (tfm_ok pinv S _ V P OP) as (G' & EG' & G1 & G2 & _). rewrite EG in EG'. apply Ok_inj in EG'. subst G'.
  assert (Eg : e = gain2 G). { rewrite He. unfold gain2, nrm2. apply rsum_ext. intros i _. rewrite G2, L1, rsum_S, rsum_0. ring. }
  assert (Pe : (0 < e)%R). { assert (X := nrm2_nonneg (rows G) (fun r => cent G r O)). rewrite Eg in *. unfold gain2 in *. lra. }
  split; [exact Pe|]. destruct (stf_one pinv S _ e V P PT OP Pe L1) as (G' & s & EG' & ES & Hs). rewrite EG in EG'. apply Ok_inj in EG'. subst G'.
  unfold signal_transfer_function. rewrite (proj2 (mapM1 _ _ _) ES). do 3 f_equal. rewrite Hs, <- Eg. field. lra.
Qed.
Print Assumptions C77_half_at_bandwidth.

(** C77: control_signal_transfer_function needs as many observations as states. *)
Theorem C77_control_shape : forall pinv inv S eta2 w ws g, valid S -> pinv_ok pinv (sN S) -> off_poles S w -> aG S = Some g -> (0 < sM S)%nat -> sNt S <> sN S ->
  control_signal_transfer_function pinv inv S eta2 (w :: ws) = Exn ValueError.
Proof.
  intros pinv inv S eta2 w ws g V P O Eg HM NE. unfold control_signal_transfer_function. cbn [mapM]. now rewrite (cstf_shape pinv inv S eta2 w g V P O Eg NE HM).
Qed.
Print Assumptions C77_control_shape.
(** C77: and a control: without Gamma it raises TypeError. *)
Theorem C77_control_without_gamma : forall pinv inv S eta2 w ws, valid S -> pinv_ok pinv (sN S) -> off_poles S w -> aG S = None ->
  control_signal_transfer_function pinv inv S eta2 (w :: ws) = Exn TypeError.
Proof.
  intros pinv inv S eta2 w ws V P OP Eg. unfold control_signal_transfer_function. cbn [mapM]. unfold cstf. destruct (tfm_ok pinv S w V P OP) as (G & EG & _).
  assert (exists M, resolvent S w = Ok M) as (M & EM). { unfold tfm, atf in EG. destruct (resolvent S w) as [M|e]; [now exists M|discriminate]. }
  rewrite EG. cbn [bind]. unfold control_matrix, ctf. rewrite EM. cbn [bind]. now rewrite Eg.
Qed.
Print Assumptions C77_control_without_gamma.
Example C77_control_without_gamma_ex : control_signal_transfer_function pinv2 inv2 (flat 1 1 1 (fun _ _ => 1%R) (fun _ _ => 1%R) nil2 None) 1 [1%R] = Exn TypeError.
Proof. apply C77_control_without_gamma; [apply flat_valid; exact Logic.I|exact pinv2_1|apply flat_off; lra|reflexivity]. Qed.
(** C77: if every state is an observation (C^T the identity) its entry (l, m) is the magnitude of estimate l for a unit control m. *)
Theorem C77_control_all_states : forall pinv inv S eta2 ws g, valid S -> pinv_ok pinv (sN S) -> inv_ok inv (sNt S) -> 0 < eta2 -> (forall w, In w ws -> off_poles S w) ->
  aG S = Some g -> sNt S = sN S -> (forall i j, (i < sN S)%nat -> (j < sN S)%nat -> ent (aCT S) i j = if Nat.eqb i j then 1 else 0)%R ->
  exists Xs, control_signal_transfer_function pinv inv S eta2 ws = Ok Xs /\
    Forall2 (fun w (X : cmat) => rows X = sL S /\ cols X = sM S /\ exists G, transfer_function_matrix pinv S false [w] = Ok [G] /\
      forall m x v, (m < sM S)%nat -> phasor S w none (fun i => ce g i m) x -> rls (sNt S) (sL S) (cent G) eta2 (cap (sN S) (ce (aCT S)) x) v ->
        forall l, (l < sL S)%nat -> cent X l m = RtoC (Cmod (v l))) ws Xs.
Proof.
  intros pinv inv S eta2 ws g V P IT He O Eg EN HC. apply (mapM_spec (cstf pinv inv S eta2)). intros w Hw.
  destruct (cstf_ok pinv inv S eta2 w g V P IT (O w Hw) He Eg EN) as (G & X & EG & EX & X1 & X2 & H). exists X. split; [exact EX|]. split; [exact X1|]. split; [exact X2|].
  exists G. split; [now apply mapM1|]. intros m x v Hm Hx Hv. apply (H m x v Hm Hx). eapply rls_ext; [| |exact Hv]; [|reflexivity]. intros r Hr. rewrite EN in Hr.
  unfold cap. rewrite (csum_ext _ _ (fun j => if Nat.eqb j r then x j else RtoC 0)); [now rewrite csum_single|]. intros j Hj. unfold ce. rewrite HC by assumption.
  rewrite (Nat.eqb_sym r j). destruct (Nat.eqb j r); ring.
Qed.
Print Assumptions C77_control_all_states.
Definition c11 (a : R) (_ _ : nat) : R := a.
Lemma flat11_G a b d pinv : pinv_ok pinv 1 -> exists G, tfm pinv (flat 1 1 1 (c11 a) (c11 b) (c11 d) None) false 1 = Ok G /\ cent G 0 0 = RtoC (b * a) / (0, 1)%R + RtoC d.
Proof.
  intros P. destruct (flat_G 1 1 1 (c11 a) (c11 b) (c11 d) None 1 R1_neq_R0 Logic.I pinv P) as (G & E & _ & _ & H). exists G. split; [exact E|]. rewrite H by lia. rewrite rsum_S, rsum_0. unfold c11. now rewrite Rplus_0_l.
Qed.
(** C77: without that, the output matrix is left out: the response of a system whose observation is twice the state is reported half as large. *)
Theorem C77_control_output_matrix_refuted : exists pinv inv S eta2 w g G X x v,
  valid S /\ pinv_ok pinv (sN S) /\ inv_ok inv (sNt S) /\ (0 < eta2)%R /\ off_poles S w /\ aG S = Some g /\ sNt S = sN S /\ sM S = 1%nat /\ sL S = 1%nat /\
  transfer_function_matrix pinv S false [w] = Ok [G] /\ control_signal_transfer_function pinv inv S eta2 [w] = Ok [X] /\
  phasor S w none (fun i => ce g i 0) x /\ rls (sNt S) (sL S) (cent G) eta2 (cap (sN S) (ce (aCT S)) x) v /\
  Cmod (v O) = (2 * Cmod (cent X 0 0))%R /\ cent X 0 0 <> RtoC 0.
Proof.
  set (g := @mk2 Rring 1 1 (c11 1)). set (S := flat 1 1 1 (c11 1) (c11 2) (c11 0) (Some g)). assert (H1 : (1 <> 0)%R) by lra.
  assert (V : valid S) by (apply flat_valid; reflexivity). assert (OP : off_poles S 1) by (apply flat_off; [exact H1]).
  assert (IT : inv_ok inv2 1). { intros M HM. exists (pinv2 M). split; [reflexivity|]. now apply pinv2_1. }
  destruct (cstf_ok pinv2 inv2 S 1 1 g V pinv2_1 IT OP ltac:(lra) eq_refl eq_refl) as (G & X & EG & EX & X1 & X2 & H).
  destruct (flat_G 1 1 1 (c11 1) (c11 2) (c11 0) (Some g) 1 H1 eq_refl pinv2 pinv2_1) as (G' & EG' & _ & _ & HG). fold S in EG'. rewrite EG in EG'. apply Ok_inj in EG'. subst G'.
  specialize (HG O O ltac:(lia) ltac:(lia)). rewrite rsum_S, rsum_0 in HG. unfold c11 in HG.
  assert (HG0 : cent G 0 0 = (0, -2)%R) by (rewrite HG; apply injective_projections; cbn; field).
  set (x := fun _ : nat => RtoC 1 / (0, 1)%R). assert (Hx : phasor S 1 none (fun i => ce g i 0) x).
  { apply flat_phasor; [exact H1|]. intros i _. rewrite (cap_zero 1) by reflexivity. unfold ce. cbn. unfold x. rewrite Cplus_0_l. reflexivity. }
  destruct (gram_ok pinv2 S 1 V pinv2_1 OP 1 ltac:(lra)) as (G' & Mt & EG' & _ & _ & _ & I & HM). rewrite EG in EG'. apply Ok_inj in EG'. subst G'.
  assert (Rl := gram_rls S 1 G Mt (pinv2 Mt) HM (pinv2_1 Mt I)).
  assert (EN : nrm2 1 (cent G 0) = 4%R).
  { unfold nrm2. rewrite rsum_S, rsum_0. rewrite HG0. unfold Cmod. cbn [fst snd]. rewrite Rsqr_sqrt by lra. ring. }
  assert (Vx := Rl x). set (vx := cap (sNt S) (adj (cent G)) (cap (sNt S) (cent (pinv2 Mt)) x)) in *.
  assert (Vy := Rl (cap (sN S) (ce (aCT S)) x)). set (vy := cap (sNt S) (adj (cent G)) (cap (sNt S) (cent (pinv2 Mt)) (cap (sN S) (ce (aCT S)) x))) in *.
  assert (Ex := rls_row 1 (cent G) 1 x vx ltac:(lra) Vx O ltac:(lia)). assert (Ey := rls_row 1 (cent G) 1 _ vy ltac:(lra) Vy O ltac:(lia)). rewrite EN, HG0 in Ex, Ey.
  assert (Eyx : cap (sN S) (ce (aCT S)) x O = RtoC 2 * x O) by (unfold cap; change (sN S) with 1%nat; rewrite csum1; reflexivity). rewrite Eyx in Ey.
  assert (EXv := H O x vx ltac:(cbn; lia) Hx Vx O ltac:(cbn; lia)).
  exists pinv2, inv2, S, 1%R, 1%R, g, G, X, x, vy. repeat (split; [first [assumption|reflexivity|exact pinv2_1|exact IT|lra|now apply mapM1]|]). split.
  - rewrite EXv, Cmod_R, Rabs_pos_eq by apply Cmod_ge_0. assert (vy O = RtoC 2 * vx O) by (rewrite Ex, Ey; unfold Cdiv; ring). rewrite H0, Cmod_mult, Cmod_R, Rabs_pos_eq by lra. reflexivity.
  - rewrite EXv. intros Z. apply RtoC_eq in Z. apply Cmod_eq_0 in Z. rewrite Ex in Z. apply (f_equal fst) in Z. unfold x in Z. cbn in Z. lra.
Qed.
Print Assumptions C77_control_output_matrix_refuted.

(** C77: with one observation the magnitudes of general_transfer_function are those of the estimates for a unit source at a state. *)
Theorem C77_general_one_output : forall pinv S eta2 ws, valid S -> pinv_ok pinv (sN S) -> pinv_ok pinv (sNt S) -> 0 < eta2 -> (forall w, In w ws -> off_poles S w) -> sNt S = 1%nat ->
  exists Xs, general_transfer_function pinv S eta2 ws = Ok Xs /\
    Forall2 (fun w (X : cmat) => rows X = sL S /\ cols X = sN S /\ exists G, transfer_function_matrix pinv S false [w] = Ok [G] /\
      forall n x v, (n < sN S)%nat -> phasor S w none (unit n) x -> rls (sNt S) (sL S) (cent G) eta2 (cap (sN S) (ce (aCT S)) x) v ->
        forall l, (l < sL S)%nat -> Cmod (cent X l n) = Cmod (v l)) ws Xs.
Proof.
  intros pinv S eta2 ws V P PT He O E1. apply (mapM_spec (gtf pinv S eta2)). intros w Hw. destruct (gtf_one pinv S eta2 w V P PT (O w Hw) He E1) as (G & X & EG & EX & X1 & X2 & H).
  exists X. split; [exact EX|]. split; [exact X1|]. split; [exact X2|]. exists G. split; [now apply mapM1|exact H].
Qed.
Print Assumptions C77_general_one_output.
Definition plus_minus (r _ : nat) : R := match r with O => 1%R | _ => (-1)%R end.
(** C77: with two observations it is not so: the phases are lost before the sum, here a gain of 2/3 is reported as 0. *)
Theorem C77_general_two_outputs_refuted : exists pinv S eta2 w G X x v,
  valid S /\ pinv_ok pinv (sN S) /\ pinv_ok pinv (sNt S) /\ (0 < eta2)%R /\ off_poles S w /\ sNt S = 2%nat /\ sL S = 1%nat /\ sN S = 1%nat /\
  transfer_function_matrix pinv S false [w] = Ok [G] /\ general_transfer_function pinv S eta2 [w] = Ok [X] /\
  phasor S w none (unit 0) x /\ rls (sNt S) (sL S) (cent G) eta2 (cap (sN S) (ce (aCT S)) x) v /\ v O = RtoC (2/3) /\ cent X 0 0 = RtoC 0.
Proof.
  set (S := flat 1 2 1 (c11 1) plus_minus nil2 None). assert (H1 : (1 <> 0)%R) by lra.
  assert (V : valid S) by (apply flat_valid; exact Logic.I). assert (OP : off_poles S 1) by (apply flat_off; exact H1).
  destruct (gtf_ok pinv2 S 1 1 V pinv2_1 pinv2_2 OP ltac:(lra)) as (M & T & X & EM & ET & EX & _ & _ & X3).
  destruct (ntf_one pinv2 S 1 1 V pinv2_1 pinv2_2 OP ltac:(lra) eq_refl) as (G & M' & EG & EM' & HM). rewrite EM in EM'. apply Ok_inj in EM'. subst M'.
  destruct (flat_G 1 2 1 (c11 1) plus_minus nil2 None 1 H1 Logic.I pinv2 pinv2_1) as (G' & EG' & GR & _ & HG). fold S in EG'. rewrite EG in EG'. apply Ok_inj in EG'. subst G'.
  destruct (flat_T 1 2 1 (c11 1) plus_minus nil2 None 1 H1 Logic.I pinv2 pinv2_1) as (T' & ET' & HT). fold S in ET'. rewrite ET in ET'. apply Ok_inj in ET'. subst T'.
  assert (G0 : cent G 0 0 = (0, -1)%R). { rewrite HG by lia. rewrite rsum_S, rsum_0. unfold c11, plus_minus, nil2. apply injective_projections; cbn; field. }
  assert (G1 : cent G 1 0 = (0, 1)%R). { rewrite HG by lia. rewrite rsum_S, rsum_0. unfold c11, plus_minus, nil2. apply injective_projections; cbn; field. }
  destruct (gram_ok pinv2 S 1 V pinv2_1 OP 1 ltac:(lra)) as (G' & Mt & EG' & _ & _ & _ & I & HMt). rewrite EG in EG'. apply Ok_inj in EG'. subst G'.
  assert (Rl := gram_rls S 1 G Mt (pinv2 Mt) HMt (pinv2_2 Mt I)).
  set (x := fun _ : nat => RtoC 1 / (0, 1)%R). assert (Hx : phasor S 1 none (unit 0) x).
  { apply flat_phasor; [exact H1|]. intros i Hi. rewrite (cap_zero 1) by reflexivity. assert (i = O) by lia. subst i. unfold x, unit. cbn [Nat.eqb]. now rewrite Cplus_0_l. }
  specialize (Rl (cap (sN S) (ce (aCT S)) x)). match type of Rl with rls _ _ _ _ _ ?t => set (v := t) in * end.
  exists pinv2, S, 1%R, 1%R, G, X, x, v. repeat (split; [first [assumption|reflexivity|exact pinv2_1|exact pinv2_2|lra|now apply mapM1]|]).
  assert (EN : nrm2 2 (fun r => cent G r O) = 2%R).
  { unfold nrm2. rewrite !rsum_S, rsum_0, G0, G1. unfold Cmod. cbn [fst snd]. rewrite !Rsqr_sqrt by lra. ring. }
  split.
  - assert (E := rls_one 2 (cent G) 1 _ v ltac:(lra) Rl). rewrite E, EN. unfold cap at 1. rewrite csum2. unfold adj. rewrite G0, G1. unfold cap. change (sN S) with 1%nat. rewrite !csum1. unfold x, ce. cbn [ent aCT S flat plus_minus].
    apply injective_projections; cbn; field; lra.
  - rewrite X3. change (sNt S) with 2%nat. rewrite csum2, !HM, !HT by (cbn; lia). unfold gain2. rewrite GR, EN, G0, G1. unfold plus_minus.
    assert (C0 : Cmod (0, -1)%R = Cmod (0, 1)%R) by (unfold Cmod; cbn [fst snd]; f_equal; ring). rewrite C0. replace (-1)%R with (- (1))%R by lra. rewrite RtoC_opp. unfold Cdiv. ring.
Qed.
Print Assumptions C77_general_two_outputs_refuted.

Definition wx : asys Rring := flat 1 1 1 (c11 1) (c11 1) (c11 0) None.
Lemma wx_valid : valid wx. Proof. apply flat_valid. exact Logic.I. Qed.
Lemma wx_off w : w <> 0%R -> off_poles wx w. Proof. intros H. now apply flat_off. Qed.
(** a single integrator at angular frequency 1: G = -i, |NTF| = STF = 1/2 *)
Example C77_ex : valid wx /\ pinv_ok pinv2 (sN wx) /\ pinv_ok pinv2 (sNt wx) /\ off_poles wx 1 /\ sL wx = 1%nat /\ sNt wx = 1%nat /\
  exists G X, transfer_function_matrix pinv2 wx false [1%R] = Ok [G] /\ cent G 0 0 = (0, -1)%R /\ noise_transfer_function pinv2 wx 1 [1%R] = Ok [X] /\ cent X 0 0 = RtoC (1/2) /\
    signal_transfer_function pinv2 wx 1 [1%R] = Ok [[(1/2)%R]].
Proof.
  split; [exact wx_valid|]. split; [exact pinv2_1|]. split; [exact pinv2_1|]. split; [apply wx_off; lra|]. split; [reflexivity|]. split; [reflexivity|].
  destruct (C77_one_input pinv2 wx 1 1 wx_valid pinv2_1 pinv2_1 ltac:(lra) (wx_off 1 ltac:(lra)) eq_refl) as (G & X & s & EG & EX & ES & HX & Hs).
  destruct (flat11_G 1 1 0 pinv2 pinv2_1) as (G' & EG' & H0). apply (proj2 (mapM1 _ _ _)) in EG'. unfold transfer_function_matrix in EG. change (flat 1 1 1 (c11 1) (c11 1) (c11 0) None) with wx in EG'. rewrite EG in EG'. injection EG' as <-.
  assert (G0 : cent G 0 0 = (0, -1)%R) by (rewrite H0; apply injective_projections; cbn; field).
  assert (EN : nrm2 1 (fun r => cent G r O) = 1%R). { unfold nrm2. rewrite rsum_S, rsum_0, G0. unfold Cmod. cbn [fst snd]. rewrite Rsqr_sqrt by lra. ring. }
  assert (EM : Cmod (0, -1)%R = 1%R). { unfold Cmod. cbn [fst snd]. replace (0 ^ 2 + (-1) ^ 2)%R with 1%R by ring. apply sqrt_1. }
  exists G, X. split; [exact EG|]. split; [exact G0|]. split; [exact EX|]. change (sNt wx) with 1%nat in *. split.
  - rewrite HX by lia. rewrite EN, G0, EM. f_equal; field.
  - rewrite ES. replace s with (1 / 2)%R; [reflexivity|]. rewrite Hs, EN. field.
Qed.
(** with C^T the identity and a control *)
Example C77_control_ex : let S := flat 1 1 1 (c11 1) (c11 1) (c11 0) (Some (@mk2 Rring 1 1 (c11 (-1)))) in
  valid S /\ pinv_ok pinv2 (sN S) /\ inv_ok inv2 (sNt S) /\ off_poles S 1 /\ sNt S = sN S /\ (forall i j, (i < sN S)%nat -> (j < sN S)%nat -> ent (aCT S) i j = if Nat.eqb i j then 1 else 0)%R.
Proof.
  intros S. split; [now apply flat_valid|]. split; [exact pinv2_1|]. split; [intros M HM; exists (pinv2 M); split; [reflexivity|now apply pinv2_1]|]. split; [apply flat_off; lra|]. split; [reflexivity|].
  intros i j Hi Hj. cbn in Hi, Hj. assert (i = O) by lia. assert (j = O) by lia. subst. reflexivity.
Qed.
(** two states, one observation: three frequencies at once give ValueError *)
Example C77_control_shape_ex : let S := flat 2 1 1 (c11 1) (c11 1) (c11 0) (Some (@mk2 Rring 2 1 (c11 (-1)))) in
  control_signal_transfer_function pinv2 inv2 S 1 [1%R; 2%R; 3%R] = Exn ValueError.
Proof.
  intros S. apply (C77_control_shape pinv2 inv2 S 1 1 [2%R; 3%R] (@mk2 Rring 2 1 (c11 (-1)))); [now apply flat_valid|exact pinv2_2|apply flat_off; lra|reflexivity|cbn; lia|cbn; lia].
Qed.

(** C76: in sinusoidal steady state the estimate W^T (mb - mf) of the two filters is the regularised least squares estimate of the
    input from what the outputs would be without the additional sources (the control) minus what they are. *)
Theorem C76_frequency_response : forall pinv S eta2 w Vf Vb WT u g x mf mb,
  valid S -> pinv_ok pinv (sN S) -> 0 < eta2 -> off_poles S w -> (forall r l, (r < sNt S)%nat -> (l < sL S)%nat -> ent (aD S) r l = 0%R) ->
  riccati_sol S eta2 1 Vf -> riccati_sol S eta2 (-1) Vb -> weights S Vf Vb WT -> invertible_sum (sN S) Vf Vb ->
  phasor S w u g x -> filter_phasor (sN S) (fwdA S eta2 Vf) w g mf -> filter_phasor (sN S) (bwdA S eta2 Vb) w g mb ->
  exists G, transfer_function_matrix pinv S false [w] = Ok [G] /\
    rls (sNt S) (sL S) (cent G) eta2 (fun r => cap (sL S) (cent G) u r - cap (sN S) (ce (aCT S)) x r) (estimate S WT mf mb).
Proof.
  intros pinv S eta2 w Vf Vb WT u g x mf mb V P He OP D0 QF QB HW HI Hx Hf Hb. destruct (tfm_ok pinv S w V P OP) as (G & EG & _ & _ & Ex & HG).
  exists G. split; [now apply mapM1|]. now apply (freq_response S eta2 w Vf Vb WT He QF QB HW HI D0 (cent G) Ex HG u g x mf mb).
Qed.
Print Assumptions C76_frequency_response.
(** C76: noise_transfer_function gives the magnitude of the estimate for a unit amplitude at one output. *)
Theorem C76_noise_response : forall pinv S eta2 w Vf Vb WT g x mf mb r,
  valid S -> pinv_ok pinv (sN S) -> pinv_ok pinv (sNt S) -> 0 < eta2 -> off_poles S w -> (forall r l, (r < sNt S)%nat -> (l < sL S)%nat -> ent (aD S) r l = 0%R) ->
  riccati_sol S eta2 1 Vf -> riccati_sol S eta2 (-1) Vb -> weights S Vf Vb WT -> invertible_sum (sN S) Vf Vb ->
  phasor S w none g x -> filter_phasor (sN S) (fwdA S eta2 Vf) w g mf -> filter_phasor (sN S) (bwdA S eta2 Vb) w g mb ->
  (r < sNt S)%nat -> (forall k, (k < sNt S)%nat -> cap (sN S) (ce (aCT S)) x k = unit r k) ->
  exists X, noise_transfer_function pinv S eta2 [w] = Ok [X] /\ forall l, (l < sL S)%nat -> cent X l r = RtoC (Cmod (estimate S WT mf mb l)).
Proof.
  intros pinv S eta2 w Vf Vb WT g x mf mb r V P PT He OP D0 QF QB HW HI Hx Hf Hb Hr Hy.
  destruct (C76_frequency_response pinv S eta2 w Vf Vb WT none g x mf mb V P He OP D0 QF QB HW HI Hx Hf Hb) as (G & EG & R). apply (proj1 (mapM1 _ _ _)) in EG.
  destruct (ntf_ok pinv S w V P OP eta2 He PT) as (G' & X & EG' & EX & _ & _ & Ex & HX). rewrite EG in EG'. apply Ok_inj in EG'. subst G'. exists X. split; [now apply mapM1|]. intros l Hl.
  destruct (Ex (unit r)) as (v & Hv). rewrite (HX r v Hr Hv l Hl). f_equal. assert (E : estimate S WT mf mb l = - v l).
  { apply (rls_unique _ _ _ _ _ _ (fun l => - v l) He R); [|exact Hl]. assert (Z : rls (sNt S) (sL S) (cent G) eta2 none none).
    { intros k _. unfold none at 1. rewrite !cap_zero by (intros; try apply cap_zero; intros; reflexivity). ring. }
    eapply rls_ext; [| |exact (rls_lin _ _ _ _ (- RtoC 1) _ _ _ _ Z Hv)]; [|intros; unfold none; ring].
    intros k Hk. rewrite Hy, (cap_zero (sL S)) by (try exact Hk; reflexivity). unfold none. ring. }
  rewrite E, Cmod_opp. reflexivity.
Qed.
Print Assumptions C76_noise_response.
(** C76: signal_transfer_function gives the estimate for a unit input while the control keeps the outputs at zero. *)
Theorem C76_signal_response : forall pinv S eta2 w Vf Vb WT g x mf mb l,
  valid S -> pinv_ok pinv (sN S) -> pinv_ok pinv (sNt S) -> 0 < eta2 -> off_poles S w -> (forall r l, (r < sNt S)%nat -> (l < sL S)%nat -> ent (aD S) r l = 0%R) ->
  riccati_sol S eta2 1 Vf -> riccati_sol S eta2 (-1) Vb -> weights S Vf Vb WT -> invertible_sum (sN S) Vf Vb ->
  phasor S w (unit l) g x -> filter_phasor (sN S) (fwdA S eta2 Vf) w g mf -> filter_phasor (sN S) (bwdA S eta2 Vb) w g mb ->
  (l < sL S)%nat -> (forall k, (k < sNt S)%nat -> cap (sN S) (ce (aCT S)) x k = RtoC 0) ->
  exists X, signal_transfer_function pinv S eta2 [w] = Ok [X] /\ estimate S WT mf mb l = RtoC (nth l X 0%R) /\ (0 <= nth l X 0 < 1)%R.
Proof.
  intros pinv S eta2 w Vf Vb WT g x mf mb l V P PT He OP D0 QF QB HW HI Hx Hf Hb Hl Hy.
  destruct (C76_frequency_response pinv S eta2 w Vf Vb WT (unit l) g x mf mb V P He OP D0 QF QB HW HI Hx Hf Hb) as (G & EG & R). apply (proj1 (mapM1 _ _ _)) in EG.
  destruct (stf_ok pinv S w V P OP eta2 He PT) as (G' & X & EG' & EX & _ & _ & HX). rewrite EG in EG'. apply Ok_inj in EG'. subst G'. exists X. split; [now apply mapM1|].
  apply (HX l _ Hl). eapply rls_ext; [| |exact R]; [|reflexivity]. intros k Hk. cbn beta. rewrite Hy, cap_unit by assumption. ring.
Qed.
Print Assumptions C76_signal_response.

Definition half11 : rmat := @mk2 Rring 1 1 (c11 (1/2)).
Lemma w_ric d g sg : riccati_sol (flat 1 1 1 (c11 1) (c11 1) d g) 1 sg (c11 1).
Proof.
  split; [reflexivity|]. intros i j Hi Hj. unfold obsK. change (sN (flat 1 1 1 (c11 1) (c11 1) d g)) with 1%nat. change (sL (flat 1 1 1 (c11 1) (c11 1) d g)) with 1%nat. change (sNt (flat 1 1 1 (c11 1) (c11 1) d g)) with 1%nat.
  rewrite !rsum_S, !rsum_0. cbn. unfold c11. field.
Qed.
Lemma w_wt d g : weights (flat 1 1 1 (c11 1) (c11 1) d g) (c11 1) (c11 1) half11.
Proof. split; [reflexivity|]. split; [reflexivity|]. intros i l _ _. change (sN (flat 1 1 1 (c11 1) (c11 1) d g)) with 1%nat. rewrite rsum_S, rsum_0. cbn. unfold c11. field. Qed.
Lemma w_inv : invertible_sum 1 (c11 1) (c11 1).
Proof. exists (c11 (1/2)). intros i j Hi Hj. rewrite rsum_S, rsum_0. assert (i = O) by lia. assert (j = O) by lia. subst. cbn. unfold c11. field. Qed.
Lemma w_filt F g z (f : R) : (forall i j, F i j = f) -> (0, 1)%R * z O = RtoC f * z O + g O -> filter_phasor 1 F 1 g z.
Proof. intros EF H i Hi. assert (i = O) by lia. subst i. unfold cap. now rewrite csum1, EF. Qed.
Lemma w_fwd d g i j : fwdA (flat 1 1 1 (c11 1) (c11 1) d g) 1 (c11 1) i j = (-1)%R.
Proof. unfold fwdA, obsK. change (sN (flat 1 1 1 (c11 1) (c11 1) d g)) with 1%nat. change (sNt (flat 1 1 1 (c11 1) (c11 1) d g)) with 1%nat. rewrite !rsum_S, !rsum_0. cbn. unfold c11. field. Qed.
Lemma w_bwd d g i j : bwdA (flat 1 1 1 (c11 1) (c11 1) d g) 1 (c11 1) i j = 1%R.
Proof. unfold bwdA, obsK. change (sN (flat 1 1 1 (c11 1) (c11 1) d g)) with 1%nat. change (sNt (flat 1 1 1 (c11 1) (c11 1) d g)) with 1%nat. rewrite !rsum_S, !rsum_0. cbn. unfold c11. field. Qed.
Ltac cfield := apply injective_projections; cbn; field.
(** a unit input cancelled by the control: the estimate is 1/2 *)
Example C76_signal_ex : let g := (fun _ : nat => RtoC (-1)) in let mf := (fun _ : nat => (-1/2, 1/2)%R) in let mb := (fun _ : nat => (1/2, 1/2)%R) in
  riccati_sol wx 1 1 (c11 1) /\ riccati_sol wx 1 (-1) (c11 1) /\ weights wx (c11 1) (c11 1) half11 /\ invertible_sum (sN wx) (c11 1) (c11 1) /\
  phasor wx 1 (unit 0) g none /\ filter_phasor (sN wx) (fwdA wx 1 (c11 1)) 1 g mf /\ filter_phasor (sN wx) (bwdA wx 1 (c11 1)) 1 g mb /\
  (forall k, (k < sNt wx)%nat -> cap (sN wx) (ce (aCT wx)) none k = RtoC 0) /\ estimate wx half11 mf mb 0 = RtoC (1/2).
Proof.
  intros g mf mb. split; [apply w_ric|]. split; [apply w_ric|]. split; [apply w_wt|]. split; [apply w_inv|]. split.
  { apply flat_phasor; [lra|]. intros i Hi. rewrite cap_unit by lia. unfold none, g, c11. cfield. }
  split; [apply (w_filt _ _ _ (-1)); [apply w_fwd|]; unfold g, mf; cfield|]. split; [apply (w_filt _ _ _ 1); [apply w_bwd|]; unfold g, mb; cfield|].
  split; [intros; now apply cap_zero|]. unfold estimate, cap. change (sN wx) with 1%nat. rewrite csum1. unfold mf, mb, ce, half11, c11. cfield.
Qed.
(** a source that produces a unit amplitude at the output: the estimate is -i/2 *)
Example C76_noise_ex : let g := (fun _ : nat => (0, 1)%R) in let mf := (fun _ : nat => (1/2, 1/2)%R) in let mb := (fun _ : nat => (1/2, -1/2)%R) in
  phasor wx 1 none g (unit 0) /\ filter_phasor (sN wx) (fwdA wx 1 (c11 1)) 1 g mf /\ filter_phasor (sN wx) (bwdA wx 1 (c11 1)) 1 g mb /\
  (forall k, (k < sNt wx)%nat -> cap (sN wx) (ce (aCT wx)) (unit 0) k = unit 0 k) /\ estimate wx half11 mf mb 0 = (0, -1/2)%R.
Proof.
  intros g mf mb. split.
  { apply flat_phasor; [lra|]. intros i Hi. rewrite (cap_zero 1) by reflexivity. assert (i = O) by lia. subst i. unfold unit, g. cbn [Nat.eqb]. cfield. }
  split; [apply (w_filt _ _ _ (-1)); [apply w_fwd|]; unfold g, mf; cfield|]. split; [apply (w_filt _ _ _ 1); [apply w_bwd|]; unfold g, mb; cfield|].
  split; [intros k Hk; assert (k = O) by (cbn in Hk; lia); subst k; rewrite cap_unit by (cbn; lia); reflexivity|]. unfold estimate, cap. change (sN wx) with 1%nat. rewrite csum1. unfold mf, mb, ce, half11, c11. cfield.
Qed.
(** C76: with a direct term D the reported noise transfer function is not that of the estimator (which ignores D). *)
Theorem C76_direct_term_refuted : exists pinv S eta2 w Vf Vb WT g x mf mb X,
  valid S /\ pinv_ok pinv (sN S) /\ pinv_ok pinv (sNt S) /\ (0 < eta2)%R /\ off_poles S w /\
  riccati_sol S eta2 1 Vf /\ riccati_sol S eta2 (-1) Vb /\ weights S Vf Vb WT /\ invertible_sum (sN S) Vf Vb /\
  phasor S w none g x /\ filter_phasor (sN S) (fwdA S eta2 Vf) w g mf /\ filter_phasor (sN S) (bwdA S eta2 Vb) w g mb /\
  sNt S = 1%nat /\ sL S = 1%nat /\ (forall k, (k < sNt S)%nat -> outp S none x k = unit 0 k) /\
  noise_transfer_function pinv S eta2 [w] = Ok [X] /\ cent X 0 0 <> RtoC (Cmod (estimate S WT mf mb 0)).
Proof.
  set (S := flat 1 1 1 (c11 1) (c11 1) (c11 1) None). assert (H1 : (1 <> 0)%R) by lra. assert (V : valid S) by (apply flat_valid; exact Logic.I). assert (OP : off_poles S 1) by (apply flat_off; exact H1).
  destruct (ntf_one pinv2 S 1 1 V pinv2_1 pinv2_1 OP ltac:(lra) eq_refl) as (G & X & EG & EX & HX). destruct (flat11_G 1 1 1 pinv2 pinv2_1) as (G' & EG' & HG). fold S in EG'. rewrite EG in EG'. apply Ok_inj in EG'. subst G'.
  destruct (tfm_ok pinv2 S 1 V pinv2_1 OP) as (G' & EG' & GR & _). rewrite EG in EG'. apply Ok_inj in EG'. subst G'.
  assert (G0 : cent G 0 0 = (1, -1)%R) by (rewrite HG; cfield).
  exists pinv2, S, 1%R, 1%R, (c11 1), (c11 1), half11, (fun _ => (0, 1)%R), (unit 0), (fun _ => (1/2, 1/2)%R), (fun _ => (1/2, -1/2)%R), X.
  split; [exact V|]. split; [exact pinv2_1|]. split; [exact pinv2_1|]. split; [lra|]. split; [exact OP|]. split; [apply w_ric|]. split; [apply w_ric|]. split; [apply w_wt|]. split; [apply w_inv|]. split.
  { apply flat_phasor; [lra|]. intros i Hi. rewrite (cap_zero 1) by reflexivity. assert (i = O) by lia. subst i. unfold unit. cbn [Nat.eqb]. cfield. }
  split; [apply (w_filt _ _ _ (-1)); [apply w_fwd|]; cfield|]. split; [apply (w_filt _ _ _ 1); [apply w_bwd|]; cfield|]. split; [reflexivity|]. split; [reflexivity|]. split.
  { intros k Hk. assert (k = O) by (cbn in Hk; lia). subst k. unfold outp. rewrite cap_unit by (cbn; lia). rewrite (cap_zero (sL S)) by reflexivity. unfold ce. cbn. unfold c11. cfield. }
  split; [now apply mapM1|]. rewrite HX by (cbn; lia). unfold gain2. rewrite GR. change (sNt S) with 1%nat. unfold nrm2. rewrite rsum_S, rsum_0, G0.
  assert (E1 : estimate S half11 (fun _ => (1/2, 1/2)%R) (fun _ => (1/2, -1/2)%R) 0 = (0, -1/2)%R) by (unfold estimate, cap; change (sN S) with 1%nat; rewrite csum1; unfold ce, half11, c11; cfield).
  rewrite E1. intros Z. apply RtoC_eq in Z. assert (S2 : Rsqr (Cmod (1, -1)%R) = 2%R) by (unfold Cmod; cbn [fst snd]; rewrite Rsqr_sqrt by lra; ring).
  assert (S3 : Rsqr (Cmod (0, -1/2)%R) = (1/4)%R) by (unfold Cmod; cbn [fst snd]; rewrite Rsqr_sqrt by nra; field). apply (f_equal Rsqr) in Z. rewrite S3, Rsqr_div' in Z.
  rewrite S2 in Z. unfold Rsqr in Z. lra.
Qed.
Print Assumptions C76_direct_term_refuted.
