(** Property theorems C104: the solvers of the Riccati equation that work with eigenvectors (_filter_coefficients.py).
    Vocabulary (RiccatiProofs.v, RiccatiDecay.v), independent of the model:
    [care_eq A B Q Rm X]: X is symmetric and A^T X + X A + Q - X B Rm^-1 B^T X = 0;
    [stable n M]: every eigenvalue of M has a negative real part; [diag_stable]: M is moreover similar to a diagonal matrix;
    [stabilising A B Q Rm X]: X solves the equation, A - B Rm^-1 B^T X is stable (and so is its transpose, which is moreover similar to a
    diagonal matrix) and X is the only solution for which that is so;
    [exact_rinv], [exact_cinv]: a routine that returns inverses if it returns; [exact_pinv]: inverses of the matrices that have one;
    [eigenbasis Z P lam]: the columns of P are eigenvectors of Z with the eigenvalues lam; [exact_diag]: a routine that returns such;
    [forgets n M]: |M^k x| <= K rho^k |x| for some K and some rho < 1. *)
From Coq Require Import List Arith Lia Bool Reals Lra.
From Flocq Require Import Core.
From Coquelicot Require Import Complex.
From Verif Require Import Base LinAlg FirExtras AnalogSystem AnalogProofs Signals DigitalControl Simulator Integrators IntegratorsProofs LinearOde Zpk CplxLin FilterCoeff FilterCoeffProofs FilterOde FilterExample
  Riccati RiccatiAlg RiccatiProofs RiccatiFilter RiccatiDecay RiccatiExample.
Import ListNotations.
Open Scope R_scope.

(** C104: when the eigenvalues sympy puts first are the stable ones, [_analytical_care] returns the stabilising solution. *)
Theorem C104_analytic : forall rinv diagonalize cinv A B Q Rm X,
  exact_rinv rinv -> exact_diag diagonalize -> exact_cinv cinv -> rows A = cols A -> symmetric_mat Q -> symmetric_mat Rm ->
  analytical_care rinv diagonalize cinv A B Q Rm = Ok X ->
  (forall Z P D, hamiltonian rinv A B Q Rm = Ok Z -> diagonalize (cof Z) = Ok (P, D) -> forall k, (k < rows A)%nat -> fst (ent D k k) < 0) ->
  stabilising A B Q Rm X.
Proof. intros rinv diagonalize cinv A B Q Rm X EI ED EC Sq SyQ SyR H St. exact (analytic rinv EI A B Q Rm Sq SyQ SyR diagonalize cinv X EC ED H St). Qed.
Print Assumptions C104_analytic.
(** the scalar equation 6 x + 16 - x^2 = 0 has the solutions 8 and -2; 8 is returned *)
Example C104_analytic_ex : exact_rinv inv1 /\ exact_diag (diag2 (-1)) /\ exact_cinv cinv1 /\
  (exists X, analytical_care inv1 (diag2 (-1)) cinv1 (s11 3) (s11 1) (s11 16) (s11 1) = Ok X /\ ent X O O = 8) /\
  forall Z P D, hamiltonian inv1 (s11 3) (s11 1) (s11 16) (s11 1) = Ok Z -> diag2 (-1) (cof Z) = Ok (P, D) -> forall k, (k < 1)%nat -> fst (ent D k k) < 0.
Proof.
  split; [exact inv1_exact|]. split; [exact (diag2_exact (-1))|]. split; [exact cinv1_exact|].
  assert (S5 : sqrt (3 * 3 + 1 * / 1 * 1 * 16) = 5) by (replace (3 * 3 + 1 * / 1 * 1 * 16) with (5 * 5) by lra; apply sqrt_square; lra).
  split.
  - destruct (care2 (-1) 3 1 16 1 ltac:(lra) ltac:(lra) ltac:(lra)) as (X & H & _ & _ & E). exists X. split; [exact H|]. rewrite E, root_pos, S5 by lra. lra.
  - intros Z P D HZ HD k Hk. rewrite (idx1 k Hk). destruct (ham1 3 1 16 1 ltac:(lra)) as (Z' & HZ' & RZ & E00 & E01 & E10 & E11). rewrite HZ in HZ'. apply Ok_inj in HZ'. subst Z'.
    unfold diag2 in HD. cbn [cof rows ent RtoC fst snd] in HD. rewrite RZ, E00, E01, E10, E11, !Ropp_involutive in HD. cbn [Nat.eqb andb] in HD.
    rewrite !(Req_bool_true 0 0), (Req_bool_true (-(3)) (-(3))), (Req_bool_true (-1 * -1) 1), (Req_bool_false (1 * / 1 * 1) 0) in HD by lra. cbn [andb negb] in HD. apply Ok_inj in HD. injection HD as _ <-.
    cbn [ent Nat.eqb]. unfold Cmult, RtoC. cbn [fst snd]. rewrite root_pos, S5 by lra. lra.
Qed.

(** C104: without that [_analytical_care] returns a matrix even if the equation has no solution: x^2 = -1. *)
Theorem C104_unsolvable_refuted : exists rinv diagonalize cinv A B Q Rm X,
  exact_rinv rinv /\ exact_diag diagonalize /\ exact_cinv cinv /\ rows A = cols A /\ symmetric_mat Q /\ symmetric_mat Rm /\
  analytical_care rinv diagonalize cinv A B Q Rm = Ok X /\ ~ exists Y, care_eq A B Q Rm Y.
Proof.
  destruct (care2 (-1) 0 1 (-1) 1 ltac:(lra) ltac:(lra) ltac:(lra)) as (X & H & _). exists inv1, (diag2 (-1)), cinv1, (s11 0), (s11 1), (s11 (-1)), (s11 1), X.
  split; [exact inv1_exact|]. split; [exact (diag2_exact (-1))|]. split; [exact cinv1_exact|]. split; [reflexivity|]. split; [apply sym_s11|]. split; [apply sym_s11|]. split; [exact H|].
  intros (Y & RY & CY & SY & EY). assert (IR : is_inverse (s11 1) (s11 1)).
  { split; [reflexivity|]. split; [reflexivity|]. cbn [s11 rows cols]. intros i j Hi Hj. rewrite (idx1 i Hi), (idx1 j Hj), rsum1. cbn. ring. }
  specialize (EY _ IR O O ltac:(cbn; lia) ltac:(cbn; lia)). cbn [s11 rows cols ent] in EY. rewrite !rsum1 in EY. set (y := ent Y O O) in EY. change R in (type of y). clearbody y. nra.
Qed.
Print Assumptions C104_unsolvable_refuted.

(** C104: and if the unstable eigenvalue comes first it returns a solution that does not stabilise: -1 instead of 1 for x^2 = 1. *)
Theorem C104_order_refuted : exists rinv diagonalize cinv A B Q Rm X,
  exact_rinv rinv /\ exact_diag diagonalize /\ exact_cinv cinv /\ rows A = cols A /\ symmetric_mat Q /\ symmetric_mat Rm /\
  analytical_care rinv diagonalize cinv A B Q Rm = Ok X /\ (exists Y, stabilising A B Q Rm Y) /\ ~ stabilising A B Q Rm X.
Proof.
  destruct (care2 1 0 1 1 1 ltac:(lra) ltac:(lra) ltac:(lra)) as (X & H & RX & CX & E). exists inv1, (diag2 1), cinv1, (s11 0), (s11 1), (s11 1), (s11 1), X.
  split; [exact inv1_exact|]. split; [exact (diag2_exact 1)|]. split; [exact cinv1_exact|]. split; [reflexivity|]. split; [apply sym_s11|]. split; [apply sym_s11|]. split; [exact H|].
  rewrite root_pos in E by lra. replace (0 * 0 + 1 * / 1 * 1 * 1) with 1 in E by lra. rewrite sqrt_1 in E. replace ((0 - 1 * 1) / (1 * / 1 * 1)) with (-1) in E by field.
  split.
  - exists (s11 1). apply care1_stab. unfold care1, scalar. cbn [s11 rows cols ent Nat.eqb andb bind]. now rewrite !Req_bool_true by reflexivity.
  - intros (_ & Ri & (RR & CR & IR) & _ & S1 & _). apply stable1 in S1; [|reflexivity]. unfold closed_loop in S1. cbn [s11 rows cols ent] in S1. rewrite !rsum1, E in S1.
    specialize (IR O O ltac:(cbn; lia) ltac:(cbn; lia)). cbn [s11 rows cols ent] in IR. rewrite rsum1 in IR. cbn in IR. set (y := ent Ri O O) in *. change R in (type of y). clearbody y. lra.
Qed.
Print Assumptions C104_order_refuted.

(** C104: [_numpy_care] sorts the eigenvalues itself and returns the stabilising solution when as many of them as there are states are stable
    and the upper block of their eigenvectors is invertible. *)
Theorem C104_numpy : forall rinv eig pinv A B Q Rm X,
  exact_rinv rinv -> exact_pinv pinv -> rows A = cols A -> symmetric_mat Q -> symmetric_mat Rm ->
  (forall Z W V, eig Z = Ok (W, V) -> length W = rows Z /\ eigenbasis (cof Z) V (fun j => nth j W (RtoC 0))) ->
  numpy_care rinv eig pinv A B Q Rm = Ok X ->
  (forall Z W V, hamiltonian rinv A B Q Rm = Ok Z -> eig Z = Ok (W, V) -> length (filter (fun w => Rlt_bool (fst w) 0) W) = rows A /\
    exists Y, is_cinverse (mk2 (K := Cring) (rows A) (rows A) (fun i j => ent V i (nth j (argsort W) O))) Y) ->
  stabilising A B Q Rm X.
Proof. intros rinv eig pinv A B Q Rm X EI EP Sq SyQ SyR EE H St. exact (numpy rinv EI A B Q Rm Sq SyQ SyR eig pinv X EP EE H St). Qed.
Print Assumptions C104_numpy.
Definition eig2 (sg : R) (Z : rmat) : result (list C * cmat) := bind (diag2 sg (cof Z)) (fun '(P, D) => Ok ([ent D O O; ent D 1%nat 1%nat], P)).
(** here the unstable eigenvalue comes first *)
Example C104_numpy_ex : exact_pinv cinv1 /\ (forall Z W V, eig2 1 Z = Ok (W, V) -> length W = rows Z /\ eigenbasis (cof Z) V (fun j => nth j W (RtoC 0))) /\
  (exists X, numpy_care inv1 (eig2 1) cinv1 (s11 0) (s11 1) (s11 1) (s11 1) = Ok X) /\
  forall Z W V, hamiltonian inv1 (s11 0) (s11 1) (s11 1) (s11 1) = Ok Z -> eig2 1 Z = Ok (W, V) -> length (filter (fun w => Rlt_bool (fst w) 0) W) = 1%nat /\
    exists Y, is_cinverse (mk2 (K := Cring) 1 1 (fun i j => ent V i (nth j (argsort W) O))) Y.
Proof.
  assert (S1 : fst (root (0 * 0 + 1 * / 1 * 1 * 1)) = 1) by (rewrite root_pos by lra; replace (0 * 0 + 1 * / 1 * 1 * 1) with 1 by lra; apply sqrt_1).
  assert (HD : forall Z, hamiltonian inv1 (s11 0) (s11 1) (s11 1) (s11 1) = Ok Z -> exists P x y, eig2 1 Z = Ok ([x; y], P) /\ fst x = 1 /\ fst y = -1 /\ rows P = 2%nat /\ cols P = 2%nat /\ (forall j, ent P O j = RtoC 1)).
  { intros Z HZ. destruct (ham1 0 1 1 1 ltac:(lra)) as (Z' & HZ' & RZ & E00 & E01 & E10 & E11). rewrite HZ in HZ'. apply Ok_inj in HZ'. subst Z'.
    unfold eig2, diag2. cbn [cof rows ent RtoC fst snd]. rewrite RZ, E00, E01, E10, E11, !Ropp_involutive. cbn [Nat.eqb andb].
    rewrite !(Req_bool_true 0 0), (Req_bool_true (-0) (-0)), (Req_bool_true (1 * 1) 1), (Req_bool_false (1 * / 1 * 1) 0) by lra. cbn [andb negb bind ent Nat.eqb].
    eexists _, _, _. split; [reflexivity|]. set (l := root (0 * 0 + 1 * / 1 * 1 * 1)) in *. split; [unfold Cmult, RtoC; cbn [fst snd]; rewrite S1; lra|]. split; [unfold Cmult, RtoC; cbn [fst snd]; rewrite S1; lra|].
    split; [reflexivity|]. split; [reflexivity|]. intros j. cbn [ent Nat.eqb]. f_equal. lra. }
  split; [intros M X _; apply cinv1_inv|]. split; [|split].
  - intros Z W V H. apply bind_Ok in H as ([P D] & HD' & H). apply Ok_inj in H. injection H as <- <-. pose proof (diag2_exact 1 _ _ _ HD') as (RP & CP & EV).
    assert (RZ : rows Z = 2%nat) by (unfold diag2 in HD'; cbn [cof rows] in HD'; destruct (Nat.eqb_spec (rows Z) 2) as [E|]; [exact E|discriminate]).
    split; [now rewrite RZ|]. split; [exact RP|]. split; [exact CP|]. intros i j Hi Hj. rewrite EV by assumption. cbn [cof rows] in Hj. rewrite RZ in Hj. destruct j as [|[|j]]; [reflexivity|reflexivity|lia].
  - destruct (ham1 0 1 1 1 ltac:(lra)) as (Z & HZ & _). destruct (HD Z HZ) as (P & x & y & HE & Hx & Hy & RP & CP & EP). unfold numpy_care. rewrite HZ. cbn [bind]. rewrite HE. cbn [bind].
    unfold graph_of, cinv1. cbn [slice rows cols ent Nat.sub Nat.add Nat.eqb andb s11]. rewrite EP. unfold czero. cbn [RtoC fst snd]. rewrite (Req_bool_false 1) by lra. cbn [andb negb bind]. unfold dotm. cbn [slice rows cols Nat.sub Nat.eqb c11 bind]. eexists. reflexivity.
  - intros Z W V HZ HE. destruct (HD Z HZ) as (P & x & y & HE' & Hx & Hy & RP & CP & EP). rewrite HE in HE'. apply Ok_inj in HE'. injection HE' as -> ->. split.
    + cbn [filter]. rewrite Hx, Hy, Rlt_bool_false, Rlt_bool_true by lra. reflexivity.
    + exists (c11 (RtoC 1)). split; [reflexivity|]. split; [reflexivity|]. split; [reflexivity|]. split; intros i j Hi Hj; cbn [rows] in Hi, Hj; rewrite (idx1 i Hi), (idx1 j Hj); unfold cmul; cbn [rows ent c11]; rewrite csum1, EP; cbn; ring.
Qed.

(** C104: then both filters of the estimators are stable, the backward one in reverse time. *)
Theorem C104_filters_stable : forall rinv diagonalize cinv S eta2 Rm Vf Vb,
  exact_rinv rinv -> exact_diag diagonalize -> exact_cinv cinv -> valid S -> eta2 <> 0 ->
  riccati (analytical_care rinv diagonalize cinv) S eta2 = Ok (Rm, Vf, Vb) ->
  (forall A Q Z P D, A = tr (aA S) \/ A = oppm (tr (aA S)) -> dotm (aB S) (tr (aB S)) = Ok Q ->
    hamiltonian rinv A (tr (aCT S)) Q (scalem eta2 (eye2 (K := Rring) (sNt S) (sNt S))) = Ok Z -> diagonalize (cof Z) = Ok (P, D) -> forall k, (k < sN S)%nat -> fst (ent D k k) < 0) ->
  stable (sN S) (fwdA S eta2 (ent Vf)) /\ stable (sN S) (fun i j => - bwdA S eta2 (ent Vb) i j).
Proof.
  intros rinv diagonalize cinv S eta2 Rm Vf Vb EI ED EC V He H St.
  destruct (filters_stable2 _ S eta2 Rm Vf Vb V He H) as [[H1 _] [H2 _]]; [|now split].
  intros A Q X HA Sq EQ SyQ SyR HX. apply (analytic rinv EI A _ Q _ Sq SyQ SyR diagonalize cinv X EC ED HX). intros Z P D HZ HD k Hk. apply (St A Q Z P D HA EQ HZ HD).
  destruct HA as [-> | ->]; cbn in Hk; rewrite (v_A _ V) in Hk; exact Hk.
Qed.
Print Assumptions C104_filters_stable.
Lemma stable_first (A B Q Rm : rmat) Z P D : mat11 A -> mat11 B -> mat11 Q -> mat11 Rm -> let a := ent A O O in let b := ent B O O in let q := ent Q O O in let r := ent Rm O O in
  r <> 0 -> b * / r * b <> 0 -> 0 < a * a + b * / r * b * q -> hamiltonian inv1 A B Q Rm = Ok Z -> diag2 (-1) (cof Z) = Ok (P, D) -> fst (ent D O O) < 0.
Proof.
  intros HA HB HQ HR a b q r Hr Hg Hd HZ HD. destruct (ham1g A B Q Rm HA HB HQ HR Hr) as (Z' & HZ' & RZ & E00 & E01 & E10 & E11). rewrite HZ in HZ'. apply Ok_inj in HZ'. subst Z'. fold a b q r in E00, E01, E10, E11. clearbody a b q r.
  unfold diag2 in HD. cbn [cof rows ent RtoC fst snd] in HD. rewrite RZ, E00, E01, E10, E11, !Ropp_involutive in HD. cbn [Nat.eqb andb] in HD.
  rewrite !(Req_bool_true 0 0), (Req_bool_true (-a) (-a)), (Req_bool_true (-1 * -1) 1), (Req_bool_false (b * / r * b) 0) in HD by (lra || exact Hg). cbn [andb negb] in HD. apply Ok_inj in HD. injection HD as _ <-.
  cbn [ent Nat.eqb]. unfold Cmult, RtoC. cbn [fst snd]. rewrite root_pos by lra. assert (0 < sqrt (a * a + b * / r * b * q)) by now apply sqrt_lt_R0. lra.
Qed.
Example C104_filters_ex : valid integ /\ (exists Rm Vf Vb, riccati (analytical_care inv1 (diag2 (-1)) cinv1) integ 1 = Ok (Rm, Vf, Vb) /\ ent Vf O O = 1 /\ ent Vb O O = 1) /\
  forall A Q Z P D, A = tr (aA integ) \/ A = oppm (tr (aA integ)) -> dotm (aB integ) (tr (aB integ)) = Ok Q ->
    hamiltonian inv1 A (tr (aCT integ)) Q (scalem 1 (eye2 (K := Rring) (sNt integ) (sNt integ))) = Ok Z -> diag2 (-1) (cof Z) = Ok (P, D) -> forall k, (k < sN integ)%nat -> fst (ent D k k) < 0.
Proof.
  assert (M1 : mat11 (tr (aA integ)) /\ mat11 (oppm (tr (aA integ))) /\ mat11 (tr (aCT integ)) /\ mat11 (scalem 1 (eye2 (K := Rring) (sNt integ) (sNt integ)))) by (repeat split).
  destruct M1 as (M1 & M2 & M3 & M4). assert (EQ : dotm (aB integ) (tr (aB integ)) = Ok (s11 (0 + 1 * 1))) by reflexivity. assert (M5 : mat11 (s11 (0 + 1 * 1))) by (split; reflexivity).
  assert (R1 : ent (scalem 1 (eye2 (K := Rring) (sNt integ) (sNt integ))) O O = 1) by (cbn; ring).
  split; [exact valid_integ|]. split.
  - unfold riccati. rewrite EQ. cbn [bind]. unfold care.
    destruct (care2g (-1) _ _ _ _ M1 M3 M5 M4) as (X & HX & RX & CX & EX); [rewrite R1; lra|cbn; lra|lra|].
    destruct (care2g (-1) _ _ _ _ M2 M3 M5 M4) as (Y & HY & RY & CY & EY); [rewrite R1; lra|cbn; lra|lra|].
    rewrite R1 in EX, EY. cbn [s11 ent tr integ aA aCT oppm mapm] in EX, EY.
    rewrite HX. cbn [bind]. destruct (sym1 X RX CX) as (X' & HX' & _ & _ & EX'). unfold sym in HX'. rewrite HX'. cbn [bind]. rewrite HY. cbn [bind]. destruct (sym1 Y RY CY) as (Y' & HY' & _ & _ & EY'). unfold sym in HY'. rewrite HY'. cbn [bind].
    eexists _, _, _. split; [reflexivity|]. rewrite EX', EY', EX, EY.
    assert (S1 : forall x, x = 1 -> fst (root x) = 1) by (intros x ->; rewrite root_pos by lra; apply sqrt_1). rewrite !S1 by (cbn; field). split; cbn; field.
  - intros A Q Z P D HA HQ HZ HD k Hk. cbn in Hk. rewrite (idx1 k Hk). rewrite EQ in HQ. apply Ok_inj in HQ. subst Q.
    destruct HA as [-> | ->]; (eapply (stable_first _ _ _ _ Z P D); [| | | | | | |exact HZ|exact HD]; auto; rewrite ?R1; cbn [s11 ent tr integ aA aCT oppm mapm]; lra).
Qed.

(** C104: and their coefficients forget: what a state contributes k periods later is bounded by K rho^k, rho < 1. *)
Theorem C104_forgets : forall care_raw inv solve ivp expm S d eta2 Af Ab Bf Bb WT,
  sound S d care_raw inv solve ivp expm ->
  (forall A B Q Rm X, rows A = cols A -> symmetric_mat Q -> symmetric_mat Rm -> care_raw A B Q Rm = Ok X -> stabilising A B Q Rm X) ->
  fits S d -> eta2 <> 0 -> 0 < ck_T (d_clk d) ->
  coefficients care_raw inv solve ivp expm S d eta2 BNumpy false = Ok (Af, Ab, Bf, Bb, WT) ->
  forgets (sN S) (ent Af) /\ forgets (sN S) (ent Ab).
Proof.
  intros care_raw inv solve ivp expm S d eta2 Af Ab Bf Bb WT SO ST Fi He HT H.
  destruct (numpy_good_with care_raw inv solve ivp expm S d SO eta2 Af Ab Bf Bb WT Fi He ltac:(lra) H) as (Rm & Vf & Vb & HR & _ & _ & _ & HF & HB).
  destruct (filters_stable care_raw S eta2 Rm Vf Vb (fi_valid _ _ Fi) He HR ST) as [[_ D1] [_ D2]].
  split; [exact (fwd_forgets S d _ Af Bf HT HF D1)|exact (bwd_forgets S d _ Ab Bb HT HB D2)].
Qed.
Print Assumptions C104_forgets.
Example C104_forgets_ex : sound integ (one_wave (WStep 0 1)) care1 inv1 solve1 ivp_step expm1 /\
  (forall A B Q Rm X, rows A = cols A -> symmetric_mat Q -> symmetric_mat Rm -> care1 A B Q Rm = Ok X -> stabilising A B Q Rm X) /\ fits integ (one_wave (WStep 0 1)) /\
  exists Af Ab Bf Bb WT, coefficients care1 inv1 solve1 ivp_step expm1 integ (one_wave (WStep 0 1)) 1 BNumpy false = Ok (Af, Ab, Bf, Bb, WT) /\ ent Af 0 0 = exp (-1).
Proof.
  split; [apply sound_step; now left|]. split; [intros A B Q Rm X _ _ _; apply care1_stab|]. split; [apply fits_integ; exact I|]. destruct step_numpy as (Af & Ab & Bf & Bb & WT & E & H1 & _).
  exists Af, Ab, Bf, Bb, WT. split; [exact E|apply H1].
Qed.
