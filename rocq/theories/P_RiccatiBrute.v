(** Property theorems C105: the brute force iteration for the Riccati equation and the choice between the solvers (_filter_coefficients.py).
    Vocabulary (RiccatiBrute.v), independent of the model:
    [residual A B Q Ri V] = A^T V + V^T A + Q - V B R^-1 B^T V^T, zero for a solution; [half f]: its symmetric part;
    [follows tau A B Q Ri V V']: V' is the symmetric part of V + tau residual V; [iterates]: V0, V1, ... with tau shrinking by one per cent;
    [close rtol atol a b]: |a - b| <= atol + rtol |b|, entry by entry; [fit]: the shapes agree; [symm n V]: V is symmetric. *)
From Coq Require Import List Arith Lia Bool Reals Lra.
From Flocq Require Import Core.
From Coquelicot Require Import Complex.
From Verif Require Import Base LinAlg FirExtras AnalogSystem AnalogProofs Signals DigitalControl Simulator Integrators IntegratorsProofs LinearOde Zpk CplxLin FilterCoeff FilterCoeffProofs FilterOde FilterExample
  Riccati RiccatiAlg RiccatiProofs RiccatiFilter RiccatiDecay RiccatiExample RiccatiBrute.
Import ListNotations.
Open Scope R_scope.

(** C105: what [bruteForceCare] returns is the first iterate that is close to the one before, so it is symmetric, and the residual of the iterate
    before is small only relative to the step, which has shrunk; it starts from [_numpy_care]. *)
Theorem C105_result : forall rinv eig pinv fuel late tau rtol atol A B Q Rm X,
  rows A = cols A -> 0 <= tau -> brute_care rinv eig pinv fuel late tau rtol atol A B Q Rm = Some (Ok X) ->
  exists V0 Ri, numpy_care rinv eig pinv A B Q Rm = Ok V0 /\ rinv Rm = Ok Ri /\
    ((X = V0 /\ close rtol atol V0 (full (rows V0) (cols V0) (10 ^ 300))) \/
     exists k Vs, iterates tau A B Q Ri V0 (S k) Vs /\ X = Vs (S k) /\ symm (rows A) X /\ close rtol atol X (Vs k) /\
       (forall j, (j <= k)%nat -> late j = false) /\ (forall j, (j < k)%nat -> ~ close rtol atol (Vs (S j)) (Vs j)) /\
       (symm (rows A) V0 \/ (0 < k)%nat -> forall i l, (i < rows A)%nat -> (l < rows A)%nat ->
         tau * (99 / 100) ^ k * Rabs (half (residual A B Q Ri (Vs k)) i l) <= atol + rtol * Rabs (ent (Vs k) i l))).
Proof.
  intros rinv eig pinv fuel late tau rtol atol A B Q Rm X Sq HT H. unfold brute_care in H. destruct (numpy_care rinv eig pinv A B Q Rm) as [V0|e]; [|discriminate]. destruct (rinv Rm) as [Ri|e]; [|discriminate].
  exists V0, Ri. do 2 (split; [reflexivity|]). destruct (loop_Ok A B Q Ri rtol atol late Sq fuel 0 tau V0 _ X H) as ([|k] & Vs & I & HX & HL & H0 & HP & HS & HN).
  - left. rewrite HX, (proj1 I). split; [reflexivity|now apply H0].
  - right. exists k, Vs. split; [exact I|]. split; [exact HX|]. split; [rewrite HX; apply (iterates_symm _ _ _ _ _ _ _ _ _ I); [lia|right; lia]|]. split; [rewrite HX; now apply HS|].
    split; [intros; apply HL; lia|]. split; [intros; apply HN; lia|]. intros Sy. apply (stop_residual tau A B Q Ri V0 k Vs rtol atol HT I); [apply (iterates_symm _ _ _ _ _ _ _ _ _ I); [lia|exact Sy]|now apply HS].
Qed.
Print Assumptions C105_result.

(** C105: it never goes far: as long as the residuals are at most D, the result is within 100 tau D of the symmetric part of the start. *)
Theorem C105_drift : forall tau A B Q Ri V0 D k Vs, 0 <= tau -> 0 <= D -> iterates tau A B Q Ri V0 k Vs ->
  (forall j i l, (j < k)%nat -> (i < rows A)%nat -> (l < rows A)%nat -> Rabs (half (residual A B Q Ri (Vs j)) i l) <= D) ->
  forall i l, (i < rows A)%nat -> (l < rows A)%nat -> Rabs (half (ent (Vs k)) i l - half (ent V0) i l) <= 100 * tau * D.
Proof.
  intros tau A B Q Ri V0 D k Vs HT HD I HB i l Hi Hl. eapply Rle_trans; [apply (drift tau A B Q Ri V0 D HT HD k Vs I HB i l Hi Hl)|].
  assert (0 <= (99 / 100) ^ k) by (apply pow_le; lra). assert (0 <= 100 * tau * D) by (repeat apply Rmult_le_pos; lra). nra.
Qed.
Print Assumptions C105_drift.

(** C105: if the residuals stay bounded and the start is symmetric, it ends: with a matrix, or because the time limit has passed; if the time limit
    passes at some step it ends in any case. *)
Theorem C105_terminates : forall A B Q Ri rtol atol late tau V Vt D, fit A B Q Ri V -> symm (rows A) V -> 0 <= tau -> 0 <= rtol -> 0 < atol ->
  (forall k Vs j i l, iterates tau A B Q Ri V k Vs -> (j < k)%nat -> (i < rows A)%nat -> (l < rows A)%nat -> Rabs (half (residual A B Q Ri (Vs j)) i l) <= D) ->
  exists fuel r, brute_loop fuel late 0 tau rtol atol A B Q Ri V Vt = Some r /\ ((exists X, r = Ok X) \/ r = Exn GenericException /\ exists j, late j = true).
Proof. exact loop_terminates. Qed.
Print Assumptions C105_terminates.
Theorem C105_time_limit : forall A B Q Ri rtol atol late n tau V Vt, fit A B Q Ri V -> late n = true ->
  exists r, brute_loop (S n) late 0 tau rtol atol A B Q Ri V Vt = Some r /\ ((exists X, r = Ok X) \/ r = Exn GenericException).
Proof. intros A B Q Ri rtol atol late n tau V Vt F HL. exact (loop_limited A B Q Ri rtol atol late n 0 tau V Vt F HL). Qed.
Print Assumptions C105_time_limit.

(** C105: if [_numpy_care] has found a solution it is returned as it is, after one step. *)
Theorem C105_solution_kept : forall rinv eig pinv fuel late tau rtol atol A B Q Rm V Ri,
  numpy_care rinv eig pinv A B Q Rm = Ok V -> rinv Rm = Ok Ri -> is_inverse Rm Ri -> fit A B Q Ri V -> care_eq A B Q Rm V -> 0 <= rtol -> 0 <= atol -> late O = false ->
  exists X, brute_care rinv eig pinv (S fuel) late tau rtol atol A B Q Rm = Some (Ok X) /\ rows X = rows A /\ cols X = rows A /\
    forall i j, (i < rows A)%nat -> (j < rows A)%nat -> ent X i j = ent V i j.
Proof.
  intros rinv eig pinv fuel late tau rtol atol A B Q Rm V Ri HV HI IR F CE HR HA HL. unfold brute_care. rewrite HV, HI. exact (loop_fixed A B Q Rm Ri rtol atol late 0 fuel tau V _ F CE IR HR HA HL).
Qed.
Print Assumptions C105_solution_kept.
Lemma id11_inv : is_inverse (s11 1) (s11 1).
Proof. split; [reflexivity|]. split; [reflexivity|]. cbn [s11 rows cols]. intros i j Hi Hj. rewrite (idx1 i Hi), (idx1 j Hj), rsum1. cbn. ring. Qed.
Definition eigz (Z : rmat) : result (list C * cmat) :=
  Ok ([RtoC (-1); RtoC 1], mk2 (K := Cring) 2 2 (fun i j => if Nat.eqb i 0 then RtoC 1 else if Nat.eqb j 0 then RtoC 1 else RtoC (-1))).
(** x^2 = 1 *)
Example C105_solution_kept_ex : exists V, numpy_care inv1 eigz pinv1 (s11 0) (s11 1) (s11 1) (s11 1) = Ok V /\ fit (s11 0) (s11 1) (s11 1) (s11 1) V /\ care_eq (s11 0) (s11 1) (s11 1) (s11 1) V /\ ent V O O = 1.
Proof.
  destruct (ham1 0 1 1 1 ltac:(lra)) as (Z & HZ & _). unfold numpy_care. rewrite HZ. cbn [bind eigz].
  assert (AS : argsort [RtoC (-1); RtoC 1] = [O; 1%nat]).
  { unfold argsort. cbn [length seq fold_right insert nth]. unfold cle. cbn [RtoC fst snd]. rewrite Rlt_bool_true by lra. reflexivity. }
  rewrite AS. unfold graph_of, pinv1. cbn [slice rows cols ent Nat.sub Nat.add Nat.eqb andb s11 nth]. unfold czero. cbn [RtoC fst snd]. rewrite (Req_bool_false 1 0) by lra. cbn [andb bind]. unfold dotm. cbn [slice rows cols Nat.sub Nat.eqb c11 bind].
  set (V := rpart _). exists V. split; [reflexivity|].
  assert (E : ent V O O = 1). { unfold V. cbn [rpart ent]. rewrite csum_ksum, csum1. cbn [nth Nat.eqb]. rewrite Cmult_1_l. rewrite <- RtoC_inv by lra. cbn. lra. }
  split; [repeat split|]. split; [|exact E]. split; [reflexivity|]. split; [reflexivity|]. split; [intros i j Hi Hj; cbn in Hi, Hj; now rewrite (idx1 i Hi), (idx1 j Hj)|].
  intros Ri (_ & _ & IR) i j Hi Hj. cbn in Hi, Hj. rewrite (idx1 i Hi), (idx1 j Hj). specialize (IR O O ltac:(cbn; lia) ltac:(cbn; lia)). cbn [s11 rows cols ent] in IR |- *. rewrite rsum1 in IR. rewrite !rsum1, E. cbn in IR. set (y := ent Ri O O) in *. change R in (type of y). clearbody y. cbn [car Rring]. lra.
Qed.

(** C105: otherwise the result need not be a solution at all, with the constants of the source and no time limit: for 2 x + 1 = 0 it is nearly 0. *)
Theorem C105_far_refuted : exists rinv eig pinv A B Q Rm fuel X,
  exact_rinv rinv /\ exact_pinv pinv /\ (forall Z W V, eig Z = Ok (W, V) -> length W = rows Z /\ eigenbasis (cof Z) V (fun j => nth j W (RtoC 0))) /\
  rows A = cols A /\ symmetric_mat Q /\ symmetric_mat Rm /\ (exists Y, care_eq A B Q Rm Y) /\
  brute_care rinv eig pinv fuel (fun _ => false) (/ 10 ^ 12) (/ 10 ^ 200) (/ 10 ^ 300) A B Q Rm = Some (Ok X) /\
  (forall Ri, 1 <= Rabs (residual A B Q Ri X O O)) /\ ~ care_eq A B Q Rm X.
Proof.
  destruct start_w as (V & HV & RV & CV & E0). assert (F : fit (s11 1) (s11 0) (s11 1) (s11 1) V) by (repeat split; assumption).
  assert (Sy : symm (rows (s11 1)) V) by (intros i j Hi Hj; cbn in Hi, Hj; now rewrite (idx1 i Hi), (idx1 j Hj)).
  assert (T : 0 <= / 10 ^ 12 <= 1 / 1000) by lra. assert (P1 : 0 <= / 10 ^ 200) by (left; apply Rinv_0_lt_compat, pow_lt; lra). assert (P2 : 0 < / 10 ^ 300) by (apply Rinv_0_lt_compat, pow_lt; lra).
  destruct (loop_terminates (s11 1) (s11 0) (s11 1) (s11 1) (/ 10 ^ 200) (/ 10 ^ 300) (fun _ => false) (/ 10 ^ 12) V (full (rows V) (cols V) (10 ^ 300)) 2 F Sy (proj1 T) P1 P2) as (fuel & r & Hr & Hx).
  { intros k Vs j i l I Hj Hi Hl. cbn in Hi, Hl. rewrite (idx1 i Hi), (idx1 l Hl). pose proof (run_w (/ 10 ^ 12) (s11 1) V k Vs T E0 I j ltac:(lia)) as B. unfold half. rewrite res_w.
    assert (P : 0 <= (99 / 100) ^ j) by (apply pow_le; lra). set (w := 2 * ent (Vs j) O O + 1) in *. rewrite Rabs_pos_eq by lra.
    assert (300 * / 10 ^ 12 * (1 - (99 / 100) ^ j) <= 300 * / 10 ^ 12 * 1) by (apply Rmult_le_compat_l; lra). lra. }
  destruct Hx as [[X ->]|(_ & j & Hj)]; [|discriminate]. exists inv1, eigw, pinv1, (s11 1), (s11 0), (s11 1), (s11 1), fuel, X.
  split; [exact inv1_exact|]. split; [exact pinv1_exact|]. split; [exact eigw_exact|]. split; [reflexivity|]. split; [apply sym_s11|]. split; [apply sym_s11|]. split.
  { exists (s11 (- (1 / 2))). split; [reflexivity|]. split; [reflexivity|]. split; [reflexivity|]. intros Ri _ i j Hi Hj. cbn [s11 rows cols ent]. rewrite !rsum1. cbn [car Rring]. lra. }
  assert (RX : forall Ri, 1 <= residual (s11 1) (s11 0) (s11 1) Ri X O O).
  { intros Ri. rewrite res_w. destruct (loop_Ok (s11 1) (s11 0) (s11 1) (s11 1) _ _ _ eq_refl _ _ _ _ _ _ Hr) as (k & Vs & I & -> & _). apply (run_w (/ 10 ^ 12) (s11 1) V k Vs T E0 I k (le_n k)). }
  split.
  { unfold brute_care. rewrite HV. unfold inv1, scalar. cbn [s11 rows cols ent Nat.eqb andb bind]. rewrite Req_bool_false by lra. rewrite Rinv_1. exact Hr. }
  split; [intros Ri; eapply Rle_trans; [apply RX|apply Rle_abs]|]. intros CE. pose proof (care_residual _ _ _ _ _ _ CE id11_inv O O ltac:(cbn; lia) ltac:(cbn; lia)) as Z. specialize (RX (s11 1)). rewrite Z in RX. lra.
Qed.
Print Assumptions C105_far_refuted.
Example C105_ex : exists V fuel X, numpy_care inv1 eigw pinv1 (s11 1) (s11 0) (s11 1) (s11 1) = Ok V /\ fit (s11 1) (s11 0) (s11 1) (s11 1) V /\ symm 1 V /\
  brute_loop fuel (fun _ => false) 0 (1 / 1000) 0 (1 / 10) (s11 1) (s11 0) (s11 1) (s11 1) V (full 1 1 (10 ^ 300)) = Some (Ok X).
Proof.
  destruct start_w as (V & HV & RV & CV & E0). assert (F : fit (s11 1) (s11 0) (s11 1) (s11 1) V) by (repeat split; assumption).
  assert (Sy : symm 1 V) by (intros i j Hi Hj; now rewrite (idx1 i Hi), (idx1 j Hj)).
  destruct (loop_terminates (s11 1) (s11 0) (s11 1) (s11 1) 0 (1 / 10) (fun _ => false) (1 / 1000) V (full 1 1 (10 ^ 300)) 2 F Sy ltac:(lra) ltac:(lra) ltac:(lra)) as (fuel & r & Hr & Hx).
  { intros k Vs j i l I Hj Hi Hl. cbn in Hi, Hl. rewrite (idx1 i Hi), (idx1 l Hl). pose proof (run_w (1 / 1000) (s11 1) V k Vs ltac:(lra) E0 I j ltac:(lia)) as B. unfold half. rewrite res_w.
    assert (P : 0 <= (99 / 100) ^ j) by (apply pow_le; lra). rewrite Rabs_pos_eq by lra. lra. }
  destruct Hx as [[X ->]|(_ & j & Hj)]; [|discriminate]. exists V, fuel, X. auto.
Qed.

(** C105: [care] answers with the first solver that answers, but asks the next one only after particular exceptions: TypeError or
    PrecisionExhausted of sympy, LinAlgError of scipy; other exceptions, such as that of a matrix that cannot be diagonalised, are passed on. *)
Theorem C105_choice : forall rinv diagonalize cinv eig pinv scipy fuel late tau rtol atol A B Q Rm r,
  care_choice rinv diagonalize cinv eig pinv scipy fuel late tau rtol atol A B Q Rm = Some r ->
  let an := analytical_care rinv diagonalize cinv A B Q Rm in
  (r = an /\ an <> Exn ArithmeticError /\ an <> Exn TypeError) \/
  ((an = Exn ArithmeticError \/ an = Exn TypeError) /\ r = scipy A B Q Rm /\ scipy A B Q Rm <> Exn GenericException) \/
  ((an = Exn ArithmeticError \/ an = Exn TypeError) /\ scipy A B Q Rm = Exn GenericException /\ brute_care rinv eig pinv fuel late tau rtol atol A B Q Rm = Some r).
Proof.
  intros rinv diagonalize cinv eig pinv scipy fuel late tau rtol atol A B Q Rm r H an. unfold care_choice in H. fold an in H.
  destruct an as [X|[]]; try (left; split; [congruence|split; discriminate]); right; destruct (scipy A B Q Rm) as [Y|[]]; try (left; split; [auto|split; [congruence|discriminate]]); right; auto.
Qed.
Print Assumptions C105_choice.
