(** ParallelEstimator (C26): theorems. *)
From Coq Require Import List Arith Lia Bool ZArith Reals Lra.
From Coquelicot Require Import Complex.
From Verif Require Import Base LinAlg FirExtras Estimators BatchProofs BatchRun EstProps Zpk Parallel ParallelProofs P_Estimators.
Import ListNotations.
Open Scope R_scope.

Definition par_results eig pinv (c : @coef Rring) K1 K2 limit (src : @source Rring) n : list (result (list R)) :=
  fst (calls (p_next (cN c) (cM c) (cL c) (p_coef eig pinv c) K1 K2 limit) n (p_init (cN c) (cM c) (cL c) K1 K2 src)).
(** [numpy.linalg.eig] and [numpy.linalg.pinv] are exact on [A]: an invertible matrix of eigenvectors and its inverse *)
Definition exact_eig (eig : list (list R) -> list C * list (list C)) (pinv : list (list C) -> list (list C)) N A : Prop :=
  diagonalises N A (fst (eig A)) (snd (eig A)) (pinv (snd (eig A))).

(** For every stream (also ones with samples of a wrong length, and every way of ending), every result of ParallelEstimator, exceptions included, is the
    result of BatchEstimator on the stream in which each non-zero sample entry is replaced by 1. *)
Theorem C26_truth_values : forall eig pinv (c : @coef Rring) K1 K2 limit (src : @source Rring) n,
  coef_wf c -> (1 <= K1)%nat -> exact_eig eig pinv (cN c) (cAf c) -> exact_eig eig pinv (cN c) (cAb c) ->
  par_results eig pinv c K1 K2 limit src n
  = batch_results c K1 K2 limit (mkSrc (K := Rring) (map (map (fun x : R => if Req_EM_T x 0 then 0 else 1)) (s_items src)) (s_end src)) n.
Proof.
  intros eig pinv c K1 K2 limit src n Hwf HK1 Hf Hb. unfold par_results, batch_results, p_coef, exact_eig in *.
  destruct (eig (cAf c)) as [fa Qf], (eig (cAb c)) as [ba Qb]. cbn [fst snd] in *.
  refine (eq_trans (parallel_batch c fa ba Qf (pinv Qf) Qb (pinv Qb) Hwf Hf Hb K1 K2 HK1 limit src n) _).
  replace (map truthy (s_items src)) with (map (map (fun x : R => if Req_EM_T x 0 then 0 else 1)) (s_items src)); [reflexivity|].
  apply map_ext. intros s. apply map_ext. intros x. destruct (Req_EM_T x 0) as [->|Hx]; [now rewrite Raux.Req_bool_true|now rewrite Raux.Req_bool_false].
Qed.
Print Assumptions C26_truth_values.

(** On binary streams the two estimators agree. *)
Theorem C26_same_as_batch : forall eig pinv (c : @coef Rring) K1 K2 limit (src : @source Rring) n,
  coef_wf c -> (1 <= K1)%nat -> exact_eig eig pinv (cN c) (cAf c) -> exact_eig eig pinv (cN c) (cAb c) ->
  Forall (Forall (fun x : R => x = 0 \/ x = 1)) (s_items src) ->
  par_results eig pinv c K1 K2 limit src n = batch_results c K1 K2 limit src n.
Proof.
  intros eig pinv c K1 K2 limit [xs e] n Hwf HK1 Hf Hb HB. rewrite C26_truth_values by assumption. cbn [s_items s_end] in *.
  f_equal. f_equal. induction HB as [|s xs Hs _ IH]; [reflexivity|]. cbn [map]. rewrite IH. f_equal.
  induction Hs as [|x s Hx _ IHs]; [reflexivity|]. cbn [map]. rewrite IHs. f_equal. destruct (Req_EM_T x 0) as [->|]; [reflexivity|]. destruct Hx as [Hx|Hx]; [contradiction|now symmetry].
Qed.
Print Assumptions C26_same_as_batch.

(** a rotation by a quarter turn: complex eigenvalues i and -i *)
Definition rotA : list (list R) := [[0; -1]; [1; 0]].
Definition rotQ : list (list C) := [[RtoC 1; RtoC 1]; [Copp Ci; Ci]].
Definition rotQi : list (list C) := [[RtoC (1/2); (0, 1/2)]; [RtoC (1/2); (0, -1/2)]].
Definition rot_eig (_ : list (list R)) : list C * list (list C) := ([Ci; Copp Ci], rotQ).
Definition rot_pinv (_ : list (list C)) := rotQi.
Definition rot_c : @coef Rring := @mkCoef Rring rotA rotA [[1; 0]; [0; 1]] [[1; 0]; [0; 1]] [[1; 2]] 2 2 1.
Example C26_ex_exact : exact_eig rot_eig rot_pinv 2 rotA.
Proof.
  unfold exact_eig, rot_eig, rot_pinv. cbn [fst snd]. unfold diagonalises.
  assert (W : forall a b d e : C, wfm (K := Cring) 2 2 [[a; b]; [d; e]]) by (intros; split; [reflexivity|repeat constructor]).
  split; [reflexivity|]. split; [apply W|]. split; [apply W|].
  assert (MM : forall a b d e a' b' d' e' : C, mm (K := Cring) 2 [[a; b]; [d; e]] [[a'; b']; [d'; e']]
    = [[Cplus (Cmult a a') (Cmult b d'); Cplus (Cmult a b') (Cmult b e')]; [Cplus (Cmult d a') (Cmult e d'); Cplus (Cmult d b') (Cmult e e')]]).
  { intros. cbn. rewrite !Cplus_0_r. reflexivity. }
  assert (EY : eye (K := Cring) 2 = [[RtoC 1; RtoC 0]; [RtoC 0; RtoC 1]]) by reflexivity.
  assert (DG : forall a b : C, diagc [a; b] = [[a; RtoC 0]; [RtoC 0; b]]).
  { intros. unfold diagc. cbn. rewrite !Cmult_1_r, !Cmult_0_r. reflexivity. }
  unfold rotQ, rotQi, rotA, cmat, cv. cbn [map]. rewrite DG, EY, !MM.
  assert (E2 : forall a b d e a' b' d' e' : C, a = a' -> b = b' -> d = d' -> e = e' -> [[a; b]; [d; e]] = [[a'; b']; [d'; e']]) by (intros; subst; reflexivity).
  split; [|split]; apply E2; apply injective_projections; cbn; lra.
Qed.
Example C26_ex : par_results rot_eig rot_pinv rot_c 2 1 10 (mkSrc (K := Rring) [[1; 0]; [0; 1]; [1; 1]; [0; 0]] (SrcGen RuntimeError)) 9
  = batch_results rot_c 2 1 10 (mkSrc (K := Rring) [[1; 0]; [0; 1]; [1; 1]; [0; 0]] (SrcGen RuntimeError)) 9.
Proof.
  apply C26_same_as_batch; [|lia|exact C26_ex_exact|exact C26_ex_exact|cbn [s_items]; repeat (apply Forall_cons || apply Forall_nil); auto].
  repeat split; repeat constructor.
Qed.

(** A sample that is neither 0 nor 1 (0.5, as DitherControl produces with dithering off) is taken for +1 and the estimators differ. *)
Theorem C26_half_refuted : exists eig pinv (c : @coef Rring) K1 K2 limit (src : @source Rring) n,
  coef_wf c /\ (1 <= K1)%nat /\ exact_eig eig pinv (cN c) (cAf c) /\ exact_eig eig pinv (cN c) (cAb c) /\ s_items src = [[1 / 2]] /\
  nth_error (par_results eig pinv c K1 K2 limit src n) 0 = Some (Ok [1]) /\
  nth_error (batch_results c K1 K2 limit src n) 0 = Some (Ok [0]).
Proof.
  set (c := @mkCoef Rring [[0]] [[0]] [[1]] [[1]] [[1]] 1 1 1).
  set (eig := fun _ : list (list R) => ([RtoC 0], [[RtoC 1]])).
  assert (Hwf : coef_wf c) by (repeat split; repeat constructor).
  assert (HE : exact_eig eig (fun q => q) 1 [[0]]).
  { unfold exact_eig, eig, diagonalises. cbn [fst snd]. split; [reflexivity|]. split; [split; [reflexivity|repeat constructor]|]. split; [split; [reflexivity|repeat constructor]|].
    assert (E1 : forall a a' : C, a = a' -> [[a]] = [[a']]) by (intros; subst; reflexivity).
    unfold diagc, cmat, cv. split; [|split]; apply E1; apply injective_projections; cbn; lra. }
  assert (HBr : forall x : R, nth_error (batch_results c 1 0 5 (mkSrc (K := Rring) [[x]] (SrcObj StopIteration)) 1) 0 = Some (Ok [2 * x - 1])).
  { intros x. unfold batch_results.
    destruct (batch_run c Hwf 1 0 ltac:(lia) 5%Z [[x]] ltac:(repeat constructor) (SrcObj StopIteration) ltac:(auto) 1 0 ltac:(lia)) as [HG _].
    cbv zeta in HG. etransitivity; [apply HG|].
    - unfold good. cbn. lia.
    - unfold wiener, lookahead_sum, lookback_sum. cbn. do 3 f_equal. lra. }
  exists eig, (fun q => q), c, 1%nat, 0%nat, 5%Z, (mkSrc (K := Rring) [[1 / 2]] (SrcObj StopIteration)), 1%nat.
  split; [exact Hwf|]. split; [lia|]. split; [exact HE|]. split; [exact HE|]. split; [reflexivity|]. split.
  - rewrite C26_truth_values by (auto; lia). cbn [s_items s_end map]. destruct (Req_EM_T (1 / 2) 0); [lra|]. rewrite HBr. do 3 f_equal. lra.
  - rewrite HBr. do 3 f_equal. lra.
Qed.
Print Assumptions C26_half_refuted.
