(** From eigenvectors to the filters of the estimators: stability of the filters and how fast they forget. *)
From Coq Require Import List Arith Lia Bool Reals Lra Permutation Sorted.
From Flocq Require Import Core.
From Coquelicot Require Import Complex.
From Verif Require Import Base LinAlg FirExtras AnalogSystem AnalogProofs Signals DigitalControl Simulator Integrators IntegratorsProofs LinearOde Zpk CplxLin FilterCoeff FilterCoeffProofs FilterOde Riccati RiccatiAlg RiccatiProofs.
Import ListNotations.
Open Scope R_scope.

Definition exact_diag (diagonalize : cmat -> result (cmat * cmat)) : Prop := forall Z P D, diagonalize Z = Ok (P, D) -> eigenbasis Z P (fun j => ent D j j).
Definition exact_pinv (pinv : cmat -> result cmat) : Prop := forall M X, (exists Y, is_cinverse M Y) -> pinv M = Ok X -> is_cinverse M X.

Section Solvers.
Variable rinv : rmat -> result rmat.
Hypothesis EI : exact_rinv rinv.
Variables A B Q Rm : rmat.
Hypothesis SqA : rows A = cols A.
Hypothesis SyQ : symmetric_mat Q.
Hypothesis SyR : symmetric_mat Rm.

Lemma core_stabilising Z P X lam sol : hamiltonian rinv A B Q Rm = Ok Z -> eigenbasis (cof Z) P lam -> is_cinverse (slice P 0 (rows A) 0 (rows A)) X ->
  (forall k, (k < rows A)%nat -> fst (lam k) < 0) -> dotm (slice P (rows A) (rows P) 0 (rows A)) X = Ok sol -> stabilising A B Q Rm (rpart sol).
Proof.
  intros HZ EB IX St HS. destruct (core rinv EI A B Q Rm Z SqA SyQ SyR HZ P X lam EB IX St sol HS) as (Ri & _ & I1 & I2 & _ & _ & _ & _ & C & S1 & S2 & S3 & U).
  split; [exact C|]. exists Ri. do 5 (split; [assumption|]). exact U.
Qed.

Lemma analytic diagonalize cinv X : exact_cinv cinv -> exact_diag diagonalize -> analytical_care rinv diagonalize cinv A B Q Rm = Ok X ->
  (forall Z P D, hamiltonian rinv A B Q Rm = Ok Z -> diagonalize (cof Z) = Ok (P, D) -> forall k, (k < rows A)%nat -> fst (ent D k k) < 0) -> stabilising A B Q Rm X.
Proof.
  intros EC ED H St. unfold analytical_care in H. apply bind_Ok in H as (Z & HZ & H). apply bind_Ok in H as ([P D] & HD & H). apply bind_Ok in H as (sol & HS & H).
  unfold graph_of in HS. rewrite <- SqA in HS. apply bind_Ok in HS as (Xi & HX & HS). pose proof (ED _ _ _ HD) as EB.
  assert (IX : is_cinverse (slice P 0 (rows A) 0 (rows A)) Xi) by (apply EC; [reflexivity|exact HX]).
  pose proof (core_stabilising Z P Xi _ sol HZ EB IX (St Z P D HZ HD) HS) as CS. pose proof CS as [(R1 & C1 & Sy & _) _].
  destruct (sym_Ok (rpart sol) X (rows A) H R1 C1 Sy) as (RX & CX & EX). apply (stabilising_ext A B Q Rm (rpart sol)); auto.
Qed.

(** *** Sorting *)
Lemma cle_total a b : cle a b = false -> cle b a = true.
Proof.
  unfold cle. destruct (Rlt_bool_spec (fst a) (fst b)); [discriminate|]. destruct (Req_bool_spec (fst a) (fst b)) as [E|E]; cbn [orb andb]; intros H0.
  - destruct (Rle_bool_spec (snd a) (snd b)); [discriminate|]. rewrite Rlt_bool_false by lra. rewrite Req_bool_true by auto. cbn. apply Rle_bool_true. lra.
  - rewrite Rlt_bool_true by lra. reflexivity.
Qed.
Lemma cle_fst a b : cle a b = true -> fst a <= fst b.
Proof. unfold cle. destruct (Rlt_bool_spec (fst a) (fst b)); [lra|]. destruct (Req_bool_spec (fst a) (fst b)); [lra|discriminate]. Qed.
Definition lew (W : list C) (i j : nat) : Prop := fst (nth i W (RtoC 0)) <= fst (nth j W (RtoC 0)).
Lemma insert_perm W i l : Permutation (insert W i l) (i :: l).
Proof.
  induction l as [|j l IH]; [reflexivity|]. cbn [insert]. destruct (cle _ _); [reflexivity|]. rewrite IH. apply perm_swap.
Qed.
Lemma insert_sorted W i l : StronglySorted (lew W) l -> StronglySorted (lew W) (insert W i l).
Proof.
  induction l as [|j l IH]; intros H; [repeat constructor|]. inversion H as [|? ? Hs Hf]; subst. cbn [insert]. destruct (cle _ _) eqn:E.
  - constructor; [exact H|]. apply cle_fst in E. constructor; [exact E|]. eapply Forall_impl; [|exact Hf]. intros k Hk. unfold lew in *. lra.
  - constructor; [auto|]. apply cle_total, cle_fst in E. apply (Permutation_Forall (Permutation_sym (insert_perm W i l))). constructor; [exact E|exact Hf].
Qed.
Lemma argsort_perm W : Permutation (argsort W) (seq 0 (length W)).
Proof. unfold argsort. induction (seq 0 (length W)) as [|i l IH]; [reflexivity|]. cbn [fold_right]. rewrite insert_perm. now constructor. Qed.
Lemma argsort_sorted W : StronglySorted (lew W) (argsort W).
Proof. unfold argsort. induction (seq 0 (length W)) as [|i l IH]; [constructor|]. cbn [fold_right]. now apply insert_sorted. Qed.

Definition negs (W : list C) (l : list nat) : nat := length (filter (fun i => Rlt_bool (fst (nth i W (RtoC 0))) 0) l).
Lemma sorted_negs W l : StronglySorted (lew W) l -> forall k, (k < negs W l)%nat -> fst (nth (nth k l O) W (RtoC 0)) < 0.
Proof.
  unfold negs. induction l as [|i l IH]; intros H k Hk; [cbn in Hk; lia|]. inversion H as [|? ? Hs Hf]; subst. cbn [filter] in Hk.
  destruct (Rlt_bool_spec (fst (nth i W (RtoC 0))) 0) as [E|E].
  - destruct k; [exact E|]. cbn [nth]. apply IH; [exact Hs|]. cbn [length] in Hk. lia.
  - exfalso. assert (Z : filter (fun i => Rlt_bool (fst (nth i W (RtoC 0))) 0) l = []); [|rewrite Z in Hk; cbn in Hk; lia].
    clear Hk IH H Hs. induction l as [|j l IH]; [reflexivity|]. inversion Hf as [|? ? H1 H2]; subst. cbn [filter]. unfold lew in H1. rewrite Rlt_bool_false by lra. auto.
Qed.
Lemma filter_perm {T} (f : T -> bool) (l l' : list T) : Permutation l l' -> Permutation (filter f l) (filter f l').
Proof.
  induction 1; cbn [filter]; try reflexivity.
  - destruct (f x); [now constructor|assumption].
  - destruct (f x), (f y); try reflexivity. apply perm_swap.
  - etransitivity; eassumption.
Qed.
Lemma negs_seq W : negs W (argsort W) = length (filter (fun w => Rlt_bool (fst w) 0) W).
Proof.
  unfold negs. rewrite (Permutation_length (filter_perm _ _ _ (argsort_perm W))). 
  assert (G : forall l pre, length (filter (fun i => Rlt_bool (fst (nth i (pre ++ l) (RtoC 0))) 0) (seq (length pre) (length l))) = length (filter (fun w => Rlt_bool (fst w) 0) l)).
  { induction l as [|w l IH]; intros pre; [reflexivity|]. cbn [length seq filter]. rewrite app_nth2, Nat.sub_diag by lia. cbn [nth].
    specialize (IH (pre ++ [w])). rewrite app_length, Nat.add_1_r, <- app_assoc in IH. cbn [app] in IH. destruct (Rlt_bool _ _); cbn [length]; now rewrite IH. }
  exact (G W []).
Qed.

Lemma numpy eig pinv X : exact_pinv pinv -> (forall Z W V, eig Z = Ok (W, V) -> length W = rows Z /\ eigenbasis (cof Z) V (fun j => nth j W (RtoC 0))) ->
  numpy_care rinv eig pinv A B Q Rm = Ok X ->
  (forall Z W V, hamiltonian rinv A B Q Rm = Ok Z -> eig Z = Ok (W, V) -> length (filter (fun w => Rlt_bool (fst w) 0) W) = rows A /\
    exists Y, is_cinverse (mk2 (K := Cring) (rows A) (rows A) (fun i j => ent V i (nth j (argsort W) O))) Y) ->
  stabilising A B Q Rm X.
Proof.
  intros EP EE H St. unfold numpy_care in H. apply bind_Ok in H as (Z & HZ & H). apply bind_Ok in H as ([W V] & HE & H). apply bind_Ok in H as (sol & HS & H). apply Ok_inj in H. subst X.
  destruct (EE _ _ _ HE) as (LW & RV & CV & EV). cbn [cof rows ent] in RV, CV, EV. destruct (St Z W V HZ HE) as (Cn & Y & IY). unfold graph_of in HS. apply bind_Ok in HS as (Xi & HX & HS).
  destruct (hamiltonian_Ok rinv A B Q Rm Z EI SqA SyR HZ) as (Ri & _ & _ & _ & _ & _ & CQ & _ & RZ & CZ & _). rewrite CQ in HX, HS.
  set (P := mk2 (K := Cring) (rows V) (cols V) (fun i j => ent V i (nth j (argsort W) O))) in *.
  assert (IX : is_cinverse (slice P 0 (rows A) 0 (rows A)) Xi).
  { apply EP; [|exact HX]. exists Y. destruct IY as (I1 & I2 & I3 & I4). cbn [rows cols ent] in *. split; [reflexivity|]. cbn [slice rows cols ent]. rewrite Nat.sub_0_r. auto. }
  apply (core_stabilising Z P Xi (fun j => nth (nth j (argsort W) O) W (RtoC 0)) sol); auto.
  - split; [exact RV|]. split; [exact CV|]. cbn [cof rows ent P]. intros i j Hi Hj. apply EV; [exact Hi|].
    assert (I : In (nth j (argsort W) O) (argsort W)) by (apply nth_In; rewrite (Permutation_length (argsort_perm W)), seq_length; lia).
    apply (Permutation_in _ (argsort_perm W)) in I. apply in_seq in I. lia.
  - intros k Hk. apply sorted_negs; [apply argsort_sorted|]. rewrite negs_seq, Cn. exact Hk.
Qed.
End Solvers.

(** *** The filters *)
Lemma care_stab care_raw A B Q Rm X : care care_raw A B Q Rm = Ok X -> (forall Y, care_raw A B Q Rm = Ok Y -> stabilising A B Q Rm Y) -> stabilising A B Q Rm X.
Proof.
  unfold care. intros H St. apply bind_Ok in H as (Y & E & H). specialize (St Y E). pose proof St as [(R1 & C1 & Sy & _) _].
  destruct (sym_Ok Y X (rows A) H R1 C1 Sy) as (RX & CX & EX). apply (stabilising_ext A B Q Rm Y); auto.
Qed.

Lemma filter_loop (S : asys Rring) eta2 sg (A' Ri : rmat) (V : nat -> nat -> R) : eta2 <> 0 -> rows A' = sN S -> (forall i j, ent A' i j = sg * ent (aA S) j i) ->
  is_inverse (scalem eta2 (eye2 (K := Rring) (sNt S) (sNt S))) Ri -> (forall i j, (i < sN S)%nat -> (j < sN S)%nat -> V i j = V j i) ->
  forall i j, (i < sN S)%nat -> (j < sN S)%nat -> closed_loop A' (tr (aCT S)) Ri V j i = sg * ent (aA S) i j - rsum (sN S) (fun k => V i k * obsK S eta2 k j).
Proof.
  intros He RA EA IR Sy i j Hi Hj. unfold closed_loop. rewrite EA, RA. f_equal. cbn [tr cols ent]. fold (sNt S).
  rewrite (rsum_ext (sNt S) _ (fun p => ent (aCT S) p j * (/ eta2 * rsum (sN S) (fun l => ent (aCT S) p l * V l i)))).
  2: { intros p Hp. f_equal. exact (eta_apply (sNt S) eta2 Ri (fun q => rsum (sN S) (fun l => ent (aCT S) q l * V l i)) IR He p Hp). }
  unfold obsK. rewrite (rsum_ext (sNt S) _ (fun p => rsum (sN S) (fun l => / eta2 * (ent (aCT S) p j * (ent (aCT S) p l * V l i))))).
  2: { intros p Hp. rewrite <- !rsum_scale. apply rsum_ext. intros. ring. }
  rewrite rsum_swap. apply rsum_ext. intros l Hl. rewrite (Sy i l) by assumption. rewrite <- !rsum_scale. apply rsum_ext. intros. ring.
Qed.

Lemma filters_stable2 care_raw (S : asys Rring) eta2 Rm Vf Vb : valid S -> eta2 <> 0 -> riccati care_raw S eta2 = Ok (Rm, Vf, Vb) ->
  (forall A Q X, A = tr (aA S) \/ A = oppm (tr (aA S)) -> rows A = cols A -> dotm (aB S) (tr (aB S)) = Ok Q -> symmetric_mat Q -> symmetric_mat (scalem eta2 (eye2 (K := Rring) (sNt S) (sNt S))) ->
    care_raw A (tr (aCT S)) Q (scalem eta2 (eye2 (K := Rring) (sNt S) (sNt S))) = Ok X -> stabilising A (tr (aCT S)) Q (scalem eta2 (eye2 (K := Rring) (sNt S) (sNt S))) X) ->
  (stable (sN S) (fwdA S eta2 (ent Vf)) /\ diag_stable (sN S) (fwdA S eta2 (ent Vf))) /\
  (stable (sN S) (fun i j => - bwdA S eta2 (ent Vb) i j) /\ diag_stable (sN S) (fun i j => - bwdA S eta2 (ent Vb) i j)).
Proof.
  intros V He H SO. unfold riccati in H. apply bind_Ok in H as (Q & EQ & H). apply bind_Ok in H as (Vf' & E1 & H). apply bind_Ok in H as (Vb' & E2 & H).
  apply Ok_inj in H. injection H as <- <- <-.
  assert (RA : rows (tr (aA S)) = sN S) by (cbn; now rewrite (v_A _ V)).
  assert (SqA : rows (tr (aA S)) = cols (tr (aA S))) by (cbn; now rewrite (v_A _ V)).
  assert (SyQ : symmetric_mat Q).
  { assert (EQ' := EQ). apply dotm_Ok in EQ' as (_ & Q1 & Q2 & Q3). split; [rewrite Q1, Q2; reflexivity|]. intros i j _ _. rewrite !Q3. apply rsum_ext. intros. cbn [tr ent]. apply Rmult_comm. }
  assert (SyR : symmetric_mat (scalem eta2 (eye2 (K := Rring) (sNt S) (sNt S)))) by (split; [reflexivity|]; intros i j _ _; cbn [scalem mapm ent eye2]; now rewrite (Nat.eqb_sym i j)).
  pose proof (care_stab _ _ _ _ _ _ E1 (fun Y => SO _ _ Y (or_introl eq_refl) SqA EQ SyQ SyR)) as ((_ & _ & Sy1 & _) & Ri1 & I1 & _ & _ & S1 & D1 & _).
  assert (SqO : rows (oppm (tr (aA S))) = cols (oppm (tr (aA S)))) by exact SqA.
  pose proof (care_stab _ _ _ _ _ _ E2 (fun Y => SO _ _ Y (or_intror eq_refl) SqO EQ SyQ SyR)) as ((_ & _ & Sy2 & _) & Ri2 & I2 & _ & _ & S2 & D2 & _).
  cbn [oppm mapm rows] in Sy2, S2, D2. rewrite RA in *.
  assert (F1 : forall i j, (i < sN S)%nat -> (j < sN S)%nat -> closed_loop (tr (aA S)) (tr (aCT S)) Ri1 (ent Vf') j i = fwdA S eta2 (ent Vf') i j).
  { intros i j Hi Hj. rewrite (filter_loop S eta2 1 (tr (aA S)) Ri1 (ent Vf')); auto; [|intros a b; cbn [tr ent]; enough (H : forall x : R, x = 1 * x) by exact (H _); intros; ring]. unfold fwdA. toR. ring. }
  assert (F2 : forall i j, (i < sN S)%nat -> (j < sN S)%nat -> closed_loop (oppm (tr (aA S))) (tr (aCT S)) Ri2 (ent Vb') j i = - bwdA S eta2 (ent Vb') i j).
  { intros i j Hi Hj. rewrite (filter_loop S eta2 (-1) (oppm (tr (aA S))) Ri2 (ent Vb')); auto; [|intros a b; cbn [oppm mapm tr ent]; enough (H : forall x : R, - x = -1 * x) by exact (H _); intros; ring].
    unfold bwdA. cbn [car Rring]. ring. }
  split; split; [exact (stable_ext _ _ _ F1 S1)|exact (diag_stable_ext _ _ _ F1 D1)|exact (stable_ext _ _ _ F2 S2)|exact (diag_stable_ext _ _ _ F2 D2)].
Qed.

Lemma filters_stable care_raw (S : asys Rring) eta2 Rm Vf Vb : valid S -> eta2 <> 0 -> riccati care_raw S eta2 = Ok (Rm, Vf, Vb) ->
  (forall A B Q Rm X, rows A = cols A -> symmetric_mat Q -> symmetric_mat Rm -> care_raw A B Q Rm = Ok X -> stabilising A B Q Rm X) ->
  (stable (sN S) (fwdA S eta2 (ent Vf)) /\ diag_stable (sN S) (fwdA S eta2 (ent Vf))) /\
  (stable (sN S) (fun i j => - bwdA S eta2 (ent Vb) i j) /\ diag_stable (sN S) (fun i j => - bwdA S eta2 (ent Vb) i j)).
Proof. intros V He H SO. apply (filters_stable2 care_raw S eta2 Rm Vf Vb V He H). intros A Q X _ Sq _ SyQ SyR. now apply SO. Qed.
