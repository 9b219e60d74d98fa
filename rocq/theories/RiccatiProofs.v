(** The solvers based on eigenvectors return the stabilising solution of the Riccati equation. *)
From Coq Require Import List Arith Lia Bool Reals Lra.
From Flocq Require Import Core.
From Coquelicot Require Import Complex.
From Verif Require Import Base LinAlg FirExtras AnalogSystem AnalogProofs Signals DigitalControl Simulator IntegratorsProofs LinearOde Zpk CplxLin FilterCoeff FilterCoeffProofs Riccati RiccatiAlg.
Import ListNotations.
Open Scope R_scope.

(** *** Specification *)
(** every eigenvalue of the real matrix M has a negative real part *)
Definition stable (n : nat) (M : nat -> nat -> R) : Prop :=
  forall (l : C) (v : nat -> C), (forall i, (i < n)%nat -> csum n (fun j => (RtoC (M i j) * v j)%C) = (l * v i)%C) -> (exists i, (i < n)%nat /\ v i <> RtoC 0) -> fst l < 0.
(** M is similar to a diagonal matrix with negative real parts: T M = diag(lam) T *)
Definition diag_stable (n : nat) (M : nat -> nat -> R) : Prop := exists (T Ti : nat -> nat -> C) (lam : nat -> C), inverse_of n T Ti /\ (forall k, (k < n)%nat -> fst (lam k) < 0) /\
  forall k j, (k < n)%nat -> (j < n)%nat -> csum n (fun i => (T k i * RtoC (M i j))%C) = (lam k * T k j)%C.
(** A - B R^-1 B^T X *)
Definition closed_loop (A B Ri : rmat) (X : nat -> nat -> R) (i j : nat) : R :=
  ent A i j - rsum (cols B) (fun p => ent B i p * rsum (cols B) (fun q => ent Ri p q * rsum (rows A) (fun l => ent B l q * X l j))).
(** a routine that returns two-sided inverses *)
Definition exact_rinv (rinv : rmat -> result rmat) : Prop := forall M X, rinv M = Ok X -> is_inverse M X /\ is_inverse X M.
Definition is_cinverse (M X : cmat) : Prop := rows M = cols M /\ rows X = rows M /\ cols X = rows M /\ inverse_of (rows M) (ent M) (ent X).
Definition exact_cinv (cinv : cmat -> result cmat) : Prop := forall M X, rows M = cols M -> cinv M = Ok X -> is_cinverse M X.
(** the columns of P are eigenvectors, D holds the eigenvalues, those of the first half being stable *)
Definition eigenbasis (Z P : cmat) (lam : nat -> C) : Prop := rows P = rows Z /\ cols P = rows Z /\
  forall i j, (i < rows Z)%nat -> (j < rows Z)%nat -> csum (rows Z) (fun k => (ent Z i k * ent P k j)%C) = (ent P i j * lam j)%C.

Lemma csum_app n m f : csum (n + m) f = (csum n f + csum m (fun i => f (n + i)%nat))%C.
Proof.
  induction m as [|m IH]; [rewrite Nat.add_0_r; cbn [csum]; ring|]. rewrite <- plus_n_Sm. cbn [csum]. rewrite IH. ring.
Qed.
Lemma dotm_C (a b c : cmat) : dotm a b = Ok c -> cols a = rows b /\ rows c = rows a /\ cols c = cols b /\ forall i j, ent c i j = csum (cols a) (fun k => (ent a i k * ent b k j)%C).
Proof.
  unfold dotm. destruct (Nat.eqb_spec (cols a) (rows b)); [|discriminate]. intros H. apply Ok_inj in H. subst c. cbn [rows cols ent]. split; [assumption|]. split; [reflexivity|]. split; [reflexivity|]. intros. apply csum_ksum.
Qed.
Lemma blocks_Ok a b c d z : blocks a b c d = Ok z -> rows a = rows b /\ rows c = rows d /\ cols a = cols c /\ cols b = cols d /\
  rows z = (rows a + rows c)%nat /\ cols z = (cols a + cols b)%nat /\
  (forall i j, (i < rows a)%nat -> (j < cols a)%nat -> ent z i j = ent a i j) /\
  (forall i j, (i < rows a)%nat -> ent z i (cols a + j) = ent b i j) /\
  (forall i j, (j < cols a)%nat -> ent z (rows a + i) j = ent c i j) /\
  (forall i j, ent z (rows a + i) (cols a + j) = ent d i j).
Proof.
  unfold blocks. destruct (Nat.eqb_spec (rows a) (rows b)), (Nat.eqb_spec (rows c) (rows d)), (Nat.eqb_spec (cols a) (cols c)), (Nat.eqb_spec (cols b) (cols d)); cbn [andb]; try discriminate.
  intros H. apply Ok_inj in H. subst z. cbn [rows cols ent]. repeat (split; [assumption || reflexivity|]).
  split; [intros i j Hi Hj; now rewrite (proj2 (Nat.ltb_lt _ _) Hi), (proj2 (Nat.ltb_lt _ _) Hj)|].
  split; [intros i j Hi; rewrite (proj2 (Nat.ltb_lt _ _) Hi), (proj2 (Nat.ltb_ge (cols a + j) (cols a))) by lia; f_equal; lia|].
  split; [intros i j Hj; rewrite (proj2 (Nat.ltb_ge (rows a + i) (rows a))), (proj2 (Nat.ltb_lt _ _) Hj) by lia; f_equal; lia|].
  intros i j. rewrite (proj2 (Nat.ltb_ge (rows a + i) (rows a))), (proj2 (Nat.ltb_ge (cols a + j) (cols a))) by lia. f_equal; lia.
Qed.

(** the gain B R^-1 B^T *)
Definition gain (B Ri : rmat) (i l : nat) : R := rsum (cols B) (fun q => rsum (cols B) (fun p => ent B i p * ent Ri p q) * ent B l q).
Lemma gain_apply n B Ri (x : nat -> R) i : rsum n (fun l => gain B Ri i l * x l) =
  rsum (cols B) (fun p => ent B i p * rsum (cols B) (fun q => ent Ri p q * rsum n (fun l => ent B l q * x l))).
Proof.
  unfold gain.
  transitivity (rsum (cols B) (fun q => rsum (cols B) (fun p => ent B i p * ent Ri p q) * rsum n (fun l => ent B l q * x l))).
  - rewrite (rsum_ext n _ (fun l => rsum (cols B) (fun q => rsum (cols B) (fun p => ent B i p * ent Ri p q) * (ent B l q * x l)))).
    + rewrite rsum_swap. apply rsum_ext. intros q Hq. now rewrite rsum_scale.
    + intros l Hl. rewrite Rmult_comm, <- rsum_scale. apply rsum_ext. intros; ring.
  - rewrite (rsum_ext (cols B) _ (fun q => rsum (cols B) (fun p => ent B i p * (ent Ri p q * rsum n (fun l => ent B l q * x l))))).
    + rewrite rsum_swap. apply rsum_ext. intros p Hp. now rewrite rsum_scale.
    + intros q Hq. rewrite Rmult_comm, <- rsum_scale. apply rsum_ext. intros; ring.
Qed.

Lemma hamiltonian_Ok rinv A B Q Rm Z : exact_rinv rinv -> rows A = cols A -> symmetric_mat Rm -> hamiltonian rinv A B Q Rm = Ok Z ->
  exists Ri, rinv Rm = Ok Ri /\ is_inverse Rm Ri /\ is_inverse Ri Rm /\ rows B = rows A /\ rows Q = rows A /\ cols Q = rows A /\ cols B = rows Rm /\
    rows Z = (rows A + rows A)%nat /\ cols Z = (rows A + rows A)%nat /\
    forall i j, (i < rows A)%nat -> (j < rows A)%nat -> ent Z i j = ent A i j /\ ent Z i (rows A + j) = - gain B Ri i j /\
      ent Z (rows A + i) j = - ent Q i j /\ ent Z (rows A + i) (rows A + j) = - ent A j i.
Proof.
  intros EI SqA [SqR _] H. unfold hamiltonian in H. apply bind_Ok in H as (Ri & ER & H). apply bind_Ok in H as (t & Et & H). apply bind_Ok in H as (G & EG & H).
  destruct (EI _ _ ER) as [I1 I2]. exists Ri. split; [exact ER|]. split; [exact I1|]. split; [exact I2|].
  apply dotm_Ok in Et as (T1 & T2 & T3 & T4). apply dotm_Ok in EG as (G1 & G2 & G3 & G4). apply blocks_Ok in H as (B1 & B2 & B3 & B4 & B5 & B6 & Z1 & Z2 & Z3 & Z4).
  cbn [oppm mapm tr rows cols ent] in *. destruct I1 as (I11 & I12 & _). rewrite <- SqA in *. 
  assert (RB : rows B = rows A) by congruence. assert (CB : cols B = rows Rm) by congruence.
  split; [exact RB|]. split; [congruence|]. split; [congruence|]. split; [exact CB|]. split; [rewrite B5, B2; reflexivity|]. split; [rewrite B6, B4; reflexivity|].
  intros i j Hi Hj. split; [now apply Z1|]. split; [|split].
  - rewrite Z2 by exact Hi. f_equal. rewrite G4. unfold gain. rewrite T3. replace (cols Ri) with (cols B) by congruence. apply rsum_ext. intros q Hq. now rewrite T4.
  - now apply Z3.
  - apply Z4.
Qed.

Lemma is_inverse_unique M X Y : is_inverse M X -> is_inverse X M -> is_inverse M Y -> forall i j, (i < cols M)%nat -> (j < rows M)%nat -> ent Y i j = ent X i j.
Proof.
  intros (X1 & X2 & X3) (_ & _ & X4) (Y1 & Y2 & Y3) i j Hi Hj.
  (* X (M Y) = X and (X M) Y = Y *)
  transitivity (rsum (cols M) (fun k => rsum (rows M) (fun l => ent X i l * ent M l k) * ent Y k j)).
  - rewrite (rsum_ext (cols M) _ (fun k => if Nat.eqb k i then ent Y k j else 0)); [now rewrite rsum_single|].
    intros k Hk. rewrite X2, X1 in X4. rewrite X4 by assumption. rewrite (Nat.eqb_sym i k). destruct (Nat.eqb k i); ring.
  - transitivity (rsum (rows M) (fun l => ent X i l * rsum (cols M) (fun k => ent M l k * ent Y k j))).
    + rewrite (rsum_ext (cols M) _ (fun k => rsum (rows M) (fun l => ent X i l * (ent M l k * ent Y k j)))).
      * rewrite rsum_swap. apply rsum_ext. intros l Hl. now rewrite rsum_scale.
      * intros k Hk. rewrite Rmult_comm, <- rsum_scale. apply rsum_ext. intros; ring.
    + rewrite (rsum_ext (rows M) _ (fun l => if Nat.eqb l j then ent X i l else 0)); [now rewrite rsum_single|].
      intros l Hl. rewrite Y3 by assumption. destruct (Nat.eqb l j); ring.
Qed.
Lemma inverse_symmetric M X : symmetric_mat M -> is_inverse M X -> is_inverse X M -> forall i j, (i < rows M)%nat -> (j < rows M)%nat -> ent X i j = ent X j i.
Proof.
  intros [Sq Sy] I1 I2 i j Hi Hj. symmetry. change (ent X j i) with (ent (tr X) i j). apply (is_inverse_unique M X (tr X)); auto; [|now rewrite <- Sq].
  destruct I1 as (R1 & R2 & _), I2 as (_ & _ & H). split; [cbn; congruence|]. split; [cbn; congruence|].
  intros a b Ha Hb. cbn [tr ent]. rewrite R2, R1 in H. rewrite <- Sq in *. rewrite (Nat.eqb_sym a b), <- H by assumption. apply rsum_ext. intros k Hk. rewrite (Sy a k) by assumption. ring.
Qed.
Lemma gain_symmetric B Ri i l : (forall p q, (p < cols B)%nat -> (q < cols B)%nat -> ent Ri p q = ent Ri q p) -> gain B Ri i l = gain B Ri l i.
Proof.
  intros H. unfold gain. rewrite (rsum_ext (cols B) _ (fun q => rsum (cols B) (fun p => ent B l q * (ent B i p * ent Ri p q)))) by (intros; rewrite Rmult_comm, <- rsum_scale; reflexivity).
  rewrite rsum_swap. apply rsum_ext. intros p Hp. rewrite Rmult_comm, <- rsum_scale. apply rsum_ext. intros q Hq. rewrite (H p q) by assumption. ring.
Qed.

Lemma slice_ent {K : cring} (a : nd2 K) r0 r1 c0 c1 i j : ent (slice a r0 r1 c0 c1) i j = ent a (r0 + i) (c0 + j).
Proof. reflexivity. Qed.

Definition cR (M : nat -> nat -> R) (i j : nat) : C := RtoC (M i j).
Lemma cR_conj M i j : Cconj (cR M i j) = cR M i j.
Proof. apply Cconj_R. Qed.
Lemma stable_hurwitz n M : stable n M <-> hurwitz n (cR M).
Proof. split; intros H l v E N; apply (H l v); auto. Qed.
Lemma hurwitz_ext n M N : (forall i j, (i < n)%nat -> (j < n)%nat -> M i j = N i j) -> hurwitz n M -> hurwitz n N.
Proof. intros E H l v Hv Nz. apply (H l v); [|exact Nz]. intros i Hi. rewrite <- Hv by exact Hi. apply cap_extM. intros; now apply E. Qed.
Lemma cmul_R n M N i j : cmul n (cR M) (cR N) i j = RtoC (rsum n (fun k => M i k * N k j)).
Proof. unfold cmul, cR. rewrite <- csum_R. apply csum_ext. intros. now rewrite RtoC_mult. Qed.

(** the real matrices: both forms of the equation agree *)
Lemma care_c_real (A B Q Rm Ri : rmat) (X : nat -> nat -> R) : is_inverse Rm Ri -> is_inverse Ri Rm -> cols B = rows Rm -> rows Rm = cols Rm -> 
  (forall Y, is_inverse Rm Y -> forall i j, (i < rows A)%nat -> (j < rows A)%nat ->
    rsum (rows A) (fun k => ent A k i * X k j) + rsum (rows A) (fun k => X i k * ent A k j) -
    rsum (rows A) (fun k => X i k * rsum (cols B) (fun p => ent B k p * rsum (cols B) (fun q => ent Y p q * rsum (rows A) (fun l => ent B l q * X l j)))) + ent Q i j = 0)
  <-> care_c (rows A) (cR (ent A)) (cR (gain B Ri)) (cR (ent Q)) (cR X).
Proof.
  intros I1 I2 CB SqR.
  assert (T : forall i j, (cmul (rows A) (ctr (cR (ent A))) (cR X) i j + cmul (rows A) (cR X) (cR (ent A)) i j - cmul (rows A) (cR X) (cmul (rows A) (cR (gain B Ri)) (cR X)) i j + cR (ent Q) i j)%C =
    RtoC (rsum (rows A) (fun k => ent A k i * X k j) + rsum (rows A) (fun k => X i k * ent A k j) -
    rsum (rows A) (fun k => X i k * rsum (cols B) (fun p => ent B k p * rsum (cols B) (fun q => ent Ri p q * rsum (rows A) (fun l => ent B l q * X l j)))) + ent Q i j)).
  { intros i j. rewrite RtoC_plus, RtoC_minus, RtoC_plus. f_equal. f_equal; [f_equal|].
    - change (ctr (cR (ent A))) with (cR (fun i k => ent A k i)). apply cmul_R.
    - apply cmul_R.
    - unfold cmul at 1. rewrite <- csum_R. apply csum_ext. intros k Hk. rewrite cmul_R, RtoC_mult. unfold cR. f_equal. f_equal. apply gain_apply. }
  split.
  - intros H i j Hi Hj. rewrite T. now rewrite (H Ri I1 i j Hi Hj).
  - intros H Y IY i j Hi Hj. specialize (H i j Hi Hj). rewrite T in H. apply RtoC_eq in H. rewrite <- H. f_equal. f_equal. apply rsum_ext. intros k Hk. f_equal.
    apply rsum_ext. intros p Hp. f_equal. apply rsum_ext. intros q Hq. f_equal. apply (is_inverse_unique Rm Ri Y); auto; [rewrite <- SqR|]; rewrite <- CB; assumption.
Qed.
Lemma loop_real (A B Ri : rmat) X i j : loop (rows A) (cR (ent A)) (cR (gain B Ri)) (cR X) i j = RtoC (closed_loop A B Ri X i j).
Proof. unfold loop, csubm, closed_loop. rewrite cmul_R, gain_apply, RtoC_minus. reflexivity. Qed.

Section Core.
Variable rinv : rmat -> result rmat.
Hypothesis EI : exact_rinv rinv.
Variables A B Q Rm Z : rmat.
Hypothesis SqA : rows A = cols A.
Hypothesis SyQ : symmetric_mat Q.
Hypothesis SyR : symmetric_mat Rm.
Hypothesis HZ : hamiltonian rinv A B Q Rm = Ok Z.
Variables (P X : cmat) (lam : nat -> C).
Hypothesis EB : eigenbasis (cof Z) P lam.
Hypothesis IX : is_cinverse (slice P 0 (rows A) 0 (rows A)) X.
Hypothesis Stab : forall k, (k < rows A)%nat -> fst (lam k) < 0.
Variable sol : cmat.
Hypothesis HS : dotm (slice P (rows A) (rows P) 0 (rows A)) X = Ok sol.

Let n := rows A.
Let P1 (i j : nat) := ent P i j.
Let P2 (i j : nat) := ent P (n + i) j.

Lemma core : exists Ri, rinv Rm = Ok Ri /\ is_inverse Rm Ri /\ is_inverse Ri Rm /\ cols B = rows Rm /\ rows sol = n /\ cols sol = n /\
  (forall i j, (i < n)%nat -> (j < n)%nat -> ent sol i j = RtoC (ent (rpart sol) i j) /\ ent (rpart sol) i j = ent (rpart sol) j i) /\
  care_eq A B Q Rm (rpart sol) /\ stable n (closed_loop A B Ri (ent (rpart sol))) /\ stable n (fun i j => closed_loop A B Ri (ent (rpart sol)) j i) /\ diag_stable n (fun i j => closed_loop A B Ri (ent (rpart sol)) j i) /\
  forall Y, care_eq A B Q Rm Y -> stable n (fun i j => closed_loop A B Ri (ent Y) j i) -> forall i j, (i < n)%nat -> (j < n)%nat -> ent Y i j = ent (rpart sol) i j.
Proof.
  destruct (hamiltonian_Ok rinv A B Q Rm Z EI SqA SyR HZ) as (Ri & ER & I1 & I2 & RB & RQ & CQ & CB & RZ & CZ & EZ). fold n in RB, RQ, CQ, RZ, CZ, EZ.
  exists Ri. do 4 (split; [assumption|]). apply dotm_C in HS as (_ & S2 & S3 & S4). destruct IX as (_ & X1 & X2 & HX). destruct EB as (RP & CP & EV).
  cbn [slice cof rows cols ent] in S2, S3, S4, X1, X2, HX, RP, CP, EV. rewrite Nat.sub_0_r in X1, X2, HX, S4. fold n in X1, X2, HX, S4, S2. rewrite RZ in *.
  assert (RS : rows sol = n) by lia. assert (CS : cols sol = n) by lia. split; [exact RS|]. split; [exact CS|].
  change (fun i j : nat => ent P (0 + i) (0 + j)) with P1 in HX.
  set (V := cmul n P2 (ent X)). assert (ES : forall i j, ent sol i j = V i j) by (intros; apply S4).
  pose proof (inverse_symmetric Rm Ri SyR I1 I2) as SRi.
  assert (H1 : forall i j, (i < n)%nat -> (j < n)%nat -> (cmul n (cR (ent A)) P1 i j - cmul n (cR (gain B Ri)) P2 i j = P1 i j * lam j)%C).
  { intros i j Hi Hj. change (P1 i j) with (ent P i j). rewrite <- (EV i j) by lia. rewrite csum_app. unfold cmul, Cminus. f_equal.
    - apply csum_ext. intros k Hk. destruct (EZ i k Hi Hk) as (-> & _). reflexivity.
    - transitivity ((- RtoC 1) * csum n (fun k => cR (gain B Ri) i k * P2 k j))%C; [ring|]. rewrite <- csum_scale. apply csum_ext. intros k Hk.
      destruct (EZ i k Hi Hk) as (_ & -> & _). rewrite RtoC_opp. unfold cR, P2. ring. }
  assert (H2 : forall i j, (i < n)%nat -> (j < n)%nat -> (- cmul n (cR (ent Q)) P1 i j - cmul n (ctr (cR (ent A))) P2 i j = P2 i j * lam j)%C).
  { intros i j Hi Hj. change (P2 i j) with (ent P (n + i) j). rewrite <- (EV (n + i)%nat j) by lia. rewrite csum_app. unfold cmul, Cminus. f_equal.
    - transitivity ((- RtoC 1) * csum n (fun k => cR (ent Q) i k * P1 k j))%C; [ring|]. rewrite <- csum_scale. apply csum_ext. intros k Hk.
      destruct (EZ i k Hi Hk) as (_ & _ & -> & _). rewrite RtoC_opp. unfold cR, P1. ring.
    - transitivity ((- RtoC 1) * csum n (fun k => ctr (cR (ent A)) i k * P2 k j))%C; [ring|]. rewrite <- csum_scale. apply csum_ext. intros k Hk.
      destruct (EZ i k Hi Hk) as (_ & _ & _ & ->). rewrite RtoC_opp. unfold ctr, cR, P2. ring. }
  assert (SG : forall i j, (i < n)%nat -> (j < n)%nat -> cR (gain B Ri) i j = cR (gain B Ri) j i).
  { intros i j _ _. unfold cR. f_equal. apply gain_symmetric. intros p q Hp Hq. apply SRi; now rewrite <- CB. }
  assert (SQ : forall i j, (i < n)%nat -> (j < n)%nat -> cR (ent Q) i j = cR (ent Q) j i) by (intros; unfold cR; f_equal; apply (proj2 SyQ); lia).
  pose proof (graph_solves n _ _ _ _ _ _ _ H1 H2 HX) as Solve. fold V in Solve.
  pose proof (V_symmetric n _ _ _ _ _ _ _ H1 H2 HX Stab SG SQ) as Sy. fold V in Sy.
  pose proof (V_real n _ _ _ _ _ _ _ H1 H2 HX Stab SG SQ (cR_conj _) (cR_conj _) (cR_conj _)) as Re. fold V in Re.
  set (W := rpart sol). assert (EW : forall i j, (i < n)%nat -> (j < n)%nat -> V i j = cR (ent W) i j).
  { intros i j Hi Hj. specialize (Re i j Hi Hj). unfold cR, W. cbn [rpart ent]. rewrite ES. destruct (V i j) as [a b]. unfold Cconj in Re. cbn in *. apply (f_equal snd) in Re. cbn in Re. unfold RtoC. f_equal. lra. }
  assert (SW : forall i j, (i < n)%nat -> (j < n)%nat -> ent W i j = ent W j i).
  { intros i j Hi Hj. apply RtoC_eq. change (cR (ent W) i j = cR (ent W) j i). rewrite <- !EW by assumption. now apply Sy. }
  split; [intros i j Hi Hj; split; [rewrite ES; now apply EW|now apply SW]|].
  assert (SolveW : care_c n (cR (ent A)) (cR (gain B Ri)) (cR (ent Q)) (cR (ent W))).
  { apply care_op. intros x i Hi. rewrite care_op in Solve. rewrite <- (Solve x i Hi).
    assert (EC : forall y k, (k < n)%nat -> cap n (cR (ent W)) y k = cap n V y k) by (intros; apply cap_extM; intros; symmetry; now apply EW).
    rewrite !(EC _ i) by exact Hi. rewrite (cap_ext n (ctr (cR (ent A))) _ (cap n V x)) by (intros; now apply EC).
    rewrite (cap_ext n V (cap n (cR (gain B Ri)) (cap n (cR (ent W)) x)) (cap n (cR (gain B Ri)) (cap n V x))); [reflexivity|].
    intros k Hk. apply cap_ext. intros; now apply EC. }
  destruct SyR as [SqR _].
  split; [split; [exact RS|split; [exact CS|split; [exact SW|]]]; apply (care_c_real A B Q Rm Ri (ent W) I1 I2 CB SqR); exact SolveW|].
  assert (LW : forall i j, (i < n)%nat -> (j < n)%nat -> loop n (cR (ent A)) (cR (gain B Ri)) V i j = RtoC (closed_loop A B Ri (ent W) i j)).
  { intros i j Hi Hj. rewrite <- loop_real. fold n. unfold loop, csubm.
    assert (E : cmul n (cR (gain B Ri)) V i j = cmul n (cR (gain B Ri)) (cR (ent W)) i j) by (apply csum_ext; intros k Hk; now rewrite EW). now rewrite E. }
  split; [apply stable_hurwitz; apply (hurwitz_ext n (loop n (cR (ent A)) (cR (gain B Ri)) V)); [exact LW|exact (loop_hurwitz n _ _ _ _ _ _ H1 HX Stab)]|].
  split; [apply stable_hurwitz; apply (hurwitz_ext n (ctr (loop n (cR (ent A)) (cR (gain B Ri)) V))); [intros i j Hi Hj; exact (LW j i Hj Hi)|exact (loop_hurwitz_tr n _ _ _ _ _ _ H1 HX Stab)]|].
  split.
  { exists (ctr P1), (ctr (ent X)), lam. split; [|split; [exact Stab|]].
    - destruct HX as [X3 X4]. split; intros i j Hi Hj.
      + transitivity (cmul n (ent X) P1 j i); [apply csum_ext; intros; unfold ctr; ring|]. rewrite X4 by assumption. unfold unit. now rewrite (Nat.eqb_sym j i).
      + transitivity (cmul n P1 (ent X) j i); [apply csum_ext; intros; unfold ctr; ring|]. rewrite X3 by assumption. unfold unit. now rewrite (Nat.eqb_sym j i).
    - intros k j Hk Hj. pose proof (loop_P1 n _ _ _ _ _ _ H1 HX (unit k) j Hj) as LP. fold V in LP.
      transitivity (cap n (loop n (cR (ent A)) (cR (gain B Ri)) V) (cap n P1 (unit k)) j).
      + unfold cap at 1. apply csum_ext. intros i Hi. rewrite cap_unit by exact Hk. rewrite LW by assumption. unfold ctr. ring.
      + rewrite LP. rewrite (cap_ext n P1 _ (fun m => lam k * unit k m)%C).
        * rewrite cap_scale, cap_unit by exact Hk. reflexivity.
        * intros m Hm. unfold unit. destruct (Nat.eqb_spec m k) as [->|]; [reflexivity|ring]. }
  intros Y (RY & CY & SY & EY) StY i j Hi Hj. apply RtoC_eq. change (cR (ent Y) i j = cR (ent W) i j). rewrite <- EW by assumption. symmetry.
  apply (stable_unique n _ _ _ _ _ _ _ H1 H2 HX Stab (cR (ent Y))); auto.
  - apply (care_c_real A B Q Rm Ri (ent Y) I1 I2 CB SqR). exact EY.
  - apply stable_hurwitz in StY. apply (hurwitz_ext n (cR (fun i j => closed_loop A B Ri (ent Y) j i))); [|exact StY]. intros a b Ha Hb. unfold cR at 1. rewrite <- loop_real. fold n.
    unfold loop, csubm, ctr.
    assert (E : cmul n (cR (gain B Ri)) (cR (ent Y)) b a = cmul n (cR (ent Y)) (cR (gain B Ri)) a b) by (apply csum_ext; intros k Hk; rewrite (SG b k) by assumption; unfold cR at 2; rewrite (SY k a) by assumption; apply Cmult_comm).
    now rewrite E.
Qed.
End Core.

(** the symmetric part of a symmetric matrix *)
Lemma sym_Ok (V X : rmat) n : sym V = Ok X -> rows V = n -> cols V = n -> (forall i j, (i < n)%nat -> (j < n)%nat -> ent V i j = ent V j i) ->
  rows X = n /\ cols X = n /\ forall i j, (i < n)%nat -> (j < n)%nat -> ent X i j = ent V i j.
Proof.
  intros H R1 C1 Sy. unfold sym in H. apply bind_Ok in H as (s & Es & H). apply Ok_inj in H. subst X. apply zip2_Ok in Es as (_ & _ & H3 & H4 & H5).
  cbn [scalem mapm rows cols ent]. rewrite H3, H4. do 2 (split; [assumption|]). intros i j Hi Hj. rewrite H5. cbn [tr ent]. rewrite (Sy j i) by assumption. toR. field.
Qed.
Lemma care_eq_ext A B Q Rm (X Y : rmat) : rows Y = rows A -> cols Y = rows A -> (forall i j, (i < rows A)%nat -> (j < rows A)%nat -> ent Y i j = ent X i j) -> care_eq A B Q Rm X -> care_eq A B Q Rm Y.
Proof.
  intros RY CY E (RX & CX & Sy & H). split; [exact RY|]. split; [exact CY|]. split; [intros; rewrite !E by assumption; now apply Sy|].
  intros Ri IR i j Hi Hj. rewrite <- (H Ri IR i j Hi Hj).
  rewrite (rsum_ext _ (fun k => ent A k i * ent Y k j) (fun k => ent A k i * ent X k j)) by (intros; now rewrite E).
  rewrite (rsum_ext _ (fun k => ent Y i k * ent A k j) (fun k => ent X i k * ent A k j)) by (intros; now rewrite E). f_equal. f_equal.
  apply rsum_ext. intros k Hk. rewrite E by assumption. f_equal. apply rsum_ext. intros p Hp. f_equal. apply rsum_ext. intros q Hq. f_equal. apply rsum_ext. intros l Hl. now rewrite E.
Qed.
Lemma closed_loop_ext A B Ri (X Y : nat -> nat -> R) : (forall i j, (i < rows A)%nat -> (j < rows A)%nat -> X i j = Y i j) -> forall i j, (j < rows A)%nat -> closed_loop A B Ri X i j = closed_loop A B Ri Y i j.
Proof.
  intros E i j Hj. unfold closed_loop. f_equal. apply rsum_ext. intros p Hp. f_equal. apply rsum_ext. intros q Hq. f_equal. apply rsum_ext. intros l Hl. now rewrite E.
Qed.
Lemma stable_ext n M N : (forall i j, (i < n)%nat -> (j < n)%nat -> M i j = N i j) -> stable n M -> stable n N.
Proof. intros E H l v Hv Nz. apply (H l v); [|exact Nz]. intros i Hi. rewrite <- Hv by exact Hi. apply csum_ext. intros j Hj. now rewrite E. Qed.
Lemma diag_stable_ext n M N : (forall i j, (i < n)%nat -> (j < n)%nat -> M i j = N i j) -> diag_stable n M -> diag_stable n N.
Proof.
  intros E (T & Ti & lam & H1 & H2 & H3). exists T, Ti, lam. split; [exact H1|]. split; [exact H2|]. intros k j Hk Hj. rewrite <- H3 by assumption. apply csum_ext. intros i Hi. now rewrite E.
Qed.

(** *** What a solver is to return: the symmetric solution with a stable closed loop *)
Definition stabilising (A B Q Rm X : rmat) : Prop := care_eq A B Q Rm X /\ exists Ri, is_inverse Rm Ri /\ is_inverse Ri Rm /\
  stable (rows A) (closed_loop A B Ri (ent X)) /\ stable (rows A) (fun i j => closed_loop A B Ri (ent X) j i) /\ diag_stable (rows A) (fun i j => closed_loop A B Ri (ent X) j i) /\
  forall Y, care_eq A B Q Rm Y -> stable (rows A) (fun i j => closed_loop A B Ri (ent Y) j i) -> forall i j, (i < rows A)%nat -> (j < rows A)%nat -> ent Y i j = ent X i j.
Lemma stabilising_ext A B Q Rm X Y : rows Y = rows A -> cols Y = rows A -> (forall i j, (i < rows A)%nat -> (j < rows A)%nat -> ent Y i j = ent X i j) -> stabilising A B Q Rm X -> stabilising A B Q Rm Y.
Proof.
  intros RY CY E (C & Ri & I1 & I2 & S1 & S2 & S3 & U). split; [now apply (care_eq_ext A B Q Rm X)|]. exists Ri. do 2 (split; [assumption|]).
  assert (EX : forall i j, (j < rows A)%nat -> closed_loop A B Ri (ent X) i j = closed_loop A B Ri (ent Y) i j) by (intros; apply closed_loop_ext; [intros; symmetry; now apply E|assumption]).
  split; [apply (stable_ext _ _ _ (fun i j _ Hj => EX i j Hj) S1)|]. split; [apply (stable_ext _ _ _ (fun i j Hi _ => EX j i Hi) S2)|].
  split; [apply (diag_stable_ext _ _ _ (fun i j Hi _ => EX j i Hi) S3)|]. intros Z HZ SZ i j Hi Hj. rewrite E by assumption. now apply U.
Qed.
