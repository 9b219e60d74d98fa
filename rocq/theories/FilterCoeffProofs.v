(** The coefficients sample the continuous-time filters exactly. *)
From Coq Require Import List Arith Lia Bool Reals Lra.
From Flocq Require Import Core.
From Coquelicot Require Import Complex.
From Verif Require Import Base LinAlg FirExtras AnalogSystem AnalogProofs Signals DigitalControl DigitalControlProofs ControlKinds
  Integrators IntegratorsProofs Simulator Stability LinearOde PreSim Zpk FilterCoeff.
Import ListNotations.
Open Scope R_scope.

Ltac toR := match goal with |- @eq _ ?a ?b => change (@eq R a b) end.

(** *** Specification *)
(** C (eta2 I)^-1 C^T *)
Definition obsK (S : asys Rring) (eta2 : R) (i j : nat) : R := / eta2 * rsum (sNt S) (fun r => ent (aCT S) r i * ent (aCT S) r j).
(** the matrices A - V C eta2^-1 C^T and A + V C eta2^-1 C^T of the forward and the backward filter *)
Definition fwdA (S : asys Rring) (eta2 : R) (V : nat -> nat -> R) (i j : nat) : R := ent (aA S) i j - rsum (sN S) (fun k => V i k * obsK S eta2 k j).
Definition bwdA (S : asys Rring) (eta2 : R) (V : nat -> nat -> R) (i j : nat) : R := ent (aA S) i j + rsum (sN S) (fun k => V i k * obsK S eta2 k j).
(** sg A V + V (sg A)^T + B B^T - V C eta2^-1 C^T V = 0, V symmetric *)
Definition riccati_sol (S : asys Rring) (eta2 sg : R) (V : nat -> nat -> R) : Prop :=
  (forall i j, (i < sN S)%nat -> (j < sN S)%nat -> V i j = V j i) /\
  forall i j, (i < sN S)%nat -> (j < sN S)%nat ->
    sg * rsum (sN S) (fun k => ent (aA S) i k * V k j) + sg * rsum (sN S) (fun k => V i k * ent (aA S) j k) +
    rsum (sL S) (fun l => ent (aB S) i l * ent (aB S) j l) -
    rsum (sN S) (fun k => V i k * rsum (sN S) (fun l => obsK S eta2 k l * V l j)) = 0.
(** Gamma times the control waveforms with decisions [c] *)
Definition ctl (S : asys Rring) (d : dc) (c : nat -> R) (n : nat) (t : R) : R := rsum (sM S) (fun m => gent S n m * (wave d m t * c m)).

(** *** Routines that return exact solutions if they return *)
Definition is_inverse (M X : rmat) : Prop := rows X = cols M /\ cols X = rows M /\
  forall i j, (i < rows M)%nat -> (j < rows M)%nat -> rsum (cols M) (fun k => ent M i k * ent X k j) = if Nat.eqb i j then 1 else 0.
(** A^T X + X A - X B Rm^-1 B^T X + Q = 0 *)
Definition care_eq (A B Q Rm X : rmat) : Prop :=
  rows X = rows A /\ cols X = rows A /\ (forall i j, (i < rows A)%nat -> (j < rows A)%nat -> ent X i j = ent X j i) /\
  forall Ri, is_inverse Rm Ri -> forall i j, (i < rows A)%nat -> (j < rows A)%nat ->
    rsum (rows A) (fun k => ent A k i * ent X k j) + rsum (rows A) (fun k => ent X i k * ent A k j) -
    rsum (rows A) (fun k => ent X i k * rsum (cols B) (fun p => ent B k p * rsum (cols B) (fun q => ent Ri p q *
      rsum (rows A) (fun l => ent B l q * ent X l j)))) + ent Q i j = 0.
(** square and symmetric *)
Definition symmetric_mat (M : rmat) : Prop := rows M = cols M /\ forall i j, (i < rows M)%nat -> (j < rows M)%nat -> ent M i j = ent M j i.
(** the right-hand sides handed to the differential equation solver *)
Inductive filter_rhs (S : asys Rring) (d : dc) : (R -> list R -> result (list R)) -> Prop :=
| FFwd M m : filter_rhs S d (fwd_rhs S d M m)
| FBwd M m : filter_rhs S d (bwd_rhs S d M (ck_T (d_clk d)) m)
| FMpf M G m : aG S = Some G -> filter_rhs S d (mp_rhs M G (sig_mp d) m)
| FMpb M G m : aG S = Some G -> filter_rhs S d (mp_rhs M (oppm G) (fun m t => sig_mp d m (ck_T (d_clk d) - t)) m)
| FSym M G m : aG S = Some G -> filter_rhs S d (mp_rhs M (oppm G) (sig_mp d) m).
Record sound (S : asys Rring) (d : dc) care_raw inv solve ivp expm : Prop := mkSound {
  so_care : forall A B Q Rm X, rows A = cols A -> symmetric_mat Q -> symmetric_mat Rm -> care_raw A B Q Rm = Ok X -> care_eq A B Q Rm X;
  so_inv : forall M X, inv M = Ok X -> is_inverse M X;
  so_solve : forall V B W : rmat, solve V B = Ok W -> rows W = cols V /\ cols W = cols B /\
    forall i l, (i < rows V)%nat -> (l < cols B)%nat -> rsum (cols V) (fun k => ent V i k * ent W k l) = ent B i l;
  so_ivp : forall f b y1, filter_rhs S d f -> 0 <= b <= ck_T (d_clk d) -> ivp f 0 b (repeat 0 (sN S)) = Ok y1 -> endpoint f b (repeat 0 (sN S)) (Ok y1);
  so_expm : forall (M : rmat) (t : R) (E : rmat), 0 <= t -> expm M t = Ok E -> rows E = rows M /\ cols E = rows M /\
    forall x : list R, length x = rows M -> endpoint (fun _ y => dotv M y) t x (dotv E x) }.

(** *** Shapes and values *)
Lemma bind_Ok {A B} (r : result A) (f : A -> result B) b : bind r f = Ok b -> exists a, r = Ok a /\ f a = Ok b.
Proof. destruct r; [|discriminate]. intros H. eauto. Qed.
Lemma dotm_Ok (a b c : rmat) : dotm a b = Ok c -> cols a = rows b /\ rows c = rows a /\ cols c = cols b /\
  forall i j, ent c i j = rsum (cols a) (fun k => ent a i k * ent b k j).
Proof.
  unfold dotm. destruct (Nat.eqb_spec (cols a) (rows b)); [|discriminate]. intros H. apply Ok_inj in H. subst c. cbn. repeat split; auto.
  intros. apply ksum_rsum.
Qed.
Lemma zip2_Ok (f : R -> R -> R) (a b c : rmat) : zip2 (K := Rring) f a b = Ok c ->
  rows a = rows b /\ cols a = cols b /\ rows c = rows a /\ cols c = cols a /\ forall i j, ent c i j = f (ent a i j) (ent b i j).
Proof.
  unfold zip2. destruct (Nat.eqb_spec (rows a) (rows b)), (Nat.eqb_spec (cols a) (cols b)); cbn; try discriminate.
  intros H. apply Ok_inj in H. subst c. cbn. auto.
Qed.

Section P.
Variables (care_raw : rmat -> rmat -> rmat -> rmat -> result rmat) (inv : rmat -> result rmat) (solve : rmat -> rmat -> result rmat)
  (ivp : (R -> list R -> result (list R)) -> R -> R -> list R -> result (list R)) (expm : rmat -> R -> result rmat).
Variables (S0 : asys Rring) (d0 : dc).
Hypothesis SO : sound S0 d0 care_raw inv solve ivp expm.

Lemma care_Ok A B Q Rm X : rows A = cols A -> symmetric_mat Q -> symmetric_mat Rm -> care care_raw A B Q Rm = Ok X -> exists Y, care_eq A B Q Rm Y /\ rows X = rows A /\ cols X = rows A /\
  forall i j, (i < rows A)%nat -> (j < rows A)%nat -> ent X i j = ent Y i j.
Proof.
  unfold care. intros SqA SyQ SyR H. apply bind_Ok in H as (Y & E & H). apply (so_care _ _ _ _ _ _ _ SO) in E; auto. apply bind_Ok in H as (s & Es & H).
  apply Ok_inj in H. subst X. apply zip2_Ok in Es as (H1 & H2 & H3 & H4 & H5). exists Y. destruct E as (R1 & C1 & Sy & Eq).
  split; [repeat split; auto|]. cbn [scalem mapm rows cols ent]. rewrite H3, H4. do 2 (split; [assumption|]).
  intros i j Hi Hj. rewrite H5. cbn [tr ent]. rewrite (Sy j i) by assumption. toR. field.
Qed.

Lemma eta_inverse n eta2 Ri : is_inverse (scalem eta2 (eye2 (K := Rring) n n)) Ri -> rows Ri = n /\ cols Ri = n /\
  forall i j, (i < n)%nat -> (j < n)%nat -> eta2 * ent Ri i j = if Nat.eqb i j then 1 else 0.
Proof.
  intros (H1 & H2 & H3). cbn [scalem mapm eye2 rows cols ent] in *. split; [auto|]. split; [auto|]. intros i j Hi Hj. rewrite <- H3 by auto.
  rewrite (rsum_ext _ _ (fun k => if Nat.eqb k i then eta2 * ent Ri k j else 0)).
  - now rewrite rsum_single.
  - intros k Hk. cbn [car r0 r1 Rring]. rewrite (Nat.eqb_sym i k). destruct (Nat.eqb_spec k i); ring.
Qed.

Lemma eta_entry n eta2 Ri : is_inverse (scalem eta2 (eye2 (K := Rring) n n)) Ri -> eta2 <> 0 ->
  forall i j, (i < n)%nat -> (j < n)%nat -> ent Ri i j = if Nat.eqb i j then / eta2 else 0.
Proof.
  intros H He i j Hi Hj. destruct (eta_inverse _ _ _ H) as (_ & _ & E). specialize (E i j Hi Hj).
  apply Rmult_eq_reg_l with eta2; [|exact He]. rewrite E. destruct (Nat.eqb i j); [now rewrite Rinv_r|ring].
Qed.

(** Ri times a vector *)
Lemma eta_apply n eta2 Ri (v : nat -> R) : is_inverse (scalem eta2 (eye2 (K := Rring) n n)) Ri -> eta2 <> 0 ->
  forall p, (p < n)%nat -> rsum n (fun q => ent Ri p q * v q) = / eta2 * v p.
Proof.
  intros H He p Hp. rewrite (rsum_ext _ _ (fun q => if Nat.eqb q p then / eta2 * v q else 0)); [now rewrite rsum_single|].
  intros q Hq. rewrite (eta_entry _ _ _ H) by auto. rewrite (Nat.eqb_sym p q). destruct (Nat.eqb_spec q p); ring.
Qed.

(** the inverse of eta2 I exists when eta2 is not 0 *)
Lemma eta_inv_exists n eta2 : eta2 <> 0 -> is_inverse (scalem eta2 (eye2 (K := Rring) n n)) (scalem (/ eta2) (eye2 (K := Rring) n n)).
Proof.
  intros He. split; [reflexivity|]. split; [reflexivity|]. cbn [scalem mapm eye2 rows cols ent car r0 r1 Rring]. intros i j Hi Hj.
  rewrite (rsum_ext _ _ (fun k => if Nat.eqb k i then (if Nat.eqb k j then 1 else 0) else 0)); [now rewrite rsum_single|].
  intros k Hk. rewrite (Nat.eqb_sym i k). destruct (Nat.eqb_spec k i) as [->|]; [|ring]. destruct (Nat.eqb i j); field; auto.
Qed.

Lemma quad_obsK (S : asys Rring) (eta2 : R) (x y : nat -> R) : rsum (sN S) (fun k => x k * rsum (sNt S) (fun p => ent (aCT S) p k * (/ eta2 * rsum (sN S) (fun l => ent (aCT S) p l * y l)))) =
  rsum (sN S) (fun k => x k * rsum (sN S) (fun l => obsK S eta2 k l * y l)).
Proof.
  apply rsum_ext. intros k Hk. f_equal. unfold obsK.
  transitivity (rsum (sNt S) (fun p => rsum (sN S) (fun l => / eta2 * (ent (aCT S) p k * ent (aCT S) p l) * y l))).
  - apply rsum_ext. intros p _. rewrite <- Rmult_assoc, <- rsum_scale. apply rsum_ext. intros; ring.
  - rewrite rsum_swap. apply rsum_ext. intros l _. rewrite <- rsum_scale, (Rmult_comm _ (y l)), <- rsum_scale. apply rsum_ext. intros; ring.
Qed.

Lemma care_riccati (S : asys Rring) eta2 (A' X : rmat) sg Q : valid S -> eta2 <> 0 -> rows A' = sN S ->
  (forall i j, ent A' i j = sg * ent (aA S) j i) -> dotm (aB S) (tr (aB S)) = Ok Q ->
  care_eq A' (tr (aCT S)) Q (scalem eta2 (eye2 (K := Rring) (sNt S) (sNt S))) X -> riccati_sol S eta2 sg (ent X).
Proof.
  intros V He RA EA EQ (R1 & C1 & Sy & H). apply dotm_Ok in EQ as (_ & _ & _ & EQ). rewrite RA in *.
  split; [exact Sy|]. intros i j Hi Hj.
  specialize (H _ (eta_inv_exists (sNt S) eta2 He) i j Hi Hj).
  assert (E4 : rsum (sN S) (fun k => ent X i k * rsum (cols (tr (aCT S))) (fun p => ent (tr (aCT S)) k p * rsum (cols (tr (aCT S))) (fun q =>
     ent (scalem (/ eta2) (eye2 (K := Rring) (sNt S) (sNt S))) p q * rsum (sN S) (fun l => ent (tr (aCT S)) l q * ent X l j)))) =
     rsum (sN S) (fun k => ent X i k * rsum (sN S) (fun l => obsK S eta2 k l * ent X l j))).
  { rewrite <- (quad_obsK S eta2 (fun k => ent X i k) (fun l => ent X l j)). apply rsum_ext. intros k _. f_equal. apply rsum_ext. intros p Hp. f_equal.
    cbn [tr cols ent] in *. exact (eta_apply (sNt S) eta2 _ (fun q => rsum (sN S) (fun l => ent (aCT S) q l * ent X l j)) (eta_inv_exists (sNt S) eta2 He) He p Hp). }
  rewrite E4 in H. clear E4. rewrite EQ in H. cbn [tr ent cols] in H. fold (sL S) in H.
  rewrite (rsum_ext _ (fun k => ent A' k i * ent X k j) (fun k => sg * (ent (aA S) i k * ent X k j))) in H by (intros; rewrite EA; ring).
  rewrite (rsum_ext _ (fun k => ent X i k * ent A' k j) (fun k => sg * (ent X i k * ent (aA S) j k))) in H by (intros; rewrite EA; ring).
  rewrite !rsum_scale in H. rewrite <- H. ring.
Qed.

Lemma riccati_Ok (S : asys Rring) eta2 Rm Vf Vb : valid S -> eta2 <> 0 -> riccati care_raw S eta2 = Ok (Rm, Vf, Vb) ->
  Rm = scalem eta2 (eye2 (K := Rring) (sNt S) (sNt S)) /\ rows Vf = sN S /\ cols Vf = sN S /\ rows Vb = sN S /\ cols Vb = sN S /\
  riccati_sol S eta2 1 (ent Vf) /\ riccati_sol S eta2 (-1) (ent Vb).
Proof.
  intros V He H. unfold riccati in H. apply bind_Ok in H as (Q & EQ & H). apply bind_Ok in H as (Vf' & E1 & H). apply bind_Ok in H as (Vb' & E2 & H).
  apply Ok_inj in H. injection H as <- <- <-. split; [reflexivity|].
  assert (RA : rows (tr (aA S)) = sN S) by (cbn; now rewrite (v_A _ V)).
  assert (SqA : rows (tr (aA S)) = cols (tr (aA S))) by (cbn; now rewrite (v_A _ V)).
  assert (SyQ : symmetric_mat Q).
  { apply dotm_Ok in EQ as (_ & Q1 & Q2 & Q3). split; [rewrite Q1, Q2; reflexivity|]. intros i j _ _. rewrite !Q3. apply rsum_ext. intros. cbn [tr ent]. apply Rmult_comm. }
  assert (SyR : symmetric_mat (scalem eta2 (eye2 (K := Rring) (sNt S) (sNt S)))) by (split; [reflexivity|]; intros i j _ _; cbn [scalem mapm ent eye2]; now rewrite (Nat.eqb_sym i j)).
  apply care_Ok in E1 as (Y1 & Q1 & A1 & A2 & A3); auto. apply care_Ok in E2 as (Y2 & Q2 & B1 & B2 & B3); auto.
  cbn [oppm mapm rows] in B1, B2, B3. rewrite RA in *.
  do 4 (split; [assumption|]).
  assert (T : forall (X Y : rmat) sg, (forall i j, (i < sN S)%nat -> (j < sN S)%nat -> ent X i j = ent Y i j) -> riccati_sol S eta2 sg (ent Y) -> riccati_sol S eta2 sg (ent X)).
  { intros X Y sg E [Sy Eq]. split; [intros; rewrite !E by assumption; now apply Sy|]. intros i j Hi Hj. rewrite <- (Eq i j Hi Hj).
    rewrite (rsum_ext _ (fun k => ent (aA S) i k * ent X k j) (fun k => ent (aA S) i k * ent Y k j)) by (intros; now rewrite E).
    rewrite (rsum_ext _ (fun k => ent X i k * ent (aA S) j k) (fun k => ent Y i k * ent (aA S) j k)) by (intros; now rewrite E).
    rewrite (rsum_ext _ (fun k => ent X i k * rsum (sN S) (fun l => obsK S eta2 k l * ent X l j)) (fun k => ent Y i k * rsum (sN S) (fun l => obsK S eta2 k l * ent Y l j))); [reflexivity|].
    intros k Hk. rewrite E by assumption. f_equal. apply rsum_ext. intros l Hl. now rewrite E. }
  split.
  - apply (T _ Y1); [exact A3|]. clear SqA. eapply (care_riccati S eta2 (tr (aA S))); eauto. intros i j. cbn. enough (H : forall x : R, x = 1 * x) by exact (H _). intros; ring.
  - apply (T _ Y2); [exact B3|]. eapply (care_riccati S eta2 (oppm (tr (aA S)))); eauto. intros i j. cbn. enough (H : forall x : R, - x = -1 * x) by exact (H _). intros; ring.
Qed.

Lemma temp_Ok (S : asys Rring) eta2 Vf Vb tAf tAb : valid S -> eta2 <> 0 -> rows Vf = sN S -> cols Vf = sN S -> rows Vb = sN S -> cols Vb = sN S ->
  temp_matrices inv S (scalem eta2 (eye2 (K := Rring) (sNt S) (sNt S))) Vf Vb = Ok (tAf, tAb) ->
  rows tAf = sN S /\ cols tAf = sN S /\ rows tAb = sN S /\ cols tAb = sN S /\
  (forall i j, ent tAf i j = fwdA S eta2 (ent Vf) i j) /\ (forall i j, ent tAb i j = bwdA S eta2 (ent Vb) i j).
Proof.
  intros V He RF CF RB CB H. unfold temp_matrices in H. apply bind_Ok in H as (Ri & E1 & H). apply bind_Ok in H as (X & E2 & H).
  apply bind_Ok in H as (CC & E3 & H). apply bind_Ok in H as (VfC & E4 & H). apply bind_Ok in H as (F & E5 & H). apply bind_Ok in H as (VbC & E6 & H).
  apply bind_Ok in H as (B & E7 & H). apply Ok_inj in H. injection H as <- <-.
  apply (so_inv _ _ _ _ _ _ _ SO) in E1. apply dotm_Ok in E2 as (S2 & R2 & C2 & E2). apply dotm_Ok in E3 as (S3 & R3 & C3 & E3).
  apply dotm_Ok in E4 as (S4 & R4 & C4 & E4). apply zip2_Ok in E5 as (S5 & S5' & R5 & C5 & E5).
  apply dotm_Ok in E6 as (S6 & R6 & C6 & E6). apply zip2_Ok in E7 as (S7 & S7' & R7 & C7 & E7).
  assert (VA := v_A _ V). fold (sN S) in *. unfold sN in *.
  assert (EC : forall i j, ent CC i j = obsK S eta2 i j).
  { intros i j. rewrite E3. cbn [tr cols ent]. unfold obsK. fold (sNt S). rewrite <- rsum_scale. apply rsum_ext. intros r Hr. rewrite E2.
    destruct (eta_inverse _ _ _ E1) as (_ & Ci & _). rewrite Ci. rewrite (eta_apply _ _ _ (fun q => ent (aCT S) q j) E1 He r Hr). ring. }
  split; [congruence|]. split; [congruence|]. split; [congruence|]. split; [congruence|]. split; intros i j.
  - rewrite E5, E4, CF. unfold fwdA. f_equal. apply rsum_ext. intros k _. now rewrite EC.
  - rewrite E7, E6, CB. unfold bwdA. f_equal. apply rsum_ext. intros k _. now rewrite EC.
Qed.
End P.
