(** The coefficients of the NUV estimator in continuous time: Vu measures the least energy of an input. *)
From Coq Require Import List Arith Lia Bool Reals Lra ZArith.
From Flocq Require Import Core.
From Verif Require Import Base LinAlg FirExtras AnalogSystem AnalogProofs Signals DigitalControl Integrators IntegratorsProofs Simulator Stability LinearOde PreSim Zpk FilterCoeff
  FilterCoeffProofs FilterOde FilterRun Estimators Optimal NuvAlg Nuv NuvProofs.
Import ListNotations.
Open Scope R_scope.

(** *** Specification *)
(** what the routines return is exact *)
Record nuv_sound (S : asys Rring) (d : dc) (ivp : (R -> list R -> result (list R)) -> R -> R -> list R -> result (list R)) (expm : rmat -> R -> result rmat) : Prop := mkNS {
  ns_expm : forall (M : rmat) (t : R) (E : rmat), 0 <= t -> expm M t = Ok E -> rows E = rows M /\ cols E = rows M /\
    forall x : list R, length x = rows M -> endpoint (fun _ y => dotv M y) t x (dotv E x);
  ns_fwd : forall m b y1, 0 <= b <= ck_T (d_clk d) -> ivp (fwd_rhs S d (aA S) m) 0 b (repeat 0 (sN S)) = Ok y1 -> endpoint (fwd_rhs S d (aA S) m) b (repeat 0 (sN S)) (Ok y1);
  ns_cov : forall BBT b y1, 0 <= b -> ivp (vu_rhs expm S BBT b) 0 b (repeat 0 (sN S * sN S)%nat) = Ok y1 -> endpoint (vu_rhs expm S BBT b) b (repeat 0 (sN S * sN S)%nat) (Ok y1) }.
(** the adjoint equation, ending in q *)
Definition adjoint (S : asys Rring) (T : R) (q : nat -> R) (lam : nat -> R -> R) : Prop :=
  sol (sN S) (fun i j => - ent (aA S) j i) T (fun _ _ => 0) lam /\ forall n, (n < sN S)%nat -> lam n T = q n.
(** the input cov^2 B^T lam *)
Definition adjoint_input (S : asys Rring) (cov : R) (lam : nat -> R -> R) (l : nat) (t : R) : R := cov ^ 2 * rsum (sN S) (fun n => ent (aB S) n l * lam n t).
(** the state under the input u and the decisions s during a period *)
Definition driven (S : asys Rring) (d : dc) (T : R) (s : nat -> R) (u x : nat -> R -> R) : Prop :=
  sol (sN S) (ent (aA S)) T (fun n t => rsum (sL S) (fun l => ent (aB S) n l * u l t) + ctl S d s n t) x.
Definition input_energy (S : asys Rring) (T : R) (u : nat -> R -> R) (I : R) : Prop := integral T (fun t => rsum (sL S) (fun l => Rsqr (u l t))) I.

(** *** Integrals *)
Lemma int_lin T f g a b I J : integral T f I -> integral T g J -> integral T (fun t => a * f t + b * g t) (a * I + b * J).
Proof.
  intros (F & e1 & C1 & D1 & ->) (G & e2 & C2 & D2 & ->). exists (fun t => a * F t + b * G t), (e1 ++ e2).
  destruct (pw_plus T (fun t => a * F t) (fun t => b * G t) (fun t => a * f t) (fun t => b * g t)) as [X [ex Y]].
  { apply pw_scale. split; [exact C1|]. exists e1. exact D1. } { apply pw_scale. split; [exact C2|]. exists e2. exact D2. }
  split; [exact X|]. split; [|ring]. intros t Ht Hn.
  apply (derivable_pt_lim_plus (fun t => a * F t) (fun t => b * G t)); [apply (derivable_pt_lim_scal F a), D1|apply (derivable_pt_lim_scal G b), D2]; auto; intros H; apply Hn, in_or_app; auto.
Qed.
Lemma int_ext T f g I : (forall t, 0 < t < T -> f t = g t) -> integral T f I -> integral T g I.
Proof. intros H (F & ex & C & D & E). exists F, ex. split; [exact C|]. split; [|exact E]. intros t Ht Hn. rewrite <- H by exact Ht. auto. Qed.
Lemma int_pw T f df : pw T f df -> integral T df (f T - f 0).
Proof. intros (C & ex & D). exists f, ex. auto. Qed.
Lemma int_nonneg T f I : 0 <= T -> integral T f I -> (forall t, 0 < t < T -> 0 <= f t) -> 0 <= I.
Proof.
  intros HT (F & ex & C & D & ->) H. assert (X : - F T <= - F 0); [|lra]. apply (pw_le T HT (fun t => - F t) (fun t => - f t)); [|intros t Ht; specialize (H t Ht); lra].
  apply pw_opp. split; [exact C|]. exists ex. exact D.
Qed.
Lemma int_unique T f I J : 0 <= T -> integral T f I -> integral T f J -> I = J.
Proof.
  intros HT H1 H2. assert (X := int_lin T f f 1 (-1) I J H1 H2). assert (Y := int_lin T f f (-1) 1 I J H1 H2).
  apply int_nonneg in X; [|exact HT|intros; lra]. apply int_nonneg in Y; [|exact HT|intros; lra]. lra.
Qed.

Lemma sol_sub N A T T' b z : T' <= T -> sol N A T b z -> sol N A T' b z.
Proof. intros H [C [ex D]]. split; [intros; apply C; auto; lra|]. exists ex. intros. apply D; auto. lra. Qed.

Section Flow.
Variables (S : asys Rring) (T : R) (E : rmat).
Notation N := (sN S).
Notation A := (aA S).
Hypothesis CA : cols A = N.
Hypothesis HT : 0 <= T.
Hypothesis HE : rows E = N /\ cols E = N /\ forall x : list R, length x = N -> endpoint (fun _ y => dotv A y) T x (dotv E x).
Definition unit_vec (j i : nat) : R := if Nat.eqb i j then 1 else 0.
Lemma flow_matrix : exists phi : nat -> nat -> R -> R, forall j, (j < N)%nat -> sol N (ent A) T (fun _ _ => 0) (phi j) /\ forall i, (i < N)%nat -> phi j i 0 = unit_vec j i.
Proof.
  apply (choose_nat N T A E eq_refl CA HE N (fun j z => sol N (ent A) T (fun _ _ => 0) z /\ forall i, (i < N)%nat -> z i 0 = unit_vec j i)). intros j Hj.
  destruct (flow_sol N T A E eq_refl CA HE (map (unit_vec j) (seq 0 N))) as (z & H1 & H2 & _); [now rewrite map_length, seq_length|].
  exists z. split; [exact H1|]. intros i Hi. rewrite H2 by exact Hi. now rewrite nth_seq_R.
Qed.
Variable phi : nat -> nat -> R -> R.
Hypothesis HP : forall j, (j < N)%nat -> sol N (ent A) T (fun _ _ => 0) (phi j) /\ forall i, (i < N)%nat -> phi j i 0 = unit_vec j i.
Lemma flow_any T' z : 0 <= T' <= T -> sol N (ent A) T' (fun _ _ => 0) z -> forall i t, (i < N)%nat -> 0 <= t <= T' -> z i t = rsum N (fun j => z j 0 * phi j i t).
Proof.
  intros HT' Sz i t Hi Ht. assert (S2 := sol_sum N (ent A) T' N (fun j => z j 0) (fun _ _ _ => 0) phi). cbv beta in S2.
  assert (S3 : sol N (ent A) T' (fun _ _ => 0) (fun n t => rsum N (fun j => z j 0 * phi j n t))).
  { eapply sol_ext; [|apply S2; intros j Hj; apply (sol_sub N (ent A) T T'); [lra|apply HP; exact Hj]]. intros n s _ _. cbv beta. apply rsum_zero. intros; ring. }
  apply (unique N (ent A) T' (fun _ _ => 0) z (fun n t => rsum N (fun j => z j 0 * phi j n t)) Sz S3); auto.
  intros n Hn. rewrite (rsum_ext N _ (fun j => if Nat.eqb j n then z j 0 else 0)); [now rewrite (Optimal.rsum_single N (fun j => z j 0))|].
  intros j Hj. destruct (HP j Hj) as [_ X]. rewrite X by exact Hn. unfold unit_vec. rewrite (Nat.eqb_sym n j). destruct (Nat.eqb j n); ring.
Qed.
(** Phi A = A Phi *)
Lemma flow_commute i j t : (i < N)%nat -> (j < N)%nat -> 0 <= t <= T -> rsum N (fun k => ent A i k * phi j k t) = rsum N (fun k => ent A k j * phi k i t).
Proof.
  intros Hi Hj Ht. destruct (HP j Hj) as [S1 S0].
  assert (S2 : sol N (ent A) T (fun _ _ => 0) (fun n t => rsum N (fun k => ent A n k * phi j k t))).
  { apply (sol_of_pw S). intros n Hn.
    apply (pw_ext T (fun t => rsum N (fun k => ent A n k * phi j k t)) (fun t => rsum N (fun k => ent A n k * (rsum N (fun m => ent A k m * phi j m t) + 0)))); [reflexivity|intros; rewrite Rplus_0_r; apply rsum_ext; intros; ring|].
    apply pw_sum. intros k Hk. apply pw_scale. apply (pw_of_sol S T (ent A) (fun _ _ => 0) (phi j) k S1 Hk). }
  rewrite (flow_any T _ ltac:(lra) S2 i t Hi Ht). apply rsum_ext. intros k Hk. f_equal.
  rewrite (rsum_ext N _ (fun m => if Nat.eqb m j then ent A k m else 0)); [now rewrite (Optimal.rsum_single N (fun m => ent A k m))|].
  intros m Hm. rewrite S0 by exact Hm. unfold unit_vec. destruct (Nat.eqb m j); ring.
Qed.
Lemma flow_transposed i : (i < N)%nat -> sol N (fun a b => ent A b a) T (fun _ _ => 0) (fun j t => phi j i t).
Proof.
  intros Hi. apply (sol_of_pw S). intros j Hj. destruct (HP j Hj) as [S1 _].
  apply (pw_ext T (phi j i) (fun t => rsum N (fun k => ent A i k * phi j k t) + 0)); [reflexivity| |apply (pw_of_sol S T (ent A) (fun _ _ => 0) (phi j) i S1 Hi)].
  intros t Ht. f_equal. apply flow_commute; auto; lra.
Qed.
Lemma trans_any T' z : 0 <= T' <= T -> sol N (fun a b => ent A b a) T' (fun _ _ => 0) z -> forall j t, (j < N)%nat -> 0 <= t <= T' -> z j t = rsum N (fun i => z i 0 * phi j i t).
Proof.
  intros HT' Sz j t Hj Ht. set (At := fun a b => ent A b a) in *.
  assert (S3 : sol N At T' (fun _ _ => 0) (fun n t => rsum N (fun i => z i 0 * phi n i t))).
  { eapply sol_ext; [|apply (sol_sum N At T' N (fun i => z i 0) (fun _ _ _ => 0) (fun i n t => phi n i t)); intros i Hi; apply (sol_sub N At T T'); [lra|now apply flow_transposed]]. intros n s _ _. cbv beta. apply rsum_zero. intros; ring. }
  apply (unique N At T' (fun _ _ => 0) z (fun n t => rsum N (fun i => z i 0 * phi n i t)) Sz S3); auto.
  intros n Hn. rewrite (rsum_ext N _ (fun i => if Nat.eqb i n then z i 0 else 0)); [now rewrite (Optimal.rsum_single N (fun j => z j 0))|].
  intros i Hi. destruct (HP n Hn) as [_ X]. rewrite X by exact Hi. unfold unit_vec. destruct (Nat.eqb i n); ring.
Qed.
End Flow.

Section Coeff.
Variables (S : asys Rring) (d : dc) (ivp : (R -> list R -> result (list R)) -> R -> R -> list R -> result (list R)) (expm : rmat -> R -> result rmat).
Hypothesis NS : nuv_sound S d ivp expm.
Hypothesis FI : fits S d.
Variables (cov T : R) (Af Bf Vu : rmat).
Hypothesis HT : 0 <= T <= ck_T (d_clk d).
Hypothesis HC : nuv_coefficients ivp expm S d cov T = Ok (Af, Bf, Vu).
Let N := sN S.
Let A := ent (aA S).
Let B := ent (aB S).
Let V : valid S := fi_valid _ _ FI.
Let RA : rows (aA S) = N := eq_refl.
Let CA : cols (aA S) = N := v_A _ V.

Lemma coeff_parts : exists BBT v, expm (aA S) T = Ok Af /\ columns N (sM S) (fun m => ivp (fwd_rhs S d (aA S) m) 0 T (repeat 0 N)) = Ok Bf /\
  dotm (aB S) (scalem cov (tr (aB S))) = Ok BBT /\ ivp (vu_rhs expm S BBT T) 0 T (repeat 0 (N * N)%nat) = Ok v /\ Vu = scalem cov (reshape N v).
Proof.
  assert (H := HC). unfold nuv_coefficients in H. apply bind_Ok in H as (a & E1 & H). apply bind_Ok in H as (b & E2 & H). apply bind_Ok in H as (BBT & E3 & H). apply bind_Ok in H as (v & E4 & H).
  apply Ok_inj in H. injection H as -> -> <-. exists BBT, v. auto.
Qed.
Lemma Af_flow : rows Af = N /\ cols Af = N /\ forall x : list R, length x = N -> endpoint (fun _ y => dotv (aA S) y) T x (dotv Af x).
Proof. destruct coeff_parts as (BBT & v & E1 & _). apply (ns_expm _ _ _ _ NS) in E1; [exact E1|lra]. Qed.
Let phi_ex := flow_matrix S T Af CA Af_flow.

(** the response to the decisions *)
Lemma decided : rows Bf = N /\ cols Bf = sM S /\ (forall s x0, exists z, sol N A T (ctl S d s) z /\ (forall n, (n < N)%nat -> z n 0 = x0 n) /\
  forall n, (n < N)%nat -> z n T = rsum N (fun k => ent Af n k * x0 k) + rsum (sM S) (fun m => ent Bf n m * s m)).
Proof.
  destruct coeff_parts as (BBT & v & _ & EB & _). apply columns_Ok in EB as (RB & CB & EB). split; [exact RB|]. split; [exact CB|].
  assert (HB : forall m, (m < sM S)%nat -> exists z, sol N A T (fun n t => gent S n m * wave d m t) z /\ (forall n, (n < N)%nat -> z n 0 = 0) /\ forall n, (n < N)%nat -> z n T = ent Bf n m).
  { intros m Hm. destruct (EB m Hm) as (c & Ec & Eb). apply (ns_fwd _ _ _ _ NS) in Ec; [|exact HT].
    destruct (column_sol N A T _ (fun n t => gent S n m * wave d m t) c Ec) as (z & H1 & H2 & H3).
    - intros t x Ht Hx. rewrite (fwd_rhs_ok S d (aA S) m t x FI RA CA Hm) by (lra || exact Hx). reflexivity.
    - exists z. split; [exact H1|]. split; [exact H2|]. intros n Hn. now rewrite Eb, H3. }
  intros s x0. destruct (period_exists N (sM S) T (aA S) Af Bf (fun m n t => gent S n m * wave d m t) RA CA Af_flow HB x0 s) as (z & H1 & H2 & H3).
  exists z. split; [|auto]. eapply sol_ext; [|exact H1]. intros. cbv beta. unfold ctl. apply rsum_ext. intros; ring.
Qed.

Lemma adjoint_exists q : exists lam, adjoint S T q lam.
Proof.
  destruct phi_ex as [phi HP]. set (z := fun n t => rsum N (fun i => q i * phi n i t)).
  assert (S3 : sol N (fun a b => A b a) T (fun _ _ => 0) z).
  { eapply sol_ext; [|apply (sol_sum N (fun a b => A b a) T N q (fun _ _ _ => 0) (fun i n t => phi n i t)); intros i Hi; apply (flow_transposed S T ltac:(lra) phi HP i Hi)].
    intros n s _ _. cbv beta. apply rsum_zero. intros; ring. }
  exists (fun n t => z n (T - t)). split.
  - eapply sol_ext; [|exact (sol_rev N _ T _ z S3)]. intros n t _ _. cbv beta. ring.
  - intros n Hn. replace (T - T) with 0 by ring. unfold z. rewrite (rsum_ext N _ (fun i => if Nat.eqb i n then q i else 0)); [now rewrite (Optimal.rsum_single N q)|].
    intros i Hi. destruct (HP n Hn) as [_ X]. rewrite X by exact Hi. unfold unit_vec. destruct (Nat.eqb i n); ring.
Qed.
(** lam_q (t) = Phi (T - t)^T q *)
Lemma adjoint_flow phi q lam : (forall j, (j < N)%nat -> sol N A T (fun _ _ => 0) (phi j) /\ forall i, (i < N)%nat -> phi j i 0 = unit_vec j i) -> adjoint S T q lam ->
  forall n t, (n < N)%nat -> 0 <= t <= T -> lam n t = rsum N (fun i => q i * phi n i (T - t)).
Proof.
  intros HP [Sl Hq] n t Hn Ht. assert (S2 := sol_rev N _ T _ lam Sl).
  assert (S3 : sol N (fun a b => ent (aA S) b a) T (fun _ _ => 0) (fun n t => lam n (T - t))).
  { eapply sol_extA; [|eapply sol_ext; [|exact S2]]; [intros; cbv beta; ring|intros; cbv beta; ring]. }
  assert (X := trans_any S T ltac:(lra) phi HP T _ ltac:(lra) S3 n (T - t) Hn ltac:(lra)). cbv beta in X. replace (T - (T - t)) with t in X by ring. rewrite X. apply rsum_ext. intros i Hi. rewrite Rminus_0_r, Hq by exact Hi. reflexivity.
Qed.

Lemma nth_flatten (m : rmat) i j : (i < rows m)%nat -> (j < cols m)%nat -> nth (i * cols m + j) (flatten m) 0 = ent m i j.
Proof.
  unfold flatten. intros Hi Hj. assert (G : forall n a, (i < n)%nat -> nth (i * cols m + j) (flat_map (fun i => map (fun j => ent m i j) (seq 0 (cols m))) (seq a n)) 0 = ent m (a + i)%nat j).
  { clear Hi. induction i as [|i IH]; intros n a Hn; (destruct n; [lia|]); cbn [seq flat_map].
    - rewrite app_nth1 by (rewrite map_length, seq_length; lia). cbn [Nat.mul Nat.add]. rewrite nth_seq_R by exact Hj. now rewrite Nat.add_0_r.
    - rewrite app_nth2 by (rewrite map_length, seq_length; cbn [Nat.mul]; lia). rewrite map_length, seq_length. replace (Datatypes.S i * cols m + j - cols m)%nat with (i * cols m + j)%nat by (cbn [Nat.mul]; lia).
      rewrite IH by lia. f_equal. lia. }
  rewrite G by exact Hi. reflexivity.
Qed.
(** q^T Vu r is the integral of cov^2 (B^T lam_q) (B^T lam_r) *)
Lemma Vu_integral q r lq lr : adjoint S T q lq -> adjoint S T r lr ->
  integral T (fun t => cov ^ 2 * rsum (sL S) (fun l => rsum N (fun n => B n l * lq n t) * rsum N (fun n => B n l * lr n t))) (dotr N q (ap N (ent Vu) r)).
Proof.
  intros Hq Hr. destruct coeff_parts as (BBT & v & _ & _ & EB & EV & EU). destruct phi_ex as [phi HP].
  apply dotm_Ok in EB as (CB & RB & CB' & EB). cbn [scalem mapm tr rows cols ent] in *.
  apply (ns_cov _ _ _ _ NS) in EV; [|lra]. destruct EV as (y & (Y0 & YL & YC & ex & YD) & Ev). apply Ok_inj in Ev. rewrite repeat_length in YL, YD.
  set (J := fun t => cov * rsum N (fun i => q i * rsum N (fun j => nth (i * N + j) (y t) 0 * r j))).
  exists J, ex. split; [|split].
  - intros t Ht. apply (continuity_pt_scal (fun t => rsum N (fun i => q i * rsum N (fun j => nth (i * N + j) (y t) 0 * r j))) cov). apply continuity_rsum. intros i Hi.
    apply (continuity_pt_scal (fun t => rsum N (fun j => nth (i * N + j) (y t) 0 * r j)) (q i)). apply continuity_rsum. intros j Hj.
    apply (continuity_pt_mult (fun t => nth (i * N + j) (y t) 0) (fun _ => r j)); [apply YC; exact Ht|apply continuity_pt_const; now intros ? ?].
  - intros t Ht Hn. destruct (YD t Ht Hn) as (w & Ew & Lw & Dw). unfold vu_rhs in Ew. apply bind_Ok in Ew as (E1 & H1 & Ew). apply bind_Ok in Ew as (E2 & H2 & Ew).
    apply bind_Ok in Ew as (X & HX & Ew). apply bind_Ok in Ew as (Y & HY & Ew). apply Ok_inj in Ew. subst w.
    apply (ns_expm _ _ _ _ NS) in H1; [|lra]. apply (ns_expm _ _ _ _ NS) in H2; [|lra]. cbn [tr rows cols] in H2.
    apply dotm_Ok in HX as (_ & RX & CX & HX). apply dotm_Ok in HY as (CE & RY & CY & HY).
    destruct H1 as (R1 & C1 & F1). destruct H2 as (R2 & C2 & F2). fold N in RB, CB'. change (rows (aA S)) with N in R1, C1, F1. rewrite CA in R2, C2, F2.
    assert (RBr : rows (aB S) = N) by apply V.
    assert (P1 : forall i j, (i < N)%nat -> (j < N)%nat -> ent E1 i j = phi j i (T - t)).
    { intros i j Hi Hj. destruct (flow_sol N (T - t) (aA S) E1 RA CA (conj R1 (conj C1 F1)) (map (unit_vec j) (seq 0 N))) as (z & Sz & Z0 & ZT); [now rewrite map_length, seq_length|].
      assert (Q := flow_any S T phi HP (T - t) z ltac:(lra) Sz i (T - t) Hi ltac:(lra)). rewrite ZT in Q by exact Hi.
      rewrite (rsum_ext N _ (fun k => if Nat.eqb k j then ent E1 i k else 0)) in Q by (intros k Hk; rewrite nth_seq_R by exact Hk; unfold unit_vec; destruct (Nat.eqb k j); ring).
      rewrite (Optimal.rsum_single N (fun k => ent E1 i k) j Hj) in Q. rewrite Q.
      rewrite (rsum_ext N _ (fun k => if Nat.eqb k j then phi k i (T - t) else 0)); [now rewrite (Optimal.rsum_single N (fun k => phi k i (T - t)) j Hj)|].
      intros k Hk. rewrite Z0, nth_seq_R by exact Hk. unfold unit_vec. destruct (Nat.eqb k j); ring. }
    assert (P2 : forall i j, (i < N)%nat -> (j < N)%nat -> ent E2 i j = phi i j (T - t)).
    { intros i j Hi Hj. destruct (flow_sol N (T - t) (tr (aA S)) E2 CA RA (conj R2 (conj C2 F2)) (map (unit_vec j) (seq 0 N))) as (z & Sz & Z0 & ZT); [now rewrite map_length, seq_length|].
      assert (Q := trans_any S T ltac:(lra) phi HP (T - t) z ltac:(lra) Sz i (T - t) Hi ltac:(lra)). rewrite ZT in Q by exact Hi.
      rewrite (rsum_ext N _ (fun k => if Nat.eqb k j then ent E2 i k else 0)) in Q by (intros k Hk; rewrite nth_seq_R by exact Hk; unfold unit_vec; destruct (Nat.eqb k j); ring).
      rewrite (Optimal.rsum_single N (fun k => ent E2 i k) j Hj) in Q. rewrite Q.
      rewrite (rsum_ext N _ (fun k => if Nat.eqb k j then phi i k (T - t) else 0)); [now rewrite (Optimal.rsum_single N (fun k => phi i k (T - t)) j Hj)|].
      intros k Hk. rewrite Z0, nth_seq_R by exact Hk. unfold unit_vec. destruct (Nat.eqb k j); ring. }
    assert (RYN : rows Y = N) by congruence. assert (CYN : cols Y = N) by congruence.
    assert (D : derivable_pt_lim J t (cov * rsum N (fun i => q i * rsum N (fun j => ent Y i j * r j)))).
    { apply (derivable_pt_lim_scal (fun t => rsum N (fun i => q i * rsum N (fun j => nth (i * N + j) (y t) 0 * r j))) cov). apply derivable_rsum. intros i Hi.
      apply (derivable_pt_lim_scal (fun t => rsum N (fun j => nth (i * N + j) (y t) 0 * r j)) (q i)). apply derivable_rsum. intros j Hj.
      assert (D0 := Dw (i * N + j)%nat ltac:(nia)). replace (nth (i * N + j) (flatten Y) 0) with (ent Y i j) in D0 by (rewrite <- CYN; symmetry; apply nth_flatten; congruence).
      replace (ent Y i j * r j) with (r j * ent Y i j) by ring. apply derivable_ext with (f := fun s => r j * nth (i * N + j) (y s) 0); [intros; ring|]. apply (derivable_pt_lim_scal (fun s => nth (i * N + j) (y s) 0) (r j)). exact D0. }
    replace (cov ^ 2 * rsum (sL S) (fun l => rsum N (fun n => B n l * lq n t) * rsum N (fun n => B n l * lr n t))) with (cov * rsum N (fun i => q i * rsum N (fun j => ent Y i j * r j))); [exact D|].
    assert (Lq : forall n, (n < N)%nat -> lq n t = rsum N (fun i => q i * phi n i (T - t))) by (intros; apply adjoint_flow; auto; lra).
    assert (Lr : forall n, (n < N)%nat -> lr n t = rsum N (fun i => r i * phi n i (T - t))) by (intros; apply adjoint_flow; auto; lra).
    assert (XY : dotr N q (ap N (ent Y) r) = dotr N (fun n => lq n t) (ap N (ent BBT) (fun n => lr n t))).
    { rewrite (dotr_ext N q q (ap N (ent Y) r) (ap N (ent E1) (ap N (ent BBT) (ap N (ent E2) r)))); [|intros ? ?; reflexivity|].
      - rewrite dotr_adj. apply dotr_ext; intros i Hi; [unfold apT; rewrite Lq by exact Hi; apply rsum_ext; intros k Hk; rewrite P1 by auto; ring|].
        apply ap_ext. intros k Hk. unfold ap. rewrite Lr by exact Hk. apply rsum_ext. intros j Hj. rewrite P2 by auto. ring.
      - intros i Hi. rewrite <- (ap_ext N (ent E1) (ap N (mulr N (ent BBT) (ent E2)) r)) by (intros k _; apply ap_mul). rewrite <- ap_mul. apply rsum_ext. intros j Hj. f_equal.
        rewrite HY, C1. apply rsum_ext. intros k Hk. f_equal. rewrite HX. rewrite CB'. cbn [tr cols]. now rewrite RBr. }
    change (cov * dotr N q (ap N (ent Y) r) = cov ^ 2 * rsum (sL S) (fun l => apT N B (fun n => lq n t) l * apT N B (fun n => lr n t) l)). rewrite XY.
    rewrite (dotr_ext N _ (fun n => lq n t) _ (ap (sL S) B (fun l => cov * apT N B (fun n => lr n t) l))); [|intros ? ?; reflexivity|].
    + rewrite dotr_adj. unfold dotr. rewrite <- !rsum_scale. apply rsum_ext. intros; ring.
    + intros i Hi. rewrite ap_scale. unfold ap. rewrite <- rsum_scale. rewrite (rsum_ext N _ (fun k => rsum (sL S) (fun l => cov * (B i l * (B k l * lr k t))))).
      * rewrite rsum_swap. apply rsum_ext. intros l Hl. rewrite rsum_scale. f_equal. now rewrite rsum_scale.
      * intros k Hk. rewrite EB. rewrite Rmult_comm, <- rsum_scale. apply rsum_ext. intros l Hl. unfold B. cbn [rmul Rring]. ring.
  - unfold J. rewrite EU, Y0, Ev. cbn [scalem mapm reshape ent]. unfold dotr, ap.
    rewrite (rsum_zero N (fun i => q i * rsum N (fun j => nth (i * N + j) (repeat 0 (sN S * sN S)) 0 * r j))).
    + rewrite Rmult_0_r, Rminus_0_r, <- rsum_scale. apply rsum_ext. intros i Hi. rewrite (Rmult_comm cov), Rmult_assoc. f_equal. rewrite Rmult_comm, <- rsum_scale. apply rsum_ext. intros j Hj. cbn [rmul Rring]. exact (Rmult_assoc cov _ _).
    + intros i Hi. rewrite rsum_zero; [ring|]. intros j Hj. rewrite nth_repeat. ring.
Qed.
Lemma Vu_dims : rows Vu = N /\ cols Vu = N.
Proof. destruct coeff_parts as (BBT & v & _ & _ & _ & _ & E). rewrite E. split; reflexivity. Qed.
Lemma Vu_symm : symm N (ent Vu).
Proof.
  intros i j Hi Hj. destruct (adjoint_exists (unit_vec i)) as [li Ai]. destruct (adjoint_exists (unit_vec j)) as [lj Aj].
  assert (X := Vu_integral _ _ _ _ Ai Aj). assert (Y := Vu_integral _ _ _ _ Aj Ai).
  assert (E : forall a b, (a < N)%nat -> (b < N)%nat -> dotr N (unit_vec a) (ap N (ent Vu) (unit_vec b)) = ent Vu a b).
  { intros a b Ha Hb. unfold unit_vec at 1. rewrite dotr_unit by exact Ha. apply ap_unit. exact Hb. }
  rewrite E in X, Y by auto. apply (int_unique T _ _ _ ltac:(lra) X). apply (int_ext T _ _ _) with (2 := Y). intros t _. cbv beta. f_equal. apply rsum_ext. intros; ring.
Qed.
Lemma Vu_psd : psd N (ent Vu).
Proof.
  intros q. destruct (adjoint_exists q) as [l A']. assert (X := Vu_integral _ _ _ _ A' A'). apply int_nonneg in X; [exact X|lra|].
  intros t _. apply Rmult_le_pos; [apply pow2_ge_0|]. apply rsum_nonneg. intros. apply Rle_0_sqr.
Qed.
(** the part of the state a period ends with that its input is responsible for *)
Definition innovation (s : nat -> R) (x : nat -> R -> R) (n : nat) : R := x n T - (ap N (ent Af) (fun k => x k 0) n + ap (sM S) (ent Bf) s n).
Lemma response s u x q lam : driven S d T s u x -> adjoint S T q lam ->
  integral T (fun t => rsum (sL S) (fun l => rsum N (fun n => B n l * lam n t) * u l t)) (dotr N q (innovation s x)).
Proof.
  intros Dx [Sl Hq]. destruct decided as (_ & _ & HD). destruct (HD s (fun k => x k 0)) as (z & Sz & Z0 & ZT).
  assert (Sw := sol_comb N A T (-1) _ _ _ _ Dx Sz). cbv beta in Sw. set (w := fun n t => x n t + -1 * z n t) in Sw.
  assert (P : pw T (fun t => rsum N (fun n => lam n t * w n t)) (fun t => rsum N (fun n => (rsum N (fun k => - ent (aA S) k n * lam k t) + 0) * w n t +
     lam n t * (rsum N (fun k => A n k * w k t) + (rsum (sL S) (fun l => B n l * u l t) + ctl S d s n t + -1 * ctl S d s n t))))).
  { apply pw_sum. intros n Hn. apply pw_mult; [exact (pw_of_sol S T _ _ _ n Sl Hn)|exact (pw_of_sol S T _ _ _ n Sw Hn)]. }
  apply int_pw in P. replace (dotr N q (innovation s x)) with (rsum N (fun n => lam n T * w n T) - rsum N (fun n => lam n 0 * w n 0)).
  - apply (int_ext T _ _ _) with (2 := P). intros t Ht. cbv beta.
    transitivity (rsum N (fun n => rsum N (fun k => - ent (aA S) k n * lam k t * w n t)) + rsum N (fun n => rsum N (fun k => lam n t * (A n k * w k t))) + rsum N (fun n => rsum (sL S) (fun l => lam n t * (B n l * u l t)))).
    + rewrite <- !rsum_add. apply rsum_ext. intros n Hn. rewrite !rsum_scale. rewrite Rplus_0_r, Rmult_comm, <- rsum_scale, (rsum_ext N (fun k => w n t * _) (fun k => - ent (aA S) k n * lam k t * w n t)) by (intros; ring). ring.
    + rewrite (rsum_swap N N (fun n k => - ent (aA S) k n * lam k t * w n t)), <- rsum_add. rewrite rsum_zero.
      * rewrite Rplus_0_l, rsum_swap. apply rsum_ext. intros l Hl. rewrite Rmult_comm, <- rsum_scale. apply rsum_ext. intros; ring.
      * intros n Hn. rewrite <- rsum_add. apply rsum_zero. intros k Hk. unfold A. ring.
  - rewrite (rsum_zero N (fun n => lam n 0 * w n 0)) by (intros n Hn; unfold w; rewrite Z0 by exact Hn; ring). rewrite Rminus_0_r. apply rsum_ext. intros n Hn.
    rewrite Hq by exact Hn. f_equal. unfold w, innovation, ap. rewrite ZT by exact Hn. ring.
Qed.
(** the adjoint input is the one of least energy *)
Lemma energy_gap s u x q lam I : driven S d T s u x -> adjoint S T q lam -> input_energy S T u I ->
  input_energy S T (fun l t => u l t - adjoint_input S cov lam l t) (I - 2 * cov ^ 2 * dotr N q (innovation s x) + cov ^ 2 * quad N (ent Vu) q).
Proof.
  intros Dx Hl HI. assert (R1 := response s u x q lam Dx Hl). assert (R2 := Vu_integral q q lam lam Hl Hl).
  assert (X := int_lin T _ _ 1 (cov ^ 2) _ _ (int_lin T _ _ 1 (- 2 * cov ^ 2) _ _ HI R1) R2). unfold input_energy.
  replace (I - 2 * cov ^ 2 * dotr N q (innovation s x) + cov ^ 2 * quad N (ent Vu) q) with (1 * (1 * I + - 2 * cov ^ 2 * dotr N q (innovation s x)) + cov ^ 2 * dotr N q (ap N (ent Vu) q)).
  - apply (int_ext T _ _ _) with (2 := X). intros t Ht. cbv beta. rewrite !Rmult_1_l. rewrite <- !rsum_scale, <- rsum_add, <- rsum_add. apply rsum_ext. intros l Hl'. unfold adjoint_input, Rsqr. fold N B. ring.
  - unfold quad, dotr, ap. ring.
Qed.
Lemma energy_least s u x q I : driven S d T s u x -> input_energy S T u I -> 2 * cov ^ 2 * dotr N q (innovation s x) - cov ^ 2 * quad N (ent Vu) q <= I.
Proof.
  intros Dx HI. destruct (adjoint_exists q) as [lam Hl]. assert (X := energy_gap s u x q lam I Dx Hl HI). apply int_nonneg in X; [lra|lra|].
  intros t _. apply rsum_nonneg. intros. apply Rle_0_sqr.
Qed.
Lemma adjoint_energy q lam : adjoint S T q lam -> input_energy S T (adjoint_input S cov lam) (cov ^ 2 * quad N (ent Vu) q).
Proof.
  intros Hl. assert (X := int_lin T _ _ (cov ^ 2) 0 _ _ (Vu_integral q q lam lam Hl Hl) (integral_zero T)). unfold input_energy.
  replace (cov ^ 2 * quad N (ent Vu) q) with (cov ^ 2 * dotr N q (ap N (ent Vu) q) + 0 * 0) by (unfold quad, dotr, ap; ring).
  apply (int_ext T _ _ _) with (2 := X). intros t Ht. cbv beta. rewrite Rmult_0_r, Rplus_0_r, <- !rsum_scale. apply rsum_ext. intros l Hl'. unfold adjoint_input, Rsqr. fold N B. ring.
Qed.
(** and takes the state exactly where the model of a period says *)
Lemma adjoint_steers s x q lam : adjoint S T q lam -> driven S d T s (adjoint_input S cov lam) x ->
  forall n, (n < N)%nat -> x n T = ap N (ent Af) (fun k => x k 0) n + ap (sM S) (ent Bf) s n + ap N (ent Vu) q n.
Proof.
  intros Hl Dx n Hn. destruct (adjoint_exists (unit_vec n)) as [ln An]. assert (X := response s _ x _ ln Dx An). assert (Y := Vu_integral _ q ln lam An Hl).
  unfold unit_vec in X at 1, Y at 1. rewrite dotr_unit in X, Y by exact Hn.
  assert (innovation s x n = ap N (ent Vu) q n) as Z; [|unfold innovation in Z; lra].
  apply (int_unique T _ _ _ ltac:(lra) X). apply (int_ext T _ _ _) with (2 := Y). intros t _. cbv beta. rewrite <- rsum_scale. apply rsum_ext. intros l Hl'. unfold adjoint_input. fold N B. ring.
Qed.
Lemma adjoint_end q lam l : adjoint S T q lam -> adjoint_input S cov lam l T = cov ^ 2 * apT N B q l.
Proof. intros [_ Hq]. unfold adjoint_input, apT. f_equal. apply rsum_ext. intros n Hn. now rewrite Hq. Qed.
End Coeff.
