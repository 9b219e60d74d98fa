(** Closed forms for one input, the transfer functions from the controls and from the states, the noise budgets; a pseudo inverse
    for matrices of size one and two, for the examples. *)
From Coq Require Import List Arith Lia Bool Reals Lra.
From Flocq Require Import Core.
From Coquelicot Require Import Complex.
From Verif Require Import Base LinAlg FirExtras AnalogSystem AnalogProofs Zpk IntegratorsProofs LinearOde FilterCoeff TransferFn CplxLin TransferProofs.
Import ListNotations.
Open Scope R_scope.
Open Scope C_scope.

Lemma csum1 f : csum 1 f = f O.
Proof. cbn. ring. Qed.
Lemma nrm2_1 m (G : nat -> nat -> C) : cap m (adj G) (fun r => G r O) O = RtoC (nrm2 m (fun r => G r O)).
Proof. rewrite <- cdot_self. unfold cap, cdot, adj. reflexivity. Qed.

(** one input: v = G^H y / (|G|^2 + eta2) *)
Lemma rls_one m G eta2 y v : (0 < eta2)%R -> rls m 1 G eta2 y v -> v O = cap m (adj G) y O / RtoC (nrm2 m (fun r => G r O) + eta2).
Proof.
  intros He H. specialize (H O ltac:(lia)). assert (Hn := nrm2_nonneg m (fun r => G r O)).
  rewrite (cap_ext m (adj G) (cap 1 G v) (fun r => v O * G r O)) in H by (intros; unfold cap; rewrite csum1; ring).
  rewrite cap_scale, nrm2_1 in H. assert (Z : RtoC (nrm2 m (fun r => G r O) + eta2) <> RtoC 0) by (intros X; apply RtoC_eq in X; lra).
  rewrite <- H. rewrite RtoC_plus in Z |- *. field. exact Z.
Qed.
Lemma Cmod_Rdiv z a : (0 < a)%R -> Cmod (z / RtoC a) = (Cmod z / a)%R.
Proof. intros H. rewrite Cmod_div by (intros X; apply RtoC_eq in X; lra). rewrite Cmod_R, Rabs_pos_eq by lra. reflexivity. Qed.
Lemma Cmod_conj z : Cmod (Cconj z) = Cmod z.
Proof. unfold Cmod, Cconj. cbn [fst snd]. f_equal. ring. Qed.

Section One.
Variable pinv : cmat -> cmat.
Variable S : asys Rring.
Variables w eta2 : R.
Hypothesis V : valid S.
Hypothesis PN : pinv_ok pinv (sN S).
Hypothesis PT : pinv_ok pinv (sNt S).
Hypothesis OP : off_poles S w.
Hypothesis He : (0 < eta2)%R.
Hypothesis L1 : sL S = 1%nat.

(** |G|^2 *)
Definition gain2 (G : cmat) : R := nrm2 (rows G) (fun r => cent G r O).

Lemma ntf_one : exists G X, tfm pinv S false w = Ok G /\ ntf pinv S eta2 w = Ok X /\
  forall r, (r < sNt S)%nat -> cent X O r = RtoC (Cmod (cent G r O) / (gain2 G + eta2)).
Proof.
  destruct (ntf_ok pinv S w V PN OP eta2 He PT) as (G & X & EG & EX & _ & _ & Ex & HX). exists G, X. split; [exact EG|]. split; [exact EX|]. intros r Hr.
  destruct (tfm_ok pinv S w V PN OP) as (G' & EG' & G1 & G2 & _). rewrite EG in EG'. apply Ok_inj in EG'. subst G'.
  destruct (Ex (unit r)) as (v & Hv). rewrite (HX r v Hr Hv O) by lia. f_equal. rewrite L1 in Hv. rewrite (rls_one _ _ _ _ _ He Hv). rewrite cap_unit by exact Hr.
  assert (Hn := nrm2_nonneg (sNt S) (fun r => cent G r O)). rewrite Cmod_Rdiv by lra. unfold adj. rewrite Cmod_conj. unfold gain2. now rewrite G1.
Qed.
Lemma stf_one : exists G X, tfm pinv S false w = Ok G /\ stf pinv S eta2 w = Ok [X] /\ X = (gain2 G / (gain2 G + eta2))%R.
Proof.
  destruct (stf_ok pinv S w V PN OP eta2 He PT) as (G & X & EG & EX & LX & Ex & HX).
  destruct (tfm_ok pinv S w V PN OP) as (G' & EG' & G1 & G2 & _). rewrite EG in EG'. apply Ok_inj in EG'. subst G'.
  destruct (Ex (fun r => cent G r O)) as (v & Hv). destruct (HX O v ltac:(lia) Hv) as [E _]. rewrite L1 in Hv, LX.
  destruct X as [|x [|y X]]; try discriminate LX. exists G, x. split; [exact EG|]. split; [exact EX|]. cbn [nth] in E.
  rewrite (rls_one _ _ _ _ _ He Hv), nrm2_1 in E. assert (Hn := nrm2_nonneg (sNt S) (fun r => cent G r O)).
  unfold gain2. rewrite G1. apply RtoC_eq. rewrite <- E, RtoC_div by lra. reflexivity.
Qed.
End One.

Lemma eta2_of_ok pinv S BW : valid S -> pinv_ok pinv (sN S) -> off_poles S (2 * PI * BW) ->
  exists G e, tfm pinv S false (2 * PI * BW) = Ok G /\ eta2_of pinv S BW = Ok e /\ e = rsum (rows G) (fun i => rsum (cols G) (fun j => Rsqr (Cmod (cent G i j)))).
Proof.
  intros V PN O. destruct (tfm_ok pinv S _ V PN O) as (G & EG & _). exists G. unfold eta2_of. rewrite EG. cbn [bind]. eexists. split; [reflexivity|]. split; [reflexivity|].
  assert (K : forall n f, ksum (K := Rring) n f = rsum n f).
  { intros n f. induction n; [reflexivity|]. rewrite rsum_S, <- IHn. reflexivity. }
  rewrite K. rewrite (rsum_ext (rows G) _ (fun i => rsum (cols G) (fun j => Rsqr (Cmod (cent G i j))))) by (intros; apply K).
  apply Rsqr_sqrt. apply rsum_nonneg. intros. apply rsum_nonneg. intros. apply Rle_0_sqr.
Qed.

(** *** from the controls *)
Lemma cstf_shape pinv inv S eta2 w g : valid S -> pinv_ok pinv (sN S) -> off_poles S w -> aG S = Some g -> sNt S <> sN S -> (0 < sM S)%nat ->
  cstf pinv inv S eta2 w = Exn ValueError.
Proof.
  intros V PN O Eg NE HM. destruct (tfm_ok pinv S w V PN O) as (G & EG & _). destruct (ctf_ok pinv S w V PN O g Eg) as (Y & EY & Y1 & Y2 & _).
  unfold cstf. rewrite EG. cbn [bind]. rewrite EY. cbn [bind]. unfold reshape2. rewrite Y1, Y2. destruct (Nat.eqb_spec (sNt S * sM S) (sN S * sM S)) as [E|E]; [|reflexivity].
  exfalso. apply NE. now apply Nat.mul_cancel_r in E; [|lia].
Qed.
Lemma reshape_same (a : cmat) : exists b, reshape2 (rows a) (cols a) a = Ok b /\ rows b = rows a /\ cols b = cols a /\ forall i j, (j < cols a)%nat -> cent b i j = cent a i j.
Proof.
  unfold reshape2. rewrite Nat.eqb_refl. eexists. split; [reflexivity|]. split; [reflexivity|]. split; [reflexivity|]. intros i j Hj. unfold cent. cbn [ent].
  rewrite Nat.div_add_l by lia. rewrite Nat.div_small, Nat.add_0_r by exact Hj. now rewrite Nat.add_comm, Nat.mod_add, Nat.mod_small by lia.
Qed.
(** the observation is taken to be the state itself *)
Lemma cstf_ok pinv inv S eta2 w g : valid S -> pinv_ok pinv (sN S) -> inv_ok inv (sNt S) -> off_poles S w -> (0 < eta2)%R -> aG S = Some g -> sNt S = sN S ->
  exists G X, tfm pinv S false w = Ok G /\ cstf pinv inv S eta2 w = Ok X /\ rows X = sL S /\ cols X = sM S /\
    forall m x v, (m < sM S)%nat -> phasor S w none (fun i => ce g i m) x -> rls (sNt S) (sL S) (cent G) eta2 x v -> forall l, (l < sL S)%nat -> cent X l m = RtoC (Cmod (v l)).
Proof.
  intros V PN IT O He Eg EN. destruct (ctf_ok pinv S w V PN O g Eg) as (Y & EY & Y1 & Y2 & Y3). destruct (gram_ok pinv S w V PN O eta2 He) as (G & Mt & EG & E & G1 & G2 & I & H).
  destruct (IT Mt I) as (P & EP & P1 & P2 & P3). destruct (reshape_same Y) as (Z & EZ & Z1 & Z2 & Z3). unfold cstf. rewrite EG. cbn [bind]. rewrite EY. cbn [bind].
  rewrite Y1, Y2, <- EN in EZ. rewrite EZ. cbn [bind]. rewrite E. cbn [bind]. rewrite EP. cbn [bind].
  destruct (dotm_c P Z) as (Q & EQ & Q1 & Q2 & Q3). { now rewrite P2, Z1, Y1. }
  rewrite EQ. cbn [bind]. destruct (dotm_c (ctr G) Q) as (T & ET & T1 & T2 & T3). { cbn [ctr cols]. now rewrite Q1, P1, G1. }
  rewrite ET. cbn [bind]. exists G, (absm T). split; [reflexivity|]. split; [reflexivity|]. cbn [absm mapm rows cols]. rewrite T1, T2, Q2, Z2, Y2. cbn [ctr rows]. split; [exact G2|]. split; [reflexivity|].
  intros m x v Hm Hx Hv l Hl. unfold cent at 1. cbn [absm mapm ent]. fold (cent T l m). f_equal. f_equal.
  assert (Rl := gram_rls S eta2 G Mt P H (conj P1 (conj P2 P3)) x). rewrite (rls_unique _ _ _ _ _ _ _ He Hv Rl l Hl).
  rewrite T3. cbn [ctr cols]. rewrite G1. unfold cap at 1. apply csum_ext. intros k Hk. f_equal. rewrite Q3, P2. unfold cap. apply csum_ext. intros j Hj. f_equal.
  rewrite Z3 by lia. rewrite <- (Y3 (unit m) x); [|eapply phasor_ext; [| | |exact Hx]; intros; try reflexivity; symmetry; now apply cap_unit|lia].
  symmetry. now apply cap_unit.
Qed.

(** *** from the states *)
Lemma gtf_ok pinv S eta2 w : valid S -> pinv_ok pinv (sN S) -> pinv_ok pinv (sNt S) -> off_poles S w -> (0 < eta2)%R ->
  exists N T X, ntf pinv S eta2 w = Ok N /\ tfm pinv S true w = Ok T /\ gtf pinv S eta2 w = Ok X /\ rows X = sL S /\ cols X = sN S /\
    forall l n, cent X l n = csum (sNt S) (fun r => cent N l r * cent T r n).
Proof.
  intros V PN PT O He. destruct (ntf_ok pinv S w V PN O eta2 He PT) as (G & X & EG & EX & X1 & X2 & _). destruct (tfm_general_ok pinv S w V PN O) as (T & ET & T1 & T2 & _).
  unfold gtf. rewrite ET. cbn [bind]. rewrite EX. cbn [bind]. destruct (dotm_c X T) as (Y & EY & Y1 & Y2 & Y3); [now rewrite X2, T1|]. exists X, T, Y.
  split; [reflexivity|]. split; [reflexivity|]. split; [exact EY|]. rewrite Y1, Y2. split; [exact X1|]. split; [exact T2|]. intros l n. now rewrite Y3, X2.
Qed.
Lemma gtf_one pinv S eta2 w : valid S -> pinv_ok pinv (sN S) -> pinv_ok pinv (sNt S) -> off_poles S w -> (0 < eta2)%R -> sNt S = 1%nat ->
  exists G X, tfm pinv S false w = Ok G /\ gtf pinv S eta2 w = Ok X /\ rows X = sL S /\ cols X = sN S /\
    forall n x v, (n < sN S)%nat -> phasor S w none (unit n) x -> rls (sNt S) (sL S) (cent G) eta2 (cap (sN S) (ce (aCT S)) x) v ->
      forall l, (l < sL S)%nat -> Cmod (cent X l n) = Cmod (v l).
Proof.
  intros V PN PT OP He E1. destruct (gtf_ok pinv S eta2 w V PN PT OP He) as (M & T & X & EM & ET & EX & X1 & X2 & X3).
  destruct (ntf_ok pinv S w V PN OP eta2 He PT) as (G & M' & EG & EM' & _ & _ & Ex & HM). rewrite EM in EM'. apply Ok_inj in EM'. subst M'.
  destruct (tfm_general_ok pinv S w V PN OP) as (T' & ET' & _ & _ & _ & HT). rewrite ET in ET'. apply Ok_inj in ET'. subst T'.
  exists G, X. split; [exact EG|]. split; [exact EX|]. split; [exact X1|]. split; [exact X2|]. intros n x v Hn Hx Hv l Hl. rewrite X3, E1, csum1.
  destruct (Ex (unit 0)) as (z & Hz). rewrite (HM O z ltac:(lia) Hz l Hl). assert (T0 := HT _ _ Hx O ltac:(lia)). rewrite cap_unit in T0 by exact Hn.
  rewrite Cmod_mult, Cmod_R, Rabs_pos_eq, T0 by apply Cmod_ge_0. rewrite <- Cmod_mult. f_equal.
  set (y := cap (sN S) (ce (aCT S)) x) in *. rewrite Cmult_comm. symmetry.
  apply (rls_unique _ _ _ _ _ v (fun l => y O * z l) He Hv); [|exact Hl].
  assert (H0 : rls (sNt S) (sL S) (cent G) eta2 none none).
  { intros k Hk. unfold none at 1. rewrite !cap_zero by (intros; try apply cap_zero; intros; reflexivity). ring. }
  apply (rls_ext (sNt S) (sL S) (cent G) eta2 (fun r => none r + y O * unit 0 r) y (fun l => none l + y O * z l)); [| |exact (rls_lin _ _ _ _ (y O) _ _ _ _ H0 Hz)].
  - intros r Hr. assert (r = O) by lia. subst r. unfold none, unit. cbn. ring.
  - intros k Hk. unfold none. ring.
Qed.

(** *** a pseudo inverse for sizes one and two *)
Definition pinv2 (M : cmat) : cmat :=
  match rows M with
  | 1%nat => @mk2 Cring 1 1 (fun _ _ => / ent M 0 0)
  | 2%nat => let a := ent M 0 0 in let b := ent M 0 1 in let c := ent M 1 0 in let d := ent M 1 1 in
      let D := Cminus (Cmult a d) (Cmult b c) in
      @mk2 Cring 2 2 (fun i j => match i, j with O, O => Cdiv d D | O, _ => Cdiv (Copp b) D | _, O => Cdiv (Copp c) D | _, _ => Cdiv a D end)
  | _ => M
  end.
Definition inv2 (M : cmat) : result cmat := Ok (pinv2 M).
Lemma csum2 f : csum 2 f = f O + f 1%nat.
Proof. cbn. ring. Qed.
Lemma pinv2_1 : pinv_ok pinv2 1.
Proof.
  intros M (R & Q & I). unfold pinv2. rewrite R. split; [reflexivity|]. split; [reflexivity|]. intros y i Hi. assert (i = O) by lia. subst i.
  unfold cap. rewrite !csum1. unfold cent. cbn [ent]. assert (NZ : (ent M 0 0 : C) <> RtoC 0).
  { intros X. assert (Z := I (fun _ => RtoC 1)). assert (W : RtoC 1 = RtoC 0); [|apply RtoC_eq in W; lra].
    apply (Z (fun i (Hi : (i < 1)%nat) => ltac:(assert (i = O) by lia; subst i; unfold cap; rewrite csum1; unfold cent; rewrite X; ring)) O). lia. }
  rewrite Cmult_assoc, Cinv_r by exact NZ. ring.
Qed.
Lemma pinv2_2 : pinv_ok pinv2 2.
Proof.
  intros M (R & Q & I). unfold pinv2. rewrite R. split; [reflexivity|]. split; [reflexivity|].
  set (a := ent M 0 0 : C). set (b := ent M 0 1 : C). set (c := ent M 1 0 : C). set (d := ent M 1 1 : C). set (D := a * d - b * c).
  assert (NZ : D <> RtoC 0).
  { intros X. assert (K : forall p q : C, a * p + b * q = RtoC 0 -> c * p + d * q = RtoC 0 -> p = RtoC 0 /\ q = RtoC 0).
    { intros p q H1 H2. set (x := fun i : nat => match i with O => p | _ => q end).
      assert (Z : forall i, (i < 2)%nat -> cap 2 (cent M) x i = RtoC 0).
      { intros i Hi. unfold cap. rewrite csum2. unfold cent. destruct i as [|[|i]]; [exact H1|exact H2|lia]. }
      split; [apply (I x Z O)|apply (I x Z 1%nat)]; lia. }
    destruct (K d (- c)) as [Kd Kc]; [rewrite <- X; unfold D; ring|ring|]. destruct (K b (- a)) as [Kb Ka]; [ring|replace (c * b + d * - a) with (- D) by (unfold D; ring); rewrite X; ring|].
    assert (Ea : a = RtoC 0) by (replace a with (- - a) by ring; rewrite Ka; ring). assert (Ec : c = RtoC 0) by (replace c with (- - c) by ring; rewrite Kc; ring).
    destruct (K (RtoC 1) (RtoC 0)) as [Z _]; [rewrite Ea, Kb; ring|rewrite Ec, Kd; ring|]. apply RtoC_eq in Z. lra. }
  intros y i Hi. unfold cap. rewrite !csum2. unfold cent. cbn [ent]. fold a b c d D.
  destruct i as [|[|i]]; [| |lia]; fold a b c d.
  - clearbody a b c d. unfold D in *. field. exact NZ.
  - clearbody a b c d. unfold D in *. field. exact NZ.
Qed.
