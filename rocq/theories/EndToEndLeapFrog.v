(** Leap-frog filters: no direct feed-through, and the frequencies off their poles. *)
From Coq Require Import List Arith Lia Bool Reals Lra ZArith.
From Flocq Require Import Core.
From Coquelicot Require Import Complex.
From Verif Require Import Base LinAlg Estimators FirExtras AnalogSystem AnalogProofs Signals DigitalControl DigitalControlProofs ControlKinds Fom Integrators IntegratorsProofs Simulator Stability LinearOde PreSim Zpk
  SynthesisProofs LeapFrogPoles CplxLin TransferProofs FilterCoeff FilterCoeffProofs FilterOde EstimatorDecay ConversionError EndToEnd.
Import ListNotations.
Open Scope R_scope.

Lemma lf_D beta alpha rho kappa (S : asys Rring) : lf_init beta alpha rho kappa = Ok S -> forall r l, ent (aD S) r l = 0.
Proof.
  unfold lf_init. intros H. do 2 (let A := fresh "A" in apply bind_ok in H as (A & _ & H)). exact (finish_D _ _ _ _ H).
Qed.
Lemma lf_build_D N beta alpha rho kappa delta T h S d h' : lf_build N beta alpha rho kappa delta T h = Ok (S, d, h') -> forall r l, ent (aD S) r l = 0.
Proof.
  unfold lf_build. intros H. destruct (Nat.eqb N 0); [discriminate|]. apply bind_ok in H as (S1 & E & H). apply bind_ok in H as (clk & _ & H). apply bind_ok in H as ([d1 h1] & _ & H).
  apply Ok_inj in H. inversion H; subst. exact (lf_D _ _ _ _ _ E).
Qed.
Lemma get_lf_D gi k h S d h' : get_lf gi k h = Ok (S, d, h') -> forall r l, ent (aD S) r l = 0.
Proof.
  assert (OS : forall o N BW, lf_osr k o N BW h = Ok (S, d, h') -> forall r l, ent (aD S) r l = 0).
  { intros o N BW H. unfold lf_osr in H. repeat match type of H with (if ?b then _ else _) = _ => destruct b; [discriminate|] end. cbv zeta in H.
    repeat match type of H with (if ?b then _ else _) = _ => destruct b; [discriminate|] end. exact (lf_build_D _ _ _ _ _ _ _ _ _ _ _ H). }
  assert (EN : forall e N BW, lf_enob gi k e N BW h = Ok (S, d, h') -> forall r l, ent (aD S) r l = 0).
  { intros e N BW H. unfold lf_enob in H. cbv zeta in H. repeat match type of H with (if ?b then _ else _) = _ => destruct b; [discriminate|] end. exact (lf_build_D _ _ _ _ _ _ _ _ _ _ _ H). }
  intros H. unfold get_lf in H. destruct (k_N k) as [N|]; [|discriminate]. destruct (k_BW k) as [BW|].
  - destruct (k_ENOB k); [eauto|]. destruct (k_OSR k); [eauto|]. destruct (k_SNR k); [eauto|discriminate].
  - destruct (k_OSR k); [|discriminate]. destruct (k_T k); [|discriminate]. destruct (Req_bool _ _); [discriminate|]. cbv zeta in H. destruct (k_ENOB k); eauto.
Qed.

Lemma cap_parts n (m : rmat) (x : nat -> C) i : cap n (ce m) x i = (rsum n (fun j => ent m i j * Re (x j)), rsum n (fun j => ent m i j * Im (x j))).
Proof.
  unfold cap. rewrite (csum_ext _ _ (fun j => (RtoC (ent m i j * Re (x j)) + Ci * RtoC (ent m i j * Im (x j)))%C)).
  - rewrite csum_add, csum_scale, !csum_R. apply injective_projections; cbn; ring.
  - intros j _. unfold ce. destruct (x j) as [a b]. apply injective_projections; cbn; ring.
Qed.

Lemma lf_off_poles (S : asys Rring) N beta alpha w0 k w : valid S -> aG S <> None -> (1 <= N)%nat -> w0 <> 0 -> alpha * beta = - w0 ^ 2 ->
  integrator_system S (repeat beta N) (repeat alpha (N - 1)) (repeat 0 N) k ->
  (forall j, (1 <= j <= N)%nat -> w <> 2 * w0 * cos (angle_k N j)) -> off_poles S w.
Proof.
  intros V HG HN Hw Hab HS Hoff x Hx i Hi.
  assert (DL : sL S = 1%nat) by apply HS.
  set (p := map (fun j => Re (x j)) (seq 0 (sN S))). set (q := map (fun j => Im (x j)) (seq 0 (sN S))).
  assert (Lp : length p = sN S) by (unfold p; now rewrite map_length, seq_length). assert (Lq : length q = sN S) by (unfold q; now rewrite map_length, seq_length).
  assert (Np : forall j, (j < sN S)%nat -> nth j p 0 = Re (x j)) by (intros; unfold p; now rewrite nth_seq_R).
  assert (Nq : forall j, (j < sN S)%nat -> nth j q 0 = Im (x j)) by (intros; unfold q; now rewrite nth_seq_R).
  assert (D : forall y : list R, length y = sN S -> derivative S y [0] (repeat 0 (sM S)) = Ok (map (fun n => rsum (sN S) (fun j => ent (aA S) n j * nth j y 0)) (seq 0 (sN S)))).
  { intros y Ly. assert (E := derivative_rhs (K := Rring) S y [0] (repeat 0 (sM S)) V HG Ly ltac:(rewrite DL; reflexivity) (repeat_length _ _)). rewrite E. f_equal. unfold rhs. apply map_ext. intros n.
    assert (Zg : lino (aG S) (repeat 0 (sM S)) n = 0) by (unfold lino; destruct (aG S) as [g|]; [apply (lin_zero g); intros; apply nth_repeat|reflexivity]).
    assert (Zb : lin (aB S) [0] n = 0) by (apply (lin_zero (aB S)); intros [|[|z]]; reflexivity).
    cbn [car Rring radd]. assert (A := lin_rsum (aA S) y n). rewrite (v_A _ V) in A. cbn [car Rring] in *. rewrite Zg, Zb. rewrite A. ring. }
  assert (HX : forall n, (n < sN S)%nat -> - (w * Im (x n)) = rsum (sN S) (fun j => ent (aA S) n j * Re (x j)) /\ w * Re (x n) = rsum (sN S) (fun j => ent (aA S) n j * Im (x j))).
  { intros n Hn. specialize (Hx n Hn). rewrite (cap_zero (sL S)) in Hx by reflexivity. rewrite cap_parts in Hx. unfold none in Hx.
    assert (F := f_equal fst Hx). assert (G := f_equal snd Hx). unfold Re, Im in *. cbn [fst snd Cmult Cplus RtoC] in F, G. cbn in F, G. split; lra. }
  assert (Hnone : ~ exists n, nth n p 0 <> 0 \/ nth n q 0 <> 0).
  { intros Hne. assert (EG : exists p q, eigen S (0, w) p q).
    { exists p, q. split; [exact Lp|]. split; [exact Lq|]. split; [exact Hne|]. cbn [Re Im fst snd]. rewrite !D by assumption.
      split; f_equal; apply map_ext_in; intros n Hn; apply in_seq in Hn; destruct (HX n ltac:(lia)) as [H1 H2]; rewrite Np, Nq by lia.
      - rewrite (rsum_ext _ _ (fun j => ent (aA S) n j * Re (x j))) by (intros; now rewrite Np). unfold Re, Im in *. cbn [fst snd]. lra.
      - rewrite (rsum_ext _ _ (fun j => ent (aA S) n j * Im (x j))) by (intros; now rewrite Nq). unfold Re, Im in *. cbn [fst snd]. lra. }
    apply (leap_frog_poles S N beta alpha w0 k (0, w) HN Hw Hab HS) in EG as (j & Hj & E). apply (f_equal snd) in E. cbn [snd] in E. exact (Hoff j Hj E). }
  apply injective_projections; cbn [RtoC fst snd].
  - destruct (Req_dec (fst (x i)) 0) as [E|E]; [exact E|]. exfalso. apply Hnone. exists i. left. rewrite Np by exact Hi. exact E.
  - destruct (Req_dec (snd (x i)) 0) as [E|E]; [exact E|]. exfalso. apply Hnone. exists i. right. rewrite Nq by exact Hi. exact E.
Qed.
