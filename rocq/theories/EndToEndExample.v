(** One integrator, synthesised by get_chain_of_integrator with OSR = 1 and BW = 1 (period 1/2, unit gains), all computations carried out exactly. *)
From Coq Require Import List Arith Lia Bool Reals Lra ZArith.
From Flocq Require Import Core.
From Coquelicot Require Import Coquelicot.
From Verif Require Import Base LinAlg Estimators FirExtras AnalogSystem AnalogProofs Signals DigitalControl DigitalControlProofs ControlKinds Integrators IntegratorsProofs Simulator Stability LinearOde PreSim Zpk
  SynthesisProofs FilterCoeff FilterCoeffProofs FilterOde FilterExample ConversionError EndToEnd.
Import ListNotations.
Open Scope R_scope.

(** exact integration of a x + b *)
Definition ivp_affine (f : R -> list R -> result (list R)) (t0 b : R) (y0 : list R) : result (list R) :=
  match f 0 [0], f 0 [1] with
  | Ok [g], Ok [h] => if Req_bool t0 0 then Ok [resp (h - g) g b] else Exn ValueError
  | _, _ => Exn ValueError
  end.
(** exact integration of right-hand sides that do not depend on the state *)
Definition first_of (r : result (list R)) : R := match r with Ok (x :: _) => x | _ => 0 end.
Definition ivp_area (f : R -> list R -> result (list R)) (t0 b : R) (y0 : list R) : result (list R) :=
  match y0 with [x] => Ok [x + RInt (fun t => first_of (f t [x])) t0 b] | _ => Exn ValueError end.

Section One.
Variables (S : asys Rring) (d : dc) (G : rmat).
Local Notation T := (ck_T (d_clk d)).
Hypothesis V : valid S.
Hypothesis HA : is1 (aA S) 0.
Hypothesis HB : is1 (aB S) 1.
Hypothesis HC : is1 (aCT S) 1.
Hypothesis EG : aG S = Some G.
Hypothesis HG : is1 G 1.
Hypothesis HM : d_M d = 1%nat.
Hypothesis HR : d_resp d = [WStep 0 1].
Hypothesis HT : 0 < T.

Lemma impulse1 m t : 0 <= t <= T -> dc_impulse_response d m t = match m with O => Ok [1] | _ => Exn IndexError end.
Proof.
  intros Ht. unfold dc_impulse_response. rewrite !Rle_bool_true by lra. cbn [andb]. rewrite HR, HM. destruct m as [|m]; [|destruct m; reflexivity]. cbn [nth_error w_eval].
  rewrite Rle_bool_true by lra. reflexivity.
Qed.
Lemma gamma1 (v : R) : dotv_opt (aG S) (@cons R v nil) = Ok (@cons R v nil).
Proof. rewrite EG. cbn [dotv_opt]. destruct HG as (R1 & C1 & E1). rewrite (dotv1 G) by assumption. rewrite E1. rewrite Rmult_1_l. reflexivity. Qed.
Lemma rhs_const f g : filter_rhs S d f -> f 0 [0] = Ok [g] -> exists a b, forall t x, 0 <= t <= T -> f t [x] = Ok [a * x + b].
Proof.
  destruct HG as (RG & CG & E1).
  intros [M m|M m|M G' m EG'|M G' m EG'|M G' m EG']; unfold fwd_rhs, bwd_rhs, mp_rhs.
  - destruct (dotv_cases M) as [X|[X|[h X]]]; [destruct (X 0) as [e ->]; discriminate| |].
    + rewrite X. cbn [bind]. destruct (dc_impulse_response _ _ _); [|discriminate]. cbn [bind]. destruct (dotv_opt _ _); discriminate.
    + intros H. apply bind_Ok in H as (ax & _ & H). apply bind_Ok in H as (ww & Ew & _). exists (ent M O O), 1. intros t x Ht. rewrite X. cbn [bind].
      rewrite impulse1 in * by lra. destruct m; [|discriminate]. cbn [bind]. rewrite (gamma1 1). cbn [bind vadd map2]. cbn [radd Rring]. destruct (h x); reflexivity.
  - destruct (dotv_cases (oppm M)) as [X|[X|[h X]]]; [destruct (X 0) as [e ->]; discriminate| |].
    + rewrite X. cbn [bind]. destruct (dc_impulse_response _ _ _); [|discriminate]. cbn [bind]. destruct (dotv_opt _ _); discriminate.
    + intros H. apply bind_Ok in H as (ax & _ & H). apply bind_Ok in H as (ww & Ew & _). exists (ent (oppm M) O O), (- 1). intros t x Ht. rewrite X. cbn [bind].
      rewrite impulse1 in * by lra. destruct m; [|discriminate]. cbn [bind]. rewrite (gamma1 1). cbn [bind vsub map2]. cbn [rsub Rring]. destruct (h x); reflexivity.
  - rewrite EG in EG'. injection EG' as <-. intros H. apply bind_Ok in H as (v & Ev & H). apply bind_Ok in H as (ax & Ea & H). apply Ok_inj in H. rewrite RG in H. cbn [seq map] in H.
    destruct ax as [|a0 ax]; [discriminate|]. apply dotv_head in Ea as [h X]. exists (ent M O O), 1. intros t x Ht. unfold sig_mp in *. rewrite HR in *.
    destruct m as [|m]; [|destruct m; discriminate]. cbn [nth_error w_mp]. cbn [bind]. rewrite X. cbn [bind]. rewrite RG. cbn [seq map vadd map2 radd Rring]. rewrite E1. do 2 f_equal. ring.
  - rewrite EG in EG'. injection EG' as <-. intros H. apply bind_Ok in H as (v & Ev & H). apply bind_Ok in H as (ax & Ea & H). apply Ok_inj in H. cbn [oppm mapm rows] in H. rewrite RG in H. cbn [seq map] in H.
    destruct ax as [|a0 ax]; [discriminate|]. apply dotv_head in Ea as [h X]. exists (ent M O O), (- 1). intros t x Ht. unfold sig_mp in *. rewrite HR in *.
    destruct m as [|m]; [|destruct m; discriminate]. cbn [nth_error w_mp]. cbn [bind]. rewrite X. cbn [bind oppm mapm rows]. rewrite RG. cbn [seq map vadd map2 radd Rring ent]. change (ent (oppm G) 0 0) with (- ent G 0 0). rewrite E1. do 2 f_equal. ring.
  - rewrite EG in EG'. injection EG' as <-. intros H. apply bind_Ok in H as (v & Ev & H). apply bind_Ok in H as (ax & Ea & H). apply Ok_inj in H. cbn [oppm mapm rows] in H. rewrite RG in H. cbn [seq map] in H.
    destruct ax as [|a0 ax]; [discriminate|]. apply dotv_head in Ea as [h X]. exists (ent M O O), (- 1). intros t x Ht. unfold sig_mp in *. rewrite HR in *.
    destruct m as [|m]; [|destruct m; discriminate]. cbn [nth_error w_mp]. cbn [bind]. rewrite X. cbn [bind oppm mapm rows]. rewrite RG. cbn [seq map vadd map2 radd Rring ent]. change (ent (oppm G) 0 0) with (- ent G 0 0). rewrite E1. do 2 f_equal. ring.
Qed.
Lemma sN1 : sN S = 1%nat. Proof. apply HA. Qed.
Lemma sound1 : sound S d care1 inv1 solve1 ivp_affine expm1.
Proof.
  constructor; [intros A B Q Rm X _ _ _; exact (care1_sound A B Q Rm X)|exact inv1_sound|exact solve1_sound| |exact expm1_sound].
  intros f b y1 Hf Hb H. rewrite sN1 in *. cbn [repeat] in *. unfold ivp_affine in H. destruct (f 0 [0]) as [[|g0 [|]]|] eqn:E0; try discriminate.
  destruct (rhs_const f g0 Hf E0) as (a & bb & Ha). rewrite (Ha 0 1) in H by lra. rewrite (Ha 0 0) in E0 by lra. apply Ok_inj in E0. injection E0 as E0. rewrite Req_bool_true in H by reflexivity. apply Ok_inj in H. subst y1.
  replace (a * 1 + bb - g0) with a by lra. replace g0 with bb by lra. clear E0 g0.
  apply (endpoint1 f b 0 (resp a bb) a (fun _ => bb) []); [intros t x Ht; apply Ha; lra|apply resp_0|intros; apply resp_cont|intros; apply resp_deriv].
Qed.
Lemma ric1 : exists Rm Vf Vb, riccati care1 S 1 = Ok (Rm, Vf, Vb) /\ is1 Rm 1 /\ is1 Vf 1 /\ is1 Vb 1.
Proof.
  unfold riccati. destruct (is1_dot (aB S) (tr (aB S)) 1 1 HB (is1_tr _ _ HB)) as (Q & EQ & HQ). rewrite EQ. cbn [bind].
  set (Rm := scalem 1 _). assert (HR' : is1 Rm 1). { unfold Rm, scalem, sNt. destruct HC as (-> & _). rewrite <- (Rmult_1_r 1) at 2. apply (is1_map (Rmult 1)). repeat split. }
  assert (HA1 : is1 (tr (aA S)) 0) by (apply is1_tr, HA). assert (HB1 : is1 (tr (aCT S)) 1) by (apply is1_tr, HC). rewrite Rmult_1_r in HQ.
  destruct (is1_care _ _ _ _ HA1 HB1 HQ HR') as (Vf & E1 & H1). rewrite E1. cbn [bind].
  assert (HA' : is1 (oppm (tr (aA S))) 0) by (rewrite <- Ropp_0; apply (is1_map Ropp); exact HA1).
  destruct (is1_care _ _ _ _ HA' HB1 HQ HR') as (Vb & E2 & H2). rewrite E2. cbn [bind]. exists Rm, Vf, Vb. auto.
Qed.
Lemma temp1 Rm Vf Vb : is1 Rm 1 -> is1 Vf 1 -> is1 Vb 1 -> exists tAf tAb, temp_matrices inv1 S Rm Vf Vb = Ok (tAf, tAb) /\ is1 tAf (-1) /\ is1 tAb 1.
Proof.
  intros H1 H2 H3. unfold temp_matrices. destruct (is1_inv _ _ H1 R1_neq_R0) as (Ri & E & Hi). rewrite E. cbn [bind]. rewrite Rinv_1 in Hi.
  destruct (is1_dot Ri (aCT S) 1 1 Hi HC) as (X & EX & HX). rewrite EX. cbn [bind].
  destruct (is1_dot (tr (aCT S)) X 1 (1 * 1) (is1_tr _ _ HC) HX) as (C & EC & HC'). rewrite EC. cbn [bind].
  destruct (is1_dot Vf C _ _ H2 HC') as (F & EF & HF). rewrite EF. cbn [bind].
  destruct (is1_zip Rminus (aA S) F 0 _ HA HF) as (tf & Etf & Htf). unfold subm. rewrite Etf. cbn [bind].
  destruct (is1_dot Vb C _ _ H3 HC') as (B & EB & HB'). rewrite EB. cbn [bind].
  destruct (is1_zip Rplus (aA S) B 0 _ HA HB') as (tb & Etb & Htb). unfold addm. rewrite Etb. cbn [bind]. exists tf, tb. split; [reflexivity|].
  split; [replace (-1) with (0 - 1 * (1 * (1 * 1))) by ring; exact Htf|replace 1 with (0 + 1 * (1 * (1 * 1))) at 1 by ring; exact Htb].
Qed.
Lemma coeff1 : exists Rm Vf Vb Af Ab Bf Bb WT, riccati care1 S 1 = Ok (Rm, Vf, Vb) /\ is1 Vf 1 /\ is1 Vb 1 /\
  coefficients care1 inv1 solve1 ivp_affine expm1 S d 1 BNumpy false = Ok (Af, Ab, Bf, Bb, WT) /\ is1 WT (1/2).
Proof.
  destruct ric1 as (Rm & Vf & Vb & E & HRm & HF & HBk). unfold coefficients. rewrite E. cbn [bind]. unfold numerical.
  destruct (temp1 _ _ _ HRm HF HBk) as (tAf & tAb & -> & HAf & HAb). cbn [bind].
  destruct (is1_expm _ _ T HAf) as (Af & -> & Ha). cbn [bind].
  destruct (is1_expm _ _ T (is1_map Ropp _ _ HAb)) as (Ab & Eb & Hb). unfold oppm. rewrite Eb. cbn [bind].
  destruct (is1_zip Rplus _ _ _ _ HF HBk) as (Vs & EV & HV). unfold addm. rewrite EV. cbn [bind].
  destruct (is1_solve Vs (aB S) _ _ HV HB) as (W & EW & HW); [lra|]. rewrite EW. cbn [bind]. unfold FilterCoeff.regular.
  assert (HM1 : sM S = 1%nat) by (unfold sM; rewrite EG; apply HG).
  assert (F1 : forall x, fwd_rhs S d tAf 0 0 [x] = Ok [-1 * x + 1]).
  { intros x. unfold fwd_rhs. destruct HAf as (R1 & C1 & E1). rewrite (dotv1 tAf) by assumption. rewrite E1. cbn [bind]. rewrite impulse1 by lra. cbn [bind]. rewrite (gamma1 1). reflexivity. }
  assert (F2 : forall x, bwd_rhs S d tAb T 0 0 [x] = Ok [-1 * x - 1]).
  { intros x. unfold bwd_rhs. destruct (is1_map Ropp _ _ HAb) as (R1 & C1 & E1). rewrite (dotv1 (oppm tAb)) by assumption. unfold oppm. rewrite E1. cbn [bind]. rewrite Rminus_0_r, impulse1 by lra. cbn [bind]. rewrite (gamma1 1). cbn [bind vsub map2 rsub Rring]. do 2 f_equal. }
  rewrite sN1, HM1. cbn [repeat].
  destruct (columns1 (fun m => ivp_affine (fwd_rhs S d tAf m) 0 T [0]) (resp (-1 * 1 + 1 - (-1 * 0 + 1)) (-1 * 0 + 1) T)) as (Bf & E1 & _); [unfold ivp_affine; rewrite !F1, Req_bool_true; reflexivity|].
  destruct (columns1 (fun m => ivp_affine (bwd_rhs S d tAb T m) 0 T [0]) (resp (-1 * 1 - 1 - (-1 * 0 - 1)) (-1 * 0 - 1) T)) as (Bb & E2 & _); [unfold ivp_affine; rewrite !F2, Req_bool_true; reflexivity|].
  rewrite E1. cbn [bind]. rewrite E2. cbn [bind]. exists Rm, Vf, Vb, Af, Ab, Bf, Bb, (tr W). split; [reflexivity|]. split; [exact HF|]. split; [exact HBk|]. split; [reflexivity|].
  apply is1_tr. replace (1 / 2) with (1 / (1 + 1)) by (f_equal; ring). exact HW.
Qed.
End One.

(** *** the integral of a continuous function *)
Lemma area_deriv F t : (forall t, continuous F t) -> derivable_pt_lim (fun t => RInt F 0 t) t (F t).
Proof.
  intros HF. apply is_derive_Reals. apply (is_derive_RInt F (fun t => RInt F 0 t) 0 t); [|apply HF].
  exists (mkposreal 1 Rlt_0_1). intros y _. apply (RInt_correct (V := R_CompleteNormedModule)). apply (ex_RInt_continuous (V := R_CompleteNormedModule)). intros; apply HF.
Qed.
Lemma area_exact S d h0 beta (u : R -> R) : default_frontend S d h0 [beta] [] [0] [beta] (ck_T (d_clk d)) -> 0 <= ck_T (d_clk d) -> (forall t, continuous u t) -> forall s0, s0 = mkSim 0 [0] d h0 ->
  forall i s, full_run ivp_area S [u] i s0 = Ok s -> answers_exactly ivp_area S [u] s.
Proof.
  intros (V & HS & _ & HP & HW & _) HT Hu s0 E0. cbn [length] in *.
  destruct (diag0_diagonal [beta]) as [Hnc Hge]. cbn [length] in Hnc.
  pose proof HS as (DN & DL & DM & _ & HD & _ & HO). cbn [length] in *. rewrite Hnc in *.
  assert (RHS : forall s h, s_d s = d -> wf d h -> forall t y, 0 <= t -> length y = 1%nat -> full_rhs S [u] s h t y = Ok [beta * u (t + s_t s) + beta * rd h (d_dec d) 0%nat]).
  { intros s h Ed W t y Ht Hy. unfold full_rhs. rewrite Ed. rewrite (plain_contribution d 1 h t HP W Ht). cbn [bind map seq].
    rewrite HD by (auto; reflexivity). cbn [map seq]. do 2 f_equal. rewrite rsum_S, rsum_0. rewrite Hge by (cbn; lia). cbn. ring. }
  assert (OU : forall s, s_d s = d -> wf d (s_h s) -> length (s_x s) = 1%nat -> exists h, observe_update S (inputs_at S [u] (0 + s_t s)) s = Ok h /\ wf d h).
  { intros s Ed W L. unfold observe_update. rewrite Ed, (plain_contribution d 1 (s_h s) 0 HP W (Rle_refl 0)). cbn [bind inputs_at map].
    rewrite HO by (auto; reflexivity). cbn [bind]. set (st := map _ (seq 0 1)).
    destruct (plain_update d 1 (s_h s) st HP W) as (h & EU & W' & _); [unfold st; cbn; lia|]. rewrite EU. eauto. }
  assert (Inv : forall i s, full_run ivp_area S [u] i s0 = Ok s -> s_d s = d /\ wf d (s_h s) /\ length (s_x s) = 1%nat).
  { induction i as [|i IH]; intros s E; cbn [full_run] in E.
    - apply Ok_inj in E. rewrite <- E, E0. cbn. auto.
    - apply bind_ok in E as (s1 & E1 & E). destruct (IH s1 E1) as (Ed & W & L). apply bind_ok in E as ([r s2] & E2 & E). apply Ok_inj in E. subst s2.
      unfold full_next in E2. apply bind_ok in E2 as (h & Eh & E2). apply bind_ok in E2 as (x & Ex & E2). apply Ok_inj in E2. inversion E2 as [[Er Es]].
      assert (Wh : wf d h).
      { destruct (OU s1 Ed W L) as (h2 & E3 & W2). rewrite E3 in Eh. apply Ok_inj in Eh. now subst h2. }
      cbn. rewrite Ed. split; [reflexivity|]. split; [exact Wh|]. unfold ivp_area in Ex.
      destruct (s_x s1) as [|x1 [|]]; try discriminate. apply Ok_inj in Ex. now rewrite <- Ex. }
  intros i s E h Eh. destruct (Inv i s E) as (Ed & W & L). destruct (OU s Ed W L) as (h2 & E3 & W2). rewrite E3 in Eh. apply Ok_inj in Eh. subst h2.
  destruct (s_x s) as [|x1 [|]] eqn:Ex; cbn in L; try lia. set (F := fun t => beta * u (t + s_t s) + beta * rd h (d_dec d) 0%nat).
  assert (HF : forall t, continuous F t).
  { intros t. unfold F. apply (continuous_plus (fun t => beta * u (t + s_t s)) (fun _ => beta * rd h (d_dec d) 0%nat)); [|apply continuous_const].
    apply (continuous_mult (fun _ => beta) (fun t => u (t + s_t s))); [apply continuous_const|]. apply (continuous_comp (fun t => t + s_t s) u); [|apply Hu].
    apply (continuous_plus (fun t => t) (fun _ => s_t s)); [apply continuous_id|apply continuous_const]. }
  assert (DF : forall t, derivable_pt_lim (fun t => x1 + RInt F 0 t) t (F t)).
  { intros t. rewrite <- (Rplus_0_l (F t)). apply (derivable_pt_lim_plus (fun _ => x1) (fun t => RInt F 0 t)); [apply derivable_pt_lim_const|now apply area_deriv]. }
  exists (fun t => [x1 + RInt F 0 t]). rewrite Ed. split.
  - split; [rewrite RInt_point; f_equal; apply Rplus_0_r|]. split; [reflexivity|]. split.
    + intros [|[|n]] t _; cbn [nth]; [apply derivable_continuous_pt; eexists; apply DF| |]; apply continuity_pt_const; intros ? ?; reflexivity.
    + intros t Ht. exists [F t]. split; [apply RHS; auto; lra|]. split; [reflexivity|]. intros n Hn. cbn in Hn. replace n with 0%nat by lia. cbn [nth]. apply DF.
  - unfold ivp_area. do 3 f_equal. apply RInt_ext. intros t Ht. rewrite Rmin_left, Rmax_right in Ht by exact HT. rewrite RHS by (auto; lra). reflexivity.
Qed.

(** *** the entries of the matrices *)
Lemma one_chain (S : asys Rring) : valid S -> integrator_system S [1] [] [0] (diag0 [1]) -> exists G, is1 (aA S) 0 /\ is1 (aB S) 1 /\ is1 (aCT S) 1 /\ aG S = Some G /\ is1 G 1.
Proof.
  intros V HS. destruct (diag0_diagonal [1]) as [Hnc Hge]. cbn [length] in Hnc, Hge. pose proof HS as (DN & DL & DM & _ & HD & _). cbn [length] in *. rewrite Hnc in *.
  assert (HG : aG S <> None) by (intros E; unfold sM in DM; rewrite E in DM; discriminate).
  destruct (aG S) as [G|] eqn:EG; [|congruence]. exists G. assert (HG' : aG S <> None) by (rewrite EG; exact HG).
  assert (EA : ent (aA S) 0%nat 0%nat = 0). { rewrite (chain_A S [1] [0] (diag0 [1]) V HG' HS) by (rewrite DN; lia). cbn. ring. }
  destruct (chain_observed S _ _ _ _ V HS) as [HNt HOb].
  assert (EC : ent (aCT S) 0%nat 0%nat = 1). { assert (Q := HOb (fun _ _ => 1) 0%nat 0 ltac:(rewrite DN; lia)). unfold observed in Q. rewrite DN, rsum1 in Q. cbn [car Rring] in *. lra. }
  assert (VG := v_G _ V). rewrite EG in VG.
  assert (RR : forall u c : R, rsum 1 (fun k => ent (aA S) 0%nat k * nth k [0] 0) + rsum 1 (fun k => ent (aB S) 0%nat k * nth k [u] 0) + rsum 1 (fun k => ent G 0%nat k * nth k [c] 0) = u + c).
  { intros u c. assert (E1 := derivative_rhs (K := Rring) S [0] [u] [c] V HG' ltac:(now rewrite DN) ltac:(now rewrite DL) ltac:(now rewrite DM)).
    assert (E2 := HD [0] u [c] eq_refl eq_refl). assert (E := eq_trans (eq_sym E1) E2). apply Ok_inj in E. unfold rhs in E. rewrite DN in E. cbn [seq map] in E.
    apply (f_equal (fun l => nth 0 l 0)) in E. cbn [nth] in E. unfold lino in E. rewrite EG, !lin_rsum in E. rewrite (v_A _ V), DN in E.
    assert (CB : cols (aB S) = 1%nat) by exact DL. assert (CG : cols G = 1%nat) by (unfold sM in DM; now rewrite EG in DM). rewrite CB, CG in E. cbn [car Rring radd] in E. rewrite E.
    rewrite rsum1, Hge by lia. cbn. ring. }
  assert (EB : ent (aB S) 0%nat 0%nat = 1). { assert (Q := RR 1 0). rewrite !rsum1 in Q. cbn [nth car Rring] in *. lra. }
  assert (EG1 : ent G 0%nat 0%nat = 1). { assert (Q := RR 0 1). rewrite !rsum1 in Q. cbn [nth car Rring] in *. lra. }
  split; [split; [exact DN|split; [rewrite (v_A _ V); exact DN|exact EA]]|]. split; [split; [rewrite (v_B _ V); exact DN|split; [exact DL|exact EB]]|].
  split; [split; [exact (eq_trans HNt DN)|split; [rewrite (v_CT _ V); exact DN|exact EC]]|]. split; [reflexivity|]. split; [rewrite VG; exact DN|]. split; [unfold sM in DM; now rewrite EG in DM|exact EG1].
Qed.
Lemma cos_cont a w ph t : continuous (fun t => a * cos (w * t + ph)) t.
Proof. apply continuity_pt_filterlim. reg. Qed.
