(** One integrator with Gamma = 1, eta2 = 1, period 1, and exact routines for it: the cases where the backends differ. *)
From Coq Require Import List Arith Lia Bool Reals Lra.
From Flocq Require Import Core.
From Coquelicot Require Import Coquelicot.
From Verif Require Import Base LinAlg FirExtras AnalogSystem AnalogProofs Signals DigitalControl DigitalControlProofs ControlKinds
  Integrators IntegratorsProofs Simulator Stability LinearOde PreSim Zpk FilterCoeff FilterCoeffProofs FilterOde FilterBackends.
Import ListNotations.
Open Scope R_scope.

Definition s11 (x : R) : rmat := mk2 (K := Rring) 1 1 (fun _ _ => x).
Definition integ : asys Rring := mkAS (K := Rring) (s11 0) (s11 1) (s11 1) (Some (s11 1)) (Some (s11 (-1))) (s11 0) (s11 0) (s11 0).
Definition one_wave (w : waveform) : dc := mkDC (mkClock 1 (1/100) 0 (1/2) 1) 1 [w] 0 [0] KBin 0 1 2.

Lemma rsum1 f : rsum 1 f = f O.
Proof. rewrite rsum_S, rsum_0. ring. Qed.
Lemma valid_integ : valid integ.
Proof. constructor; cbn; auto. Qed.
Lemma fits_integ w : wf_wave w -> fits integ (one_wave w).
Proof. intros H. constructor; [apply valid_integ|discriminate|reflexivity|]. split; [reflexivity|]. intros v [<-|[]]. exact H. Qed.

(** *** Scalar linear algebra *)
Definition scalar (M : rmat) : result R := if andb (Nat.eqb (rows M) 1) (Nat.eqb (cols M) 1) then Ok (ent M O O) else Exn ValueError.
Lemma scalar_Ok M x : scalar M = Ok x -> rows M = 1%nat /\ cols M = 1%nat /\ x = ent M O O.
Proof.
  unfold scalar. destruct (Nat.eqb_spec (rows M) 1); [|discriminate]. destruct (Nat.eqb_spec (cols M) 1); [|discriminate]. cbn. intros H. apply Ok_inj in H. auto.
Qed.
Definition inv1 (M : rmat) : result rmat := bind (scalar M) (fun x => if Req_bool x 0 then Exn ValueError else Ok (s11 (/ x))).
Definition solve1 (V B : rmat) : result rmat := bind (scalar V) (fun x => bind (scalar B) (fun y => if Req_bool x 0 then Exn ValueError else Ok (s11 (y / x)))).
Definition care1 (A B Q Rm : rmat) : result rmat := bind (scalar A) (fun a => bind (scalar B) (fun b => bind (scalar Q) (fun q => bind (scalar Rm) (fun r =>
  if Req_bool a 0 && Req_bool b 1 && Req_bool q 1 && Req_bool r 1 then Ok (s11 1) else Exn ValueError)))).
Definition expm1 (M : rmat) (t : R) : result rmat := bind (scalar M) (fun x => Ok (s11 (exp (x * t)))).

Lemma idx1 i : (i < 1)%nat -> i = O.
Proof. lia. Qed.
Lemma inv1_sound M X : inv1 M = Ok X -> is_inverse M X.
Proof.
  intros H. apply bind_Ok in H as (x & H1 & H). apply scalar_Ok in H1 as (HR & HC & ->). destruct (Req_bool_spec (ent M O O) 0); [discriminate|]. apply Ok_inj in H. subst X.
  split; [cbn; congruence|]. split; [cbn; congruence|]. rewrite HR, HC. intros i j Hi Hj. rewrite (idx1 i Hi), (idx1 j Hj), rsum1. cbn. field. assumption.
Qed.
Lemma solve1_sound V B W : solve1 V B = Ok W -> rows W = cols V /\ cols W = cols B /\
    forall i l, (i < rows V)%nat -> (l < cols B)%nat -> rsum (cols V) (fun k => ent V i k * ent W k l) = ent B i l.
Proof.
  intros H. apply bind_Ok in H as (x & H1 & H). apply bind_Ok in H as (y & H2 & H). apply scalar_Ok in H1 as (HR & HC & ->). apply scalar_Ok in H2 as (HR2 & HC2 & ->).
  destruct (Req_bool_spec (ent V O O) 0); [discriminate|]. apply Ok_inj in H. subst W.
  split; [cbn; congruence|]. split; [cbn; congruence|]. rewrite HR, HC, HC2. intros i j Hi Hj. rewrite (idx1 i Hi), (idx1 j Hj), rsum1. cbn. field. assumption.
Qed.
Lemma care1_sound A B Q Rm X : care1 A B Q Rm = Ok X -> care_eq A B Q Rm X.
Proof.
  intros H. apply bind_Ok in H as (a & H1 & H). apply bind_Ok in H as (b & H2 & H). apply bind_Ok in H as (q & H3 & H). apply bind_Ok in H as (r & H4 & H).
  apply scalar_Ok in H1 as (R1 & C1 & ->). apply scalar_Ok in H2 as (R2 & C2 & ->). apply scalar_Ok in H3 as (R3 & C3 & ->). apply scalar_Ok in H4 as (R4 & C4 & ->).
  destruct (Req_bool_spec (ent A O O) 0) as [e|]; [|discriminate]. destruct (Req_bool_spec (ent B O O) 1) as [e0|]; [|discriminate].
  destruct (Req_bool_spec (ent Q O O) 1) as [e1|]; [|discriminate]. destruct (Req_bool_spec (ent Rm O O) 1) as [e2|]; [|discriminate].
  cbn in H. apply Ok_inj in H. subst X. split; [cbn; congruence|]. split; [cbn; congruence|]. split; [reflexivity|].
  intros Ri (_ & _ & HI). rewrite R4, C4 in HI. specialize (HI O O ltac:(lia) ltac:(lia)). rewrite rsum1 in HI. cbn in HI.
  intros i j Hi Hj. rewrite R1 in Hi, Hj. rewrite (idx1 i Hi), (idx1 j Hj), R1, C2, !rsum1. cbn [s11 ent]. rewrite e, e0, e1. rewrite e2 in HI. lra.
Qed.

(** *** Scalar differential equations *)
Definition resp (a g t : R) : R := if Req_bool a 0 then g * t else g * (exp (a * t) - 1) / a.
Lemma resp_deriv a g t : derivable_pt_lim (resp a g) t (a * resp a g t + g).
Proof.
  unfold resp. apply is_derive_Reals. case Req_bool_spec; intros Ha.
  - subst a. auto_derive; [exact I|ring].
  - auto_derive; [exact I|field; exact Ha].
Qed.
Lemma resp_0 a g : resp a g 0 = 0.
Proof. unfold resp. case Req_bool_spec; intros; [ring|]. rewrite Rmult_0_r, exp_0. field. assumption. Qed.
Lemma resp_cont a g t : continuity_pt (resp a g) t.
Proof. apply derivable_continuous_pt. eexists. apply resp_deriv. Qed.

(** the response to a drive that is [g0] before [t1] and [g1] after it *)
Definition resp2 (a t1 g0 g1 t : R) : R := resp a g0 t + resp a (g1 - g0) (Rmax 0 (t - t1)).
Lemma rmax_cont t1 t : continuity_pt (fun t => Rmax 0 (t - t1)) t.
Proof.
  intros eps He. exists eps. split; [exact He|]. intros x [_ Hx]. unfold R_dist in *. cbn in *. unfold R_dist in *.
  eapply Rle_lt_trans; [|exact Hx]. unfold Rmax. destruct (Rle_dec 0 (x - t1)), (Rle_dec 0 (t - t1)); unfold Rabs; repeat destruct Rcase_abs; lra.
Qed.
Lemma resp2_cont a t1 g0 g1 t : continuity_pt (resp2 a t1 g0 g1) t.
Proof.
  apply (continuity_pt_plus (resp a g0) (fun t => resp a (g1 - g0) (Rmax 0 (t - t1)))); [apply resp_cont|].
  apply (continuity_pt_comp (fun t => Rmax 0 (t - t1)) (resp a (g1 - g0))); [apply rmax_cont|apply resp_cont].
Qed.
Lemma resp2_deriv a t1 g0 g1 t : t <> t1 -> derivable_pt_lim (resp2 a t1 g0 g1) t (a * resp2 a t1 g0 g1 t + (if Rlt_bool t t1 then g0 else g1)).
Proof.
  intros Ht.
  replace (a * resp2 a t1 g0 g1 t + (if Rlt_bool t t1 then g0 else g1)) with
    ((a * resp a g0 t + g0) + (a * resp a (g1 - g0) (Rmax 0 (t - t1)) + (if Rlt_bool t t1 then 0 else g1 - g0))) by (unfold resp2; destruct (Rlt_bool t t1); ring).
  apply (derivable_pt_lim_plus (resp a g0)); [apply resp_deriv|]. apply is_derive_Reals.
  case Rlt_bool_spec; intros H.
  - apply (is_derive_ext_loc (fun _ => 0)).
    + exists (mkposreal (t1 - t) ltac:(lra)). intros y Hy. unfold ball in Hy. cbn in Hy. unfold AbsRing_ball, abs, minus, plus, opp in Hy. cbn in Hy.
      apply Rabs_def2 in Hy. rewrite Rmax_left by lra. now rewrite resp_0.
    + rewrite Rmax_left by lra. rewrite resp_0, Rmult_0_r, Rplus_0_r. apply (is_derive_const 0).
  - apply (is_derive_ext_loc (fun t => resp a (g1 - g0) (t - t1))).
    + exists (mkposreal (t - t1) ltac:(lra)). intros y Hy. unfold ball in Hy. cbn in Hy. unfold AbsRing_ball, abs, minus, plus, opp in Hy. cbn in Hy.
      apply Rabs_def2 in Hy. rewrite Rmax_right by lra. reflexivity.
    + rewrite Rmax_right by lra. apply is_derive_Reals. rewrite <- (Rmult_1_r (a * _ + _)).
      apply (derivable_pt_lim_comp (fun t => t - t1) (resp a (g1 - g0))); [|apply resp_deriv].
      replace 1 with (1 - 0) by ring. apply (derivable_pt_lim_minus id (fct_cte t1)); [apply derivable_pt_lim_id|apply derivable_pt_lim_const].
Qed.

Lemma endpoint1 (f : R -> list R -> result (list R)) T x0 (z : R -> R) (a : R) (b : R -> R) ex : 
  (forall t x, 0 < t < T -> f t [x] = Ok [a * x + b t]) -> z 0 = x0 -> (forall t, 0 <= t <= T -> continuity_pt z t) ->
  (forall t, 0 < t < T -> ~ In t ex -> derivable_pt_lim z t (a * z t + b t)) -> endpoint f T [x0] (Ok [z T]).
Proof.
  intros Hf H0 Hc Hd. exists (fun t => [z t]). split; [|reflexivity]. split; [now rewrite H0|]. split; [reflexivity|]. split.
  - intros [|[|n]] t Ht; cbn; [apply Hc; exact Ht|apply continuity_pt_const; intros ? ?; reflexivity|apply continuity_pt_const; intros ? ?; reflexivity].
  - exists ex. intros t Ht Hi. eexists. split; [now apply Hf|]. split; [reflexivity|]. intros n Hn. cbn in Hn. rewrite (idx1 n Hn). cbn. now apply Hd.
Qed.

Lemma dotv1 (M : rmat) (x : R) : rows M = 1%nat -> cols M = 1%nat -> dotv M (@cons R x nil) = Ok [ent M O O * x].
Proof. intros HR HC. rewrite dotv_R by exact HC. rewrite HR, HC. cbn [seq map]. now rewrite rsum1. Qed.

Lemma expm1_sound (M : rmat) (t : R) (E : rmat) : 0 <= t -> expm1 M t = Ok E -> rows E = rows M /\ cols E = rows M /\
    forall x : list R, length x = rows M -> endpoint (fun _ y => dotv M y) t x (dotv E x).
Proof.
  intros Ht H. apply bind_Ok in H as (x & H1 & H). apply scalar_Ok in H1 as (HR & HC & ->). apply Ok_inj in H. subst E.
  split; [cbn; congruence|]. split; [cbn; congruence|]. rewrite HR. intros [|x0 [|]] Lx; try discriminate.
  rewrite (dotv1 (s11 _)) by reflexivity. cbn [s11 ent].
  apply (endpoint1 _ t x0 (fun t => exp (ent M O O * t) * x0) (ent M O O) (fun _ => 0) []).
  - intros s x _. rewrite dotv1 by assumption. now rewrite Rplus_0_r.
  - rewrite Rmult_0_r, exp_0. ring.
  - intros s _. apply derivable_continuous_pt. exists (exp (ent M O O * s) * ent M O O * x0). apply is_derive_Reals. auto_derive; [exact I|ring].
  - intros s _ _. apply is_derive_Reals. auto_derive; [exact I|ring].
Qed.

(** *** The right-hand sides that occur *)
Section Rhs.
Variables (w : waveform) (ev mp : R -> R).
Hypothesis Hev : forall t, 0 <= t <= 1 -> w_eval w t = Ok (ev t).
Hypothesis Hmp : forall t, 0 <= t <= 1 -> w_mp w t = Ok (mp t).
Inductive drives : (R -> R) -> Prop :=
| D1 : drives ev | D2 : drives (fun t => - ev (1 - t)) | D3 : drives mp | D4 : drives (fun t => - mp (1 - t)) | D5 : drives (fun t => - mp t).

Lemma dotv_head (M : rmat) (x y : R) r : dotv M (@cons R x nil) = Ok (y :: r) -> exists (h : R -> list R), (forall x, dotv M (@cons R x nil) = Ok (ent M O O * x :: h x)) .
Proof.
  unfold dotv. cbn [length]. destruct (Nat.eqb_spec (cols M) 1) as [HC|]; [|discriminate]. intros H. apply Ok_inj in H. rewrite HC in H |- *.
  destruct (rows M) as [|n]; [discriminate|]. exists (fun x => map (fun i => ksum (K := Rring) 1 (fun k => ent M i k * nth k [x] 0)) (seq 1 n)). intros x'. cbn [seq map]. f_equal. f_equal.
  rewrite ksum_rsum, rsum1. reflexivity.
Qed.
Lemma dotv_cases (M : rmat) : (forall x, exists e, dotv M (@cons R x nil) = Exn e) \/ (forall x, dotv M (@cons R x nil) = Ok []) \/ exists h : R -> list R, forall x, dotv M (@cons R x nil) = Ok (ent M O O * x :: h x).
Proof.
  unfold dotv. cbn [length]. destruct (Nat.eqb_spec (cols M) 1) as [HC|]; [|left; eauto]. right. rewrite HC.
  destruct (rows M) as [|n]; [left; reflexivity|right]. exists (fun x => map (fun i => ksum (K := Rring) 1 (fun k => ent M i k * nth k [x] 0)) (seq 1 n)). intros x'. cbn [seq map]. f_equal. f_equal.
  rewrite ksum_rsum, rsum1. reflexivity.
Qed.

Lemma rhs_affine f g : filter_rhs integ (one_wave w) f -> f 0 [0] = Ok [g] -> exists a b, drives b /\ forall t x, 0 <= t <= 1 -> f t [x] = Ok [a * x + b t].
Proof.
  intros [M m|M m|M G m EG|M G m EG|M G m EG]; unfold fwd_rhs, bwd_rhs, mp_rhs.
  - destruct (dotv_cases M) as [X|[X|[h X]]].
    + destruct (X 0) as [e ->]. discriminate.
    + rewrite X. cbn [bind]. destruct (dc_impulse_response _ _ _); [|discriminate]. cbn [bind]. destruct (dotv_opt _ _); discriminate.
    + intros H. apply bind_Ok in H as (ax & _ & H). apply bind_Ok in H as (ww & Ew & _). exists (ent M O O), ev. split; [constructor|]. intros t x Ht. rewrite X. cbn [bind].
      unfold dc_impulse_response in *. cbn [one_wave d_clk ck_T d_resp d_M] in *. rewrite Rle_bool_true in Ew by lra. rewrite (Rle_bool_true 0 1) in Ew by lra.
      rewrite (Rle_bool_true 0) by lra. rewrite (Rle_bool_true _ 1) by lra. cbn [andb] in *. destruct m as [|m]; [|destruct m; discriminate].
      cbn [nth_error]. rewrite Hev by exact Ht. cbn [bind]. cbn [integ aG dotv_opt]. cbn [repeat upd]. rewrite (dotv1 (s11 1)) by reflexivity. cbn [bind vadd map2 s11 ent]. cbn [radd Rring].
      rewrite Rmult_1_l. destruct (h x); reflexivity.
  - destruct (dotv_cases (oppm M)) as [X|[X|[h X]]].
    + destruct (X 0) as [e ->]. discriminate.
    + rewrite X. cbn [bind]. destruct (dc_impulse_response _ _ _); [|discriminate]. cbn [bind]. destruct (dotv_opt _ _); discriminate.
    + intros H. apply bind_Ok in H as (ax & _ & H). apply bind_Ok in H as (ww & Ew & _). exists (ent (oppm M) O O), (fun t => - ev (1 - t)). split; [constructor|]. intros t x Ht. rewrite X. cbn [bind].
      unfold dc_impulse_response in *. cbn [one_wave d_clk ck_T d_resp d_M] in *. rewrite Rle_bool_true in Ew by lra. rewrite (Rle_bool_true _ 1) in Ew by lra.
      rewrite (Rle_bool_true 0) by lra. rewrite (Rle_bool_true _ 1) by lra. cbn [andb] in *. destruct m as [|m]; [|destruct m; discriminate].
      cbn [nth_error]. rewrite Hev by lra. cbn [bind]. cbn [integ aG dotv_opt]. cbn [repeat upd]. rewrite (dotv1 (s11 1)) by reflexivity. cbn [bind vsub map2 s11 ent]. cbn [rsub Rring].
      rewrite Rmult_1_l. destruct (h x); reflexivity.
  - cbn in EG. injection EG as <-. intros H. apply bind_Ok in H as (v & Ev & H). apply bind_Ok in H as (ax & Ea & H). apply Ok_inj in H. cbn [s11 rows seq map] in H.
    destruct ax as [|a0 ax]; [discriminate|]. apply dotv_head in Ea as [h X]. exists (ent M O O), mp. split; [constructor|]. intros t x Ht. unfold sig_mp in *. cbn [one_wave d_resp] in *.
    destruct m as [|m]; [|destruct m; discriminate]. cbn [nth_error]. rewrite Hmp by exact Ht. cbn [bind]. rewrite X. cbn [bind s11 rows seq map vadd map2 ent radd Rring]. do 2 f_equal. ring.
  - cbn in EG. injection EG as <-. intros H. apply bind_Ok in H as (v & Ev & H). apply bind_Ok in H as (ax & Ea & H). apply Ok_inj in H. cbn [oppm mapm s11 rows seq map] in H.
    destruct ax as [|a0 ax]; [discriminate|]. apply dotv_head in Ea as [h X]. exists (ent M O O), (fun t => - mp (1 - t)). split; [constructor|]. intros t x Ht. unfold sig_mp in *. cbn [one_wave d_resp d_clk ck_T] in *.
    destruct m as [|m]; [|destruct m; discriminate]. cbn [nth_error]. rewrite Hmp by lra. cbn [bind]. rewrite X. cbn [bind oppm mapm s11 rows seq map vadd map2 ent radd Rring]. do 2 f_equal. ring.
  - cbn in EG. injection EG as <-. intros H. apply bind_Ok in H as (v & Ev & H). apply bind_Ok in H as (ax & Ea & H). apply Ok_inj in H. cbn [oppm mapm s11 rows seq map] in H.
    destruct ax as [|a0 ax]; [discriminate|]. apply dotv_head in Ea as [h X]. exists (ent M O O), (fun t => - mp t). split; [constructor|]. intros t x Ht. unfold sig_mp in *. cbn [one_wave d_resp d_clk ck_T] in *.
    destruct m as [|m]; [|destruct m; discriminate]. cbn [nth_error]. rewrite Hmp by lra. cbn [bind]. rewrite X. cbn [bind oppm mapm s11 rows seq map vadd map2 ent radd Rring]. do 2 f_equal. ring.
Qed.
End Rhs.

(** *** Exact integration of these right-hand sides *)
Definition ivp_step (f : R -> list R -> result (list R)) (t0 b : R) (y0 : list R) : result (list R) :=
  match f 0 [0], f 1 [0], f 0 [1] with
  | Ok [g0], Ok [g1], Ok [h] => if Req_bool t0 0 then Ok [resp2 (h - g0) (1/2) g0 g1 b] else Exn ValueError
  | _, _, _ => Exn ValueError
  end.
Definition ivp_rc (f : R -> list R -> result (list R)) (t0 b : R) (y0 : list R) : result (list R) :=
  match f 0 [0], f 1 [0], f 0 [1] with
  | Ok [g0], Ok [g1], Ok [h] =>
      if Req_bool t0 0 && Req_bool (h - g0) (-1) then
        if Req_bool g1 (g0 * exp (-1)) then Ok [g0 * b * exp (- b)]
        else if Req_bool g1 (g0 * exp 1) then Ok [g0 * (exp b - exp (- b)) / 2] else Exn ValueError
      else Exn ValueError
  | _, _, _ => Exn ValueError
  end.

Definition st_ev (t0 t : R) : R := if Rle_bool t0 t then 1 else 0.
Lemma ivp_step_sound t0 f b y1 : t0 = 0 \/ t0 = 1/2 -> filter_rhs integ (one_wave (WStep t0 1)) f -> 0 <= b <= 1 ->
  ivp_step f 0 b [0] = Ok y1 -> endpoint f b [0] (Ok y1).
Proof.
  intros Ht0 Hf Hb H. unfold ivp_step in H. destruct (f 0 [0]) as [[|g0 [|]]|] eqn:E0; try discriminate.
  destruct (rhs_affine (WStep t0 1) (st_ev t0) (fun _ => 1) (fun _ _ => eq_refl) (fun _ _ => eq_refl) f g0 Hf E0) as (a & bb & Hd & Ha).
  rewrite (Ha 1 0), (Ha 0 1) in H by lra. rewrite (Ha 0 0) in E0 by lra. apply Ok_inj in E0. injection E0 as E0. rewrite Req_bool_true in H by reflexivity. apply Ok_inj in H. subst y1.
  replace (a * 1 + bb 0 - g0) with a by lra. replace g0 with (bb 0) by lra. replace (a * 0 + bb 1) with (bb 1) by ring. clear E0 g0.
  apply (endpoint1 f b 0 (resp2 a (1/2) (bb 0) (bb 1)) a bb [1/2]).
  - intros t x Ht. apply Ha. lra.
  - unfold resp2. rewrite Rmax_left by lra. rewrite !resp_0. ring.
  - intros. apply resp2_cont.
  - intros t Ht Hi. replace (bb t) with (if Rlt_bool t (1/2) then bb 0 else bb 1); [apply resp2_deriv; intros ->; apply Hi; now left|].
    assert (Hn : t <> 1/2) by (intros ->; apply Hi; now left).
    destruct Hd; unfold st_ev; destruct Ht0 as [->| ->]; destruct (Rlt_bool_spec t (1/2)); repeat match goal with |- context [Rle_bool ?x ?y] => destruct (Rle_bool_spec x y) end; lra.
Qed.
Lemma ivp_rc_sound f b y1 : filter_rhs integ (one_wave (WRC 1 0 1)) f -> 0 <= b <= 1 -> ivp_rc f 0 b [0] = Ok y1 -> endpoint f b [0] (Ok y1).
Proof.
  intros Hf Hb H. unfold ivp_rc in H. destruct (f 0 [0]) as [[|g0 [|]]|] eqn:E0; try discriminate.
  assert (H1 : forall t, 0 <= t <= 1 -> w_eval (WRC 1 0 1) t = Ok (exp (- t))).
  { intros t Ht. cbn. rewrite Rlt_bool_false by lra. rewrite Req_bool_false by lra. do 2 f_equal. rewrite Rmult_1_l. f_equal. field. }
  assert (H2 : forall t, 0 <= t <= 1 -> w_mp (WRC 1 0 1) t = Ok (exp (- t))).
  { intros t Ht. cbn. rewrite Req_bool_false by lra. do 2 f_equal. rewrite Rmult_1_l. f_equal. field. }
  destruct (rhs_affine _ _ _ H1 H2 f g0 Hf E0) as (a & bb & Hd & Ha).
  rewrite (Ha 1 0), (Ha 0 1) in H by lra. rewrite (Ha 0 0) in E0 by lra. apply Ok_inj in E0. injection E0 as E0. rewrite Req_bool_true in H by reflexivity. cbn [andb] in H.
  replace (a * 1 + bb 0 - g0) with a in H by lra. replace g0 with (bb 0) in * by lra. replace (a * 0 + bb 1) with (bb 1) in H by ring. clear E0 g0.
  destruct (Req_bool_spec a (-1)) as [->|]; [|discriminate].
  assert (P1 := exp_pos 1). assert (P2 := exp_pos (-1)). assert (L : exp (-1) < exp 1) by (apply exp_increasing; lra).
  assert (K : (forall t, bb t = bb 0 * exp (- t)) \/ (forall t, bb t = bb 0 * exp t)).
  { destruct Hd; cbv beta; rewrite ?Rminus_0_r, ?Ropp_0, ?exp_0; [left|right|left|right|left]; intros t; try lra.
    - rewrite Ropp_mult_distr_l_reverse, <- exp_plus. do 2 f_equal. ring.
    - rewrite Ropp_mult_distr_l_reverse, <- exp_plus. do 2 f_equal. ring. }
  assert (B0 : bb 0 <> 0).
  { destruct Hd; cbv beta; rewrite ?Ropp_0, ?exp_0; try lra; intros X; assert (Y := exp_pos (- (1 - 0))); lra. }
  assert (D1 : continuity (fun t => bb 0 * t * exp (- t))).
  { intros t. apply derivable_continuous_pt. eexists. apply is_derive_Reals. auto_derive; [exact I|reflexivity]. }
  assert (D2 : continuity (fun t => bb 0 * (exp t - exp (- t)) / 2)).
  { intros t. apply derivable_continuous_pt. eexists. apply is_derive_Reals. auto_derive; [exact I|reflexivity]. }
  destruct (Req_bool_spec (bb 1) (bb 0 * exp (-1))) as [E1|E1].
  - apply Ok_inj in H. subst y1. destruct K as [K|K]; [|exfalso; rewrite (K 1) in E1; apply Rmult_eq_reg_l in E1; lra].
    apply (endpoint1 f b 0 (fun t => bb 0 * t * exp (- t)) (-1) bb []); [intros; apply Ha; lra|ring|intros; apply D1|].
    intros t _ _. rewrite (K t). apply is_derive_Reals. auto_derive; [exact I|ring].
  - destruct (Req_bool_spec (bb 1) (bb 0 * exp 1)) as [E2|E2]; [|discriminate]. apply Ok_inj in H. subst y1.
    destruct K as [K|K]; [exfalso; apply E1; apply K|].
    apply (endpoint1 f b 0 (fun t => bb 0 * (exp t - exp (- t)) / 2) (-1) bb []); [intros; apply Ha; lra|rewrite Ropp_0; field|intros; apply D2|].
    intros t _ _. rewrite (K t). apply is_derive_Reals. auto_derive; [exact I|field].
Qed.

Lemma sound_step t0 : t0 = 0 \/ t0 = 1/2 -> sound integ (one_wave (WStep t0 1)) care1 inv1 solve1 ivp_step expm1.
Proof.
  intros H. constructor; [intros A B Q Rm X _ _ _; exact (care1_sound A B Q Rm X)|exact inv1_sound|exact solve1_sound| |exact expm1_sound].
  intros f b y1 Hf Hb E. now apply (ivp_step_sound t0).
Qed.
Lemma sound_rc : sound integ (one_wave (WRC 1 0 1)) care1 inv1 solve1 ivp_rc expm1.
Proof.
  constructor; [intros A B Q Rm X _ _ _; exact (care1_sound A B Q Rm X)|exact inv1_sound|exact solve1_sound| |exact expm1_sound].
  intros f b y1 Hf Hb E. now apply ivp_rc_sound.
Qed.

(** *** Running the model *)
Definition is1 (M : rmat) (x : R) : Prop := rows M = 1%nat /\ cols M = 1%nat /\ ent M O O = x.
Lemma is1_s x : is1 (s11 x) x. Proof. repeat split. Qed.
Lemma is1_dot a b x y : is1 a x -> is1 b y -> exists c, dotm a b = Ok c /\ is1 c (x * y).
Proof.
  intros (R1 & C1 & <-) (R2 & C2 & <-). unfold dotm. rewrite C1, R2. cbn [Nat.eqb]. eexists. split; [reflexivity|]. split; [exact R1|]. split; [exact C2|].
  cbn [ent]. rewrite ksum_rsum, rsum1. reflexivity.
Qed.
Lemma is1_zip f a b x y : is1 a x -> is1 b y -> exists c, zip2 (K := Rring) f a b = Ok c /\ is1 c (f x y).
Proof. intros (R1 & C1 & <-) (R2 & C2 & <-). unfold zip2. rewrite R1, C1, R2, C2. cbn [Nat.eqb andb]. eexists. split; [reflexivity|]. repeat split; assumption. Qed.
Lemma is1_map f a x : is1 a x -> is1 (mapm (K := Rring) f a) (f x).
Proof. intros (R1 & C1 & <-). repeat split; assumption. Qed.
Lemma is1_tr a x : is1 a x -> is1 (tr a) x.
Proof. intros (R1 & C1 & <-). repeat split; assumption. Qed.
Lemma is1_scalar a x : is1 a x -> scalar a = Ok x.
Proof. intros (R1 & C1 & <-). unfold scalar. now rewrite R1, C1. Qed.
Lemma is1_inv a x : is1 a x -> x <> 0 -> exists c, inv1 a = Ok c /\ is1 c (/ x).
Proof. intros H Hx. unfold inv1. rewrite (is1_scalar _ _ H). cbn [bind]. rewrite Req_bool_false by exact Hx. eexists. split; [reflexivity|apply is1_s]. Qed.
Lemma is1_solve a b x y : is1 a x -> is1 b y -> x <> 0 -> exists c, solve1 a b = Ok c /\ is1 c (y / x).
Proof. intros H H' Hx. unfold solve1. rewrite (is1_scalar _ _ H), (is1_scalar _ _ H'). cbn [bind]. rewrite Req_bool_false by exact Hx. eexists. split; [reflexivity|apply is1_s]. Qed.
Lemma is1_expm a x t : is1 a x -> exists c, expm1 a t = Ok c /\ is1 c (exp (x * t)).
Proof. intros H. unfold expm1. rewrite (is1_scalar _ _ H). eexists. split; [reflexivity|apply is1_s]. Qed.
Lemma is1_care A B Q Rm : is1 A 0 -> is1 B 1 -> is1 Q 1 -> is1 Rm 1 -> exists X, care care1 A B Q Rm = Ok X /\ is1 X 1.
Proof.
  intros H1 H2 H3 H4. unfold care, care1. rewrite (is1_scalar _ _ H1), (is1_scalar _ _ H2), (is1_scalar _ _ H3), (is1_scalar _ _ H4). cbn [bind].
  rewrite !Req_bool_true by reflexivity. cbn [andb bind].
  destruct (is1_zip Rplus (s11 1) (tr (s11 1)) 1 1 (is1_s 1) (is1_tr _ _ (is1_s 1))) as (c & Ec & Hc). unfold addm. rewrite Ec. cbn [bind]. eexists. split; [reflexivity|].
  unfold scalem. apply (is1_map (Rmult (/ 2))) in Hc. replace 1 with (/ 2 * (1 + 1)) at 1 by field. exact Hc.
Qed.
Lemma ric_integ : exists Rm Vf Vb, riccati care1 integ 1 = Ok (Rm, Vf, Vb) /\ is1 Rm 1 /\ is1 Vf 1 /\ is1 Vb 1.
Proof.
  unfold riccati. destruct (is1_dot (aB integ) (tr (aB integ)) 1 1 (is1_s 1) (is1_tr _ _ (is1_s 1))) as (Q & EQ & HQ). rewrite EQ. cbn [bind].
  set (Rm := scalem 1 _). assert (HR : is1 Rm 1). { unfold Rm, scalem. rewrite <- (Rmult_1_r 1) at 2. apply (is1_map (Rmult 1)). repeat split. }
  assert (HA : is1 (tr (aA integ)) 0) by (apply is1_tr, is1_s). assert (HB : is1 (tr (aCT integ)) 1) by (apply is1_tr, is1_s). rewrite Rmult_1_r in HQ.
  destruct (is1_care _ _ _ _ HA HB HQ HR) as (Vf & E1 & H1). rewrite E1. cbn [bind].
  assert (HA' : is1 (oppm (tr (aA integ))) 0) by (rewrite <- Ropp_0; apply (is1_map Ropp); exact HA).
  destruct (is1_care _ _ _ _ HA' HB HQ HR) as (Vb & E2 & H2). rewrite E2. cbn [bind]. exists Rm, Vf, Vb. auto.
Qed.
Lemma temp_integ Rm Vf Vb : is1 Rm 1 -> is1 Vf 1 -> is1 Vb 1 -> exists tAf tAb, temp_matrices inv1 integ Rm Vf Vb = Ok (tAf, tAb) /\ is1 tAf (-1) /\ is1 tAb 1.
Proof.
  intros H1 H2 H3. unfold temp_matrices. destruct (is1_inv _ _ H1 R1_neq_R0) as (Ri & E & Hi). rewrite E. cbn [bind]. rewrite Rinv_1 in Hi.
  destruct (is1_dot Ri (aCT integ) 1 1 Hi (is1_s 1)) as (X & EX & HX). rewrite EX. cbn [bind].
  destruct (is1_dot (tr (aCT integ)) X 1 (1 * 1) (is1_tr _ _ (is1_s 1)) HX) as (C & EC & HC). rewrite EC. cbn [bind].
  destruct (is1_dot Vf C _ _ H2 HC) as (F & EF & HF). rewrite EF. cbn [bind].
  destruct (is1_zip Rminus (aA integ) F 0 _ (is1_s 0) HF) as (tf & Etf & Htf). unfold subm. rewrite Etf. cbn [bind].
  destruct (is1_dot Vb C _ _ H3 HC) as (B & EB & HB). rewrite EB. cbn [bind].
  destruct (is1_zip Rplus (aA integ) B 0 _ (is1_s 0) HB) as (tb & Etb & Htb). unfold addm. rewrite Etb. cbn [bind]. exists tf, tb. split; [reflexivity|].
  split; [replace (-1) with (0 - 1 * (1 * (1 * 1))) by ring; exact Htf|replace 1 with (0 + 1 * (1 * (1 * 1))) at 1 by ring; exact Htb].
Qed.
Lemma columns1 c x : c O = Ok [x] -> exists B, columns 1 1 c = Ok B /\ is1 B x.
Proof. intros H. unfold columns. cbn [seq mapM]. rewrite H. cbn [bind]. eexists. split; [reflexivity|]. repeat split. Qed.

Section Run.
Variables (w : waveform) (ivp : (R -> list R -> result (list R)) -> R -> R -> list R -> result (list R)).
Let coeff := coefficients care1 inv1 solve1 ivp expm1 integ (one_wave w) 1.
Lemma run_numpy bf bb : 
  (forall tAf, is1 tAf (-1) -> ivp (fwd_rhs integ (one_wave w) tAf 0) 0 1 [0] = Ok [bf]) ->
  (forall tAb, is1 tAb 1 -> ivp (bwd_rhs integ (one_wave w) tAb 1 0) 0 1 [0] = Ok [bb]) ->
  exists Af Ab Bf Bb WT, coeff BNumpy false = Ok (Af, Ab, Bf, Bb, WT) /\ is1 Af (exp (-1)) /\ is1 Ab (exp (-1)) /\ is1 Bf bf /\ is1 Bb bb /\ is1 WT (1/2).
Proof.
  intros H1 H2. unfold coeff, coefficients. destruct ric_integ as (Rm & Vf & Vb & -> & HR & HF & HB). cbn [bind]. unfold numerical.
  destruct (temp_integ _ _ _ HR HF HB) as (tAf & tAb & -> & HAf & HAb). cbn [bind].
  destruct (is1_expm _ _ (ck_T (d_clk (one_wave w))) HAf) as (Af & -> & Ha). cbn [bind].
  destruct (is1_expm _ _ (ck_T (d_clk (one_wave w))) (is1_map Ropp _ _ HAb)) as (Ab & Eb & Hb). unfold oppm. rewrite Eb. cbn [bind].
  destruct (is1_zip Rplus _ _ _ _ HF HB) as (V & EV & HV). unfold addm. rewrite EV. cbn [bind].
  destruct (is1_solve V (aB integ) _ _ HV (is1_s 1)) as (W & EW & HW); [lra|]. rewrite EW. cbn [bind]. unfold regular.
  destruct (columns1 (fun m => ivp (fwd_rhs integ (one_wave w) tAf m) 0 1 [0]) bf (H1 _ HAf)) as (Bf & E1 & HBf).
  destruct (columns1 (fun m => ivp (bwd_rhs integ (one_wave w) tAb 1 m) 0 1 [0]) bb (H2 _ HAb)) as (Bb & E2 & HBb).
  change (columns (sN integ) (sM integ) _) with (columns 1 1 (fun m => ivp (fwd_rhs integ (one_wave w) tAf m) 0 1 [0])) at 1. rewrite E1. cbn [bind].
  change (columns (sN integ) (sM integ) _) with (columns 1 1 (fun m => ivp (bwd_rhs integ (one_wave w) tAb 1 m) 0 1 [0])). rewrite E2. cbn [bind].
  exists Af, Ab, Bf, Bb, (tr W). split; [reflexivity|]. cbn in Ha, Hb. rewrite Rmult_1_r in Ha, Hb.
  split; [exact Ha|]. split; [replace (-1) with (- (1)) by lra; exact Hb|]. split; [exact HBf|]. split; [exact HBb|]. apply is1_tr. exact HW.
Qed.
Lemma run_mp bf bb : 
  (forall tAf, is1 tAf (-1) -> ivp (mp_rhs tAf (s11 1) (sig_mp (one_wave w)) 0) 0 1 [0] = Ok [bf]) ->
  (forall tAb, is1 tAb (-1) -> ivp (mp_rhs tAb (oppm (s11 1)) (fun m t => sig_mp (one_wave w) m (1 - t)) 0) 0 1 [0] = Ok [bb]) ->
  forall mid, exists Af Ab Bf Bb WT, coeff BMpmath mid = Ok (Af, Ab, Bf, Bb, WT) /\ is1 Af (exp (-1)) /\ is1 Ab (exp (-1)) /\ is1 Bf bf /\ is1 Bb bb /\ is1 WT (1/2).
Proof.
  intros H1 H2 mid. unfold coeff, coefficients. destruct ric_integ as (Rm & Vf & Vb & -> & HR & HF & HB). cbn [bind]. unfold mp_solver.
  destruct (temp_integ _ _ _ HR HF HB) as (tAf & tAb & -> & HAf & HAb). cbn [bind]. cbn [integ aG].
  assert (HAb' : is1 (oppm tAb) (-1)) by (replace (-1) with (- (1)) by lra; apply (is1_map Ropp); exact HAb).
  destruct (columns1 (fun m => ivp (mp_rhs tAf (s11 1) (sig_mp (one_wave w)) m) 0 1 [0]) bf (H1 _ HAf)) as (Bf & E1 & HBf).
  destruct (columns1 (fun m => ivp (mp_rhs (oppm tAb) (oppm (s11 1)) (fun m t => sig_mp (one_wave w) m (1 - t)) m) 0 1 [0]) bb (H2 _ HAb')) as (Bb & E2 & HBb).
  match goal with |- context [columns ?a ?b ?f] => change (columns a b f) with (columns 1 1 (fun m => ivp (mp_rhs tAf (s11 1) (sig_mp (one_wave w)) m) 0 1 [0])) end. rewrite E1. cbn [bind].
  match goal with |- context [columns ?a ?b ?f] => change (columns a b f) with (columns 1 1 (fun m => ivp (mp_rhs (oppm tAb) (oppm (s11 1)) (fun m t => sig_mp (one_wave w) m (1 - t)) m) 0 1 [0])) end. rewrite E2. cbn [bind].
  destruct (is1_expm _ _ (ck_T (d_clk (one_wave w))) HAf) as (Af & -> & Ha). cbn [bind].
  destruct (is1_expm _ _ (ck_T (d_clk (one_wave w))) HAb') as (Ab & -> & Hb). cbn [bind].
  destruct (is1_zip Rplus _ _ _ _ HF HB) as (V & EV & HV). unfold addm. rewrite EV. cbn [bind].
  destruct (is1_solve V (aB integ) _ _ HV (is1_s 1)) as (W & EW & HW); [lra|]. change (solve1 V _) with (solve1 V (aB integ)). rewrite EW. cbn [bind].
  exists Af, Ab, Bf, Bb, (tr W). split; [reflexivity|]. cbn in Ha, Hb. rewrite Rmult_1_r in Ha, Hb.
  split; [exact Ha|]. split; [exact Hb|]. split; [exact HBf|]. split; [exact HBb|]. apply is1_tr. exact HW.
Qed.
Lemma run_sym bf bb : w_t0 w = 0 ->
  (forall tAf, is1 tAf (-1) -> ivp (mp_rhs tAf (s11 1) (sig_mp (one_wave w)) 0) 0 1 [0] = Ok [bf]) ->
  (forall tAb, is1 tAb (-1) -> ivp (mp_rhs tAb (oppm (s11 1)) (sig_mp (one_wave w)) 0) 0 1 [0] = Ok [bb]) ->
  exists Af Ab Bf Bb WT, coeff BSympy false = Ok (Af, Ab, Bf, Bb, WT) /\ is1 Af (exp (-1)) /\ is1 Ab (exp (-1)) /\ is1 Bf bf /\ is1 Bb bb /\ is1 WT (1/2).
Proof.
  intros Hw H1 H2. unfold coeff, coefficients. destruct ric_integ as (Rm & Vf & Vb & -> & HR & HF & HB). cbn [bind]. unfold analytical.
  destruct (temp_integ _ _ _ HR HF HB) as (tAf & tAb & -> & HAf & HAb). cbn [bind]. cbn [integ aG].
  assert (HAb' : is1 (oppm tAb) (-1)) by (replace (-1) with (- (1)) by lra; apply (is1_map Ropp); exact HAb).
  destruct (columns1 (fun m => ivp (mp_rhs tAf (s11 1) (sig_mp (one_wave w)) m) (w_t0 (nth m [w] (WStep 0 0))) 1 [0]) bf) as (Bf & E1 & HBf); [cbn [nth]; rewrite Hw; exact (H1 _ HAf)|].
  destruct (columns1 (fun m => ivp (mp_rhs (oppm tAb) (oppm (s11 1)) (sig_mp (one_wave w)) m) (w_t0 (nth m [w] (WStep 0 0))) 1 [0]) bb) as (Bb & E2 & HBb); [cbn [nth]; rewrite Hw; exact (H2 _ HAb')|].
  match goal with |- context [columns ?a ?b ?f] => change (columns a b f) with (columns 1 1 (fun m => ivp (mp_rhs tAf (s11 1) (sig_mp (one_wave w)) m) (w_t0 (nth m [w] (WStep 0 0))) 1 [0])) end. rewrite E1. cbn [bind].
  match goal with |- context [columns ?a ?b ?f] => change (columns a b f) with (columns 1 1 (fun m => ivp (mp_rhs (oppm tAb) (oppm (s11 1)) (sig_mp (one_wave w)) m) (w_t0 (nth m [w] (WStep 0 0))) 1 [0])) end. rewrite E2. cbn [bind].
  destruct (is1_expm _ _ (ck_T (d_clk (one_wave w))) HAf) as (Af & -> & Ha). cbn [bind].
  destruct (is1_expm _ _ (ck_T (d_clk (one_wave w))) HAb') as (Ab & -> & Hb). cbn [bind].
  destruct (is1_zip Rplus _ _ _ _ HF HB) as (V & EV & HV). unfold addm. rewrite EV. cbn [bind].
  destruct (is1_solve V (aB integ) _ _ HV (is1_s 1)) as (W & EW & HW); [lra|]. change (solve1 V _) with (solve1 V (aB integ)). rewrite EW. cbn [bind].
  exists Af, Ab, Bf, Bb, (tr W). split; [reflexivity|]. cbn in Ha, Hb. rewrite Rmult_1_r in Ha, Hb.
  split; [exact Ha|]. split; [exact Hb|]. split; [exact HBf|]. split; [exact HBb|]. apply is1_tr. exact HW.
Qed.
Lemma run_mid bf bb : 
  (forall tAf, is1 tAf (-1) -> ivp (fwd_rhs integ (one_wave w) tAf 0) 0 (1/2) [0] = Ok [bf]) ->
  (forall tAb, is1 tAb 1 -> ivp (bwd_rhs integ (one_wave w) tAb 1 0) 0 (1/2) [0] = Ok [bb]) ->
  exists Af Ab Bf Bb WT, coeff BNumpy true = Ok (Af, Ab, Bf, Bb, WT) /\ is1 Af (exp (-1)) /\ is1 Ab (exp (-1)) /\
    is1 Bf ((1 + exp (-1 * (1/2))) * bf) /\ is1 Bb ((1 + exp (1 * (1/2))) * bb) /\ is1 WT (1/2).
Proof.
  intros H1 H2. unfold coeff, coefficients. destruct ric_integ as (Rm & Vf & Vb & -> & HR & HF & HB). cbn [bind]. unfold numerical.
  destruct (temp_integ _ _ _ HR HF HB) as (tAf & tAb & -> & HAf & HAb). cbn [bind].
  destruct (is1_expm _ _ (ck_T (d_clk (one_wave w))) HAf) as (Af & -> & Ha). cbn [bind].
  destruct (is1_expm _ _ (ck_T (d_clk (one_wave w))) (is1_map Ropp _ _ HAb)) as (Ab & Eb & Hb). unfold oppm. rewrite Eb. cbn [bind].
  destruct (is1_zip Rplus _ _ _ _ HF HB) as (V & EV & HV). unfold addm at 1. rewrite EV. cbn [bind].
  destruct (is1_solve V (aB integ) _ _ HV (is1_s 1)) as (W & EW & HW); [lra|]. rewrite EW. cbn [bind]. unfold mid_point.
  destruct (columns1 (fun m => ivp (fwd_rhs integ (one_wave w) tAf m) 0 (1/2) [0]) bf (H1 _ HAf)) as (Bf & E1 & HBf).
  destruct (columns1 (fun m => ivp (bwd_rhs integ (one_wave w) tAb 1 m) 0 (1/2) [0]) bb (H2 _ HAb)) as (Bb & E2 & HBb).
  match goal with |- context [columns ?a ?b ?f] => change (columns a b f) with (columns 1 1 (fun m => ivp (fwd_rhs integ (one_wave w) tAf m) 0 (1/2) [0])) end. rewrite E1. cbn [bind].
  match goal with |- context [columns ?a ?b ?f] => change (columns a b f) with (columns 1 1 (fun m => ivp (bwd_rhs integ (one_wave w) tAb 1 m) 0 (1/2) [0])) end. rewrite E2. cbn [bind].
  assert (HI : is1 (eye2 (K := Rring) (sN integ) (sN integ)) 1) by (repeat split).
  change (ck_T (d_clk (one_wave w)) / 2) with (1 / 2).
  destruct (is1_expm _ _ (1/2) HAf) as (X1 & -> & HX1). cbn [bind]. destruct (is1_zip Rplus _ _ _ _ HI HX1) as (E1' & EE1 & HE1). unfold addm at 1. rewrite EE1. cbn [bind].
  destruct (is1_dot _ _ _ _ HE1 HBf) as (Bf' & -> & HBf'). cbn [bind].
  destruct (is1_expm _ _ (1/2) HAb) as (X2 & -> & HX2). cbn [bind]. destruct (is1_zip Rplus _ _ _ _ HI HX2) as (E2' & EE2 & HE2). unfold addm at 1. rewrite EE2. cbn [bind].
  destruct (is1_dot _ _ _ _ HE2 HBb) as (Bb' & -> & HBb'). cbn [bind].
  exists Af, Ab, Bf', Bb', (tr W). split; [reflexivity|]. cbn in Ha, Hb. rewrite Rmult_1_r in Ha, Hb.
  split; [exact Ha|]. split; [replace (-1) with (- (1)) by lra; exact Hb|]. split; [exact HBf'|]. split; [exact HBb'|]. apply is1_tr. exact HW.
Qed.
End Run.

(** *** Values *)
Lemma fwd_val w tAf a (v : R) t x : is1 tAf a -> 0 <= t <= 1 -> w_eval w t = Ok v -> fwd_rhs integ (one_wave w) tAf 0 t [x] = Ok [a * x + v].
Proof.
  intros (HR & HC & <-) Ht Hv. unfold fwd_rhs. rewrite dotv1 by assumption. cbn [bind]. unfold dc_impulse_response. cbn [one_wave d_clk ck_T d_resp d_M].
  rewrite !Rle_bool_true by lra. cbn [andb nth_error]. rewrite Hv. cbn [bind integ aG dotv_opt repeat upd]. rewrite (dotv1 (s11 1)) by reflexivity.
  cbn [bind vadd map2 s11 ent radd Rring]. rewrite Rmult_1_l. reflexivity.
Qed.
Lemma bwd_val w tAb a (v : R) t x : is1 tAb a -> 0 <= t <= 1 -> w_eval w (1 - t) = Ok v -> bwd_rhs integ (one_wave w) tAb 1 0 t [x] = Ok [- a * x - v].
Proof.
  intros (HR & HC & <-) Ht Hv. unfold bwd_rhs. rewrite dotv1 by assumption. cbn [bind]. unfold dc_impulse_response. cbn [one_wave d_clk ck_T d_resp d_M].
  rewrite !Rle_bool_true by lra. cbn [andb nth_error]. rewrite Hv. cbn [bind integ aG dotv_opt repeat upd]. rewrite (dotv1 (s11 1)) by reflexivity.
  cbn [bind vsub map2 s11 ent rsub Rring oppm mapm]. rewrite Rmult_1_l. reflexivity.
Qed.
Lemma mp_val (s : nat -> R -> result R) tA a g (v : R) t x : is1 tA a -> s O t = Ok v -> mp_rhs tA (s11 g) s 0 t [x] = Ok [g * v + a * x].
Proof. intros (HR & HC & <-) Hv. unfold mp_rhs. rewrite Hv. cbn [bind]. rewrite dotv1 by assumption. cbn [bind s11 rows seq map ent vadd map2 radd Rring]. reflexivity. Qed.
Lemma mp_val_opp (s : nat -> R -> result R) tA a g (v : R) t x : is1 tA a -> s O t = Ok v -> mp_rhs tA (oppm (s11 g)) s 0 t [x] = Ok [- g * v + a * x].
Proof. intros (HR & HC & <-) Hv. unfold mp_rhs. rewrite Hv. cbn [bind]. rewrite dotv1 by assumption. cbn [bind oppm mapm s11 rows seq map ent vadd map2 radd Rring]. reflexivity. Qed.

Lemma resp2_m1 g0 g1 b : resp2 (-1) (1/2) g0 g1 b = g0 * (1 - exp (- b)) + (g1 - g0) * (1 - exp (- Rmax 0 (b - 1/2))).
Proof. unfold resp2, resp. rewrite !Req_bool_false by lra. rewrite !(Ropp_mult_distr_l_reverse 1), !Rmult_1_l. field. Qed.

Lemma ivp_step_val f b g0 g1 h : f 0 [0] = Ok [g0] -> f 1 [0] = Ok [g1] -> f 0 [1] = Ok [h] -> h - g0 = -1 ->
  ivp_step f 0 b [0] = Ok [g0 * (1 - exp (- b)) + (g1 - g0) * (1 - exp (- Rmax 0 (b - 1/2)))].
Proof. intros E0 E1 E2 Eh. unfold ivp_step. rewrite E0, E1, E2, Req_bool_true by reflexivity. rewrite Eh, resp2_m1. reflexivity. Qed.

Lemma ste t0 t : w_eval (WStep t0 1) t = Ok (st_ev t0 t). Proof. reflexivity. Qed.
Lemma st_on t0 t : t0 <= t -> st_ev t0 t = 1. Proof. intros H. unfold st_ev. now rewrite Rle_bool_true. Qed.
Lemma st_off t0 t : t < t0 -> st_ev t0 t = 0. Proof. intros H. unfold st_ev. now rewrite Rle_bool_false. Qed.

Lemma step_numpy : exists Af Ab Bf Bb WT, coefficients care1 inv1 solve1 ivp_step expm1 integ (one_wave (WStep 0 1)) 1 BNumpy false = Ok (Af, Ab, Bf, Bb, WT) /\
  is1 Af (exp (-1)) /\ is1 Ab (exp (-1)) /\ is1 Bf (1 - exp (-1)) /\ is1 Bb (- (1 - exp (-1))) /\ is1 WT (1/2).
Proof.
  apply run_numpy.
  - intros tA H. rewrite (ivp_step_val _ 1 1 1 0).
    + replace (- (1)) with (-1) by lra. do 2 f_equal. ring.
    + rewrite (fwd_val _ _ _ _ 0 0 H ltac:(lra) (ste 0 0)), st_on by lra. do 2 f_equal. ring.
    + rewrite (fwd_val _ _ _ _ 1 0 H ltac:(lra) (ste 0 1)), st_on by lra. do 2 f_equal. ring.
    + rewrite (fwd_val _ _ _ _ 0 1 H ltac:(lra) (ste 0 0)), st_on by lra. do 2 f_equal. ring.
    + ring.
  - intros tA H. rewrite (ivp_step_val _ 1 (-1) (-1) (-2)).
    + replace (- (1)) with (-1) by lra. do 2 f_equal. ring.
    + rewrite (bwd_val _ _ _ _ 0 0 H ltac:(lra) (ste 0 _)), st_on by lra. do 2 f_equal. ring.
    + rewrite (bwd_val _ _ _ _ 1 0 H ltac:(lra) (ste 0 _)), st_on by lra. do 2 f_equal. ring.
    + rewrite (bwd_val _ _ _ _ 0 1 H ltac:(lra) (ste 0 _)), st_on by lra. do 2 f_equal. ring.
    + ring.
Qed.
Lemma late_numpy : exists Af Ab Bf Bb WT, coefficients care1 inv1 solve1 ivp_step expm1 integ (one_wave (WStep (1/2) 1)) 1 BNumpy false = Ok (Af, Ab, Bf, Bb, WT) /\
  is1 Af (exp (-1)) /\ is1 Ab (exp (-1)) /\ is1 Bf (1 - exp (- (1/2))) /\ is1 Bb (exp (-1) - exp (- (1/2))) /\ is1 WT (1/2).
Proof.
  apply run_numpy.
  - intros tA H. rewrite (ivp_step_val _ 1 0 1 (-1)).
    + rewrite Rmax_right by lra. replace (- (1)) with (-1) by lra. do 2 f_equal. replace (1 - 1/2) with (1/2) by field. ring.
    + rewrite (fwd_val _ _ _ _ 0 0 H ltac:(lra) (ste _ 0)), st_off by lra. do 2 f_equal. ring.
    + rewrite (fwd_val _ _ _ _ 1 0 H ltac:(lra) (ste _ 1)), st_on by lra. do 2 f_equal. ring.
    + rewrite (fwd_val _ _ _ _ 0 1 H ltac:(lra) (ste _ 0)), st_off by lra. do 2 f_equal. ring.
    + ring.
  - intros tA H. rewrite (ivp_step_val _ 1 (-1) 0 (-2)).
    + rewrite Rmax_right by lra. replace (- (1)) with (-1) by lra. do 2 f_equal. replace (1 - 1/2) with (1/2) by field. ring.
    + rewrite (bwd_val _ _ _ _ 0 0 H ltac:(lra) (ste _ _)), st_on by lra. do 2 f_equal. ring.
    + rewrite (bwd_val _ _ _ _ 1 0 H ltac:(lra) (ste _ _)), st_off by lra. do 2 f_equal. ring.
    + rewrite (bwd_val _ _ _ _ 0 1 H ltac:(lra) (ste _ _)), st_on by lra. do 2 f_equal. ring.
    + ring.
Qed.
Lemma step_mp t0 mid : exists Af Ab Bf Bb WT, coefficients care1 inv1 solve1 ivp_step expm1 integ (one_wave (WStep t0 1)) 1 BMpmath mid = Ok (Af, Ab, Bf, Bb, WT) /\
  is1 Af (exp (-1)) /\ is1 Ab (exp (-1)) /\ is1 Bf (1 - exp (-1)) /\ is1 Bb (- (1 - exp (-1))) /\ is1 WT (1/2).
Proof.
  apply run_mp.
  - intros tA H. rewrite (ivp_step_val _ 1 1 1 0); [replace (- (1)) with (-1) by lra; do 2 f_equal; ring| | | |ring].
    + rewrite (mp_val _ _ _ _ 1 0 0 H) by reflexivity. do 2 f_equal. ring.
    + rewrite (mp_val _ _ _ _ 1 1 0 H) by reflexivity. do 2 f_equal. ring.
    + rewrite (mp_val _ _ _ _ 1 0 1 H) by reflexivity. do 2 f_equal. ring.
  - intros tA H. rewrite (ivp_step_val _ 1 (-1) (-1) (-2)); [replace (- (1)) with (-1) by lra; do 2 f_equal; ring| | | |ring].
    + rewrite (mp_val_opp _ _ _ _ 1 0 0 H) by reflexivity. do 2 f_equal. ring.
    + rewrite (mp_val_opp _ _ _ _ 1 1 0 H) by reflexivity. do 2 f_equal. ring.
    + rewrite (mp_val_opp _ _ _ _ 1 0 1 H) by reflexivity. do 2 f_equal. ring.
Qed.
Lemma step_sym : exists Af Ab Bf Bb WT, coefficients care1 inv1 solve1 ivp_step expm1 integ (one_wave (WStep 0 1)) 1 BSympy false = Ok (Af, Ab, Bf, Bb, WT) /\
  is1 Af (exp (-1)) /\ is1 Ab (exp (-1)) /\ is1 Bf (1 - exp (-1)) /\ is1 Bb (- (1 - exp (-1))) /\ is1 WT (1/2).
Proof.
  apply run_sym; [reflexivity| |].
  - intros tA H. rewrite (ivp_step_val _ 1 1 1 0); [replace (- (1)) with (-1) by lra; do 2 f_equal; ring| | | |ring].
    + rewrite (mp_val _ _ _ _ 1 0 0 H) by reflexivity. do 2 f_equal. ring.
    + rewrite (mp_val _ _ _ _ 1 1 0 H) by reflexivity. do 2 f_equal. ring.
    + rewrite (mp_val _ _ _ _ 1 0 1 H) by reflexivity. do 2 f_equal. ring.
  - intros tA H. rewrite (ivp_step_val _ 1 (-1) (-1) (-2)); [replace (- (1)) with (-1) by lra; do 2 f_equal; ring| | | |ring].
    + rewrite (mp_val_opp _ _ _ _ 1 0 0 H) by reflexivity. do 2 f_equal. ring.
    + rewrite (mp_val_opp _ _ _ _ 1 1 0 H) by reflexivity. do 2 f_equal. ring.
    + rewrite (mp_val_opp _ _ _ _ 1 0 1 H) by reflexivity. do 2 f_equal. ring.
Qed.
Lemma step_mid : exists Af Ab Bf Bb WT, coefficients care1 inv1 solve1 ivp_step expm1 integ (one_wave (WStep 0 1)) 1 BNumpy true = Ok (Af, Ab, Bf, Bb, WT) /\
  is1 Af (exp (-1)) /\ is1 Ab (exp (-1)) /\ is1 Bf (1 - exp (-1)) /\ is1 Bb (- (exp (1/2) - exp (- (1/2)))) /\ is1 WT (1/2).
Proof.
  assert (E2 : exp (- (1/2)) * exp (- (1/2)) = exp (-1)) by (rewrite <- exp_plus; f_equal; field).
  assert (E1 : exp (1/2) * exp (- (1/2)) = 1) by (rewrite <- exp_plus, <- exp_0; f_equal; field).
  replace (1 - exp (-1)) with ((1 + exp (-1 * (1/2))) * (1 - exp (- (1/2)))) by (replace (-1 * (1/2)) with (- (1/2)) by field; rewrite <- E2; ring).
  replace (- (exp (1/2) - exp (- (1/2)))) with ((1 + exp (1 * (1/2))) * - (1 - exp (- (1/2)))) by (replace (1 * (1/2)) with (1/2) by field; transitivity (- exp (1/2) + exp (- (1/2)) - 1 + exp (1/2) * exp (- (1/2))); [ring|rewrite E1; ring]).
  apply run_mid.
  - intros tA H. rewrite (ivp_step_val _ (1/2) 1 1 0).
    + do 2 f_equal. ring.
    + rewrite (fwd_val _ _ _ _ 0 0 H ltac:(lra) (ste 0 0)), st_on by lra. do 2 f_equal. ring.
    + rewrite (fwd_val _ _ _ _ 1 0 H ltac:(lra) (ste 0 1)), st_on by lra. do 2 f_equal. ring.
    + rewrite (fwd_val _ _ _ _ 0 1 H ltac:(lra) (ste 0 0)), st_on by lra. do 2 f_equal. ring.
    + ring.
  - intros tA H. rewrite (ivp_step_val _ (1/2) (-1) (-1) (-2)).
    + do 2 f_equal. ring.
    + rewrite (bwd_val _ _ _ _ 0 0 H ltac:(lra) (ste 0 _)), st_on by lra. do 2 f_equal. ring.
    + rewrite (bwd_val _ _ _ _ 1 0 H ltac:(lra) (ste 0 _)), st_on by lra. do 2 f_equal. ring.
    + rewrite (bwd_val _ _ _ _ 0 1 H ltac:(lra) (ste 0 _)), st_on by lra. do 2 f_equal. ring.
    + ring.
Qed.

Lemma rc_eval t : 0 <= t -> w_eval (WRC 1 0 1) t = Ok (exp (- t)).
Proof. intros H. cbn. rewrite Rlt_bool_false by lra. rewrite Req_bool_false by lra. do 2 f_equal. rewrite Rmult_1_l. f_equal. field. Qed.
Lemma rc_mp t : w_mp (WRC 1 0 1) t = Ok (exp (- t)).
Proof. cbn. rewrite Req_bool_false by lra. do 2 f_equal. rewrite Rmult_1_l. f_equal. field. Qed.
Lemma ivp_rc_dec f g0 h : f 0 [0] = Ok [g0] -> f 1 [0] = Ok [g0 * exp (-1)] -> f 0 [1] = Ok [h] -> h - g0 = -1 -> ivp_rc f 0 1 [0] = Ok [g0 * exp (-1)].
Proof. intros E0 E1 E2 Eh. unfold ivp_rc. rewrite E0, E1, E2, Eh, !Req_bool_true by reflexivity. cbn [andb]. do 2 f_equal. replace (- (1)) with (-1) by lra. ring. Qed.
Lemma ivp_rc_inc f g0 h : g0 <> 0 -> f 0 [0] = Ok [g0] -> f 1 [0] = Ok [g0 * exp 1] -> f 0 [1] = Ok [h] -> h - g0 = -1 -> ivp_rc f 0 1 [0] = Ok [g0 * (exp 1 - exp (-1)) / 2].
Proof.
  intros Hg E0 E1 E2 Eh. unfold ivp_rc. rewrite E0, E1, E2, Eh, !Req_bool_true by reflexivity. cbn [andb]. rewrite Req_bool_false; [rewrite ?Req_bool_true by reflexivity; reflexivity|].
  intros X. apply Rmult_eq_reg_l in X; [|exact Hg]. assert (exp (-1) < exp 1) by (apply exp_increasing; lra). lra.
Qed.
Lemma rc_numpy : exists Af Ab Bf Bb WT, coefficients care1 inv1 solve1 ivp_rc expm1 integ (one_wave (WRC 1 0 1)) 1 BNumpy false = Ok (Af, Ab, Bf, Bb, WT) /\
  is1 Af (exp (-1)) /\ is1 Ab (exp (-1)) /\ is1 Bf (1 * exp (-1)) /\ is1 Bb (- exp (-1) * (exp 1 - exp (-1)) / 2) /\ is1 WT (1/2).
Proof.
  assert (E1 : exp (-1) * exp 1 = 1) by (rewrite <- exp_plus; replace (-1 + 1) with 0 by ring; apply exp_0). assert (P := exp_pos (-1)).
  apply run_numpy.
  - intros tA H. apply (ivp_rc_dec _ 1 0); [| | |ring].
    + rewrite (fwd_val _ _ _ _ 0 0 H ltac:(lra) (rc_eval 0 ltac:(lra))). rewrite Ropp_0, exp_0. do 2 f_equal. ring.
    + rewrite (fwd_val _ _ _ _ 1 0 H ltac:(lra) (rc_eval 1 ltac:(lra))). do 2 f_equal. replace (- (1)) with (-1) by lra. ring.
    + rewrite (fwd_val _ _ _ _ 0 1 H ltac:(lra) (rc_eval 0 ltac:(lra))). rewrite Ropp_0, exp_0. do 2 f_equal. ring.
  - intros tA H. apply (ivp_rc_inc _ _ (-1 - exp (-1))); [lra| | | |ring].
    + rewrite (bwd_val _ _ _ _ 0 0 H ltac:(lra) (rc_eval (1 - 0) ltac:(lra))). replace (- (1 - 0)) with (-1) by ring. do 2 f_equal. ring.
    + rewrite (bwd_val _ _ _ _ 1 0 H ltac:(lra) (rc_eval (1 - 1) ltac:(lra))). replace (- (1 - 1)) with 0 by ring. rewrite exp_0. do 2 f_equal. rewrite (Ropp_mult_distr_l_reverse (exp (-1))), E1. ring.
    + rewrite (bwd_val _ _ _ _ 0 1 H ltac:(lra) (rc_eval (1 - 0) ltac:(lra))). replace (- (1 - 0)) with (-1) by ring. do 2 f_equal. ring.
Qed.
Lemma rc_sym : exists Af Ab Bf Bb WT, coefficients care1 inv1 solve1 ivp_rc expm1 integ (one_wave (WRC 1 0 1)) 1 BSympy false = Ok (Af, Ab, Bf, Bb, WT) /\
  is1 Af (exp (-1)) /\ is1 Ab (exp (-1)) /\ is1 Bf (1 * exp (-1)) /\ is1 Bb (-1 * exp (-1)) /\ is1 WT (1/2).
Proof.
  apply run_sym; [reflexivity| |].
  - intros tA H. apply (ivp_rc_dec _ 1 0); [| | |ring].
    + rewrite (mp_val _ _ _ _ _ 0 0 H (rc_mp 0)). rewrite Ropp_0, exp_0. do 2 f_equal. ring.
    + rewrite (mp_val _ _ _ _ _ 1 0 H (rc_mp 1)). do 2 f_equal. replace (- (1)) with (-1) by lra. ring.
    + rewrite (mp_val _ _ _ _ _ 0 1 H (rc_mp 0)). rewrite Ropp_0, exp_0. do 2 f_equal. ring.
  - intros tA H. apply (ivp_rc_dec _ (-1) (-2)); [| | |ring].
    + rewrite (mp_val_opp _ _ _ _ _ 0 0 H (rc_mp 0)). rewrite Ropp_0, exp_0. do 2 f_equal. ring.
    + rewrite (mp_val_opp _ _ _ _ _ 1 0 H (rc_mp 1)). do 2 f_equal. replace (- (1)) with (-1) by lra. ring.
    + rewrite (mp_val_opp _ _ _ _ _ 0 1 H (rc_mp 0)). rewrite Ropp_0, exp_0. do 2 f_equal. ring.
Qed.
Lemma sinh1 : exp 1 - exp (-1) > 2.
Proof.
  assert (E : exp (1/4) > 5/4) by (assert (X := exp_ineq1 (1/4) ltac:(lra)); lra).
  assert (E4 : exp 1 = exp (1/4) * exp (1/4) * (exp (1/4) * exp (1/4))) by (rewrite <- !exp_plus; f_equal; field).
  assert (E2 : exp (1/4) * exp (1/4) > 25/16) by nra. assert (E1 : exp 1 > 2.44) by (rewrite E4; nra).
  assert (P : exp (-1) * exp 1 = 1) by (rewrite <- exp_plus; replace (-1 + 1) with 0 by ring; apply exp_0). assert (Q := exp_pos (-1)). nra.
Qed.
