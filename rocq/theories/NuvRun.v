(** Iterations, batches and the whole run of the NUV estimator. *)
From Coq Require Import List Arith Lia Bool Reals Lra ZArith.
From Flocq Require Import Core.
From Verif Require Import Base LinAlg FirExtras AnalogSystem AnalogProofs Signals DigitalControl Integrators IntegratorsProofs Simulator Stability LinearOde PreSim Zpk FilterCoeff
  FilterCoeffProofs FilterRun Estimators Optimal NuvAlg NuvCost Nuv NuvProofs NuvPass.
Import ListNotations.
Open Scope R_scope.

(** positive definite *)
Definition pd (n : nat) (M : nat -> nat -> R) : Prop := forall q, (exists i, (i < n)%nat /\ q i <> 0) -> 0 < quad n M q.
(** [np.linalg.inv] is exact where it returns, and returns for symmetric positive definite matrices with n rows *)
Record exact_inv (n : nat) (inv : rmat -> result rmat) : Prop := mkEI {
  ei_sound : forall M X, inv M = Ok X -> is_inverse M X;
  ei_total : forall (M : rmat), rows M = n -> cols M = n -> symm n (ent M) -> pd n (ent M) -> exists X, inv M = Ok X }.

Lemma dotm_total (a b : rmat) : cols a = rows b -> exists m, dotm a b = Ok m /\ rows m = rows a /\ cols m = cols b.
Proof. intros H. unfold dotm. rewrite H, Nat.eqb_refl. eexists. split; [reflexivity|]. now cbn. Qed.
Lemma dotv_total (a : rmat) (x : rvec) : cols a = length x -> exists y : rvec, dotv a x = Ok y /\ @length R y = rows a.
Proof. intros H. rewrite dotv_R by exact H. eexists. split; [reflexivity|]. now rewrite map_length, seq_length. Qed.
Lemma zip_total f (a b : rmat) : rows a = rows b -> cols a = cols b -> exists m, zip2 (K := Rring) f a b = Ok m /\ rows m = rows a /\ cols m = cols a.
Proof. intros H1 H2. unfold zip2. rewrite H1, H2, !Nat.eqb_refl. cbn [andb]. eexists. split; [reflexivity|]. now cbn. Qed.

Section P.
Variable inv : rmat -> result rmat.
Variable c : nuv.
Hypothesis EI : exact_inv (sNt (nS c)) inv.
Let HI := ei_sound _ inv EI.
Hypothesis Z : sizes c.
Let S := nS c.
Let N := sN S.
Let P := sNt S.
Let C := ent (aCT S).
Let A := ent (nAf c).
Let U := ent (nVu c).
Hypothesis HS : symmetric_outputs S.
Let CC : cols (aCT S) = N.
Proof. apply Z. Qed.

(** *** Everything succeeds *)
Lemma diag_pd (M : nat -> nat -> R) (v : nat -> R) : (forall i j, (i < P)%nat -> (j < P)%nat -> M i j = if Nat.eqb i j then v i else 0) -> (forall i, (i < P)%nat -> 0 < v i) -> pd P M.
Proof.
  intros HM Hv q (i0 & Hi0 & Hq). unfold quad.
  assert (E : forall i, (i < P)%nat -> q i * rsum P (fun j => M i j * q j) = v i * (q i * q i)).
  { intros i Hi. rewrite (rsum_ext P _ (fun j => if Nat.eqb j i then v i * q j else 0)); [rewrite (Optimal.rsum_single P (fun j => v i * q j) i Hi); ring|].
    intros j Hj. rewrite HM by assumption. rewrite (Nat.eqb_sym i j). destruct (Nat.eqb j i); ring. }
  apply (rsum_pos P _ i0); [|exact Hi0|].
  - intros i Hi. rewrite E by exact Hi. apply Rmult_le_pos; [apply Rlt_le, Hv, Hi|apply Rle_0_sqr].
  - rewrite E by exact Hi0. apply Rmult_lt_0_compat; [now apply Hv|]. now apply Rsqr_pos_lt in Hq.
Qed.
Lemma observation_total s1 s2 : good c s1 -> good c s2 -> exists y Yc, observation inv c s1 s2 = Ok (y, Yc).
Proof.
  intros [L1 P1] [L2 P2]. fold S P in L1, L2. unfold observation. rewrite !reciprocals_Ok by assumption. cbn [bind].
  destruct (zip_total Rplus (diag c (map Rinv s1)) (diag c (map Rinv s2))) as (W & EW & RW & CW); try reflexivity. unfold addm. rewrite EW. cbn [bind].
  apply zip2_Ok in EW as (_ & _ & _ & _ & EW). cbn [diag rows cols ent] in *. fold S P in RW, CW.
  assert (D : forall i j, (i < P)%nat -> (j < P)%nat -> ent W i j = if Nat.eqb i j then / fv s1 i + / fv s2 i else 0).
  { intros i j Hi Hj. rewrite EW. fold (fv (map Rinv s1) i) (fv (map Rinv s2) i). rewrite !(fv_inv c Z). destruct (Nat.eqb i j); [reflexivity|apply Rplus_0_l]. }
  destruct (ei_total _ inv EI W RW CW) as [X EX].
  - intros i j Hi Hj. rewrite !D by assumption. rewrite (Nat.eqb_sym j i). destruct (Nat.eqb_spec i j) as [->|]; reflexivity.
  - apply (diag_pd _ (fun i => / fv s1 i + / fv s2 i)); [exact D|]. intros i Hi.
    assert (0 < / fv s1 i) by (apply Rinv_0_lt_compat, fv_pos; [assumption|lia]). assert (0 < / fv s2 i) by (apply Rinv_0_lt_compat, fv_pos; [assumption|lia]). lra.
  - rewrite EX. cbn [bind]. apply HI in EX as (RX & CX & _). set (Wm := rvsub _ _).
    assert (LW : length Wm = P). { unfold Wm. rewrite len_sub; unfold row_sums; now rewrite !map_length, !seq_length. }
    destruct (dotv_total X Wm) as (y & Ey & _); [congruence|]. rewrite Ey. cbn [bind]. eauto.
Qed.
Lemma gains_total (Yc V : rmat) v : rows V = N -> cols V = N -> symm N (ent V) -> psd N (ent V) -> rows Yc = P -> cols Yc = P ->
  (forall i j, (i < P)%nat -> (j < P)%nat -> ent Yc i j = if Nat.eqb i j then v i else 0) -> (forall i, (i < P)%nat -> 0 < v i) -> exists G F, gains inv c Yc V = Ok (G, F).
Proof.
  intros RV CV SV PV RY CY DY Pv. unfold gains. fold S.
  destruct (dotm_total V (tr (aCT S))) as (X1 & E1 & R1 & C1); [cbn; congruence|]. rewrite E1. cbn [bind].
  destruct (dotm_total (aCT S) X1) as (X2 & E2 & R2 & C2); [congruence|]. rewrite E2. cbn [bind]. cbn [tr rows cols] in *.
  destruct (zip_total Rplus Yc X2) as (X3 & E3 & R3 & C3); [unfold P, sNt in *; congruence..|]. unfold addm. rewrite E3. cbn [bind].
  apply dotm_Ok in E1 as (_ & _ & _ & E1). apply dotm_Ok in E2 as (_ & _ & _ & E2). apply zip2_Ok in E3 as (_ & _ & _ & _ & E3). cbn [tr ent] in *.
  assert (AP : forall q i, ap P (ent X3) q i = ap P (ent Yc) q i + ap N C (ap N (ent V) (apT P C q)) i).
  { intros q i. unfold ap at 1. rewrite (rsum_ext P _ (fun k => ent Yc i k * q k + ent X2 i k * q k)) by (intros; rewrite E3; ring). rewrite rsum_add. f_equal.
    rewrite (rsum_ext P _ (fun k => rsum N (fun a => C i a * ent X1 a k) * q k)) by (intros; now rewrite E2, CC).
    rewrite (rsum_comp N P C (ent X1)). apply rsum_ext. intros a Ha. f_equal.
    rewrite (rsum_ext P _ (fun k => rsum N (fun b => ent V a b * C k b) * q k)) by (intros; now rewrite E1, CV).
    now rewrite (rsum_comp N P (ent V) (fun b k => C k b)). }
  assert (FM : forall q r, dotr P q (ap P (ent X3) r) = dotr P q (ap P (ent Yc) r) + dotr N (apT P C q) (ap N (ent V) (apT P C r))).
  { intros q r. rewrite (dotr_ext P q q _ (fun i => ap P (ent Yc) r i + ap N C (ap N (ent V) (apT P C r)) i)) by (intros i _; [reflexivity|apply AP] || (intros i _; reflexivity) || (intros i _; apply AP)).
    rewrite dotr_add. f_equal. apply dotr_adj. }
  assert (SY : symm P (ent Yc)). { intros i j Hi Hj. rewrite !DY by assumption. rewrite (Nat.eqb_sym j i). destruct (Nat.eqb_spec i j) as [->|]; reflexivity. }
  destruct (ei_total _ inv EI X3) as [G EG]; [change (rows X3 = P); congruence|change (cols X3 = P); congruence| | |].
  - apply symm_form. intros x y. rewrite !FM. now rewrite (form_symm P _ x y SY), (form_symm N _ (apT P C x) _ SV).
  - intros q Hq. rewrite quad_dotr, FM. assert (X := diag_pd (ent Yc) v DY Pv q Hq). rewrite quad_dotr in X. assert (Y := PV (apT P C q)). rewrite quad_dotr in Y. lra.
  - rewrite EG. cbn [bind]. apply HI in EG as (RG & CG & _). rewrite R3, C3, RY, CY in *.
    destruct (dotm_total G (aCT S)) as (X4 & E4 & R4 & C4); [unfold P, sNt in *; congruence|]. rewrite E4. cbn [bind].
    destruct (dotm_total (tr (aCT S)) X4) as (X5 & E5 & R5 & C5); [cbn; unfold P, sNt in *; congruence|]. rewrite E5. cbn [bind]. cbn [tr rows cols] in *.
    destruct (dotm_total V X5) as (X6 & E6 & R6 & C6); [congruence|]. rewrite E6. cbn [bind].
    destruct (zip_total Rminus (eye2 (K := Rring) (sN S) (sN S)) X6) as (F & E7 & _); [change (N = rows X6); congruence|change (N = cols X6); congruence|]. unfold subm. rewrite E7. cbn [bind]. eauto.
Qed.
Lemma next_total (G F V : rmat) (m y s : rvec) : rows V = N -> cols V = N -> rows G = P -> cols G = P -> rows F = N -> cols F = N -> length m = N -> length y = P -> length s = sM S ->
  exists m1 V1, next_mean c G F m V y s = Ok m1 /\ next_cov c F V = Ok V1.
Proof.
  intros RV CV RG CG RF CF Lm Ly Ls. destruct (z_Af c Z) as [RA CA]. destruct (z_Bf c Z) as [RB CB]. destruct (z_Vu c Z) as [RU CU]. fold S N in RA, CA, RB, CB, RU, CU.
  unfold next_mean, next_cov. fold S.
  destruct (dotv_total F m) as (a & E0 & L0); [congruence|]. rewrite E0. cbn [bind].
  destruct (dotv_total G y) as (x1 & E1 & L1); [congruence|]. rewrite E1. cbn [bind].
  destruct (dotv_total (tr (aCT S)) x1) as (x2 & E2 & L2); [cbn; unfold P, sNt in *; congruence|]. rewrite E2. cbn [bind]. cbn [tr rows] in L2.
  destruct (dotv_total V x2) as (x3 & E3 & L3); [congruence|]. rewrite E3. cbn [bind].
  destruct (dotv_total (nAf c) (rvadd a x3)) as (x4 & E4 & L4); [rewrite len_add; congruence|]. rewrite E4. cbn [bind].
  destruct (dotv_total (nBf c) s) as (x5 & E5 & L5); [congruence|]. rewrite E5. cbn [bind].
  destruct (dotm_total F V) as (X1 & F1 & R1 & C1); [congruence|]. rewrite F1. cbn [bind].
  destruct (dotm_total X1 (tr (nAf c))) as (X2 & F2 & R2 & C2); [cbn; congruence|]. rewrite F2. cbn [bind]. cbn [tr cols] in C2.
  destruct (dotm_total (nAf c) X2) as (X3 & F3 & R3 & C3); [congruence|]. rewrite F3. cbn [bind].
  destruct (zip_total Rplus X3 (nVu c)) as (V1 & F4 & _); [congruence..|]. unfold addm. rewrite F4. eauto.
Qed.

Definition shaped_node (g : node) : Prop := length (g_m g) = N /\ length (g_y g) = P /\ rows (gV g) = N /\ cols (gV g) = N /\ rows (gG g) = P /\ cols (gG g) = P /\ rows (gF g) = N /\ cols (gF g) = N.
Lemma forward_total : forall (buf s1 s2 : list rvec) (m : rvec) (V : rmat), length s1 = length buf -> length s2 = length buf -> Forall (good c) s1 -> Forall (good c) s2 -> Forall (fun s => length s = sM S) buf ->
  length m = N -> rows V = N -> cols V = N -> symm N (ent V) -> psd N (ent V) ->
  exists obs l, observations inv c s1 s2 buf = Ok obs /\ length obs = length buf /\ forward inv c obs m V = Ok l /\ Forall shaped_node l.
Proof.
  induction buf as [|s buf IH]; intros s1 s2 m V L1 L2 G1 G2 HB Lm RV CV SV PV.
  { destruct s1; [|discriminate]. destruct s2; [|discriminate]. exists [], []. cbn. auto. }
  destruct s1 as [|a s1]; [discriminate|]. destruct s2 as [|b s2]; [discriminate|]. cbn [length] in L1, L2. apply Nat.succ_inj in L1. apply Nat.succ_inj in L2.
  inversion G1 as [|? ? Ga G1']; subst. inversion G2 as [|? ? Gb G2']; subst. inversion HB as [|? ? Hs HB']; subst. clear G1 G2 HB.
  destruct (observation_total a b Ga Gb) as (y & Yc & EY).
  destruct (observation_Ok inv HI c Z a b y Yc (proj1 Ga) (proj1 Gb) (proj2 Ga) (proj2 Gb) EY) as (Ly & RY & CY & HY & Hy). fold S P in Ly, RY, CY, HY, Hy.
  assert (Pv : forall i, (i < P)%nat -> 0 < / (/ fv a i + / fv b i)).
  { intros i Hi. assert (0 < / fv a i) by (apply Rinv_0_lt_compat, fv_pos; [apply Ga|rewrite (proj1 Ga); exact Hi]). assert (0 < / fv b i) by (apply Rinv_0_lt_compat, fv_pos; [apply Gb|rewrite (proj1 Gb); exact Hi]). apply Rinv_0_lt_compat. lra. }
  destruct (gains_total Yc V (fun i => / (/ fv a i + / fv b i)) RV CV SV PV RY CY HY Pv) as (G & F & EG).
  destruct (gains_Ok inv HI c Z Yc V G F RV CV RY CY EG) as (RG & CG & RF & CF & HG & HF). fold S N P C in RG, CG, RF, CF, HG, HF.
  assert (SY : symm P (ent Yc)). { intros i j Hi Hj. rewrite !HY by assumption. rewrite (Nat.eqb_sym j i). destruct (Nat.eqb_spec i j) as [->|]; reflexivity. }
  assert (PY : psd P (ent Yc)).
  { intros q. unfold quad. apply rsum_nonneg. intros i Hi. rewrite (rsum_ext P _ (fun j => if Nat.eqb j i then / (/ fv a i + / fv b i) * q j else 0)).
    - rewrite (Optimal.rsum_single P (fun j => / (/ fv a i + / fv b i) * q j) i Hi).
      replace (q i * (/ (/ fv a i + / fv b i) * q i)) with (/ (/ fv a i + / fv b i) * (q i * q i)) by ring. apply Rmult_le_pos; [apply Rlt_le, Pv, Hi|apply Rle_0_sqr].
    - intros j Hj. rewrite HY by assumption. rewrite (Nat.eqb_sym i j). destruct (Nat.eqb j i); ring. }
  destruct (next_total G F V m y s RV CV RG CG RF CF Lm Ly Hs) as (m1 & V1 & EM & EV).
  destruct (next_mean_Ok c Z G F m V y s m1 RV CV RG CG RF CF Lm Ly HF EM) as (Lm1 & _ & _). fold S N in Lm1.
  destruct (next_cov_Ok c Z G F V V1 RV CV RF CF HF EV) as (RV1 & CV1 & HV1). fold S N P C A U in RV1, CV1, HV1.
  assert (SU := z_symm c Z). assert (PU := z_psd c Z). fold S N U in SU, PU.
  assert (SV1 : symm N (ent V1)). { intros i j Hi Hj. rewrite !HV1. apply (V'_symm N P (ent V) C (ent Yc) (ent G) SV SY HG A U SU); assumption. }
  assert (PV1 : psd N (ent V1)).
  { intros q. assert (X := V'_psd N P (ent V) C (ent Yc) (ent G) SV HG A U PY PV PU q). unfold quad in X |- *. erewrite rsum_ext; [exact X|].
    intros i Hi. cbv beta. f_equal. apply rsum_ext. intros j Hj. now rewrite HV1. }
  destruct (IH s1 s2 m1 V1 L1 L2 G1' G2' HB' Lm1 RV1 CV1 SV1 PV1) as (obs & l & EO & LO & EF & SH).
  cbn [observations]. rewrite EY. cbn [bind]. rewrite EO. cbn [bind]. eexists. 
  assert (SHg : shaped_node (mkNode G F m V y)) by (repeat split; assumption).
  destruct obs as [|o obs].
  - exists [mkNode G F m V y]. split; [reflexivity|]. split; [cbn in *; lia|]. split; [|constructor; auto]. cbn [forward]. rewrite EG. reflexivity.
  - exists (mkNode G F m V y :: l). split; [reflexivity|]. split; [cbn in *; lia|]. split; [|constructor; auto]. cbn [forward] in EF |- *. rewrite EG. cbn [bind]. rewrite EM. cbn [bind]. rewrite EV. cbn [bind].
    rewrite EF. reflexivity.
Qed.
Lemma backward_total : forall l, Forall shaped_node l -> exists xs, backward c l = Ok xs /\ length xs = length l /\ Forall (fun x => length x = N) xs.
Proof.
  destruct HS as [HP Hs]. fold N P in HP, Hs. destruct (z_Af c Z) as [RA CA]. fold S N in RA, CA.
  induction l as [|g l IH]; intros H; [exists []; cbn; auto|]. inversion H as [|? ? (Lm & Ly & RV & CV & RG & CG & RF & CF) Hl]; subst. destruct (IH Hl) as (xs & E & L & F).
  cbn [backward]. rewrite E. cbn [bind].
  assert (EZ : exists z, match xs with [] => Ok (repeat 0 (sN S)) | x :: _ => dotv (tr (nAf c)) x end = Ok z /\ length z = N).
  { destruct xs as [|x xs]; [eexists; split; [reflexivity|apply repeat_length]|]. inversion F; subst. destruct (dotv_total (tr (nAf c)) x) as (z & E1 & L1); [cbn; congruence|]. exists z. split; [exact E1|]. cbn in L1. congruence. }
  destruct EZ as (z & EZ & LZ). fold S. rewrite EZ. cbn [bind].
  destruct (dotv_total (tr (aCT S)) (g_m g)) as (cm & E0 & L0); [cbn; unfold P, sNt in *; congruence|]. rewrite E0. cbn [bind]. cbn [tr rows] in L0.
  destruct (dotv_total (tr (gF g)) z) as (x1 & E1 & L1); [cbn; congruence|]. rewrite E1. cbn [bind]. cbn [tr rows] in L1.
  destruct (dotv_total (gG g) (rvsub cm (g_y g))) as (x2 & E2 & L2); [rewrite len_sub; congruence|]. rewrite E2. cbn [bind].
  destruct (dotv_total (tr (aCT S)) x2) as (x3 & E3 & L3); [cbn; unfold P, sNt in *; congruence|]. rewrite E3. cbn [bind]. cbn [tr rows] in L3.
  eexists. split; [reflexivity|]. split; [cbn; congruence|]. constructor; [|exact F]. rewrite len_add; congruence.
Qed.
Lemma pass_total (buf s1 s2 : list rvec) (m : rvec) (V : rmat) : length s1 = length buf -> length s2 = length buf -> Forall (good c) s1 -> Forall (good c) s2 -> Forall (fun s => length s = sM S) buf ->
  length m = N -> rows V = N -> cols V = N -> symm N (ent V) -> psd N (ent V) -> exists l xs, one_pass inv c m V buf s1 s2 = Ok (l, xs) /\ facts c (length buf) buf s1 s2 m V l xs.
Proof.
  intros L1 L2 G1 G2 HB Lm RV CV SV PV. destruct (forward_total buf s1 s2 m V L1 L2 G1 G2 HB Lm RV CV SV PV) as (obs & l & EO & _ & EF & SH).
  destruct (backward_total l SH) as (xs & EB & _ & _). exists l, xs. split.
  - unfold one_pass. rewrite EO. cbn [bind]. rewrite EF. cbn [bind]. rewrite EB. reflexivity.
  - eapply pass_facts; eassumption.
Qed.

(** *** The window as a least squares problem *)
Definition win (K : nat) (buf : list rvec) (m : rvec) (V : rmat) : window := mkW N P K A (fun k => Bsf c (nth k buf [])) C (fv m) (ent V) U.
Lemma facts_stationary K buf s1 s2 m V l xs : (0 < K)%nat -> facts c K buf s1 s2 m V l xs -> stationary (win K buf m V) (n_bound c) (sig s1) (sig s2) (pass_x c l xs) (pass_p xs).
Proof.
  intros HK F. assert (OP : forall M q i, rsum N (fun j => M i j * - q j) = - ap N M q i) by (intros; unfold ap; rewrite <- rsum_opp; apply rsum_ext; intros; ring).
  split; [split|].
  - intros n Hn. cbn [win w_N w_m w_V] in *. destruct (f_0 _ _ _ _ _ _ _ _ _ F HK) as [E1 E2]. rewrite OP. unfold pass_x. rewrite E1, E2. reflexivity.
  - intros k n Hk Hn. cbn [win w_N w_A w_Bs w_U w_K] in *. rewrite OP. rewrite (f_x _ _ _ _ _ _ _ _ _ F k n Hk Hn). reflexivity.
  - intros k n Hk Hn. cbn [win w_N w_A w_P w_C w_K] in *. rewrite (f_p _ _ _ _ _ _ _ _ _ F k n Hk Hn). reflexivity.
Qed.

(** *** Iterations *)
Lemma bounds_total g x : length (g_m g) = N -> rows (gV g) = N -> cols (gV g) = N -> length x = N -> n_gamma c <> 0 ->
  exists a b, bounds c g x = Ok (a, b) /\ good c a /\ good c b /\
  forall r, (r < P)%nat -> let v := ap N C (fun n => fv (g_m g) n - ap N (ent (gV g)) (fv x) n) r in
    fv a r = Rmax (Rabs (v - n_bound c) / n_gamma c) min_sigma /\ fv b r = Rmax (Rabs (v + n_bound c) / n_gamma c) min_sigma.
Proof.
  intros Lm RV CV Lx Hg. unfold bounds. fold S. destruct (dotv_total (gV g) x) as (vx & E1 & L1); [congruence|]. rewrite E1. cbn [bind].
  destruct (dotv_total (aCT S) (rvsub (g_m g) vx)) as (p & E2 & L2); [rewrite len_sub; congruence|]. rewrite E2. cbn [bind]. fold P in L2.
  destruct (Req_bool_spec (n_gamma c) 0); [contradiction|]. eexists _, _. split; [reflexivity|].
  assert (PM : 0 < min_sigma) by (apply Rinv_0_lt_compat, pow_lt; lra).
  assert (Gd : forall f, good c (map (fun v : R => Rmax (f v) min_sigma) p)).
  { intros f. split; [now rewrite map_length|]. apply Forall_forall. intros q Hq. apply in_map_iff in Hq as (v & <- & _). apply Rlt_le_trans with (1 := PM). apply Rmax_r. }
  split; [apply (Gd (fun v => Rabs (v - n_bound c) / n_gamma c))|]. split; [apply (Gd (fun v => Rabs (v + n_bound c) / n_gamma c))|]. intros r Hr.
  set (v := ap N C _ r).
  apply dotv_Ok in E1 as (_ & _ & E1). apply dotv_Ok in E2 as (_ & _ & E2). rewrite CC in E2. rewrite RV, CV in E1.
  assert (EV : fv p r = v). { rewrite E2 by exact Hr. apply ap_ext. intros i Hi. rewrite fv_sub by congruence. now rewrite E1. }
  unfold fv. split.
  - rewrite (nth_indep _ 0 (Rmax (Rabs (0 - n_bound c) / n_gamma c) min_sigma)) by (rewrite map_length, L2; exact Hr). rewrite (map_nth (fun v => Rmax (Rabs (v - n_bound c) / n_gamma c) min_sigma)). fold (fv p r). now rewrite EV.
  - rewrite (nth_indep _ 0 (Rmax (Rabs (0 + n_bound c) / n_gamma c) min_sigma)) by (rewrite map_length, L2; exact Hr). rewrite (map_nth (fun v => Rmax (Rabs (v + n_bound c) / n_gamma c) min_sigma)). fold (fv p r). now rewrite EV.
Qed.
Lemma bounds_all_total : forall K l xs, n_gamma c <> 0 -> length l = K -> length xs = K ->
  (forall k, (k < K)%nat -> length (g_m (nth k l dnode)) = N /\ rows (gV (nth k l dnode)) = N /\ cols (gV (nth k l dnode)) = N /\ length (nth k xs []) = N) ->
  exists s1 s2, bounds_all c l xs = Ok (s1, s2) /\ length s1 = K /\ length s2 = K /\ Forall (good c) s1 /\ Forall (good c) s2 /\
  forall k r, (k < K)%nat -> (r < P)%nat -> sig s1 k r = Rmax (Rabs (ap N C (pass_x c l xs k) r - n_bound c) / n_gamma c) min_sigma /\ sig s2 k r = Rmax (Rabs (ap N C (pass_x c l xs k) r + n_bound c) / n_gamma c) min_sigma.
Proof.
  induction K; intros l xs Hg Ll Lx H.
  { destruct l; [|discriminate]. destruct xs; [|discriminate]. exists [], []. cbn. repeat split; auto; intros; lia. }
  destruct l as [|g l]; [discriminate|]. destruct xs as [|x xs]; [discriminate|]. cbn [length] in Ll, Lx. apply Nat.succ_inj in Ll. apply Nat.succ_inj in Lx.
  destruct (H O ltac:(lia)) as (h1 & h2 & h3 & h4). cbn [nth] in h1, h2, h3, h4. destruct (bounds_total g x h1 h2 h3 h4 Hg) as (a & b & E & Ga & Gb & Hab).
  destruct (IHK l xs Hg Ll Lx) as (s1 & s2 & E' & L1 & L2 & G1 & G2 & Hs). { intros k Hk. apply (H (Datatypes.S k)). lia. }
  cbn [bounds_all]. rewrite E. cbn [bind]. rewrite E'. cbn [bind]. exists (a :: s1), (b :: s2). split; [reflexivity|]. cbn [length]. split; [congruence|]. split; [congruence|].
  split; [now constructor|]. split; [now constructor|]. intros [|k] r Hk Hr; [exact (Hab r Hr)|]. apply (Hs k r ltac:(lia) Hr).
Qed.
Lemma iterate_step : forall n m V buf s1 s2, iterate inv c (Datatypes.S n) m V buf s1 s2 =
  bind (iterate inv c n m V buf s1 s2) (fun '(l, xs, _, _) => bind (bounds_all c l xs) (fun '(s1, s2) => bind (one_pass inv c m V buf s1 s2) (fun '(l, xs) => Ok (l, xs, s1, s2)))).
Proof.
  induction n; intros m V buf s1 s2.
  - cbn [iterate]. destruct (one_pass inv c m V buf s1 s2) as [[l xs]|e]; [|reflexivity]. cbn [bind]. destruct (bounds_all c l xs) as [[a b]|e]; reflexivity.
  - change (iterate inv c (Datatypes.S (Datatypes.S n)) m V buf s1 s2) with (bind (one_pass inv c m V buf s1 s2) (fun '(l, xs) => bind (bounds_all c l xs) (fun '(s1, s2) => iterate inv c (Datatypes.S n) m V buf s1 s2))).
    change (iterate inv c (Datatypes.S n) m V buf s1 s2) with (bind (one_pass inv c m V buf s1 s2) (fun '(l, xs) => bind (bounds_all c l xs) (fun '(s1, s2) => iterate inv c n m V buf s1 s2))).
    destruct (one_pass inv c m V buf s1 s2) as [[l xs]|e]; [|reflexivity]. cbn [bind]. destruct (bounds_all c l xs) as [[a b]|e]; [|reflexivity]. cbn [bind]. apply IHn.
Qed.
(** the state between batches *)
Record fit_state (buf s1 s2 : list rvec) (m : rvec) (V : rmat) : Prop := mkFit {
  t_1 : length s1 = length buf; t_2 : length s2 = length buf; t_g1 : Forall (good c) s1; t_g2 : Forall (good c) s2; t_b : Forall (fun s => length s = sM S) buf;
  t_m : length m = N; t_r : rows V = N; t_c : cols V = N; t_s : symm N (ent V); t_p : psd N (ent V) }.
Lemma iterate_total n m V buf s1 s2 : fit_state buf s1 s2 m V -> (n <> O -> n_gamma c <> 0) ->
  exists l xs t1 t2, iterate inv c n m V buf s1 s2 = Ok (l, xs, t1, t2) /\ facts c (length buf) buf t1 t2 m V l xs /\ fit_state buf t1 t2 m V.
Proof.
  intros FS. induction n; intros Hg.
  - destruct FS as [H1 H2 H3 H4 H5 H6 H7 H8 H9 H10]. destruct (pass_total buf s1 s2 m V H1 H2 H3 H4 H5 H6 H7 H8 H9 H10) as (l & xs & E & F). exists l, xs, s1, s2. split; [cbn [iterate]; now rewrite E|]. split; [exact F|now constructor].
  - specialize (Hg ltac:(discriminate)). destruct (IHn (fun _ => Hg)) as (l & xs & t1 & t2 & E & F & FS'). rewrite iterate_step, E. cbn [bind].
    destruct (bounds_all_total (length buf) l xs Hg (f_l _ _ _ _ _ _ _ _ _ F) (f_xs _ _ _ _ _ _ _ _ _ F)) as (a & b & E' & L1 & L2 & G1 & G2 & _).
    { intros k Hk. destruct (f_k _ _ _ _ _ _ _ _ _ F k Hk) as (? & ? & ? & _ & _ & ?). auto. }
    rewrite E'. cbn [bind]. destruct FS' as [H1 H2 H3 H4 H5 H6 H7 H8 H9 H10]. destruct (pass_total buf a b m V L1 L2 G1 G2 H5 H6 H7 H8 H9 H10) as (l' & xs' & E'' & F'). rewrite E''. cbn [bind].
    exists l', xs', a, b. split; [reflexivity|]. split; [exact F'|now constructor].
Qed.
(** one more iteration: the variances fit the last path *)
Lemma iterate_fitted n m V buf s1 s2 l xs t1 t2 l' xs' t1' t2' : fit_state buf s1 s2 m V -> n_gamma c <> 0 ->
  iterate inv c n m V buf s1 s2 = Ok (l, xs, t1, t2) -> iterate inv c (Datatypes.S n) m V buf s1 s2 = Ok (l', xs', t1', t2') ->
  facts c (length buf) buf t1 t2 m V l xs /\ facts c (length buf) buf t1' t2' m V l' xs' /\
  fitted (win (length buf) buf m V) (n_bound c) (n_gamma c) min_sigma (pass_x c l xs) (sig t1') (sig t2').
Proof.
  intros FS Hg E E'. destruct (iterate_total n m V buf s1 s2 FS (fun _ => Hg)) as (? & ? & ? & ? & Q & F & _). rewrite E in Q. apply Ok_inj in Q. inversion Q; subst; clear Q.
  destruct (iterate_total (Datatypes.S n) m V buf s1 s2 FS (fun _ => Hg)) as (? & ? & ? & ? & Q & F' & _). rewrite E' in Q. apply Ok_inj in Q. inversion Q; subst; clear Q.
  split; [exact F|]. split; [exact F'|]. rewrite iterate_step, E in E'. cbn [bind] in E'.
  destruct (bounds_all_total (length buf) x x0 Hg (f_l _ _ _ _ _ _ _ _ _ F) (f_xs _ _ _ _ _ _ _ _ _ F)) as (a & b & E2 & _ & _ & _ & _ & X).
  { intros k Hk. destruct (f_k _ _ _ _ _ _ _ _ _ F k Hk) as (? & ? & ? & _ & _ & ?). auto. }
  rewrite E2 in E'. cbn [bind] in E'. destruct (one_pass inv c m V buf a b) as [[l2 xs2]|]; [|discriminate]. cbn [bind] in E'. apply Ok_inj in E'. inversion E'; subst. exact X.
Qed.
(** all passes *)
Definition it_l (r : result (list node * list rvec * list rvec * list rvec)) : list node := match r with Ok (l, _, _, _) => l | _ => [] end.
Definition it_x (r : result (list node * list rvec * list rvec * list rvec)) : list rvec := match r with Ok (_, x, _, _) => x | _ => [] end.
Definition it_1 (r : result (list node * list rvec * list rvec * list rvec)) : list rvec := match r with Ok (_, _, a, _) => a | _ => [] end.
Definition it_2 (r : result (list node * list rvec * list rvec * list rvec)) : list rvec := match r with Ok (_, _, _, b) => b | _ => [] end.
Lemma iterate_chain n m V buf s1 s2 : fit_state buf s1 s2 m V -> (n <> O -> n_gamma c <> 0) -> let r i := iterate inv c i m V buf s1 s2 in
  it_1 (r O) = s1 /\ it_2 (r O) = s2 /\ forall i, (i <= n)%nat ->
  r i = Ok (it_l (r i), it_x (r i), it_1 (r i), it_2 (r i)) /\ facts c (length buf) buf (it_1 (r i)) (it_2 (r i)) m V (it_l (r i)) (it_x (r i)) /\ fit_state buf (it_1 (r i)) (it_2 (r i)) m V /\
  ((i < n)%nat -> fitted (win (length buf) buf m V) (n_bound c) (n_gamma c) min_sigma (pass_x c (it_l (r i)) (it_x (r i))) (sig (it_1 (r (Datatypes.S i)))) (sig (it_2 (r (Datatypes.S i))))).
Proof.
  intros FS Hg r. assert (T : forall i, (i <= n)%nat -> exists l xs t1 t2, r i = Ok (l, xs, t1, t2) /\ facts c (length buf) buf t1 t2 m V l xs /\ fit_state buf t1 t2 m V).
  { intros i Hi. apply iterate_total; [exact FS|]. intros Hi0. apply Hg. lia. }
  assert (R0 : it_1 (r O) = s1 /\ it_2 (r O) = s2).
  { destruct (T O ltac:(lia)) as (l & xs & t1 & t2 & E & _). unfold r in *. cbn [iterate] in *. destruct (one_pass inv c m V buf s1 s2) as [[l' xs']|]; [|discriminate]. cbn [bind] in *. split; reflexivity. }
  split; [apply R0|]. split; [apply R0|]. intros i Hi. destruct (T i Hi) as (l & xs & t1 & t2 & E & F & FS'). rewrite E. cbn [it_l it_x it_1 it_2]. split; [reflexivity|]. split; [exact F|]. split; [exact FS'|].
  intros Hn. destruct (T (Datatypes.S i) ltac:(lia)) as (l2 & xs2 & u1 & u2 & E2 & _). rewrite E2. cbn [it_1 it_2]. apply (iterate_fitted i m V buf s1 s2 l xs t1 t2 l2 xs2 u1 u2); auto. apply Hg. lia.
Qed.
End P.
