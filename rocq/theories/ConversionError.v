(** Estimates as functions of the input, the bounded observations and the boundary states. *)
From Coq Require Import List Arith Lia Bool Reals Lra ZArith.
From Flocq Require Import Core.
From Coquelicot Require Import Complex.
From Verif Require Import Base LinAlg Estimators BatchProofs BatchRun FirProofs EstProps FirExtras AnalogSystem AnalogProofs Signals DigitalControl Simulator Integrators IntegratorsProofs LinearOde Zpk CplxLin
  FilterCoeff FilterCoeffProofs FilterOde FilterRun Riccati RiccatiAlg RiccatiProofs RiccatiDecay EstimatorDecay.
Import ListNotations.
Open Scope R_scope.

(** *** A stable linear system driven by a bounded signal *)
Lemma rsum_const n (c : R) : rsum n (fun _ => c) = INR n * c.
Proof. induction n; [rewrite rsum_0; cbn; ring|]. rewrite rsum_S, IHn, S_INR. ring. Qed.
Section Forced.
Variables (n : nat) (M : nat -> nat -> R) (T Ti : nat -> nat -> C) (lam : nat -> C) (al : R).
Hypothesis IV : inverse_of n T Ti.
Hypothesis AL : forall k, (k < n)%nat -> fst (lam k) <= al.
Hypothesis NEG : al < 0.
Hypothesis EV : forall k j, (k < n)%nat -> (j < n)%nat -> csum n (fun i => (T k i * RtoC (M i j))%C) = (lam k * T k j)%C.
Let ka := ka n T.
Let kb := kb n Ti.
Let c1 : R := sqrt (2 * INR n) * (ka * INR n).

Lemma c1_pos : 0 <= c1.
Proof. unfold c1. apply Rmult_le_pos; [apply sqrt_pos|]. apply Rmult_le_pos; [apply (ka_pos n T)|apply pos_INR]. Qed.
Lemma nrm_c1 x X : (forall i, (i < n)%nat -> Rabs (x i) <= X) -> nrm n T x <= (c1 * X) ^ 2.
Proof.
  intros H. eapply Rle_trans; [apply (nrm_le n T x)|]. fold ka. unfold c1.
  assert (S1 : 0 <= rsum n (fun j => Rabs (x j)) <= INR n * X). { split; [apply rsum_nonneg; intros; apply Rabs_pos|]. rewrite <- rsum_const. now apply rsum_le. }
  replace ((sqrt (2 * INR n) * (ka * INR n) * X) ^ 2) with (sqrt (2 * INR n) * sqrt (2 * INR n) * (ka * (INR n * X)) ^ 2) by ring.
  assert (0 <= INR n) by apply pos_INR. rewrite sqrt_sqrt by lra. apply Rmult_le_compat_l; [lra|]. assert (0 <= ka) by apply (ka_pos n T). apply pow_incr. split; [apply Rmult_le_pos; tauto|]. apply Rmult_le_compat_l; tauto.
Qed.
Lemma yr_plus x y k : yr n T (fun i => x i + y i) k = yr n T x k + yr n T y k.
Proof. unfold yr. rewrite <- rsum_add. apply rsum_ext. intros; ring. Qed.
Lemma yi_plus x y k : yi n T (fun i => x i + y i) k = yi n T x k + yi n T y k.
Proof. unfold yi. rewrite <- rsum_add. apply rsum_ext. intros; ring. Qed.

Lemma nrm_forced Tt b D z : 0 <= Tt -> (forall i t, (i < n)%nat -> 0 < t < Tt -> Rabs (b i t) <= D) -> sol n M Tt b z ->
  nrm n T (fun i => z i Tt) <= exp (al * Tt) * nrm n T (fun i => z i 0) + (1 - exp (al * Tt)) * (c1 * D / al) ^ 2.
Proof.
  intros HT Hb [Cz [ex Dz]].
  set (g := fun t => nrm n T (fun i => z i t)). set (E := fun t => exp (al * t)). set (G := (c1 * D / al) ^ 2).
  assert (DE : forall s, derivable_pt_lim E s (al * E s)).
  { intros s. unfold E. replace (al * exp (al * s)) with (exp (al * s) * (al * 1)) by ring.
    apply (derivable_pt_lim_comp (fun s => al * s) exp); [|apply derivable_pt_lim_exp]. apply (derivable_pt_lim_scal id al s 1). apply derivable_pt_lim_id. }
  set (x := fun t i => z i t). set (v := fun t i => app n M (x t) i + b i t).
  set (g' := fun t => rsum n (fun k => (yr n T (v t) k * yr n T (x t) k + yr n T (x t) k * yr n T (v t) k) + (yi n T (v t) k * yi n T (x t) k + yi n T (x t) k * yi n T (v t) k))).
  assert (Cs : forall (c : nat -> R) t, 0 <= t <= Tt -> continuity_pt (fun t => rsum n (fun i => c i * z i t)) t).
  { intros c t Ht. apply continuity_rsum. intros i Hi. apply (continuity_pt_scal (z i) (c i)). auto. }
  assert (Ds : forall (c : nat -> R) t, 0 < t < Tt -> ~ In t ex -> derivable_pt_lim (fun t => rsum n (fun i => c i * z i t)) t (rsum n (fun i => c i * v t i))).
  { intros c t Ht Hi. apply derivable_rsum. intros i Hi'. apply (derivable_pt_lim_scal (z i) (c i)). exact (Dz i t Hi' Ht Hi). }
  set (U := fun t => E t * (g 0 - G) + G).
  assert (DU : forall t, derivable_pt_lim U t (al * E t * (g 0 - G))).
  { intros t. replace (al * E t * (g 0 - G)) with ((al * E t * (g 0 - G) + E t * 0) + 0) by ring.
    apply (derivable_pt_lim_plus (fun t => E t * (g 0 - G)) (fun _ => G)); [|apply derivable_pt_lim_const].
    apply (derivable_pt_lim_mult E (fun _ => g 0 - G)); [apply DE|apply derivable_pt_lim_const]. }
  enough (H : forall t, 0 <= t <= Tt -> g t - U t <= 0) by (assert (G1 := H Tt ltac:(lra)); unfold U, g, E in *; lra).
  apply comparison_ex with (ex := ex) (g' := fun t => g' t - al * E t * (g 0 - G)) (rho := al).
  - intros t Ht. apply (continuity_pt_minus g U).
    + unfold g, nrm. apply continuity_rsum. intros k Hk. apply (continuity_pt_plus (fun t => yr n T (x t) k * yr n T (x t) k) (fun t => yi n T (x t) k * yi n T (x t) k)).
      * apply (continuity_pt_mult (fun t => yr n T (x t) k) (fun t => yr n T (x t) k)); apply Cs; exact Ht.
      * apply (continuity_pt_mult (fun t => yi n T (x t) k) (fun t => yi n T (x t) k)); apply Cs; exact Ht.
    + apply derivable_continuous_pt. eexists. apply DU.
  - intros t Ht Hi. split.
    + apply (derivable_pt_lim_minus g U); [|apply DU].
      unfold g, nrm, g'. apply derivable_rsum. intros k Hk. apply (derivable_pt_lim_plus (fun t => yr n T (x t) k * yr n T (x t) k) (fun t => yi n T (x t) k * yi n T (x t) k)).
      * apply (derivable_pt_lim_mult (fun t => yr n T (x t) k) (fun t => yr n T (x t) k)); apply Ds; assumption.
      * apply (derivable_pt_lim_mult (fun t => yi n T (x t) k) (fun t => yi n T (x t) k)); apply Ds; assumption.
    + enough (H : g' t <= al * g t - al * G) by (unfold U; lra).
      assert (NB : nrm n T (fun i => b i t) <= (c1 * D) ^ 2) by (apply nrm_c1; intros; auto).
      apply Rle_trans with (al * g t + / (- al) * nrm n T (fun i => b i t)).
      * unfold g', g, nrm. rewrite <- !rsum_scale, <- rsum_add. apply rsum_le. intros k Hk. unfold v. rewrite yr_plus, yi_plus, (yr_app n M T lam EV), (yi_app n M T lam EV) by exact Hk.
        change (fun i => z i t) with (x t). assert (A1 := AL k Hk). set (p := yr n T (x t) k). set (q := yi n T (x t) k). set (fr := yr n T (fun i => b i t) k). set (fi := yi n T (fun i => b i t) k).
        match goal with |- ?l <= _ => replace l with (2 * fst (lam k) * (p * p + q * q) + 2 * (p * fr) + 2 * (q * fi)) by (unfold p, q; ring) end.
        assert (S1 : forall a c, 2 * (a * c) <= - al * (a * a) + / (- al) * (c * c)).
        { intros a c. assert (0 < / (- al)) by (apply Rinv_0_lt_compat; clear - NEG; lra). assert (Z : 0 <= / (- al) * ((- al * a - c) * (- al * a - c))) by (apply Rmult_le_pos; [lra|apply (Rle_0_sqr (- al * a - c))]).
          replace (/ (- al) * ((- al * a - c) * (- al * a - c))) with (- al * (a * a) - 2 * (a * c) + / (- al) * (c * c)) in Z by (field; lra). lra. }
        assert (X1 := S1 p fr). assert (X2 := S1 q fi). clear Hb Cz Dz DE Cs Ds DU NB S1. assert (S2 : 0 <= p * p + q * q) by (assert (P1 := Rle_0_sqr p); assert (P2 := Rle_0_sqr q); unfold Rsqr in *; lra). assert (2 * fst (lam k) * (p * p + q * q) <= 2 * al * (p * p + q * q)) by (apply Rmult_le_compat_r; lra). lra.
      * apply Rplus_le_compat_l. assert (0 < / (- al)) by (apply Rinv_0_lt_compat; clear - NEG; lra). unfold G.
        replace (- (al * (c1 * D / al) ^ 2)) with (/ (- al) * (c1 * D) ^ 2) by (field; lra). apply Rmult_le_compat_l; lra.
  - unfold U, E. rewrite Rmult_0_r, exp_0. unfold g. lra.
Qed.

(** from the squared norm back to the components *)
Lemma comp_le x a i : (i < n)%nat -> 0 <= a -> nrm n T x <= a ^ 2 -> Rabs (x i) <= kb * a.
Proof.
  intros Hi Ha H. eapply Rle_trans; [apply (x_le n T Ti IV x i Hi)|]. apply Rmult_le_compat_l; [apply (kb_pos n Ti)|].
  rewrite <- (sqrt_pow2 a Ha). apply sqrt_le_1_alt, H.
Qed.
Lemma geo_bound (q G : R) (f : nat -> R) m : 0 <= q -> 0 <= G -> (forall i, (i < m)%nat -> f (Datatypes.S i) <= q * f i + (1 - q) * G) -> f m <= q ^ m * f O + (1 - q ^ m) * G.
Proof.
  intros Hq HG. induction m as [|m IH]; intros H; [cbn; lra|]. assert (X := H m ltac:(lia)). assert (Y := IH ltac:(intros; apply H; lia)). cbn [pow].
  assert (q * f m <= q * (q ^ m * f O + (1 - q ^ m) * G)) by (apply Rmult_le_compat_l; assumption). lra.
Qed.
Lemma forced_bound Tt : 0 < Tt -> exists K rho, 0 <= K /\ 0 <= rho < 1 /\ forall m (f : nat -> nat -> R) b X, 0 <= b -> 0 <= X ->
  (forall i, (i < m)%nat -> exists w z, sol n M Tt w z /\ (forall j t, (j < n)%nat -> 0 < t < Tt -> Rabs (w j t) <= b) /\ forall j, (j < n)%nat -> z j 0 = f i j /\ z j Tt = f (Datatypes.S i) j) ->
  (forall j, (j < n)%nat -> Rabs (f O j) <= X) -> forall j, (j < n)%nat -> Rabs (f m j) <= K * (b + rho ^ m * X).
Proof.
  intros HT. set (rho := exp (al * Tt / 2)). assert (P1 := c1_pos). assert (P2 : 0 <= kb) by apply (kb_pos n Ti). assert (P3 : 0 < / (- al)) by (apply Rinv_0_lt_compat; lra).
  assert (Rq : rho * rho = exp (al * Tt)) by (unfold rho; rewrite <- exp_plus; f_equal; field).
  assert (R0 : 0 < rho) by apply exp_pos. assert (R1 : rho < 1) by (unfold rho; rewrite <- exp_0; apply exp_increasing; assert (0 < - al * Tt) by (apply Rmult_lt_0_compat; lra); lra).
  exists (kb * (c1 * (1 + / (- al)))), rho. split; [apply Rmult_le_pos; [exact P2|apply Rmult_le_pos; [exact P1|lra]]|]. split; [lra|].
  intros m f b X Hb HX Hs H0 j Hj.
  assert (N : nrm n T (f m) <= (rho * rho) ^ m * nrm n T (f O) + (1 - (rho * rho) ^ m) * (c1 * b / al) ^ 2).
  { apply (geo_bound (rho * rho) ((c1 * b / al) ^ 2) (fun i => nrm n T (f i))); [apply Rmult_le_pos; lra|apply pow2_ge_0|].
    intros i Hi. destruct (Hs i Hi) as (w & z & Sz & Hw & E). rewrite Rq. rewrite (nrm_ext n T (f i) (fun j => z j 0)), (nrm_ext n T (f (Datatypes.S i)) (fun j => z j Tt)) by (intros; symmetry; now apply E).
    apply (nrm_forced Tt w b z); [lra|exact Hw|exact Sz]. }
  assert (Rm : 0 <= rho ^ m) by (apply pow_le; lra).
  assert (N0 : nrm n T (f O) <= (c1 * X) ^ 2) by (apply nrm_c1; exact H0).
  set (a := rho ^ m * (c1 * X) + c1 * b * / (- al)).
  assert (A0 : 0 <= rho ^ m * (c1 * X)) by (apply Rmult_le_pos; [exact Rm|apply Rmult_le_pos; [exact P1|lra]]). assert (A1 : 0 <= c1 * b * / (- al)) by (apply Rmult_le_pos; [apply Rmult_le_pos; [exact P1|lra]|lra]).
  assert (Ha : nrm n T (f m) <= a ^ 2).
  { eapply Rle_trans; [exact N|]. rewrite Rpow_mult_distr. replace (c1 * b / al) with (- (c1 * b * / (- al))) by (field; lra).
    assert (Q : rho ^ m * rho ^ m * nrm n T (f O) <= rho ^ m * rho ^ m * (c1 * X) ^ 2) by (apply Rmult_le_compat_l; [apply Rmult_le_pos; lra|exact N0]).
    assert (Q2 : 0 <= rho ^ m * rho ^ m) by (apply Rmult_le_pos; lra). unfold a. set (y := c1 * b * / (- al)) in *. set (r := rho ^ m) in *. assert (0 <= r * r * (y * y)) by (apply Rmult_le_pos; [exact Q2|apply (Rle_0_sqr y)]).
    assert (0 <= 2 * (r * (c1 * X)) * y) by (apply Rmult_le_pos; lra). replace ((r * (c1 * X) + y) ^ 2) with (r * r * (c1 * X) ^ 2 + 2 * (r * (c1 * X)) * y + y * y) by ring. replace ((- y) ^ 2) with (y * y) by ring. lra. }
  eapply Rle_trans; [apply (comp_le (f m) a j Hj ltac:(unfold a; lra) Ha)|]. rewrite Rmult_assoc. apply Rmult_le_compat_l; [exact P2|]. unfold a.
  assert (0 <= c1 * b) by (apply Rmult_le_pos; [exact P1|lra]). assert (0 <= rho ^ m * (c1 * X) * / (- al)) by (apply Rmult_le_pos; lra). lra.
Qed.
End Forced.

(** what the last lemma gives: a linear system with matrix M, period T that is driven by a signal of size b stays below K (b + rho^m X) *)
Definition tames (n : nat) (M : nat -> nat -> R) (T : R) (K rho : R) : Prop := forall m (f : nat -> nat -> R) b X, 0 <= b -> 0 <= X ->
  (forall i, (i < m)%nat -> exists w z, sol n M T w z /\ (forall j t, (j < n)%nat -> 0 < t < T -> Rabs (w j t) <= b) /\ forall j, (j < n)%nat -> z j 0 = f i j /\ z j T = f (Datatypes.S i) j) ->
  (forall j, (j < n)%nat -> Rabs (f O j) <= X) -> forall j, (j < n)%nat -> Rabs (f m j) <= K * (b + rho ^ m * X).
Lemma stable_tames n M T : 0 < T -> diag_stable n M -> exists K rho, 0 <= K /\ 0 <= rho < 1 /\ tames n M T K rho.
Proof.
  intros HT (T0 & Ti & lam & I & L & EV). destruct (max_below n (fun k => fst (lam k)) L) as (al & A1 & A2). exact (forced_bound n M T0 Ti lam al I A2 A1 EV T HT).
Qed.
Lemma tames_mono n M T K K' rho rho' : 0 <= K <= K' -> 0 <= rho <= rho' -> tames n M T K rho -> tames n M T K' rho'.
Proof.
  intros HK Hr H m f b X Hb HX Hs H0 j Hj. eapply Rle_trans; [apply (H m f b X Hb HX Hs H0 j Hj)|]. assert (rho ^ m <= rho' ^ m) by (apply pow_incr; exact Hr). assert (0 <= rho ^ m) by (apply pow_le; tauto).
  assert (rho ^ m * X <= rho' ^ m * X) by (apply Rmult_le_compat_r; assumption). assert (0 <= rho ^ m * X) by (apply Rmult_le_pos; assumption). apply Rmult_le_compat; lra.
Qed.

(** *** Vocabulary *)
(** C^T x *)
Definition observed (S : asys Rring) (x : nat -> R -> R) (r : nat) (t : R) : R := rsum (sN S) (fun n => ent (aCT S) r n * x n t).
(** B u *)
Definition input_drive (S : asys Rring) (u : nat -> R -> R) (n : nat) (t : R) : R := rsum (sL S) (fun l => ent (aB S) n l * u l t).
(** V C y / eta2 *)
Definition observation_drive (S : asys Rring) (eta2 : R) (V : nat -> nat -> R) (y : nat -> R -> R) (n : nat) (t : R) : R :=
  rsum (sN S) (fun k => V n k * (/ eta2 * rsum (sNt S) (fun r => ent (aCT S) r k * y r t))).
(** [z' = F z + b] during the periods lo, ..., hi - 1, without jumps in between; [z i] lives on period i *)
Definition solves_on (S : asys Rring) (d : dc) (F : nat -> nat -> R) (lo hi : nat) (b z : nat -> nat -> R -> R) : Prop := forall i, (lo <= i < hi)%nat ->
  sol (sN S) F (ck_T (d_clk d)) (b i) (z i) /\ forall n, (n < sN S)%nat -> z (i + 1)%nat n 0 = z i n (ck_T (d_clk d)).
(** the analog system with input u and decisions s (0 and 1, held as -1 and 1) goes through the states x *)
Definition front_end (S : asys Rring) (d : dc) (lo hi : nat) (s : nat -> list R) (u x : nat -> nat -> R -> R) : Prop :=
  solves_on S d (ent (aA S)) lo hi (fun i n t => input_drive S (u i) n t + ctl S d (fun m => 2 * nth m (s i) 0 - 1) n t) x.
Definition observed_within (S : asys Rring) (d : dc) (lo hi : nat) (x : nat -> nat -> R -> R) (b : R) : Prop :=
  forall i r t, (lo <= i < hi)%nat -> (r < sNt S)%nat -> 0 <= t <= ck_T (d_clk d) -> Rabs (observed S (x i) r t) <= b.
Definition starts (S : asys Rring) (v : nat -> R -> R) (X : R) : Prop := forall n, (n < sN S)%nat -> Rabs (v n 0) <= X.

Lemma sol_move N A F T b x : sol N A T b x -> sol N F T (fun n t => b n t + rsum N (fun k => (A n k - F n k) * x k t)) x.
Proof.
  intros [C [ex D]]. split; [exact C|]. exists ex. intros n t Hn Ht Hi. specialize (D n t Hn Ht Hi).
  replace (rsum N (fun k => F n k * x k t) + (b n t + rsum N (fun k => (A n k - F n k) * x k t))) with (rsum N (fun k => A n k * x k t) + b n t); [exact D|].
  rewrite (rsum_ext N (fun k => (A n k - F n k) * x k t) (fun k => 1 * (A n k * x k t) + (-1) * (F n k * x k t))) by (intros; ring). rewrite rsum_lin. ring.
Qed.

Section Core.
Variables (S : asys Rring) (d : dc) (eta2 : R).
Let N := sN S.
Let T := ck_T (d_clk d).

Lemma obs_gain V (x : nat -> R -> R) n t : rsum N (fun k => rsum N (fun j => V n j * obsK S eta2 j k) * x k t) = observation_drive S eta2 V (observed S x) n t.
Proof.
  unfold observation_drive, observed, obsK. fold N.
  rewrite (rsum_ext N _ (fun k => rsum N (fun j => V n j * (/ eta2 * rsum (sNt S) (fun r => ent (aCT S) r j * ent (aCT S) r k)) * x k t))) by (intros; rewrite Rmult_comm, <- rsum_scale; apply rsum_ext; intros; ring).
  rewrite rsum_swap. apply rsum_ext. intros j Hj.
  rewrite (rsum_ext N _ (fun k => (V n j * / eta2) * rsum (sNt S) (fun r => ent (aCT S) r j * (ent (aCT S) r k * x k t)))).
  - rewrite rsum_scale. rewrite rsum_swap. rewrite (rsum_ext (sNt S) _ (fun r => ent (aCT S) r j * rsum N (fun k => ent (aCT S) r k * x k t))) by (intros; now rewrite rsum_scale). ring.
  - intros k Hk. rewrite (rsum_ext (sNt S) (fun r => ent (aCT S) r j * (ent (aCT S) r k * x k t)) (fun r => x k t * (ent (aCT S) r j * ent (aCT S) r k))) by (intros; cbn [car Rring] in *; ring). rewrite rsum_scale. ring.
Qed.
Definition gain (V : nat -> nat -> R) : R := rsum N (fun n => rsum N (fun k => Rabs (V n k) * (Rabs (/ eta2) * rsum (sNt S) (fun r => Rabs (ent (aCT S) r k))))).
Lemma gain_pos V : 0 <= gain V.
Proof. apply rsum_nonneg. intros. apply rsum_nonneg. intros. repeat apply Rmult_le_pos; try apply Rabs_pos. apply rsum_nonneg. intros; apply Rabs_pos. Qed.
Lemma gain_le V y b n t : (n < N)%nat -> 0 <= b -> (forall r, (r < sNt S)%nat -> Rabs (y r t) <= b) -> Rabs (observation_drive S eta2 V y n t) <= gain V * b.
Proof.
  intros Hn Hb Hy. unfold observation_drive. fold N. eapply Rle_trans; [apply rsum_abs|].
  apply Rle_trans with (b * rsum N (fun k => Rabs (V n k) * (Rabs (/ eta2) * rsum (sNt S) (fun r => Rabs (ent (aCT S) r k))))).
  - rewrite <- rsum_scale. apply rsum_le. intros k Hk. rewrite !Rabs_mult.
    replace (b * (Rabs (V n k) * (Rabs (/ eta2) * rsum (sNt S) (fun r => Rabs (ent (aCT S) r k))))) with (Rabs (V n k) * (Rabs (/ eta2) * (b * rsum (sNt S) (fun r => Rabs (ent (aCT S) r k))))) by ring.
    apply Rmult_le_compat_l; [apply Rabs_pos|]. apply Rmult_le_compat_l; [apply Rabs_pos|]. eapply Rle_trans; [apply rsum_abs|]. rewrite <- rsum_scale. apply rsum_le. intros r Hr. rewrite Rabs_mult, Rmult_comm.
    apply Rmult_le_compat_r; [apply Rabs_pos|apply Hy, Hr].
  - rewrite Rmult_comm. apply Rmult_le_compat_r; [exact Hb|]. apply (term_le N (fun n => rsum N (fun k => Rabs (V n k) * (Rabs (/ eta2) * rsum (sNt S) (fun r => Rabs (ent (aCT S) r k)))))); [|exact Hn].
    intros i _. apply rsum_nonneg. intros. repeat apply Rmult_le_pos; try apply Rabs_pos. apply rsum_nonneg. intros; apply Rabs_pos.
Qed.

Lemma core_fwd V F K rho lo k (x h : nat -> nat -> R -> R) b X : 0 <= T -> tames N F T K rho -> (lo <= k)%nat -> 0 <= b -> 0 <= X ->
  solves_on S d F lo k (fun i => observation_drive S eta2 V (observed S (x i))) h -> observed_within S d lo k x b -> starts S (h lo) X ->
  starts S (h k) (K * (gain V * b + rho ^ (k - lo) * X)).
Proof.
  intros HT TM L Hb HX HS HO H0 n Hn. assert (G := gain_pos V).
  assert (B := TM (k - lo)%nat (fun i j => h (lo + i)%nat j 0) (gain V * b) X ltac:(apply Rmult_le_pos; assumption) HX).
  cbv beta in B. replace (lo + (k - lo))%nat with k in B by lia. apply B; [| |exact Hn].
  - intros i Hi. destruct (HS (lo + i)%nat ltac:(lia)) as [Sz Ez]. eexists _, (h (lo + i)%nat). split; [exact Sz|]. split.
    + intros j t Hj Ht. apply gain_le; [exact Hj|exact Hb|]. intros r Hr. apply HO; [lia|exact Hr|]. change (0 <= t <= T). lra.
    + intros j Hj. split; [reflexivity|]. rewrite <- Ez by exact Hj. now replace (lo + i + 1)%nat with (lo + Datatypes.S i)%nat by lia.
  - intros j Hj. rewrite Nat.add_0_r. now apply H0.
Qed.
Lemma core_bwd V F K rho k hi (x h : nat -> nat -> R -> R) b X : 0 <= T -> tames N (fun i j => - F i j) T K rho -> (k <= hi)%nat -> 0 <= b -> 0 <= X ->
  solves_on S d F k hi (fun i n t => - observation_drive S eta2 V (observed S (x i)) n t) h -> observed_within S d k hi x b -> starts S (h hi) X ->
  starts S (h k) (K * (gain V * b + rho ^ (hi - k) * X)).
Proof.
  intros HT TM L Hb HX HS HO H0 n Hn. assert (G := gain_pos V).
  assert (B := TM (hi - k)%nat (fun i j => h (hi - i)%nat j 0) (gain V * b) X ltac:(apply Rmult_le_pos; assumption) HX).
  cbv beta in B. replace (hi - (hi - k))%nat with k in B by lia. apply B; [| |exact Hn].
  - intros i Hi. destruct (HS (hi - Datatypes.S i)%nat ltac:(lia)) as [Sz Ez]. eexists _, _. split; [exact (sol_rev _ _ _ _ _ Sz)|]. split.
    + intros j t Hj Ht. cbv beta. rewrite Ropp_involutive. apply gain_le; [exact Hj|exact Hb|]. intros r Hr. apply HO; [lia|exact Hr|]. fold T. lra.
    + intros j Hj. cbv beta. fold T. rewrite Rminus_0_r. unfold Rminus. rewrite Rplus_opp_r. split; [|reflexivity]. rewrite <- Ez by exact Hj. now replace (hi - Datatypes.S i + 1)%nat with (hi - i)%nat by lia.
  - intros j Hj. rewrite Nat.sub_0_r. now apply H0.
Qed.

Lemma solves_minus F lo hi b1 b2 b z1 z2 : (forall i n t, (lo <= i < hi)%nat -> (n < N)%nat -> b1 i n t - b2 i n t = b i n t) -> solves_on S d F lo hi b1 z1 -> solves_on S d F lo hi b2 z2 ->
  solves_on S d F lo hi b (fun i n t => z1 i n t - z2 i n t).
Proof.
  intros Hb H1 H2 i Hi. destruct (H1 i Hi) as [S1 E1], (H2 i Hi) as [S2 E2]. split.
  - eapply sol_ext; [|eapply sol_ext_z; [|exact (sol_comb _ _ _ (-1) _ _ _ _ S1 S2)]]; [|intros; cbv beta; ring]. intros n t Hn Ht. cbv beta. rewrite <- Hb by assumption. ring.
  - intros n Hn. now rewrite E1, E2.
Qed.
Lemma solves_sub F lo hi lo' hi' b z : (lo <= lo')%nat -> (hi' <= hi)%nat -> solves_on S d F lo hi b z -> solves_on S d F lo' hi' b z.
Proof. intros L1 L2 H i Hi. apply H. lia. Qed.
Lemma observed_minus x x' r t : observed S (fun n t => x n t - x' n t) r t = observed S x r t - observed S x' r t.
Proof. unfold observed. rewrite (rsum_ext _ _ (fun n => 1 * (ent (aCT S) r n * x n t) + (-1) * (ent (aCT S) r n * x' n t))) by (intros; cbn [car Rring] in *; ring). rewrite rsum_lin. ring. Qed.
Lemma drive_minus V y y' n t : observation_drive S eta2 V (fun r t => y r t - y' r t) n t = observation_drive S eta2 V y n t - observation_drive S eta2 V y' n t.
Proof.
  unfold observation_drive. rewrite (rsum_ext _ _ (fun k => 1 * (V n k * (/ eta2 * rsum (sNt S) (fun r => ent (aCT S) r k * y r t))) + (-1) * (V n k * (/ eta2 * rsum (sNt S) (fun r => ent (aCT S) r k * y' r t))))).
  - rewrite rsum_lin. ring.
  - intros k _. rewrite (rsum_ext (sNt S) (fun r => ent (aCT S) r k * (y r t - y' r t)) (fun r => 1 * (ent (aCT S) r k * y r t) + (-1) * (ent (aCT S) r k * y' r t))) by (intros; cbn [car Rring] in *; ring). rewrite rsum_lin. ring.
Qed.
Lemma drive_ext V y y' n t : (forall r, (r < sNt S)%nat -> y r t = y' r t) -> observation_drive S eta2 V y n t = observation_drive S eta2 V y' n t.
Proof. intros H. apply rsum_ext. intros k _. do 2 f_equal. apply rsum_ext. intros r Hr. f_equal. now apply H. Qed.

(** *** The errors of the filters *)
Section Err.
Variables (Vf Vb : nat -> nat -> R) (Af Ab Bf Bb WT : rmat).
Hypothesis HW : weights S Vf Vb WT.
Hypothesis HF : samples_fwd S d (fwdA S eta2 Vf) Af Bf.
Hypothesis HB : samples_bwd S d (bwdA S eta2 Vb) Ab Bb.
Let c := to_coef S Af Ab Bf Bb WT.

Lemma state_fwd lo hi s u x : front_end S d lo hi s u x -> solves_on S d (fwdA S eta2 Vf) lo hi
  (fun i n t => (input_drive S (u i) n t + ctl S d (fun m => 2 * nth m (s i) 0 - 1) n t) + observation_drive S eta2 Vf (observed S (x i)) n t) x.
Proof.
  intros H i Hi. destruct (H i Hi) as [Sx Ex]. split; [|exact Ex]. eapply sol_ext; [|exact (sol_move _ _ (fwdA S eta2 Vf) _ _ _ Sx)]. intros n t Hn Ht. cbv beta. f_equal.
  rewrite <- obs_gain. apply rsum_ext. intros k Hk. unfold fwdA. fold N. ring.
Qed.
Lemma state_bwd lo hi s u x : front_end S d lo hi s u x -> solves_on S d (bwdA S eta2 Vb) lo hi
  (fun i n t => (input_drive S (u i) n t + ctl S d (fun m => 2 * nth m (s i) 0 - 1) n t) - observation_drive S eta2 Vb (observed S (x i)) n t) x.
Proof.
  intros H i Hi. destruct (H i Hi) as [Sx Ex]. split; [|exact Ex]. eapply sol_ext; [|exact (sol_move _ _ (bwdA S eta2 Vb) _ _ _ Sx)]. intros n t Hn Ht. cbv beta. rewrite <- obs_gain.
  rewrite (rsum_ext (sN S) (fun k => (ent (aA S) n k - bwdA S eta2 Vb n k) * x i k t) (fun k => - (rsum N (fun j => Vb n j * obsK S eta2 j k) * x i k t))) by (intros; unfold bwdA; fold N; ring).
  rewrite rsum_neg. reflexivity.
Qed.

(** the errors as trajectories of their own *)
Definition error_fwd (lo hi : nat) (u y e : nat -> nat -> R -> R) : Prop := solves_on S d (fwdA S eta2 Vf) lo hi (fun i n t => input_drive S (u i) n t + observation_drive S eta2 Vf (y i) n t) e.
Definition error_bwd (lo hi : nat) (u y e : nat -> nat -> R -> R) : Prop := solves_on S d (bwdA S eta2 Vb) lo hi (fun i n t => input_drive S (u i) n t - observation_drive S eta2 Vb (y i) n t) e.

Lemma estimate_errors (sv : nat -> list R) lo k hi s u x : (lo <= k <= hi)%nat -> (forall i, length (sv i) = sM S) ->
  (forall i m, (i < hi - lo)%nat -> (m < sM S)%nat -> nth m (sv i) 0 = 2 * nth m (s (lo + i)%nat) 0 - 1) -> front_end S d lo hi s u x ->
  exists ef eb, error_fwd lo k u (fun i => observed S (x i)) ef /\ (forall n, (n < N)%nat -> ef lo n 0 = x lo n 0) /\
    error_bwd k hi u (fun i => observed S (x i)) eb /\ (forall n, (n < N)%nat -> eb hi n 0 = x hi n 0) /\
    wiener c sv (k - lo) (hi - k) = map (fun l => rsum N (fun n => ent WT l n * (ef k n 0 - eb k n 0))) (seq 0 (sL S)).
Proof.
  intros L Lsv Es HX.
  destruct (fwd_exists S d Af Bf sv _ HF (k - lo)) as (zf & F0 & Tf). destruct (bwd_exists S d Ab Bb sv _ HB (hi - k) (k - lo)) as (zb & B0 & Tb).
  assert (CE : forall i n t, (lo <= i < hi)%nat -> (n < N)%nat -> ctl S d (fun m => nth m (sv (i - lo)%nat) 0) n t = ctl S d (fun m => 2 * nth m (s i) 0 - 1) n t).
  { intros i n t Hi Hn. apply rsum_ext. intros m Hm. do 2 f_equal. rewrite Es by (auto; lia). now replace (lo + (i - lo))%nat with i by lia. }
  exists (fun i n t => x i n t - zf (i - lo)%nat n t), (fun i n t => x i n t - zb (i - lo)%nat n t). split; [|split; [|split; [|split]]].
  - apply solves_minus with (b1 := fun i n t => (input_drive S (u i) n t + ctl S d (fun m => 2 * nth m (s i) 0 - 1) n t) + observation_drive S eta2 Vf (observed S (x i)) n t)
      (b2 := fun i n t => ctl S d (fun m => 2 * nth m (s i) 0 - 1) n t); [intros; ring|apply (solves_sub _ lo hi); [lia|lia|now apply state_fwd]|].
    intros i Hi. destruct (Tf (i - lo)%nat ltac:(lia)) as [S1 E1]. split; [|intros n Hn; rewrite <- E1 by exact Hn; now replace (i + 1 - lo)%nat with (i - lo + 1)%nat by lia].
    eapply sol_ext; [|exact S1]. intros n t Hn Ht. cbv beta. apply CE; [lia|exact Hn].
  - intros n Hn. cbv beta. rewrite Nat.sub_diag, F0 by exact Hn. ring.
  - apply solves_minus with (b1 := fun i n t => (input_drive S (u i) n t + ctl S d (fun m => 2 * nth m (s i) 0 - 1) n t) - observation_drive S eta2 Vb (observed S (x i)) n t)
      (b2 := fun i n t => ctl S d (fun m => 2 * nth m (s i) 0 - 1) n t); [intros; ring|apply (solves_sub _ lo hi); [lia|lia|now apply state_bwd]|].
    intros i Hi. destruct (Tb (i - lo)%nat ltac:(lia)) as [S1 E1]. split; [|intros n Hn; rewrite <- E1 by exact Hn; now replace (i + 1 - lo)%nat with (i - lo + 1)%nat by lia].
    eapply sol_ext; [|exact S1]. intros n t Hn Ht. cbv beta. apply CE; [lia|exact Hn].
  - intros n Hn. cbv beta. replace (hi - lo)%nat with (k - lo + (hi - k))%nat by lia. rewrite B0 by exact Hn. ring.
  - etransitivity; [apply (wiener_value S d Af Ab Bf Bb WT sv Lsv _ _ Vf Vb (k - lo) (hi - k) zf zb HW HF HB); [split; [exact F0|exact Tf]|split; [exact B0|exact Tb]]|].
    apply map_ext. intros l. apply rsum_ext. intros n Hn. ring.
Qed.
End Err.
End Core.
