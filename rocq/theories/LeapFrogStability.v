(** The default control in closed loop with integrators that are also coupled backwards (leap-frog filters). *)
From Coq Require Import List Arith Lia Bool Reals Lra.
From Flocq Require Import Core.
From Verif Require Import Base LinAlg FirExtras AnalogSystem AnalogProofs Signals DigitalControl DigitalControlProofs Fom Integrators IntegratorsProofs Simulator Stability SynthesisProofs.
Import ListNotations.
Open Scope R_scope.

(** *** One integrator over one period, with a disturbance [e] on top of the drive [W] *)
Lemma disturbed_bound (x x' f : R -> R) (rho kappa s W e B T : R) : 0 <= T -> rho <= 0 -> 0 <= e -> 0 <= B -> 0 <= W -> W <= Rabs kappa -> T * (W + Rabs kappa) <= B ->
  (forall t, 0 <= t <= T -> continuity_pt x t) ->
  (forall t, 0 < t < T -> derivable_pt_lim x t (x' t)) ->
  (forall t, 0 < t < T -> x' t = rho * x t + f t + kappa * s) ->
  (forall t, 0 < t < T -> Rabs (f t) <= W + e) -> Rabs (x 0) <= B ->
  (kappa * x 0 <= 0 /\ s = 1 \/ 0 <= kappa * x 0 /\ s = -1) ->
  forall t, 0 <= t <= T -> Rabs (x t) <= B + T * e.
Proof.
  intros HT Hr He0 HB HW Hb HTb Hc Hd He Hw H0 Hs.
  (* an affine majorant, for z*x with z = 1 or -1 *)
  assert (G : forall z a c, (z = 1 \/ z = -1) -> 0 <= a -> 0 <= c -> z * x 0 <= a -> (forall t, 0 < t < T -> z * (x' t - rho * x t) <= c) ->
    forall t, 0 <= t <= T -> z * x t <= a + c * t).
  { intros z a c Hz Ha Hcc Hz0 H t Ht.
    assert (K := comparison (fun s => z * x s - (a + c * s)) (fun s => z * x' s - c) rho T HT).
    enough ((fun s => z * x s - (a + c * s)) t <= 0) by (cbn in *; lra). apply K; auto.
    - intros s0 Hs0. apply (continuity_pt_minus (mult_real_fct z x) (fun s => a + c * s)); [apply continuity_pt_scal; auto|].
      apply (continuity_pt_plus (fct_cte a) (mult_real_fct c id)); [apply continuity_pt_const; intros ? ?; reflexivity|].
      apply continuity_pt_scal, derivable_continuous_pt, derivable_pt_id.
    - intros s0 Hs0. apply (derivable_pt_lim_minus (mult_real_fct z x) (fun s => a + c * s)); [apply derivable_pt_lim_scal; auto|].
      replace c with (0 + c * 1) by ring. replace (fun s1 => a + (0 + c * 1) * s1) with ((fct_cte a + mult_real_fct (0 + c * 1) id)%F) by reflexivity.
      replace (0 + c * 1) with c at 1 by ring.
      apply derivable_pt_lim_plus; [apply derivable_pt_lim_const|]. apply derivable_pt_lim_scal, derivable_pt_lim_id.
    - intros s0 Hs0. specialize (H s0 Hs0). cbn. assert (0 <= c * s0) by nra. assert (rho * (a + c * s0) <= 0) by nra. lra.
    - cbn. lra. }
  intros t Ht.
  assert (Hk : forall z, (z = 1 \/ z = -1) -> 0 <= z * (kappa * s) -> Rabs kappa = z * (kappa * s)).
  { intros z Hz Hp. rewrite <- (Rabs_pos_eq _ Hp), !Rabs_mult.
    assert (Rabs z = 1) as -> by (destruct Hz as [-> | ->]; unfold Rabs; destruct Rcase_abs; lra).
    assert (Rabs s = 1) as -> by (destruct Hs as [[_ ->]|[_ ->]]; unfold Rabs; destruct Rcase_abs; lra). ring. }
  assert (Main : exists z, (z = 1 \/ z = -1) /\ 0 <= z * (kappa * s) /\ z * x 0 <= 0).
  { destruct (Rle_dec 0 (kappa * s)) as [P|P].
    - destruct (Req_dec (kappa * s) 0) as [Z|Z].
      + destruct (Rle_dec (x 0) 0); [exists 1|exists (-1)]; rewrite Z; lra.
      + exists 1. split; [auto|]. split; [lra|]. destruct Hs as [[A ->]|[A ->]]; nra.
    - exists (-1). split; [auto|]. split; [lra|]. destruct Hs as [[A ->]|[A ->]]; nra. }
  destruct Main as (z & Hz & Hp & Hx0). specialize (Hk z Hz Hp).
  assert (Hf : forall s0, 0 < s0 < T -> - (W + e) <= z * f s0 <= W + e).
  { intros s0 Hs0. assert (A := Rabs_le_inv _ _ (Hw s0 Hs0)). destruct Hz as [-> | ->]; lra. }
  assert (HTe : t * e <= T * e) by (apply Rmult_le_compat_r; lra).
  assert (HTW : t * (W + Rabs kappa) <= B) by (assert (A := Rabs_pos kappa); apply Rle_trans with (2 := HTb); apply Rmult_le_compat_r; lra).
  assert (U : z * x t <= B + T * e).
  { assert (z * x t <= 0 + (W + Rabs kappa + e) * t); [|lra]. apply G; auto; try lra.
    intros s0 Hs0. rewrite (He s0 Hs0). specialize (Hf s0 Hs0). lra. }
  assert (L : - z * x t <= B + T * e).
  { assert (- z * x t <= B + e * t); [|lra]. apply G; auto; try lra.
    - apply Rabs_le_inv in H0. destruct Hz as [-> | ->]; lra.
    - intros s0 Hs0. rewrite (He s0 Hs0). specialize (Hf s0 Hs0). lra. }
  apply Rabs_le. destruct Hz as [-> | ->]; lra.
Qed.

(** *** Levels that the default control can hold *)
(** [B n] bounds state [n] when the input is bounded by [ub]: the control of every integrator overcomes what its neighbours feed into it,
    and does so within one period.  [w], [q]: weights for which an excess of the neighbours shrinks. *)
Definition holds_levels (beta alpha rho kap : list R) (T ub : R) (B w : nat -> R) (q : R) : Prop :=
  let N := length beta in
  length alpha = (N - 1)%nat /\ length rho = N /\ length kap = N /\ (1 <= N)%nat /\ 0 <= T /\ 0 <= q < 1 /\ 0 <= ub /\
  forall n, (n < N)%nat -> 0 <= B n /\ 0 < w n /\ nth n rho 0 <= 0 /\ nth n kap 0 <> 0 /\
    (let W := Rabs (nth n beta 0) * (if Nat.eqb n 0 then ub else B (n - 1)%nat) + Rabs (nth n alpha 0) * (if Nat.eqb (n + 1) N then 0 else B (n + 1)%nat) in
     W <= Rabs (nth n kap 0) /\ T * (W + Rabs (nth n kap 0)) <= B n) /\
    T * (Rabs (nth n beta 0) * (if Nat.eqb n 0 then 0 else w (n - 1)%nat) + Rabs (nth n alpha 0) * (if Nat.eqb (n + 1) N then 0 else w (n + 1)%nat)) <= q * w n.

Definition within (N : nat) (B : nat -> R) (x : list R) : Prop := forall n, (n < N)%nat -> Rabs (nth n x 0) <= B n.

(** finitely many continuous functions on [0, T] have a common bound *)
Lemma common_bound (y : R -> list R) (B w : nat -> R) T N : 0 <= T -> (forall n, (n < N)%nat -> 0 <= B n /\ 0 < w n) ->
  (forall n t, 0 <= t <= T -> continuity_pt (fun s => nth n (y s) 0) t) ->
  exists D, 0 <= D /\ forall n, (n < N)%nat -> forall t, 0 <= t <= T -> Rabs (nth n (y t) 0) <= B n + w n * D.
Proof.
  intros HT Hw Hc. induction N as [|N IH].
  - exists 0. split; [lra|]. intros; lia.
  - destruct IH as (D & HD & H); [intros n Hn; apply Hw; lia|].
    destruct (continuity_ab_maj (fun s => Rabs (nth N (y s) 0)) 0 T HT) as (m & Hm & _).
    { intros c Hcc. apply (continuity_pt_comp (fun s => nth N (y s) 0) Rabs); [auto|apply Rcontinuity_abs]. }
    destruct (Hw N ltac:(lia)) as [HB HwN].
    set (M := Rabs (nth N (y m) 0)) in *. assert (HM : 0 <= M) by apply Rabs_pos.
    assert (HQ : 0 <= M / w N) by (apply Rmult_le_pos; [exact HM|left; now apply Rinv_0_lt_compat]).
    exists (D + M / w N). split; [lra|]. intros n Hn t Ht. destruct (Nat.eq_dec n N) as [->|Hne].
    + specialize (Hm t Ht). replace (w N * (D + M / w N)) with (w N * D + M) by (field; lra). assert (0 <= w N * D) by nra. lra.
    + specialize (H n ltac:(lia) t Ht). destruct (Hw n ltac:(lia)). assert (0 <= w n * (M / w N)) by (apply Rmult_le_pos; lra). lra.
Qed.

Lemma lf_step S beta alpha rho k kap s (u : R -> R) ub B w q :
  integrator_system S beta alpha rho k -> diagonal_gain k kap -> holds_levels beta alpha rho kap (ck_T (d_clk (s_d s))) ub B w q ->
  plain (s_d s) (length beta) -> wf (s_d s) (s_h s) -> 0 <= s_t s -> (forall t, 0 <= t -> Rabs (u t) <= ub) ->
  length (s_x s) = length beta -> within (length beta) B (s_x s) ->
  exists h, observe_update S (inputs_at S [u] (0 + s_t s)) s = Ok h /\ wf (s_d s) h /\
    forall y, solves (full_rhs S [u] s h) 0 (ck_T (d_clk (s_d s))) (s_x s) y ->
    forall t, 0 <= t <= ck_T (d_clk (s_d s)) -> within (length beta) B (y t).
Proof.
  intros (DN & DL & DM & DMt & HD & _ & HO) Hg (La & Lr & Lk & HN & HT & Hq & Hub & Hpar) Hpl W Hst Hu Lx Hb.
  pose proof Hg as [Hnc Hge]. rewrite Lk in Hnc.
  set (N := length beta) in *. set (T := ck_T (d_clk (s_d s))) in *.
  assert (EC : forall h t, wf (s_d s) h -> 0 <= t -> control_contribution (s_d s) h t = Ok (map (rd h (d_dec (s_d s))) (seq 0 N))) by (intros; now apply plain_contribution).
  assert (LC : forall h, length (map (rd h (d_dec (s_d s))) (seq 0 N)) = N) by (intros; now rewrite map_length, seq_length).
  unfold observe_update. rewrite (EC _ _ W (Rle_refl 0)). cbn [bind inputs_at map].
  rewrite HO; [|exact Lx|now rewrite Hnc]. cbn [bind]. rewrite Hnc.
  set (st := map _ (seq 0 N)).
  assert (Lst : length st = N) by (unfold st; now rewrite map_length, seq_length).
  destruct (plain_update (s_d s) N (s_h s) st Hpl W ltac:(lia)) as (h & EU & W' & HU). rewrite EU. exists h. split; [reflexivity|]. split; [exact W'|].
  intros y (Y0 & Yl & Yc & Yd). rewrite Lx in Yl.
  assert (Hdec : forall n, (n < N)%nat -> (nth n kap 0 * nth n (s_x s) 0 <= 0 /\ rd h (d_dec (s_d s)) n = 1 \/ 0 <= nth n kap 0 * nth n (s_x s) 0 /\ rd h (d_dec (s_d s)) n = -1)).
  { intros n Hn. destruct (Hpar n Hn) as (_ & _ & _ & Hk0 & _).
    set (z := nth n kap 0 * nth n (s_x s) 0).
    assert (Est : nth n st 0 = - z / Rabs (nth n kap 0)).
    { unfold st. rewrite nth_seq_R by exact Hn. rewrite <- Lk. rewrite diagonal_sum_col by (auto; lia). now rewrite diagonal_colnorm by (auto; lia). }
    destruct (HU n Hn) as [-> _]. rewrite Est.
    assert (P : 0 < Rabs (nth n kap 0)) by now apply Rabs_pos_lt.
    assert (PI' : 0 < / Rabs (nth n kap 0)) by now apply Rinv_0_lt_compat.
    destruct (Rle_bool_spec 0 (- z / Rabs (nth n kap 0))) as [Q|Q]; unfold Rdiv in Q; [left|right]; (split; [nra|reflexivity]). }
  set (fd := fun n t => nth n beta 0 * (if Nat.eqb n 0 then u (t + s_t s) else nth (n - 1) (y t) 0) + nth n alpha 0 * nth (n + 1) (y t) 0).
  assert (Heq : forall n, (n < N)%nat -> forall t, 0 < t < T -> derivable_pt_lim (fun s0 => nth n (y s0) 0) t
            (nth n rho 0 * nth n (y t) 0 + fd n t + nth n kap 0 * rd h (d_dec (s_d s)) n)).
  { intros n Hn t Ht. destruct (Yd t Ht) as (v & Ev & Lv & Dv).
    enough (EE : nth n v 0 = nth n rho 0 * nth n (y t) 0 + fd n t + nth n kap 0 * rd h (d_dec (s_d s)) n) by (rewrite <- EE; apply Dv; now rewrite Lx).
    unfold full_rhs in Ev. cbn [map] in Ev. rewrite EC in Ev by (auto; lra). cbn [bind] in Ev.
    rewrite HD in Ev; [|apply Yl; lra|now rewrite Hnc]. apply Ok_inj in Ev. rewrite <- Ev. rewrite nth_seq_R by exact Hn.
    rewrite Hnc. rewrite <- Lk. rewrite diagonal_sum by (auto; lia). rewrite nth_seq_R by lia. unfold fd. ring. }
  destruct (common_bound y B w T N HT) as (D0 & HD0 & HB0); [intros n Hn; destruct (Hpar n Hn) as (? & ? & _); auto|intros; now apply Yc|].
  (* the excess shrinks *)
  assert (Shrink : forall D, 0 <= D -> (forall n, (n < N)%nat -> forall t, 0 <= t <= T -> Rabs (nth n (y t) 0) <= B n + w n * D) ->
    forall n, (n < N)%nat -> forall t, 0 <= t <= T -> Rabs (nth n (y t) 0) <= B n + w n * (q * D)).
  { intros D HDp HBD n Hn t Ht. destruct (Hpar n Hn) as (HBn & Hwn & Hrn & Hkn & (HW1 & HW2) & Hqn).
    set (pv := if Nat.eqb n 0 then ub else B (n - 1)%nat) in *. set (nx := if Nat.eqb (n + 1) N then 0 else B (n + 1)%nat) in *.
    set (pw := if Nat.eqb n 0 then 0 else w (n - 1)%nat) in *. set (nw := if Nat.eqb (n + 1) N then 0 else w (n + 1)%nat) in *.
    assert (Hpv : 0 <= pv) by (unfold pv; destruct (Nat.eqb_spec n 0); [exact Hub|apply Hpar; lia]).
    assert (Hnx : 0 <= nx) by (unfold nx; destruct (Nat.eqb_spec (n + 1) N); [lra|apply Hpar; lia]).
    assert (Hpw : 0 <= pw) by (unfold pw; destruct (Nat.eqb_spec n 0); [lra|left; apply Hpar; lia]).
    assert (Hnw : 0 <= nw) by (unfold nw; destruct (Nat.eqb_spec (n + 1) N); [lra|left; apply Hpar; lia]).
    assert (Ab := Rabs_pos (nth n beta 0)). assert (Aa := Rabs_pos (nth n alpha 0)).
    set (e := (Rabs (nth n beta 0) * pw + Rabs (nth n alpha 0) * nw) * D).
    assert (He : 0 <= e).
    { unfold e. apply Rmult_le_pos; [|exact HDp]. apply Rplus_le_le_0_compat; apply Rmult_le_pos; assumption. }
    assert (HWp : 0 <= Rabs (nth n beta 0) * pv + Rabs (nth n alpha 0) * nx).
    { apply Rplus_le_le_0_compat; apply Rmult_le_pos; assumption. }
    assert (R1 : Rabs (nth n (y t) 0) <= B n + T * e).
    { refine (disturbed_bound (fun s0 => nth n (y s0) 0) (fun t => nth n rho 0 * nth n (y t) 0 + fd n t + nth n kap 0 * rd h (d_dec (s_d s)) n) (fd n)
        (nth n rho 0) (nth n kap 0) (rd h (d_dec (s_d s)) n) _ e (B n) T HT Hrn He HBn HWp HW1 HW2 _ _ _ _ _ _ t Ht).
      - intros; now apply Yc.
      - intros t0 Ht0. now apply Heq.
      - intros; reflexivity.
      - intros t0 Ht0. unfold fd. eapply Rle_trans; [apply Rabs_triang|]. rewrite !Rabs_mult.
        assert (P1 : Rabs (if Nat.eqb n 0 then u (t0 + s_t s) else nth (n - 1) (y t0) 0) <= pv + pw * D).
        { unfold pv, pw. destruct (Nat.eqb_spec n 0); [assert (Q := Hu (t0 + s_t s) ltac:(lra)); lra|]. apply HBD; [lia|lra]. }
        assert (P2 : Rabs (nth n alpha 0) * Rabs (nth (n + 1) (y t0) 0) <= Rabs (nth n alpha 0) * (nx + nw * D)).
        { unfold nx, nw. destruct (Nat.eqb_spec (n + 1) N) as [E|E].
          - rewrite (nth_overflow alpha) by lia. rewrite Rabs_R0. lra.
          - apply Rmult_le_compat_l; [exact Aa|]. apply HBD; [lia|lra]. }
        apply (Rmult_le_compat_l _ _ _ Ab) in P1. unfold e. lra.
      - rewrite Y0. now apply Hb.
      - rewrite Y0. now apply Hdec. }
    assert (T * e <= w n * (q * D)); [|lra]. unfold e. apply (Rmult_le_compat_r D) in Hqn; [|exact HDp]. lra. }
  assert (Iter : forall i n, (n < N)%nat -> forall t, 0 <= t <= T -> Rabs (nth n (y t) 0) <= B n + w n * (q ^ i * D0)).
  { induction i as [|i IH]; intros n Hn t Ht; [rewrite pow_O, Rmult_1_l; now apply HB0|].
    rewrite <- tech_pow_Rmult, Rmult_assoc. apply Shrink; auto. apply Rmult_le_pos; [apply pow_le; lra|exact HD0]. }
  intros t Ht n Hn. apply Rnot_lt_le. intros Hlt. destruct (Hpar n Hn) as (_ & Hwn & _).
  set (g := Rabs (nth n (y t) 0) - B n). assert (Hgp : 0 < g) by (unfold g; lra).
  assert (HwD : 0 < w n * D0 + 1) by nra.
  destruct (pow_lt_1_zero q ltac:(rewrite Rabs_pos_eq; lra) (g / (w n * D0 + 1))) as (i & Hi).
  { apply Rmult_lt_0_compat; [exact Hgp|now apply Rinv_0_lt_compat]. }
  specialize (Hi i (le_n i)). rewrite Rabs_pos_eq in Hi by (apply pow_le; lra).
  assert (HI := Iter i n Hn t Ht). assert (Hq0 : 0 <= q ^ i) by (apply pow_le; lra).
  assert (q ^ i * (w n * D0 + 1) < g).
  { apply (Rmult_lt_compat_r (w n * D0 + 1)) in Hi; [|exact HwD]. replace (g / (w n * D0 + 1) * (w n * D0 + 1)) with g in Hi by (field; lra). exact Hi. }
  unfold g in *. nra.
Qed.

Lemma lf_run ivp S beta alpha rho k kap d s0 (u : R -> R) ub B w q :
  integrator_system S beta alpha rho k -> diagonal_gain k kap -> holds_levels beta alpha rho kap (ck_T (d_clk d)) ub B w q ->
  plain d (length beta) -> s_d s0 = d -> wf d (s_h s0) -> 0 <= s_t s0 -> (forall t, 0 <= t -> Rabs (u t) <= ub) ->
  length (s_x s0) = length beta -> within (length beta) B (s_x s0) ->
  (forall i s, full_run ivp S [u] i s0 = Ok s -> answers_exactly ivp S [u] s) ->
  forall i, exists s, full_run ivp S [u] i s0 = Ok s /\ s_d s = d /\ wf d (s_h s) /\ s_t s = s_t s0 + INR i * ck_T (d_clk d) /\
    length (s_x s) = length beta /\ within (length beta) B (s_x s) /\
    exists h, observe_update S (inputs_at S [u] (0 + s_t s)) s = Ok h /\
    forall y, solves (full_rhs S [u] s h) 0 (ck_T (d_clk d)) (s_x s) y -> forall t, 0 <= t <= ck_T (d_clk d) -> within (length beta) B (y t).
Proof.
  intros HS Hg Hst Hpl Hd W0 Ht0 Hu L0 B0 Hex.
  assert (HT : 0 <= ck_T (d_clk d)) by apply Hst.
  assert (Main : forall i, exists s, full_run ivp S [u] i s0 = Ok s /\ s_d s = d /\ wf d (s_h s) /\ s_t s = s_t s0 + INR i * ck_T (d_clk d) /\
    length (s_x s) = length beta /\ within (length beta) B (s_x s)).
  { induction i as [|i (s & Es & Ed & W & Et & L & BB)].
    - exists s0. cbn [full_run INR]. split; [reflexivity|]. split; [exact Hd|]. split; [exact W0|]. split; [lra|]. auto.
    - assert (Hts : 0 <= s_t s) by (rewrite Et; assert (P := pos_INR i); nra).
      destruct (lf_step S beta alpha rho k kap s u ub B w q) as (h & EO & Wh & HB); rewrite ?Ed; auto.
      destruct (Hex i s Es h EO) as (y & Hy & Ey).
      cbn [full_run]. rewrite Es. cbn [bind]. unfold full_next. rewrite EO. cbn [bind]. rewrite Ey. cbn [bind]. rewrite Ed in *.
      eexists. split; [reflexivity|]. cbn [s_d s_h s_t s_x]. split; [reflexivity|]. split; [exact Wh|].
      split; [rewrite Et, S_INR; lra|]. split.
      + destruct Hy as (_ & Yl & _). rewrite Yl by lra. exact L.
      + apply (HB y Hy). lra. }
  intros i. destruct (Main i) as (s & Es & Ed & W & Et & L & BB). exists s. do 6 (split; [assumption|]).
  assert (Hts : 0 <= s_t s) by (rewrite Et; assert (P := pos_INR i); nra).
  destruct (lf_step S beta alpha rho k kap s u ub B w q) as (h & EO & Wh & HB); rewrite ?Ed; auto.
  exists h. split; [exact EO|]. rewrite Ed in HB. exact HB.
Qed.

(** *** The synthesised leap-frogs *)
(** the distance of level [n] from full scale; [v]: largest input, [r]: square of the angular bandwidth times the period *)
Definition slack (N : nat) (v r : R) (n : nat) : R := (1 - v + r) / 2 ^ (n + 1) - (if Nat.eqb (n + 1) N then r / 2 else r).
Definition slack_before (N : nat) (v r : R) (n : nat) : R := if Nat.eqb n 0 then 1 - v else slack N v r (n - 1).

Lemma slack_step N v r n : (n < N)%nat -> slack N v r n = slack_before N v r n / 2 - (if Nat.eqb (n + 1) N then 0 else r / 2).
Proof.
  intros Hn. unfold slack_before, slack. destruct n as [|n].
  - destruct (Nat.eqb (0 + 1) N); cbn; field.
  - cbn [Nat.eqb]. replace (Datatypes.S n - 1 + 1)%nat with (Datatypes.S n) by lia. destruct (Nat.eqb_spec (Datatypes.S n) N); [lia|].
    replace (Datatypes.S n + 1)%nat with (Datatypes.S (Datatypes.S n)) by lia. assert (P : 2 ^ n <> 0) by (apply pow_nonzero; lra). cbn [pow].
    destruct (Nat.eqb (Datatypes.S (Datatypes.S n)) N); field; exact P.
Qed.
Lemma slack_range N v r n : (n < N)%nat -> 0 <= r -> 0 <= v -> v <= 1 - (2 ^ (N - 1) - 1) * r -> 0 <= slack N v r n <= 1.
Proof.
  intros Hn Hr Hv H. unfold slack. assert (P : 0 < 2 ^ (n + 1)) by (apply pow_lt; lra). assert (Pi : 0 < / 2 ^ (n + 1)) by now apply Rinv_0_lt_compat.
  assert (E1 : (2 ^ (N - 1)) * r <= 1 - v + r) by lra.
  assert (Hp1 : 1 <= 2 ^ (N - 1)) by (apply pow_R1_Rle; lra).
  assert (A0 : 0 <= 1 - v + r) by nra.
  split.
  - destruct (Nat.eqb_spec (n + 1) N) as [E|E].
    + replace (N - 1)%nat with n in E1 by lia. rewrite Nat.add_1_r in *. cbn [pow] in *.
      assert (Q : 0 < 2 ^ n) by (apply pow_lt; lra). apply (Rmult_le_reg_r (2 * 2 ^ n)); [lra|].
      replace (((1 - v + r) / (2 * 2 ^ n) - r / 2) * (2 * 2 ^ n)) with ((1 - v + r) - 2 ^ n * r) by (field; lra). lra.
    + assert (Q : 2 ^ (n + 1) <= 2 ^ (N - 1)) by (apply Rle_pow; [lra|lia]).
      apply (Rmult_le_reg_r (2 ^ (n + 1))); [lra|].
      replace (((1 - v + r) / 2 ^ (n + 1) - r) * 2 ^ (n + 1)) with ((1 - v + r) - 2 ^ (n + 1) * r) by (field; lra). nra.
  - assert (Q : 2 <= 2 ^ (n + 1)). { replace 2 with (2 ^ 1) at 1 by ring. apply Rle_pow; [lra|lia]. }
    assert (C : (1 - v + r) / 2 ^ (n + 1) <= (1 - v + r) / 2). { apply Rmult_le_compat_l; [exact A0|]. apply Rinv_le_contravar; lra. }
    destruct (Nat.eqb (n + 1) N); lra.
Qed.

(** the ratio of the couplings of a leap-frog *)
Lemma lf_coupling BW delta beta alpha T : lf_relations BW delta beta alpha T -> delta <> 0 ->
  Rabs alpha * Rabs delta ^ 2 = (2 * PI * BW * T) ^ 2 * Rabs beta.
Proof.
  intros (HT & Hb & E1 & E2) Hd. assert (E3 : Rabs alpha * Rabs beta = (PI * BW) ^ 2).
  { rewrite <- Rabs_mult, E2, Rabs_Ropp. apply Rabs_pos_eq, pow2_ge_0. }
  rewrite <- E1. replace ((2 * T * Rabs beta) ^ 2) with (4 * T ^ 2 * Rabs beta * Rabs beta) by ring.
  replace (Rabs alpha * (4 * T ^ 2 * Rabs beta * Rabs beta)) with (4 * T ^ 2 * (Rabs alpha * Rabs beta) * Rabs beta) by ring. rewrite E3. ring.
Qed.

Lemma lf_levels N BW delta beta alpha T v : (1 <= N)%nat -> lf_relations BW delta beta alpha T -> delta <> 0 ->
  let r := (2 * PI * BW * T) ^ 2 in 0 < v -> v <= 1 - (2 ^ (N - 1) - 1) * r ->
  holds_levels (repeat beta N) (repeat alpha (N - 1)) (repeat 0 N) (map (fun n => beta * delta ^ n) (seq 0 N)) T v
    (fun n => Rabs delta ^ (n + 1) * (1 - slack N v r n)) (fun n => Rabs delta ^ (n + 1)) ((1 + if Nat.eqb N 1 then 0 else r) / 2).
Proof.
  intros HN HR Hd r Hv Hr. pose proof (lf_coupling _ _ _ _ _ HR Hd) as EC. fold r in EC. destruct HR as (HT & Hb & E1 & E2).
  assert (Hr0 : 0 <= r) by apply pow2_ge_0.
  assert (Hr1 : (if Nat.eqb N 1 then 0 else r) < 1).
  { destruct (Nat.eqb_spec N 1); [lra|]. assert (2 <= 2 ^ (N - 1)). { replace 2 with (2 ^ 1) at 1 by ring. apply Rle_pow; [lra|lia]. } nra. }
  assert (Hr2 : 0 <= (if Nat.eqb N 1 then 0 else r)) by (destruct (Nat.eqb N 1); lra).
  unfold holds_levels. rewrite !repeat_length, map_length, seq_length. do 4 (split; [auto|]). split; [lra|]. split; [lra|]. split; [lra|].
  intros n Hn. set (p := Rabs delta) in *. assert (Hp : 0 < p) by now apply Rabs_pos_lt. assert (Pn : 0 < p ^ n) by now apply pow_lt.
  assert (Hbp : 0 < Rabs beta) by now apply Rabs_pos_lt.
  destruct (slack_range N v r n Hn Hr0 ltac:(lra) Hr) as [S0 S1]. assert (SS := slack_step N v r n Hn).
  rewrite nth_seq_R by exact Hn. rewrite !nth_repeat_lt by exact Hn.
  assert (En : p ^ (n + 1) = p * p ^ n) by (rewrite Nat.add_1_r; reflexivity).
  assert (Ek : Rabs (beta * delta ^ n) = Rabs beta * p ^ n) by (rewrite Rabs_mult, <- RPow_abs; reflexivity).
  assert (Prev : (if Nat.eqb n 0 then v else p ^ (n - 1 + 1) * (1 - slack N v r (n - 1))) = p ^ n * (1 - slack_before N v r n)).
  { unfold slack_before. destruct (Nat.eqb_spec n 0) as [->|]; [cbn; ring|]. now replace (n - 1 + 1)%nat with n by lia. }
  assert (PrevW : 0 <= (if Nat.eqb n 0 then 0 else p ^ (n - 1 + 1)) <= p ^ n).
  { destruct (Nat.eqb_spec n 0); [lra|]. replace (n - 1 + 1)%nat with n by lia. lra. }
  assert (Next : exists c, 0 <= c <= (if Nat.eqb (n + 1) N then 0 else r) /\
     Rabs (nth n (repeat alpha (N - 1)) 0) * (if Nat.eqb (n + 1) N then 0 else p ^ (n + 1 + 1) * (1 - slack N v r (n + 1))) = Rabs beta * p ^ n * c).
  { destruct (Nat.eqb_spec (n + 1) N) as [E|E]; [exists 0; split; [lra|ring]|].
    rewrite nth_repeat_lt by lia. destruct (slack_range N v r (n + 1) ltac:(lia) Hr0 ltac:(lra) Hr) as [A0 A1].
    exists (r * (1 - slack N v r (n + 1))). split; [nra|]. replace (n + 1 + 1)%nat with (n + 2)%nat by lia. rewrite pow_add.
    replace (Rabs alpha * (p ^ n * p ^ 2 * (1 - slack N v r (n + 1)))) with (Rabs alpha * p ^ 2 * p ^ n * (1 - slack N v r (n + 1))) by ring. rewrite EC. ring. }
  assert (NextW : Rabs (nth n (repeat alpha (N - 1)) 0) * (if Nat.eqb (n + 1) N then 0 else p ^ (n + 1 + 1)) <= Rabs beta * p ^ n * (if Nat.eqb N 1 then 0 else r)).
  { destruct (Nat.eqb_spec (n + 1) N) as [E|E].
    - rewrite Rmult_0_r. apply Rmult_le_pos; [nra|exact Hr2].
    - rewrite nth_repeat_lt by lia. destruct (Nat.eqb_spec N 1); [lia|]. replace (n + 1 + 1)%nat with (n + 2)%nat by lia. rewrite pow_add.
      replace (Rabs alpha * (p ^ n * p ^ 2)) with (Rabs alpha * p ^ 2 * p ^ n) by ring. rewrite EC. lra. }
  rewrite Prev. destruct Next as (c & Hc & ->). rewrite Ek, En.
  assert (Hbpn : 0 < Rabs beta * p ^ n) by nra.
  assert (Hcb : c <= slack_before N v r n) by (destruct (Nat.eqb (n + 1) N); lra).
  assert (Hcs : slack N v r n <= slack_before N v r n / 2 - c / 2) by (destruct (Nat.eqb (n + 1) N); lra).
  split; [apply Rmult_le_pos; nra|]. split; [nra|]. split; [lra|].
  split; [apply Rmult_integral_contrapositive_currified; [exact Hb|now apply pow_nonzero]|].
  split; [split|].
  - replace (Rabs beta * (p ^ n * (1 - slack_before N v r n)) + Rabs beta * p ^ n * c) with (Rabs beta * p ^ n * (1 - (slack_before N v r n - c))) by ring. nra.
  - replace (T * (Rabs beta * (p ^ n * (1 - slack_before N v r n)) + Rabs beta * p ^ n * c + Rabs beta * p ^ n))
      with (2 * T * Rabs beta * p ^ n * (1 - (slack_before N v r n / 2 - c / 2))) by field. rewrite E1. apply Rmult_le_compat_l; [nra|lra].
  - set (rr := if Nat.eqb N 1 then 0 else r) in *.
    apply Rle_trans with (T * (Rabs beta * p ^ n + Rabs beta * p ^ n * rr)).
    + apply Rmult_le_compat_l; [lra|]. apply Rplus_le_compat; [|exact NextW]. apply Rmult_le_compat_l; lra.
    + replace (T * (Rabs beta * p ^ n + Rabs beta * p ^ n * rr)) with (2 * T * Rabs beta * p ^ n * ((1 + rr) / 2)) by field. rewrite E1. lra.
Qed.

Lemma slack_level N v r n : (n < N)%nat -> 0 <= r -> 0 < v -> v <= 1 - (2 ^ (N - 1) - 1) * r ->
  1 - slack N v r n <= Rmin 1 (1 + r - (1 - v + r) / 2 ^ (n + 1)).
Proof.
  intros Hn Hr Hv H. destruct (slack_range N v r n Hn Hr ltac:(lra) H) as [A _]. unfold slack in *. apply Rmin_glb; destruct (Nat.eqb (n + 1) N); lra.
Qed.

(** the closed loop of every synthesised leap-frog *)
Lemma lf_closed_loop gi k h S d h' ivp s0 (u : R -> R) v : get_lf gi k h = Ok (S, d, h') ->
  base_init S d h' 1 None = Ok s0 -> 0 < v -> (forall t, 0 <= t -> Rabs (u t) <= v) ->
  (forall i s, full_run ivp S [u] i s0 = Ok s -> answers_exactly ivp S [u] s) ->
  exists N BW, k_N k = Some N /\ sN S = N /\
   match k_BW k with Some b => BW = b | None => exists o T, k_OSR k = Some o /\ k_T k = Some T /\ 2 * BW * o * T = 1 end /\
   let T := ck_T (d_clk d) in let delta := dflt (k_delta k) 1 in let r := (2 * PI * BW * T) ^ 2 in
   let level n := Rabs delta ^ (n + 1) * Rmin 1 (1 + r - (1 - v + r) / 2 ^ (n + 1)) in
   (v <= 1 - (2 ^ (N - 1) - 1) * r ->
    forall i, exists s, full_run ivp S [u] i s0 = Ok s /\ s_t s = INR i * T /\ length (s_x s) = N /\ within N level (s_x s) /\
    exists h, observe_update S (inputs_at S [u] (0 + s_t s)) s = Ok h /\
    forall y, solves (full_rhs S [u] s h) 0 T (s_x s) y -> forall t, 0 <= t <= T -> within N level (y t)).
Proof.
  intros H Hi Hv Hu Hex. destruct (get_lf_inv _ _ _ _ _ _ H) as (N & BW & beta & alpha & T & EN & HN & HBW & _ & HR & Hd & HF).
  exists N, BW. destruct HF as (V & HS & Lk & HP & HW & ET). rewrite repeat_length in *.
  assert (HsN : sN S = N) by (destruct HS as (D & _); now rewrite D, repeat_length).
  split; [exact EN|]. split; [exact HsN|]. split; [exact HBW|]. cbv zeta. rewrite ET. intros Hr i.
  assert (Hi' : s0 = mkSim 0 (repeat 0 N) d h').
  { unfold base_init in Hi. destruct HS as (_ & DL & _). rewrite DL in Hi. cbn in Hi. apply Ok_inj in Hi. now rewrite <- Hi, HsN. }
  assert (HL := lf_levels N BW _ beta alpha T v HN HR Hd Hv Hr). rewrite <- ET in HL at 1.
  set (r := (2 * PI * BW * T) ^ 2) in *. assert (Hr0 : 0 <= r) by apply pow2_ge_0.
  assert (Mono : forall x, within N (fun n => Rabs (dflt (k_delta k) 1) ^ (n + 1) * (1 - slack N v r n)) x ->
     within N (fun n => Rabs (dflt (k_delta k) 1) ^ (n + 1) * Rmin 1 (1 + r - (1 - v + r) / 2 ^ (n + 1))) x).
  { intros x Hx n Hn. eapply Rle_trans; [apply Hx, Hn|]. apply Rmult_le_compat_l; [apply pow_le, Rabs_pos|]. now apply slack_level. }
  edestruct (lf_run ivp S (repeat beta N) (repeat alpha (N - 1)) (repeat 0 N) (diag0 (map (fun n => beta * dflt (k_delta k) 1 ^ n) (seq 0 N)))
    (map (fun n => beta * dflt (k_delta k) 1 ^ n) (seq 0 N)) d s0 u v) with (i := i) as (s & Es & _ & _ & Et & L & B & hh & EO & HH);
    rewrite ?repeat_length; auto.
  - apply diag0_diagonal.
  - exact HL.
  - now rewrite Hi'.
  - now rewrite Hi'.
  - rewrite Hi'. cbn [s_t]. lra.
  - rewrite Hi'. cbn [s_x]. now rewrite repeat_length.
  - rewrite Hi'. cbn [s_x]. intros n Hn. rewrite nth_repeat, Rabs_R0.
    destruct HL as (_ & _ & _ & _ & _ & _ & _ & HL). rewrite repeat_length in HL. apply (HL n Hn).
  - rewrite repeat_length in *. exists s. split; [exact Es|]. split; [rewrite Et, Hi'; cbn [s_t]; rewrite ET; lra|]. split; [exact L|]. split; [now apply Mono|].
    exists hh. split; [exact EO|]. intros y Hy t Ht. rewrite ET in HH. apply Mono. now apply HH.
Qed.
