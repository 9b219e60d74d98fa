(** The default control in closed loop with a chain of integrators. *)
From Coq Require Import List Arith Lia Bool Reals Lra.
From Flocq Require Import Core.
From Verif Require Import Base LinAlg FirExtras AnalogSystem AnalogProofs Signals DigitalControl DigitalControlProofs Integrators IntegratorsProofs Simulator.
Import ListNotations.
Open Scope R_scope.

Lemma nth_seq_R (f : nat -> R) n m : (m < n)%nat -> nth m (map f (seq 0 n)) 0 = f m.
Proof.
  intros H. rewrite nth_indep with (d' := f 0%nat) by (rewrite map_length, seq_length; exact H). rewrite (map_nth f), seq_nth by exact H. reflexivity.
Qed.

(** *** The default digital control *)
Definition plain (d : dc) (M : nat) : Prop :=
  d_M d = M /\ d_resp d = repeat (WStep 0 1) M /\ d_tdelay d = 0 /\ d_kind d = KBin /\ d_offsets d = repeat 0 M /\ 0 <= ck_tt (d_clk d).

Lemma dc_init_plain h clk M d h' : dc_init h clk M None 0 None = Ok (d, h') -> 0 <= ck_tt clk -> plain d M /\ wf d h' /\ d_clk d = clk.
Proof.
  intros H Htt. destruct (dc_init_ok _ _ _ _ _ _ _ _ H) as (W & HM & Hc & Htd & Hk & Hr & Ho & _). unfold plain. rewrite Hc. auto 10.
Qed.

Lemma plain_contribution d M h t : plain d M -> wf d h -> 0 <= t ->
  control_contribution d h t = Ok (map (rd h (d_dec d)) (seq 0 M)).
Proof.
  intros (HM & Hr & Htd & _ & _ & _) W Ht.
  destruct (contrib_spec (d_clk d) (d_resp d) (d_tdelay d) (rd_arr h (d_dec d)) (rd_arr h (d_old d)) t (d_M d) 0) as (l & E & L & P).
  { intros m Hm. rewrite Hr, nth_repeat_lt by lia. exact I. }
  unfold control_contribution. rewrite E. f_equal. apply list_ext with (d := 0).
  - rewrite map_length, seq_length. congruence.
  - intros m Hm. destruct (P m) as (x & Ex & Nx); [lia|]. cbn [Nat.add] in *. rewrite Nx.
    rewrite Hr, nth_repeat_lt in Ex by lia. cbn [w_t0 w_eval] in Ex. rewrite Rlt_bool_false in Ex by exact Ht. rewrite Rle_bool_true in Ex by exact Ht.
    apply Ok_inj in Ex. subst x. rewrite Htd, Rlt_bool_false by exact Ht.
    rewrite nth_seq_R by lia. unfold rd. lra.
Qed.

Lemma plain_update d M h st : plain d M -> wf d h -> (M <= length st)%nat ->
  exists h', dc_update d 0 st h = (Ok tt, h') /\ wf d h' /\
  forall m, (m < M)%nat -> rd h' (d_dec d) m = (if Rle_bool 0 (nth m st 0) then 1 else -1) /\
                           rd h' (d_s d) m = (if Rle_bool 0 (nth m st 0) then 1 else 0).
Proof.
  intros (HM & Hr & Htd & Hk & Ho & Htt) W HL. subst M.
  destruct (dc_update_spec d 0 st h W HL) as (h' & E & Sh & _ & P). exists h'. split; [exact E|]. split; [eapply wf_shape; eauto|].
  intros m Hm. specialize (P m Hm). rewrite on_phase_true in P.
  2:{ unfold matches. rewrite Hr, nth_repeat_lt by exact Hm. cbn [w_t0]. rewrite Rminus_0_r, Rabs_R0. lra. }
  unfold post1 in P. destruct P as (P1 & P2 & _). rewrite P2, P1. unfold raw, newdec. rewrite Hk, Ho, nth_repeat_lt by exact Hm.
  rewrite cast_01. destruct (Rle_bool 0 (nth m st 0)); split; lra.
Qed.

(** *** Exact solutions of an initial value problem on [a, b] *)
(** [y] solves y' = f(t, y), y(a) = y0: continuous on [a, b] and differentiable inside. *)
Definition solves (f : R -> list R -> result (list R)) (a b : R) (y0 : list R) (y : R -> list R) : Prop :=
  y a = y0 /\ (forall t, a <= t <= b -> length (y t) = length y0) /\
  (forall n t, a <= t <= b -> continuity_pt (fun s => nth n (y s) 0) t) /\
  (forall t, a < t < b -> exists v, f t (y t) = Ok v /\ length v = length y0 /\
     forall n, (n < length y0)%nat -> derivable_pt_lim (fun s => nth n (y s) 0) t (nth n v 0)).

(** *** A comparison lemma *)
Lemma comparison (g g' : R -> R) (rho T : R) : 0 <= T ->
  (forall t, 0 <= t <= T -> continuity_pt g t) ->
  (forall t, 0 < t < T -> derivable_pt_lim g t (g' t)) ->
  (forall t, 0 < t < T -> g' t - rho * g t <= 0) -> g 0 <= 0 ->
  forall t, 0 <= t <= T -> g t <= 0.
Proof.
  intros HT Hc Hd Hs H0 t Ht. destruct (Req_dec t 0) as [->|Hne]; [exact H0|]. assert (Htp : 0 < t) by lra.
  set (E := fun s => exp (- rho * s)).
  assert (DE : forall s, derivable_pt_lim E s (- rho * E s)).
  { intros s. unfold E. replace (- rho * exp (- rho * s)) with (exp (- rho * s) * (- rho * 1)) by ring.
    apply (derivable_pt_lim_comp (fun s => - rho * s) exp).
    - apply (derivable_pt_lim_scal id (- rho) s 1). apply derivable_pt_lim_id.
    - apply derivable_pt_lim_exp. }
  set (f := (E * g)%F).
  assert (Df : forall c, 0 < c < T -> derivable_pt_lim f c (- rho * E c * g c + E c * g' c)).
  { intros c Hcc. apply derivable_pt_lim_mult; auto. }
  assert (pr1 : forall c, 0 < c < t -> derivable_pt f c) by (intros c Hcc; eexists; apply Df; lra).
  assert (pr2 : forall c, 0 < c < t -> derivable_pt id c) by (intros; apply derivable_pt_id).
  destruct (MVT f id 0 t pr1 pr2 Htp) as (c & Hcc & Heq).
  - intros c Hcc. apply continuity_pt_mult; [|apply Hc; lra]. apply derivable_continuous_pt. eexists. apply DE.
  - intros; apply derivable_continuous_pt, derivable_pt_id.
  - assert (E1 : derive_pt f c (pr1 c Hcc) = - rho * E c * g c + E c * g' c) by (apply derive_pt_eq_0, Df; lra).
    assert (E2 : derive_pt id c (pr2 c Hcc) = 1) by (apply derive_pt_eq_0, derivable_pt_lim_id).
    rewrite E1, E2 in Heq. unfold id in Heq.
    assert (P : 0 < E c) by apply exp_pos. assert (Q := Hs c ltac:(lra)).
    assert (Hf0 : f 0 = g 0). { unfold f, mult_fct, E. rewrite Rmult_0_r, exp_0. ring. }
    assert (Hft : f t = E t * g t) by reflexivity.
    assert (E c * (g' c - rho * g c) <= 0) by nra. assert (f t - f 0 <= 0) by nra. assert (0 < E t) by apply exp_pos. nra.
Qed.

(** *** One integrator over one period *)
Lemma integrator_bound (x x' w : R -> R) (rho beta kappa s T : R) : 0 <= T -> rho <= 0 -> Rabs beta <= Rabs kappa -> T * (Rabs beta + Rabs kappa) <= 1 ->
  (forall t, 0 <= t <= T -> continuity_pt x t) ->
  (forall t, 0 < t < T -> derivable_pt_lim x t (x' t)) ->
  (forall t, 0 < t < T -> x' t = rho * x t + beta * w t + kappa * s) ->
  (forall t, 0 < t < T -> Rabs (w t) <= 1) -> Rabs (x 0) <= 1 ->
  (kappa * x 0 <= 0 /\ s = 1 \/ 0 <= kappa * x 0 /\ s = -1) ->
  forall t, 0 <= t <= T -> Rabs (x t) <= 1.
Proof.
  intros HT Hr Hb HTb Hc Hd He Hw H0 Hs.
  (* the sign that makes the control action positive *)
  set (c := Rabs beta + Rabs kappa) in *.
  assert (Hc0 : 0 <= c) by (unfold c; assert (A := Rabs_pos beta); assert (B := Rabs_pos kappa); lra).
  assert (Hbw : forall t, 0 < t < T -> Rabs (beta * w t) <= Rabs beta).
  { intros t Ht. rewrite Rabs_mult. specialize (Hw t Ht). assert (A := Rabs_pos beta). nra. }
  (* general upper estimates for e*x, e = 1 or -1 *)
  assert (G1 : forall e, (e = 1 \/ e = -1) -> (forall t, 0 < t < T -> e * (x' t - rho * x t) <= 0) -> forall t, 0 <= t <= T -> e * x t <= 1).
  { intros e Hee H t Ht.
    assert (K := comparison (fun s => e * x s - 1) (fun s => e * x' s) rho T HT).
    enough ((fun s => e * x s - 1) t <= 0) by (cbn in *; lra). apply K; auto.
    - intros s0 Hs0. apply (continuity_pt_minus (mult_real_fct e x) (fct_cte 1)); [apply continuity_pt_scal; auto|apply continuity_pt_const; intros ? ?; reflexivity].
    - intros s0 Hs0. replace (e * x' s0) with (e * x' s0 - 0) by ring.
      apply (derivable_pt_lim_minus (mult_real_fct e x) (fct_cte 1)); [apply derivable_pt_lim_scal; auto|apply derivable_pt_lim_const].
    - intros s0 Hs0. specialize (H s0 Hs0). lra.
    - cbn. apply Rabs_le_inv in H0. destruct Hee as [-> | ->]; lra. }
  assert (G2 : forall e, (e = 1 \/ e = -1) -> e * x 0 <= 0 -> (forall t, 0 < t < T -> e * (x' t - rho * x t) <= c) -> forall t, 0 <= t <= T -> e * x t <= 1).
  { intros e Hee He0 H t Ht.
    assert (K := comparison (fun s => e * x s - c * s) (fun s => e * x' s - c) rho T HT).
    enough ((fun s => e * x s - c * s) t <= 0) by (cbn in *; nra). apply K; auto.
    - intros s0 Hs0. apply (continuity_pt_minus (mult_real_fct e x) (mult_real_fct c id)); apply continuity_pt_scal; auto. apply derivable_continuous_pt, derivable_pt_id.
    - intros s0 Hs0. replace (e * x' s0 - c) with (e * x' s0 - c * 1) by ring.
      apply (derivable_pt_lim_minus (mult_real_fct e x) (mult_real_fct c id)); apply derivable_pt_lim_scal; auto. apply derivable_pt_lim_id.
    - intros s0 Hs0. specialize (H s0 Hs0). cbn. assert (0 <= c * s0) by nra. assert (rho * (c * s0) <= 0) by nra. lra.
    - cbn. lra. }
  intros t Ht.
  assert (Hk : forall e, (e = 1 \/ e = -1) -> 0 <= e * (kappa * s) -> Rabs kappa = e * (kappa * s)).
  { intros e Hee Hp. rewrite <- (Rabs_pos_eq _ Hp), !Rabs_mult.
    assert (Rabs e = 1) as -> by (destruct Hee as [-> | ->]; unfold Rabs; destruct Rcase_abs; lra).
    assert (Rabs s = 1) as -> by (destruct Hs as [[_ ->]|[_ ->]]; unfold Rabs; destruct Rcase_abs; lra). ring. }
  (* e is the direction of the control action; the state starts on the other side *)
  assert (Main : exists e, (e = 1 \/ e = -1) /\ 0 <= e * (kappa * s) /\ e * x 0 <= 0).
  { destruct (Rle_dec 0 (kappa * s)) as [P|P].
    - destruct (Req_dec (kappa * s) 0) as [Z|Z].
      + destruct (Rle_dec (x 0) 0); [exists 1|exists (-1)]; rewrite Z; lra.
      + exists 1. split; [auto|]. split; [lra|]. destruct Hs as [[A ->]|[A ->]]; nra.
    - exists (-1). split; [auto|]. split; [lra|]. destruct Hs as [[A ->]|[A ->]]; nra. }
  destruct Main as (e & Hee & Hp & Hx0). specialize (Hk e Hee Hp).
  assert (Hebw : forall s0, 0 < s0 < T -> - Rabs beta <= e * (beta * w s0) <= Rabs beta).
  { intros s0 Hs0. assert (A := Rabs_le_inv _ _ (Hbw s0 Hs0)). destruct Hee as [-> | ->]; lra. }
  assert (U := G2 e Hee Hx0). assert (L := G1 (- e)).
  assert (e * x t <= 1).
  { apply U; auto. intros s0 Hs0. rewrite (He s0 Hs0). specialize (Hebw s0 Hs0). unfold c. lra. }
  assert (- e * x t <= 1).
  { apply L; auto; [destruct Hee as [-> | ->]; [right|left]; lra|].
    intros s0 Hs0. rewrite (He s0 Hs0). specialize (Hebw s0 Hs0). lra. }
  apply Rabs_le. destruct Hee as [-> | ->]; lra.
Qed.

(** *** The closed loop: FullSimulator with an exact solver *)
(** [kap] is the diagonal of the control input matrix meant by [k] *)
Definition diagonal_gain (k : nd2 Rring) (kap : list R) : Prop :=
  ncontrols k = length kap /\ forall n m, (n < length kap)%nat -> (m < length kap)%nat -> gain k n m = if Nat.eqb n m then nth n kap 0 else 0.

Lemma diagonal_sum k kap (s : list R) n : diagonal_gain k kap -> (n < length kap)%nat ->
  rsum (length kap) (fun m => gain k n m * nth m s 0) = nth n kap 0 * nth n s 0.
Proof.
  intros [_ H] Hn. rewrite (rsum_ext _ _ (fun m => if Nat.eqb m n then nth n kap 0 * nth m s 0 else 0)).
  - now apply rsum_single.
  - intros m Hm. rewrite H by assumption. rewrite (Nat.eqb_sym n m). destruct (Nat.eqb m n); ring.
Qed.
Lemma diagonal_sum_col k kap (x : list R) m : diagonal_gain k kap -> (m < length kap)%nat ->
  rsum (length kap) (fun n => gain k n m * nth n x 0) = nth m kap 0 * nth m x 0.
Proof.
  intros [_ H] Hm. rewrite (rsum_ext _ _ (fun n => if Nat.eqb n m then nth n kap 0 * nth n x 0 else 0)).
  - now apply rsum_single.
  - intros n Hn. rewrite H by assumption. destruct (Nat.eqb n m); ring.
Qed.
Lemma diagonal_colnorm k kap m : diagonal_gain k kap -> (m < length kap)%nat -> colnorm (length kap) (gain k) m = Rabs (nth m kap 0).
Proof.
  intros [_ H] Hm. unfold colnorm. rewrite <- sqrt_Rsqr_abs. f_equal.
  rewrite (rsum_ext _ _ (fun n => if Nat.eqb n m then Rsqr (nth n kap 0) else 0)).
  - now apply rsum_single.
  - intros n Hn. rewrite H by assumption. destruct (Nat.eqb n m); unfold Rsqr; ring.
Qed.

(** Parameters for which the control can overcome the input of every integrator within one period. *)
Definition stabilising (beta rho kap : list R) (T : R) : Prop :=
  length rho = length beta /\ length kap = length beta /\ (1 <= length beta)%nat /\ 0 <= T /\
  forall n, (n < length beta)%nat -> nth n rho 0 <= 0 /\ nth n kap 0 <> 0 /\ Rabs (nth n beta 0) <= Rabs (nth n kap 0) /\
    T * (Rabs (nth n beta 0) + Rabs (nth n kap 0)) <= 1.

Definition bounded (N : nat) (x : list R) : Prop := forall n, (n < N)%nat -> Rabs (nth n x 0) <= 1.

Lemma loop_step S beta rho k kap s (u : R -> R) :
  integrator_system S beta (repeat 0 (length beta - 1)) rho k -> diagonal_gain k kap -> stabilising beta rho kap (ck_T (d_clk (s_d s))) ->
  plain (s_d s) (length beta) -> wf (s_d s) (s_h s) -> 0 <= s_t s -> (forall t, 0 <= t -> Rabs (u t) <= 1) ->
  length (s_x s) = length beta -> bounded (length beta) (s_x s) ->
  exists h, observe_update S (inputs_at S [u] (0 + s_t s)) s = Ok h /\ wf (s_d s) h /\
    forall y, solves (full_rhs S [u] s h) 0 (ck_T (d_clk (s_d s))) (s_x s) y ->
    forall t, 0 <= t <= ck_T (d_clk (s_d s)) -> bounded (length beta) (y t).
Proof.
  intros (DN & DL & DM & DMt & HD & _ & HO) Hg (Lr & Lk & HN & HT & Hpar) Hpl W Hst Hu Lx Hb.
  pose proof Hg as [Hnc Hge]. rewrite Lk in Hnc.
  set (N := length beta) in *. set (T := ck_T (d_clk (s_d s))) in *.
  assert (EC : forall h t, wf (s_d s) h -> 0 <= t -> control_contribution (s_d s) h t = Ok (map (rd h (d_dec (s_d s))) (seq 0 N))) by (intros; now apply plain_contribution).
  assert (LC : forall h, length (map (rd h (d_dec (s_d s))) (seq 0 N)) = N) by (intros; now rewrite map_length, seq_length).
  unfold observe_update. rewrite (EC _ _ W (Rle_refl 0)). cbn [bind inputs_at map].
  rewrite HO; [|exact Lx|now rewrite Hnc]. cbn [bind]. rewrite Hnc.
  set (st := map _ (seq 0 N)).
  assert (Lst : length st = N) by (unfold st; now rewrite map_length, seq_length).
  destruct (plain_update (s_d s) N (s_h s) st Hpl W ltac:(lia)) as (h & EU & W' & HU). rewrite EU. exists h. split; [reflexivity|]. split; [exact W'|].
  intros y (Y0 & Yl & Yc & Yd). rewrite Lx in Yl.
  (* the decisions *)
  assert (Hdec : forall n, (n < N)%nat -> (nth n kap 0 * nth n (s_x s) 0 <= 0 /\ rd h (d_dec (s_d s)) n = 1 \/ 0 <= nth n kap 0 * nth n (s_x s) 0 /\ rd h (d_dec (s_d s)) n = -1)).
  { intros n Hn. destruct (Hpar n Hn) as (_ & Hk0 & _).
    set (z := nth n kap 0 * nth n (s_x s) 0).
    assert (Est : nth n st 0 = - z / Rabs (nth n kap 0)).
    { unfold st. rewrite nth_seq_R by exact Hn. rewrite <- Lk. rewrite diagonal_sum_col by (auto; lia). now rewrite diagonal_colnorm by (auto; lia). }
    destruct (HU n Hn) as [-> _]. rewrite Est.
    assert (P : 0 < Rabs (nth n kap 0)) by now apply Rabs_pos_lt.
    assert (PI' : 0 < / Rabs (nth n kap 0)) by now apply Rinv_0_lt_compat.
    destruct (Rle_bool_spec 0 (- z / Rabs (nth n kap 0))) as [Q|Q]; unfold Rdiv in Q; [left|right]; (split; [nra|reflexivity]). }
  (* the equation satisfied by every state *)
  assert (Heq : forall n, (n < N)%nat -> forall t, 0 < t < T -> exists v, derivable_pt_lim (fun s0 => nth n (y s0) 0) t v /\
            v = nth n rho 0 * nth n (y t) 0 + nth n beta 0 * (if Nat.eqb n 0 then u (t + s_t s) else nth (n - 1) (y t) 0) + nth n kap 0 * rd h (d_dec (s_d s)) n).
  { intros n Hn t Ht. destruct (Yd t Ht) as (v & Ev & Lv & Dv). exists (nth n v 0). split; [apply Dv; now rewrite Lx|].
    unfold full_rhs in Ev. cbn [map] in Ev. rewrite EC in Ev by (auto; lra). cbn [bind] in Ev.
    rewrite HD in Ev; [|apply Yl; lra|now rewrite Hnc]. apply Ok_inj in Ev. rewrite <- Ev. rewrite nth_seq_R by exact Hn.
    rewrite Hnc. rewrite <- Lk. rewrite diagonal_sum by (auto; lia). rewrite nth_seq_R by lia.
    rewrite nth_repeat. ring. }
  intros t Ht n. revert t Ht. induction n as [|n IH]; intros t Ht Hn.
  - destruct (Hpar 0%nat Hn) as (Hr0 & _ & Hb0 & HT0).
    set (x' := fun t => nth 0 rho 0 * nth 0 (y t) 0 + nth 0 beta 0 * u (t + s_t s) + nth 0 kap 0 * rd h (d_dec (s_d s)) 0%nat).
    refine (integrator_bound (fun s0 => nth 0 (y s0) 0) x' (fun t => u (t + s_t s)) (nth 0 rho 0) (nth 0 beta 0) (nth 0 kap 0) (rd h (d_dec (s_d s)) 0%nat) T HT Hr0 Hb0 HT0 _ _ _ _ _ _ t Ht).
    + intros; now apply Yc.
    + intros t0 Ht0. destruct (Heq 0%nat Hn t0 Ht0) as (v & Dv & Ev). cbn [Nat.eqb] in Ev. unfold x'. rewrite <- Ev. exact Dv.
    + intros; reflexivity.
    + intros t0 Ht0. apply Hu. lra.
    + rewrite Y0. now apply Hb.
    + rewrite Y0. now apply Hdec.
  - destruct (Hpar (Datatypes.S n) Hn) as (Hr0 & _ & Hb0 & HT0).
    set (x' := fun t => nth (Datatypes.S n) rho 0 * nth (Datatypes.S n) (y t) 0 + nth (Datatypes.S n) beta 0 * nth n (y t) 0 + nth (Datatypes.S n) kap 0 * rd h (d_dec (s_d s)) (Datatypes.S n)).
    refine (integrator_bound (fun s0 => nth (Datatypes.S n) (y s0) 0) x' (fun t => nth n (y t) 0) _ _ _ (rd h (d_dec (s_d s)) (Datatypes.S n)) T HT Hr0 Hb0 HT0 _ _ _ _ _ _ t Ht).
    + intros; now apply Yc.
    + intros t0 Ht0. destruct (Heq _ Hn t0 Ht0) as (v & Dv & Ev). cbn [Nat.eqb] in Ev. replace (Datatypes.S n - 1)%nat with n in Ev by lia. unfold x'. rewrite <- Ev. exact Dv.
    + intros; reflexivity.
    + intros t0 Ht0. apply IH; [lra|lia].
    + rewrite Y0. now apply Hb.
    + rewrite Y0. now apply Hdec.
Qed.

(** [k] calls of [next] *)
Fixpoint full_run (ivp : (R -> list R -> result (list R)) -> R -> R -> list R -> result (list R)) (S : asys Rring) (inputs : list (R -> R)) (k : nat) (s : sim) : result sim :=
  match k with
  | O => Ok s
  | S k => bind (full_run ivp S inputs k s) (fun s => bind (full_next ivp S inputs s) (fun '(_, s) => Ok s))
  end.

(** at state [s] the solver answers with the end point of an exact solution *)
Definition answers_exactly ivp (S : asys Rring) (inputs : list (R -> R)) (s : sim) : Prop :=
  forall h, observe_update S (inputs_at S inputs (0 + s_t s)) s = Ok h ->
  exists y, solves (full_rhs S inputs s h) 0 (ck_T (d_clk (s_d s))) (s_x s) y /\
            ivp (full_rhs S inputs s h) 0 (ck_T (d_clk (s_d s))) (s_x s) = Ok (y (ck_T (d_clk (s_d s)))).

Lemma loop_run ivp S beta rho k kap d s0 (u : R -> R) :
  integrator_system S beta (repeat 0 (length beta - 1)) rho k -> diagonal_gain k kap -> stabilising beta rho kap (ck_T (d_clk d)) ->
  plain d (length beta) -> s_d s0 = d -> wf d (s_h s0) -> 0 <= s_t s0 -> (forall t, 0 <= t -> Rabs (u t) <= 1) ->
  length (s_x s0) = length beta -> bounded (length beta) (s_x s0) ->
  (forall i s, full_run ivp S [u] i s0 = Ok s -> answers_exactly ivp S [u] s) ->
  forall i, exists s, full_run ivp S [u] i s0 = Ok s /\ s_d s = d /\ wf d (s_h s) /\ s_t s = s_t s0 + INR i * ck_T (d_clk d) /\
    length (s_x s) = length beta /\ bounded (length beta) (s_x s) /\
    exists h, observe_update S (inputs_at S [u] (0 + s_t s)) s = Ok h /\
    forall y, solves (full_rhs S [u] s h) 0 (ck_T (d_clk d)) (s_x s) y -> forall t, 0 <= t <= ck_T (d_clk d) -> bounded (length beta) (y t).
Proof.
  intros HS Hg Hst Hpl Hd W0 Ht0 Hu L0 B0 Hex.
  assert (HT : 0 <= ck_T (d_clk d)) by apply Hst.
  assert (Main : forall i, exists s, full_run ivp S [u] i s0 = Ok s /\ s_d s = d /\ wf d (s_h s) /\ s_t s = s_t s0 + INR i * ck_T (d_clk d) /\
    length (s_x s) = length beta /\ bounded (length beta) (s_x s)).
  { induction i as [|i (s & Es & Ed & W & Et & L & B)].
    - exists s0. cbn [full_run INR]. split; [reflexivity|]. split; [exact Hd|]. split; [exact W0|]. split; [lra|]. auto.
    - assert (Hts : 0 <= s_t s) by (rewrite Et; assert (P := pos_INR i); nra).
      destruct (loop_step S beta rho k kap s u) as (h & EO & Wh & HB); rewrite ?Ed; auto.
      destruct (Hex i s Es h EO) as (y & Hy & Ey).
      cbn [full_run]. rewrite Es. cbn [bind]. unfold full_next. rewrite EO. cbn [bind]. rewrite Ey. cbn [bind]. rewrite Ed in *.
      eexists. split; [reflexivity|]. cbn [s_d s_h s_t s_x]. split; [reflexivity|]. split; [exact Wh|].
      split; [rewrite Et, S_INR; lra|]. split.
      + destruct Hy as (_ & Yl & _). rewrite Yl by lra. exact L.
      + apply (HB y Hy). lra. }
  intros i. destruct (Main i) as (s & Es & Ed & W & Et & L & B). exists s. do 6 (split; [assumption|]).
  assert (Hts : 0 <= s_t s) by (rewrite Et; assert (P := pos_INR i); nra).
  destruct (loop_step S beta rho k kap s u) as (h & EO & Wh & HB); rewrite ?Ed; auto.
  exists h. split; [exact EO|]. rewrite Ed in HB. exact HB.
Qed.
