(** Property theorems C18-C21: clock waveform, next_tick, signal algebra, elementary waveforms.
    [wave T tt d phi v] (SignalsProofs.v) describes the trapezoid as a function of the phase: rising line on [0,tt], 1 up to
    d*T, falling line on [d*T, d*T+tt], -1 afterwards. *)
From Coq Require Import List Lia Arith Bool ZArith Reals Lra.
From Flocq Require Import Core.
From Verif Require Import Base Signals SignalsProofs.
Import ListNotations.
Open Scope R_scope.

(** C18: the constructor's domain. *)
Theorem C18_constructor : forall T tt td d s,
  (0 < d <= 1 /\ tt <= T * Rmin d (1 - d) /\ td <= T -> exists c, clock_init T tt td d s = Ok c) /\
  (~ (0 < d <= 1 /\ tt <= T * Rmin d (1 - d) /\ td <= T) -> clock_init T tt td d s = Exn GenericException).
Proof.
  intros T tt td d s. unfold clock_init, max_step.
  destruct (Rlt_bool_spec 1 d), (Rle_bool_spec d 0); cbn [orb]; (split; intros H1; [|try reflexivity]); try lra;
  destruct (Rlt_bool_spec (T * Rmin d (1 - d)) tt), (Rlt_bool_spec T td); try lra; try reflexivity; eauto.
Qed.
Print Assumptions C18_constructor.

(** C18: default swing; all times. *)
Theorem C18_waveform : forall T tt td d c t, 0 < T -> 0 < tt -> clock_init T tt td d 2 = Ok c ->
  exists v, clock_edge c t = Ok v /\ wave T tt d (pmod (t - td + tt / 2) T) v /\ -1 <= v <= 1 /\
    (forall k, clock_edge c (t + IZR k * T) = Ok v) /\
    (v = 0 <-> exists k, t = td + IZR k * T \/ t = td + d * T + IZR k * T).
Proof.
  intros T tt td d c t HT Htt Hc. destruct (clock_wave T tt td d HT Htt c Hc t) as (v & Ev & Hv). exists v.
  split; [assumption|]. split; [assumption|]. split; [eapply wave_bound; eauto|].
  pose proof (clock_bounds T tt td d HT Htt c Hc) as (B1 & B2 & B3).
  destruct (pmod_spec (t - td + tt / 2) T HT) as [Hp _]. split.
  - intros k. destruct (clock_wave T tt td d HT Htt c Hc (t + IZR k * T)) as (w & Ew & Hw). rewrite Ew. f_equal.
    replace (t + IZR k * T - td + tt / 2) with (t - td + tt / 2 + IZR k * T) in Hw by ring. rewrite pmod_period in Hw by assumption.
    exact (wave_det T tt td d HT Htt c Hc _ _ _ Hp Hw Hv).
  - rewrite (wave_zero T tt td d HT Htt c Hc _ v Hp Hv).
    rewrite (zero_phase T tt td HT t (tt / 2)) by lra. rewrite (zero_phase T tt td HT t (d * T + tt / 2)) by lra. split.
    + intros [[k Hk]|[k Hk]]; exists k; [left|right]; lra.
    + intros [k [Hk|Hk]]; [left|right]; exists k; lra.
Qed.
Print Assumptions C18_waveform.
Example C18_ex : exists c, clock_init 1 (1/10) 0 (1/2) 2 = Ok c /\ clock_edge c (1/4) = Ok 1 /\ clock_edge c (3/4) = Ok (-1).
Proof.
  destruct (proj1 (C18_constructor 1 (1/10) 0 (1/2) 2)) as [c Hc]; [rewrite Rmin_left; lra|]. exists c. split; [assumption|].
  split.
  - destruct (C18_waveform 1 (1/10) 0 (1/2) c (1/4) ltac:(lra) ltac:(lra) Hc) as (v & -> & Hw & _). f_equal.
    rewrite (pmod_unique _ _ (3/10) 0) in Hw by lra. destruct Hw as [[? ?]|[[? ?]|[[? ?]|[? ?]]]]; lra.
  - destruct (C18_waveform 1 (1/10) 0 (1/2) c (3/4) ltac:(lra) ltac:(lra) Hc) as (v & -> & Hw & _). f_equal.
    rewrite (pmod_unique _ _ (8/10) 0) in Hw by lra. destruct Hw as [[? ?]|[[? ?]|[[? ?]|[? ?]]]]; lra.
Qed.

(** C18: a duty cycle of one is documented as allowed but always rejected. *)
Theorem C18_full_duty_cycle_rejected : forall T tt td s, 0 < tt -> clock_init T tt td 1 s = Exn GenericException.
Proof.
  intros T tt td s H. apply C18_constructor. rewrite Rmin_right by lra. intros (_ & H2 & _). lra.
Qed.
Print Assumptions C18_full_duty_cycle_rejected.

(** C18: the flat level does not follow [max_value]: for every swing below 2 the waveform exceeds its "largest value". *)
Theorem C18_flat_level_exceeds_max_value : forall T tt td d s c, 0 < T -> 0 < tt -> 0 <= s < 2 -> clock_init T tt td d s = Ok c ->
  exists t, clock_edge c t = Ok 1 /\ ck_max c < 1.
Proof.
  intros T tt td d s c HT Htt Hs Hc. destruct (clock_init_ok T tt td d s c Hc) as (Ec & Hd & Hst & _).
  pose proof (Rmin_l d (1 - d)) as M1. assert (H1 : T * Rmin d (1 - d) <= T * d) by (apply Rmult_le_compat_l; lra).
  assert (HdT : d * T <= T) by (rewrite <- (Rmult_1_l T) at 2; apply Rmult_le_compat_r; lra).
  assert (M2 : Rmin d (1 - d) <= 1 - d) by apply Rmin_r.
  assert (H2 : T * Rmin d (1 - d) <= T * (1 - d)) by (apply Rmult_le_compat_l; lra).
  exists (td + tt / 2). split; [|rewrite Ec; cbn [ck_max]; lra]. unfold clock_edge. subst c. cbn [ck_T ck_tt ck_td ck_d].
  destruct (Req_bool_spec T 0); [lra|]. rewrite (pmod_unique _ _ tt 0) by lra.
  destruct (Rlt_bool_spec (d * T) tt); [lra|]. unfold pos_edge. cbn [ck_tt ck_max].
  destruct (Req_bool_spec (tt / 2) 0); [lra|]. replace ((tt - tt / 2) / (tt / 2)) with 1 by (field; lra).
  destruct (Rlt_bool_spec (s / 2) 1); [|lra]. destruct (Req_bool_spec 1 0); [lra|]. f_equal. field.
Qed.
Print Assumptions C18_flat_level_exceeds_max_value.
Example C18_ex2 : exists c, clock_init 1 (1/10) 0 (1/2) 1 = Ok c.
Proof. apply C18_constructor. rewrite Rmin_left; lra. Qed.

(** C19 *)
Theorem C19_next_tick : forall c t, 0 < ck_T c -> exists t', next_tick c t = Ok t' /\ t <= t' /\ t' - t < ck_T c /\
  (1 / 100000000 < pmod (t - ck_td c) (ck_T c) -> exists k, t' = ck_td c + IZR k * ck_T c) /\
  (pmod (t - ck_td c) (ck_T c) <= 1 / 100000000 -> t' = t).
Proof. exact next_tick_spec. Qed.
Print Assumptions C19_next_tick.
(** C19: clocks of 100 MHz and above never advance. *)
Theorem C19_fast_clock_stuck : forall c t, 0 < ck_T c <= 1 / 100000000 -> next_tick c t = Ok t.
Proof.
  intros c t [HT H1]. destruct (next_tick_spec c t HT) as (t' & E & _ & _ & _ & H). rewrite E. f_equal. apply H.
  destruct (pmod_spec (t - ck_td c) (ck_T c) HT) as [Hp _]. lra.
Qed.
Print Assumptions C19_fast_clock_stuck.
Theorem C19_reaches_edge_refuted : exists c t t', 0 < ck_T c /\ next_tick c t = Ok t' /\ ~ exists k, t' = ck_td c + IZR k * ck_T c.
Proof.
  exists (mkClock (1 / 100000000) 0 0 (1 / 2) 1), (1 / 200000000), (1 / 200000000). split; [cbn; lra|].
  split; [apply C19_fast_clock_stuck; cbn; lra|]. cbn [ck_td ck_T]. intros [k Hk].
  assert (E : IZR (2 * k) = 1) by (rewrite mult_IZR; lra). apply eq_IZR in E. lia.
Qed.
Print Assumptions C19_reaches_edge_refuted.
Example C19_ex : next_tick (mkClock 1 0 0 (1/2) 1) (5/2) = Ok 3.
Proof.
  unfold next_tick. cbn [ck_T ck_td]. destruct (Req_bool_spec 1 0); [lra|]. rewrite (pmod_unique _ _ (1/2) 2) by lra.
  unfold allclose. rewrite Rminus_0_r, Rabs_pos_eq, Rabs_R0 by lra. destruct (Rle_bool_spec (1/2) (1 / 100000000 + 1 / 100000 * 0)); [lra|].
  f_equal. lra.
Qed.

(** C19: delaying a clock keeps T, tt and the swing but resets the duty cycle to one half; it raises exactly when the total delay
    exceeds T or the transition time does not fit half a period. *)
Theorem C19_delay_clock : forall c delay, let e := if Req_bool delay 0 then ck_d c * ck_T c else delay in
  (ck_td c + e <= ck_T c -> ck_tt c <= ck_T c / 2 ->
     exists c', delay_clock_by_duty_cycle c delay = Ok c' /\ ck_T c' = ck_T c /\ ck_tt c' = ck_tt c /\ ck_max c' = ck_max c /\
       ck_td c' = ck_td c + e /\ ck_d c' = 1 / 2) /\
  (ck_T c < ck_td c + e \/ ck_T c / 2 < ck_tt c -> delay_clock_by_duty_cycle c delay = Exn GenericException).
Proof.
  intros c delay e. unfold delay_clock_by_duty_cycle. fold e.
  destruct (C18_constructor (ck_T c) (ck_tt c) (ck_td c + e) (1/2) (ck_max c * 2)) as [A B]. rewrite Rmin_left in A, B by lra. split.
  - intros H1 H2. destruct A as [c' Hc']; [lra|]. exists c'. destruct (clock_init_ok _ _ _ _ _ _ Hc') as (-> & _).
    cbn. repeat split; auto. field.
  - intros H. apply B. lra.
Qed.
Print Assumptions C19_delay_clock.
Example C19_ex2 : let c := mkClock 1 (1/10) 0 (1/4) 1 in ck_td c + 1/4 <= ck_T c /\ ck_tt c <= ck_T c / 2.
Proof. cbn. lra. Qed.

(** C20: expressions built from evaluating signals, of any depth; [value] is sum and product of the parts. *)
Theorem C20_algebra : forall t s v h, value t s v -> scall s h t = (Ok (CVal v), h).
Proof. intros t s v h H. eapply scall_value; eauto. Qed.
Print Assumptions C20_algebra.
Example C20_ex : value 3 (SSup [SLeaf (fun t => t); SMod [SLeaf (fun t => 2 * t); SLeaf (fun _ => 5)]]) (3 + (2 * 3 * (5 * 1) + 0)).
Proof.
  apply (V_sup 3 _ [3; 2 * 3 * (5 * 1)]). repeat constructor.
  apply (V_mod 3 _ [2 * 3; 5]). repeat constructor.
Qed.
(** C20: a ZeroOrderHold operand: TypeError, and the samples are lost (later evaluations raise AttributeError). *)
Theorem C20_zero_order_hold_operand : forall t l1 vs a l2 h, Forall2 (value t) l1 vs ->
  scall (SSup (l1 ++ SZoh a :: l2)) h t = (Exn TypeError, upd a (ZFloat t) h) /\
  scall (SMod (l1 ++ SZoh a :: l2)) h t = (Exn TypeError, upd a (ZFloat t) h) /\
  forall T t', (a < length h)%nat -> T <> 0 -> zoh_eval (nth a (upd a (ZFloat t) h) (ZFloat 0)) T t' = Exn AttributeError.
Proof.
  intros t l1 vs a l2 h HF. rewrite scall_sup, scall_mod, !(go_list_zoh _ t l1 vs a l2 _ h HF). repeat split.
  intros T t' Ha HT. rewrite nth_upd, Nat.eqb_refl. destruct (Nat.ltb_spec a (length h)); [|lia]. cbn [andb]. unfold zoh_eval.
  destruct (Req_bool_spec T 0); [contradiction|reflexivity].
Qed.
Print Assumptions C20_zero_order_hold_operand.
Theorem C20_sum_of_signals_evaluates_refuted : exists s h t, fst (scall s h t) = Exn TypeError.
Proof. exists (SSup [SLeaf (fun t => t); SZoh 0]), [ZArr [1; 2]], 0. reflexivity. Qed.
Print Assumptions C20_sum_of_signals_evaluates_refuted.

(** C21 *)
Theorem C21_zero_order_hold : forall data T k t, 0 < T -> data <> [] -> IZR (Z.of_nat k) * T <= t < IZR (Z.of_nat (k + 1)) * T ->
  zoh_eval (ZArr data) T t = Ok (nth (k mod length data) data 0).
Proof.
  intros data T k t HT Hd Ht. unfold zoh_eval. destruct (Req_bool_spec T 0); [lra|]. destruct data as [|x data]; [contradiction|].
  set (l := x :: data) in *. do 2 f_equal. rewrite (Ztrunc_div_period t T (Z.of_nat k)) by (auto; try lia; now rewrite Nat2Z.inj_add in Ht).
  assert (length l <> 0)%nat by discriminate. rewrite <- Nat2Z.inj_mod. now rewrite Nat2Z.id.
Qed.
Print Assumptions C21_zero_order_hold.
Theorem C21_zero_order_hold_periodic : forall data T t j, 0 < T -> data <> [] -> 0 <= t ->
  zoh_eval (ZArr data) T (t + IZR (Z.of_nat (j * length data)) * T) = zoh_eval (ZArr data) T t.
Proof.
  intros data T t j HT Hd Ht. pose proof (Zfloor_lb (t / T)) as F1. pose proof (Zfloor_ub (t / T)) as F2.
  assert (E : t = t / T * T) by (field; lra).
  assert (F0 : (0 <= Zfloor (t / T))%Z). { apply Zfloor_lub. apply Rmult_le_pos; [lra|left; now apply Rinv_0_lt_compat]. }
  set (k := Z.to_nat (Zfloor (t / T))). assert (Ek : Z.of_nat k = Zfloor (t / T)) by (unfold k; now rewrite Z2Nat.id).
  rewrite <- Ek in F1, F2.
  assert (G1 : IZR (Z.of_nat k) * T <= t) by (apply Rmult_le_compat_r with (r := T) in F1; lra).
  assert (G2 : t < (IZR (Z.of_nat k) + 1) * T) by (apply Rmult_lt_compat_r with (r := T) in F2; lra).
  rewrite (C21_zero_order_hold data T k t) by (auto; rewrite Nat2Z.inj_add, plus_IZR; change (IZR (Z.of_nat 1)) with 1; lra).
  rewrite (C21_zero_order_hold data T (k + j * length data)).
  - do 2 f_equal. apply Nat.mod_add. destruct data; [contradiction|discriminate].
  - assumption.
  - assumption.
  - rewrite !Nat2Z.inj_add, !plus_IZR. change (IZR (Z.of_nat 1)) with 1. lra.
Qed.
Print Assumptions C21_zero_order_hold_periodic.
Example C21_ex : zoh_eval (ZArr [7; 8; 9]) 2 9 = Ok 8.
Proof. rewrite (C21_zero_order_hold _ 2 4) by (try discriminate; change (IZR (Z.of_nat 4)) with 4; change (IZR (Z.of_nat (4 + 1))) with 5; lra). reflexivity. Qed.

Theorem C21_ramp : forall A p ph off t, 0 < p -> 0 < A -> exists v, ramp_eval (ramp_init A p ph off) t = Ok v /\
  off - A / 2 <= v < off - A / 2 + A * p /\
  (forall k, ramp_eval (ramp_init A p ph off) (t + IZR k * p) = Ok v) /\
  (forall y, off - A / 2 <= y < off - A / 2 + A * p -> exists t', ramp_eval (ramp_init A p ph off) t' = Ok y).
Proof.
  intros A p ph off t Hp HA. unfold ramp_eval, ramp_init. cbn. destruct (Req_bool_spec p 0); [lra|].
  destruct (pmod_spec (t + ph) p Hp) as [Hm _]. eexists. split; [reflexivity|]. split; [|split].
  - assert (0 <= A * pmod (t + ph) p) by (apply Rmult_le_pos; lra).
    assert (A * pmod (t + ph) p < A * p) by (apply Rmult_lt_compat_l; lra). lra.
  - intros k. replace (t + IZR k * p + ph) with (t + ph + IZR k * p) by ring. now rewrite pmod_period.
  - intros y Hy. exists ((y - (off - A / 2)) / A - ph). f_equal. rewrite (pmod_unique _ p ((y - (off - A / 2)) / A) 0); auto.
    + field. lra.
    + split.
      * apply Rmult_le_pos; [lra|left; now apply Rinv_0_lt_compat].
      * apply Rmult_lt_reg_r with A; auto. replace ((y - (off - A / 2)) / A * A) with (y - (off - A / 2)) by (field; lra). lra.
    + ring.
Qed.
Print Assumptions C21_ramp.
(** C21: hence the documented amplitude is exceeded (period 2) or not reached. *)
Theorem C21_ramp_amplitude_refuted : exists A p ph off t1 t2 v1 v2, 0 < p /\ 0 < A /\
  ramp_eval (ramp_init A p ph off) t1 = Ok v1 /\ ramp_eval (ramp_init A p ph off) t2 = Ok v2 /\ A < v1 - v2.
Proof.
  destruct (C21_ramp 1 2 0 0 0 ltac:(lra) ltac:(lra)) as (_ & _ & _ & _ & H).
  destruct (H (- (1 / 2) + 3 / 2)) as [t1 E1]; [lra|]. destruct (H (- (1 / 2))) as [t2 E2]; [lra|].
  exists 1, 2, 0, 0, t1, t2, (- (1 / 2) + 3 / 2), (- (1 / 2)). repeat split; auto; lra.
Qed.
Print Assumptions C21_ramp_amplitude_refuted.

Theorem C21_dac_waveforms : forall t0 t1 amp t,
  (t0 <= t < t1 -> w_eval (WNRZ t0 t1 amp) t = Ok amp) /\ (~ t0 <= t < t1 -> w_eval (WNRZ t0 t1 amp) t = Ok 0) /\
  (t0 <= t -> w_eval (WStep t0 amp) t = Ok amp) /\ (t < t0 -> w_eval (WStep t0 amp) t = Ok 0) /\
  (forall tau, 0 < tau -> t0 <= t -> 0 < amp -> exists v, w_eval (WRC tau t0 amp) t = Ok v /\ 0 < v <= amp /\
     forall s, 0 <= s -> w_eval (WRC tau t0 amp) (t + s) = Ok (v * exp (- s / tau))).
Proof.
  intros t0 t1 amp t. unfold w_eval. repeat split.
  - intros [H1 H2]. rewrite Rlt_bool_true, Rle_bool_true by assumption. reflexivity.
  - intros H. destruct (Rlt_bool_spec t t1), (Rle_bool_spec t0 t); auto. exfalso. apply H. lra.
  - intros H. now rewrite Rle_bool_true.
  - intros H. now rewrite Rle_bool_false.
  - intros tau Htau H Ha. destruct (Rlt_bool_spec t t0); [lra|]. destruct (Req_bool_spec tau 0); [lra|].
    eexists. split; [reflexivity|]. split.
    + split; [apply Rmult_lt_0_compat; [lra|apply exp_pos]|]. rewrite <- (Rmult_1_r amp) at 2. apply Rmult_le_compat_l; [lra|].
      rewrite <- exp_0. destruct (Req_dec t t0) as [->|Hne].
      * unfold Rminus. rewrite Rplus_opp_r. unfold Rdiv. rewrite Rmult_0_l. lra.
      * left. apply exp_increasing. unfold Rdiv. rewrite <- (Rmult_0_l (/ tau)). apply Rmult_lt_compat_r; [now apply Rinv_0_lt_compat|lra].
    + intros s Hs. destruct (Rlt_bool_spec (t + s) t0); [lra|]. f_equal. rewrite Rmult_assoc, <- exp_plus. do 2 f_equal. field. lra.
Qed.
Print Assumptions C21_dac_waveforms.
Example C21_ex2 : w_eval (WNRZ 1 2 5) 1 = Ok 5 /\ w_eval (WNRZ 1 2 5) 2 = Ok 0.
Proof. split; apply C21_dac_waveforms; lra. Qed.
