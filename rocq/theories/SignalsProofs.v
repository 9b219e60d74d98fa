(** Proofs for Signals.v *)
From Coq Require Import List Lia Arith Bool ZArith Reals Lra.
From Flocq Require Import Core.
From Verif Require Import Base Signals.
Import ListNotations.
Open Scope R_scope.

Lemma pmod_spec a T : 0 < T -> 0 <= pmod a T < T /\ exists k, a = pmod a T + IZR k * T.
Proof.
  intros HT. unfold pmod. pose proof (Zfloor_lb (a / T)) as H1. pose proof (Zfloor_ub (a / T)) as H2.
  assert (E : a = a / T * T) by (field; lra).
  split; [split|exists (Zfloor (a / T)); ring].
  - apply Rmult_le_compat_r with (r := T) in H1; lra.
  - apply Rmult_lt_compat_r with (r := T) in H2; lra.
Qed.
Lemma pmod_unique a T r k : 0 < T -> 0 <= r < T -> a = r + IZR k * T -> pmod a T = r.
Proof.
  intros HT Hr E. unfold pmod. assert (EF : Zfloor (a / T) = k).
  { apply Zfloor_imp. rewrite plus_IZR. assert (E2 : a / T = r / T + IZR k) by (rewrite E; field; lra). rewrite E2.
    assert (0 <= r / T) by (apply Rmult_le_pos; [lra|left; apply Rinv_0_lt_compat; lra]).
    assert (r / T < 1) by (apply Rmult_lt_reg_r with T; [lra|]; unfold Rdiv; rewrite Rmult_assoc, Rinv_l; lra). lra. }
  rewrite EF, E. ring.
Qed.
Lemma pmod_period a T k : 0 < T -> pmod (a + IZR k * T) T = pmod a T.
Proof.
  intros HT. destruct (pmod_spec a T HT) as [Hr [j Hj]]. apply (pmod_unique _ _ _ (j + k)); auto. rewrite plus_IZR. lra.
Qed.
Lemma Rb_true_lt a b : a < b -> Rlt_bool a b = true. Proof. apply Rlt_bool_true. Qed.

(** ** Clock *)
(** Independent description of the waveform, as a function of the phase. *)
Definition wave (T tt d phi : R) (v : R) : Prop :=
  (0 <= phi <= tt /\ v = 2 * phi / tt - 1) \/ (tt <= phi <= d * T /\ v = 1) \/
  (d * T <= phi <= d * T + tt /\ v = 1 - 2 * (phi - d * T) / tt) \/ (d * T + tt <= phi /\ v = -1).

Section Clock.
Variables T tt td d : R.
Hypothesis HT : 0 < T.
Hypothesis Htt : 0 < tt.
Variable c : clock.
Hypothesis Hc : clock_init T tt td d 2 = Ok c.

Lemma clock_init_ok swing c' : clock_init T tt td d swing = Ok c' ->
  c' = mkClock T tt td d (swing / 2) /\ 0 < d <= 1 /\ tt <= T * Rmin d (1 - d) /\ td <= T.
Proof.
  clear. unfold clock_init, max_step. destruct (Rlt_bool_spec 1 d); [discriminate|]. destruct (Rle_bool_spec d 0); [discriminate|].
  cbn [orb]. destruct (Rlt_bool_spec (T * Rmin d (1 - d)) tt); [discriminate|]. destruct (Rlt_bool_spec T td); [discriminate|].
  intros E. apply Ok_inj in E. repeat split; auto; lra.
Qed.

Lemma clock_bounds : tt <= d * T /\ d * T + tt <= T /\ 0 < d < 1.
Proof.
  destruct (clock_init_ok 2 c Hc) as (_ & Hd & Hs & _).
  pose proof (Rmin_l d (1 - d)) as M1. pose proof (Rmin_r d (1 - d)) as M2.
  assert (H1 : T * Rmin d (1 - d) <= T * d) by (apply Rmult_le_compat_l; lra).
  assert (H2 : T * Rmin d (1 - d) <= T * (1 - d)) by (apply Rmult_le_compat_l; lra).
  split; [lra|]. split; [lra|]. split; [lra|]. assert (0 < T * (1 - d)) by lra.
  destruct (Rlt_or_le d 1); [assumption|]. exfalso. assert (T * (1 - d) <= 0); [|lra].
  rewrite <- (Rmult_0_r T). apply Rmult_le_compat_l; lra.
Qed.

Lemma pos_edge_spec x : exists v, pos_edge c x = Ok v /\
  (x <= 0 -> v = -1) /\ (0 <= x <= tt -> v = 2 * x / tt - 1) /\ (tt <= x -> v = 1).
Proof.
  destruct (clock_init_ok 2 c Hc) as (-> & _). unfold pos_edge. cbn [ck_tt ck_max].
  destruct (Req_bool_spec (tt / 2) 0); [lra|]. set (tmp := (x - tt / 2) / (tt / 2)).
  assert (Et : tmp = 2 * x / tt - 1) by (unfold tmp; field; lra).
  assert (B : forall y z, y <= z <-> 2 * y / tt <= 2 * z / tt).
  { intros y z. split; intros H'.
    - unfold Rdiv. apply Rmult_le_compat_r; [left; now apply Rinv_0_lt_compat|lra].
    - apply Rmult_le_compat_r with (r := tt) in H'; [|lra]. replace (2 * y / tt * tt) with (2 * y) in H' by (field; lra).
      replace (2 * z / tt * tt) with (2 * z) in H' by (field; lra). lra. }
  pose proof (B x 0) as B0. pose proof (B 0 x) as B0'. pose proof (B x tt) as B1. pose proof (B tt x) as B1'.
  replace (2 * 0 / tt) with 0 in * by (field; lra). replace (2 * tt / tt) with 2 in * by (field; lra).
  rewrite Et. clear tmp Et. set (q := 2 * x / tt) in *.
  destruct (Rlt_bool_spec (2 / 2) (q - 1)).
  - destruct (Req_bool_spec (q - 1) 0); [lra|]. eexists. split; [reflexivity|].
    assert (E1 : (q - 1) / (q - 1) = 1) by (field; lra). rewrite E1.
    split; [intros Hx; apply B0 in Hx; lra|]. split; [intros Hx; destruct Hx as [_ Hx]; apply B1 in Hx; lra|reflexivity].
  - destruct (Rlt_bool_spec (q - 1) (- (2 / 2))).
    + destruct (Req_bool_spec (q - 1) 0); [lra|]. eexists. split; [reflexivity|].
      assert (E1 : - (q - 1) / (q - 1) = -1) by (field; lra). rewrite E1.
      split; [reflexivity|]. split; [intros Hx; destruct Hx as [Hx _]; apply B0' in Hx; lra|].
      intros Hx. apply B1' in Hx. lra.
    + eexists. split; [reflexivity|]. split; [intros Hx; apply B0 in Hx; lra|]. split; [reflexivity|].
      intros Hx. apply B1' in Hx. lra.
Qed.

Lemma clock_wave t : exists v, clock_edge c t = Ok v /\ wave T tt d (pmod (t - td + tt / 2) T) v.
Proof.
  pose proof clock_bounds as (B1 & B2 & B3). destruct (clock_init_ok 2 c Hc) as (Ec & _).
  unfold clock_edge. rewrite Ec. cbn [ck_T ck_tt ck_td ck_d]. rewrite <- Ec.
  destruct (Req_bool_spec T 0); [lra|]. set (phi := pmod (t - td + tt / 2) T).
  destruct (pmod_spec (t - td + tt / 2) T HT) as [Hphi _]. fold phi in Hphi.
  destruct (Rlt_bool_spec (d * T) phi) as [H1|H1].
  - destruct (pos_edge_spec (phi - d * T)) as (v & Ev & P1 & P2 & P3). rewrite Ev. cbn [bind]. eexists. split; [reflexivity|].
    unfold wave. right. right. destruct (Rle_or_lt phi (d * T + tt)).
    + left. split; [lra|]. rewrite P2 by lra. ring.
    + right. split; [lra|]. rewrite P3 by lra. ring.
  - destruct (pos_edge_spec phi) as (v & Ev & P1 & P2 & P3). exists v. split; [assumption|]. unfold wave.
    destruct (Rle_or_lt phi tt); [left|right; left].
    + split; [lra|]. apply P2. lra.
    + split; [lra|]. apply P3. lra.
Qed.

Lemma wave_det phi v w : 0 <= phi < T -> wave T tt d phi v -> wave T tt d phi w -> v = w.
Proof.
  intros Hp Hv Hw. pose proof clock_bounds as (B1 & B2 & B3).
  assert (E1 : forall x, x = tt -> 2 * x / tt - 1 = 1) by (intros; subst; field; lra).
  assert (E2 : forall x, x = d * T -> 1 - 2 * (x - d * T) / tt = 1) by (intros; subst; field; lra).
  assert (E3 : forall x, x = d * T + tt -> 1 - 2 * (x - d * T) / tt = -1) by (intros; subst; field; lra).
  destruct Hv as [[? ->]|[[? ->]|[[? ->]|[? ->]]]]; destruct Hw as [[? ->]|[[? ->]|[[? ->]|[? ->]]]]; try reflexivity; try lra;
    repeat first [rewrite E1 by lra | rewrite E2 by lra | rewrite E3 by lra]; try reflexivity; try lra.
Qed.

Lemma wave_bound phi v : wave T tt d phi v -> -1 <= v <= 1.
Proof.
  assert (B : forall x, 0 <= x <= tt -> 0 <= 2 * x / tt <= 2).
  { intros x Hx. split.
    - apply Rmult_le_pos; [lra|left; now apply Rinv_0_lt_compat].
    - apply Rmult_le_reg_r with tt; [lra|]. replace (2 * x / tt * tt) with (2 * x) by (field; lra). lra. }
  intros [[H ->]|[[? ->]|[[H ->]|[? ->]]]]; try lra.
  - specialize (B phi H). lra.
  - specialize (B (phi - d * T) ltac:(lra)). lra.
Qed.

Lemma wave_zero phi v : 0 <= phi < T -> wave T tt d phi v -> (v = 0 <-> phi = tt / 2 \/ phi = d * T + tt / 2).
Proof.
  pose proof clock_bounds as (B1 & B2 & B3). 
  assert (Q : forall x, 2 * x / tt = 1 -> x = tt / 2).
  { intros x Hx. apply Rmult_eq_reg_r with (2 / tt); [|apply Rgt_not_eq; apply Rdiv_lt_0_compat; lra].
    transitivity (2 * x / tt); [field; lra|]. rewrite Hx. field. lra. }
  intros Hp [[H ->]|[[? ->]|[[H ->]|[? ->]]]]; split; intros HH; try lra.
  - left. apply Q. lra.
  - destruct HH as [->|HH]; [field; lra|lra].
  - right. specialize (Q (phi - d * T)). assert (phi - d * T = tt / 2) by (apply Q; lra). lra.
  - destruct HH as [HH|HH]; [lra|]. rewrite HH. field. lra.
Qed.

Lemma zero_phase t x : 0 <= x < T -> (pmod (t - td + tt / 2) T = x <-> exists k, t = td - tt / 2 + x + IZR k * T).
Proof.
  intros Hx. split.
  - intros E. destruct (pmod_spec (t - td + tt / 2) T HT) as [_ [k Hk]]. exists k. lra.
  - intros [k Hk]. apply (pmod_unique _ _ _ k); auto. lra.
Qed.
End Clock.

(** next_tick *)
Section Tick.
Variables (c : clock) (t : R).
Hypothesis HT : 0 < ck_T c.
Lemma next_tick_spec : exists t', next_tick c t = Ok t' /\ t <= t' /\ t' - t < ck_T c /\
  (1 / 100000000 < pmod (t - ck_td c) (ck_T c) -> exists k, t' = ck_td c + IZR k * ck_T c) /\
  (pmod (t - ck_td c) (ck_T c) <= 1 / 100000000 -> t' = t).
Proof.
  unfold next_tick. destruct (Req_bool_spec (ck_T c) 0); [lra|]. destruct (pmod_spec (t - ck_td c) (ck_T c) HT) as [Hp [k Hk]].
  set (p := pmod _ _) in *. unfold allclose. rewrite Rabs_R0, Rminus_0_r, Rabs_pos_eq by lra.
  destruct (Rle_bool_spec p (1 / 100000000 + 1 / 100000 * 0)) as [H1|H1]; eexists; (split; [reflexivity|]).
  - repeat split; try lra. 
  - repeat split; try lra. intros _. exists (k + 1)%Z. rewrite plus_IZR. lra.
Qed.
End Tick.

(** ** ZOH, ramp *)
Lemma Ztrunc_div_period t T k : 0 < T -> IZR k * T <= t < IZR (k + 1) * T -> (0 <= k)%Z -> Ztrunc (t / T) = k.
Proof.
  intros HT [H1 H2] Hk. assert (0 <= IZR k) by (now apply IZR_le). rewrite Ztrunc_floor.
  - apply Zfloor_imp. split.
    + apply Rmult_le_reg_r with T; auto. replace (t / T * T) with t by (field; lra). lra.
    + apply Rmult_lt_reg_r with T; auto. replace (t / T * T) with t by (field; lra). lra.
  - apply Rmult_le_pos; [|left; now apply Rinv_0_lt_compat]. apply Rle_trans with (IZR k * T); [|lra]. apply Rmult_le_pos; lra.
Qed.

(** ** Signal algebra: the value of an expression without ZeroOrderHold *)
Inductive value (t : R) : sig -> R -> Prop :=
| V_leaf f : value t (SLeaf f) (f t)
| V_sup l vs : Forall2 (value t) l vs -> value t (SSup l) (fold_right Rplus 0 vs)
| V_mod l vs : Forall2 (value t) l vs -> value t (SMod l) (fold_right Rmult 1 vs).

Fixpoint go_list (op : R -> R -> R) (t : R) (l : list sig) (res : R) (h : list zdata) : result callres * list zdata :=
  match l with
  | [] => (Ok (CVal res), h)
  | s :: l => match scall s h t with
              | (Ok (CVal x), h) => go_list op t l (op res x) h
              | (Ok CObj, h) => (Exn TypeError, h)
              | (Exn e, h) => (Exn e, h)
              end
  end.
Lemma scall_sup l h t : scall (SSup l) h t = go_list Rplus t l 0 h.
Proof.
  cbn [scall]. match goal with |- ?F l 0 h = _ => enough (G : forall l r h, F l r h = go_list Rplus t l r h) by apply G end.
  clear. induction l as [|s l IH]; intros r h; [reflexivity|]. cbn [go_list].
  destruct (scall s h t) as [[[x|]|e] h']; auto.
Qed.
Lemma scall_mod l h t : scall (SMod l) h t = go_list Rmult t l 1 h.
Proof.
  cbn [scall]. match goal with |- ?F l 1 h = _ => enough (G : forall l r h, F l r h = go_list Rmult t l r h) by apply G end.
  clear. induction l as [|s l IH]; intros r h; [reflexivity|]. cbn [go_list].
  destruct (scall s h t) as [[[x|]|e] h']; auto.
Qed.

Lemma go_list_values op t l vs : Forall2 (fun s v => forall h, scall s h t = (Ok (CVal v), h)) l vs ->
  forall r h, go_list op t l r h = (Ok (CVal (fold_left op vs r)), h).
Proof. induction 1 as [|s v l vs Hs HF IH]; intros r h; [reflexivity|]. cbn [go_list fold_left]. rewrite Hs. apply IH. Qed.

Lemma fold_left_plus vs r : fold_left Rplus vs r = r + fold_right Rplus 0 vs.
Proof. revert r; induction vs as [|v vs IH]; intros r; cbn [fold_left fold_right]; [ring|]. rewrite IH. ring. Qed.
Lemma fold_left_mult vs r : fold_left Rmult vs r = r * fold_right Rmult 1 vs.
Proof. revert r; induction vs as [|v vs IH]; intros r; cbn [fold_left fold_right]; [ring|]. rewrite IH. ring. Qed.

Fixpoint ssize (s : sig) : nat :=
  match s with SLeaf _ | SZoh _ => 1 | SSup l | SMod l => S (fold_right (fun x n => (ssize x + n)%nat) 0%nat l) end.

Lemma scall_value t : forall n s v, (ssize s <= n)%nat -> value t s v -> forall h, scall s h t = (Ok (CVal v), h).
Proof.
  induction n as [|n IH]; intros s v Hn Hv h; [destruct s; cbn [ssize] in Hn; lia|].
  assert (HL : forall l vs, (fold_right (fun x n => (ssize x + n)%nat) 0%nat l <= n)%nat -> Forall2 (value t) l vs ->
     Forall2 (fun s v => forall h, scall s h t = (Ok (CVal v), h)) l vs).
  { intros l vs Hl HF. induction HF as [|s' v' l vs Hs HF IHF]; constructor.
    - apply IH; [cbn [fold_right] in Hl; lia|assumption].
    - apply IHF. cbn [fold_right] in Hl. lia. }
  inversion Hv as [f|l vs HF|l vs HF]; subst.
  - reflexivity.
  - rewrite scall_sup. cbn [ssize] in Hn. rewrite (go_list_values _ _ _ vs) by (apply HL; [lia|assumption]).
    rewrite fold_left_plus. do 3 f_equal. ring.
  - rewrite scall_mod. cbn [ssize] in Hn. rewrite (go_list_values _ _ _ vs) by (apply HL; [lia|assumption]).
    rewrite fold_left_mult. do 3 f_equal. ring.
Qed.

Lemma go_list_zoh op t l1 vs a l2 r h : Forall2 (value t) l1 vs ->
  go_list op t (l1 ++ SZoh a :: l2) r h = (Exn TypeError, upd a (ZFloat t) h).
Proof.
  intros HF. revert r. induction HF as [|s v l vs Hs HF IH]; intros r; cbn [app go_list]; [reflexivity|].
  rewrite (scall_value t (ssize s) s v (le_n _) Hs). apply IH.
Qed.
