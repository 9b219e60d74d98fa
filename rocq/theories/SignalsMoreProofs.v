From Coq Require Import List Arith Bool ZArith Reals Lra Lia Psatz.
From Flocq Require Import Core.
From Coquelicot Require Import Complex.
From Verif Require Import Base SignalsMore.
Import ListNotations.
Open Scope R_scope.

(** ** quadrature *)
Lemma cis_mult a b : (cis a * cis b)%C = cis (a + b).
Proof. unfold cis, Cmult. cbn. rewrite cos_plus, sin_plus. f_equal; ring. Qed.
Lemma cis_opp a : (cis a * cis (- a))%C = 1%C.
Proof. rewrite cis_mult. replace (a + - a) with 0 by ring. unfold cis. now rewrite cos_0, sin_0. Qed.
Lemma cis_mod a : Cmod (cis a) = 1.
Proof. unfold Cmod, cis. cbn [fst snd]. replace (cos a ^ 2 + sin a ^ 2) with 1; [apply sqrt_1|]. pose proof (sin2_cos2 a) as H. unfold Rsqr in H. lra. Qed.
Theorem quadrature_pair amp w i q phase offset t iv qv : i t = Ok iv -> q t = Ok qv ->
  exists a b x y, get_quadrature_signal_pair amp w i q phase offset = Ok [a; b] /\ quadrature_eval a t = Ok x /\ quadrature_eval b t = Ok y /\
  (x, y) = (RtoC amp * ((iv, qv) * cis (w * t)))%C.
Proof.
  intros Hi Hq. do 4 eexists. split; [reflexivity|]. unfold quadrature_eval. cbn [q_i q_q q_amp q_phase q_w]. rewrite Hi, Hq. cbn [bind].
  split; [reflexivity|]. split; [reflexivity|]. unfold dotm2, dot2, rotation_matrix, cis, Cmult, RtoC. cbn [fst snd]. f_equal; ring.
Qed.
Theorem modulator_pair i q carrier t iv qv : i t = Ok iv -> q t = Ok qv ->
  exists x, sine_modulator_eval i q carrier t = Ok x /\ x = / sqrt 2 * fst ((iv, qv) * cis (- (2 * PI * carrier * t)))%C.
Proof.
  intros Hi Hq. eexists. split; [unfold sine_modulator_eval; rewrite Hi, Hq; reflexivity|]. unfold cis, Cmult. cbn [fst snd]. rewrite cos_neg, sin_neg. unfold Rdiv. ring.
Qed.

(** ** sinc *)
Lemma sin_le_x x : 0 <= x -> sin x <= x.
Proof. intros H. destruct (Req_dec x 0) as [->|N]; [rewrite sin_0; lra|]. pose proof (sin_lt_x x ltac:(lra)). lra. Qed.
Lemma sinc_abs x : x <> 0 -> Rabs (sin x / x) <= 1.
Proof.
  intro N. assert (P : forall y, 0 < y -> Rabs (sin y / y) <= 1).
  { intros y Hy. apply Rabs_le. split.
    - apply Rmult_le_reg_r with y; [exact Hy|]. unfold Rdiv. rewrite Rmult_assoc, Rinv_l, Rmult_1_r by lra. destruct (Rle_dec y 1) as [H|H].
      + assert (0 <= sin y) by (apply sin_ge_0; pose proof PI_RGT_0; pose proof PI2_3_2; lra). lra.
      + pose proof (SIN_bound y). lra.
    - apply Rmult_le_reg_r with y; [exact Hy|]. unfold Rdiv. rewrite Rmult_assoc, Rinv_l, Rmult_1_r by lra. pose proof (sin_lt_x y Hy). lra. }
  destruct (Rlt_le_dec 0 x) as [H|H]; [now apply P|]. replace (sin x / x) with (sin (- x) / - x) by (rewrite sin_neg; field; exact N). apply P. lra.
Qed.
Lemma np_sinc_abs x : Rabs (np_sinc x) <= 1.
Proof.
  unfold np_sinc. destruct (Req_bool_spec x 0) as [E|N]; [rewrite Rabs_R1; lra|]. apply sinc_abs. apply Rmult_integral_contrapositive_currified; [apply PI_neq0|exact N].
Qed.
Lemma np_sinc_cont x : Ranalysis1.continuity_pt np_sinc x.
Proof.
  destruct (Req_dec x 0) as [->|N].
  - intros e He. (* sin y / y -> 1 *)
    destruct (derivable_pt_lim_sin_0 e He) as [d Hd].
    assert (Pp := PI_RGT_0). exists (d / PI). split; [apply Rdiv_lt_0_compat; [apply cond_pos|exact Pp]|]. intros y [_ Hy]. unfold R_dist in *. cbn in Hy |- *. unfold R_dist in *. unfold np_sinc at 2. rewrite Req_bool_true by reflexivity.
    unfold np_sinc. destruct (Req_bool_spec y 0) as [E|Ny]; [rewrite Rminus_diag_eq by reflexivity; rewrite Rabs_R0; lra|].
    specialize (Hd (PI * y) (Rmult_integral_contrapositive_currified _ _ PI_neq0 Ny)). rewrite Rminus_0_r in Hy. rewrite Rplus_0_l, sin_0, Rminus_0_r in Hd. apply Hd.
    rewrite Rabs_mult, (Rabs_pos_eq PI) by lra. apply Rmult_lt_reg_r with (/ PI); [apply Rinv_0_lt_compat; lra|]. replace (PI * Rabs y * / PI) with (Rabs y) by (field; lra). exact Hy.
  - apply (continuity_pt_locally_ext (fun y => sin (PI * y) / (PI * y)) np_sinc (Rabs x)).
    + now apply Rabs_pos_lt.
    + intros y Hy. unfold np_sinc. rewrite Req_bool_false; [reflexivity|]. intros ->. unfold R_dist in Hy. cbn in Hy. revert Hy. unfold Rabs. destruct (Rcase_abs (0 - x)), (Rcase_abs x); lra.
    + reg. apply Rmult_integral_contrapositive_currified; [apply PI_neq0|exact N].
Qed.
Lemma np_sinc_zero k : k <> 0%Z -> np_sinc (IZR k) = 0.
Proof.
  intro N. unfold np_sinc. rewrite Req_bool_false by (now apply (IZR_neq k 0)). replace (sin (PI * IZR k)) with 0; [unfold Rdiv; ring|]. symmetry. apply sin_eq_0_1. exists k. ring.
Qed.

(** ** random signals *)
Section Random.
Variable draw : nat -> nat -> R.
(** the values in the order in which they are drawn *)
Definition stream (n : nat) : R := draw (n / bufsize) (n mod bufsize).
Definition updates (s : rst) : nat := (r_batch s * bufsize + r_idx s)%nat.
Lemma bufsize_pos : (bufsize <> 0)%nat.
Proof. unfold bufsize. apply Nat.pow_nonzero. discriminate. Qed.
Definition ok (s : rst) : Prop := (r_idx s < bufsize)%nat.
Lemma stream_at s : ok s -> stream (updates s) = draw (r_batch s) (r_idx s).
Proof.
  intro H. unfold stream, updates. pose proof bufsize_pos. rewrite Nat.div_add_l by assumption. rewrite (Nat.div_small _ _ H), Nat.add_0_r. f_equal.
  rewrite Nat.add_comm, Nat.mod_add by assumption. now apply Nat.mod_small.
Qed.
Lemma advance_spec s t : ok s -> ok (advance s t) /\ updates (advance s t) = S (updates s) /\ r_t (advance s t) = t.
Proof.
  intro H. unfold advance, ok, updates in *. destruct (Nat.eqb_spec (S (r_idx s)) bufsize) as [E|E]; cbn [r_idx r_batch r_t]; repeat split; try lia; pose proof bufsize_pos; lia.
Qed.
Lemma calls_nth ev s ts n : (forall s t, snd (ev s t) = draw (r_batch (fst (ev s t))) (r_idx (fst (ev s t)))) -> (n < length ts)%nat ->
  nth n (calls ev s ts) 0 = draw (r_batch (after ev s (firstn (S n) ts))) (r_idx (after ev s (firstn (S n) ts))).
Proof.
  intro He. revert s n. induction ts as [|t ts IH]; intros s n Hn; [cbn in Hn; lia|]. cbn [calls]. pose proof (He s t) as Ht. destruct (ev s t) as [s' x] eqn:E. cbn [snd fst] in Ht. destruct n as [|n].
  - cbn [nth firstn after]. rewrite E. exact Ht.
  - cbn [nth]. cbn in Hn. rewrite (IH s' n) by lia. cbn [firstn after]. rewrite E. reflexivity.
Qed.
Lemma after_snoc ev s ts t : after ev s (ts ++ [t]) = fst (ev (after ev s ts) t).
Proof. revert s. induction ts as [|x ts IH]; intro s; [reflexivity|]. cbn. apply IH. Qed.

(** evaluation times: not decreasing, from 0 on *)
Definition ascending (ts : list R) : Prop := forall i j, (i <= j < length ts)%nat -> 0 <= nth i ts 0 <= nth j ts 0.
Lemma ascending_app ts t : ascending (ts ++ [t]) -> ascending ts /\ (forall x, In x ts -> 0 <= x <= t) /\ 0 <= t.
Proof.
  intro H. split; [|split].
  - intros i j Hij. specialize (H i j). rewrite app_length in H. cbn in H. rewrite !app_nth1 in H by lia. apply H. lia.
  - intros x Hx. apply (In_nth _ _ 0) in Hx. destruct Hx as (i & Hi & <-). specialize (H i (length ts)). rewrite app_length in H. cbn in H. rewrite (app_nth1 ts _ _ Hi) in H. rewrite nth_middle in H. apply H. lia.
  - specialize (H (length ts) (length ts)). rewrite app_length, nth_middle in H. cbn in H. apply H. lia.
Qed.
Notation held T := (after (held_eval draw T)).
Notation unif T := (after (uniform_eval draw T)).
Lemma held_inv T ts : 0 < T -> ascending ts -> ok (held T rst0 ts) /\ 0 <= r_t (held T rst0 ts) /\ INR (updates (held T rst0 ts)) * T <= r_t (held T rst0 ts) /\
  (r_t (held T rst0 ts) = 0 \/ In (r_t (held T rst0 ts)) ts) /\ (forall t, In t ts -> t < r_t (held T rst0 ts) + T).
Proof.
  intros HT. induction ts as [|t ts IH] using rev_ind; intro Ha.
  - split; [unfold ok; pose proof bufsize_pos; cbn [after rst0 r_idx]; lia|]. unfold updates. cbn [after rst0 r_t r_batch r_idx]. replace (0 * bufsize + 0)%nat with O by lia. cbn [INR].
    split; [lra|]. split; [lra|]. split; [now left|intros t []].
  - destruct (ascending_app _ _ Ha) as (Ha' & Hl & Ht). destruct (IH Ha') as (O & P & Q & I & L). rewrite after_snoc. set (s := held T rst0 ts) in *. unfold held_eval. cbn [fst].
    destruct (Rle_bool_spec T (t - r_t s)) as [H|H].
    + destruct (advance_spec s t O) as (O' & U & E). rewrite E, U. split; [exact O'|]. split; [exact Ht|]. split; [rewrite S_INR; lra|]. split; [right; apply in_or_app; right; now left|].
      intros x Hx. apply in_app_or in Hx. destruct Hx as [Hx|[<-|[]]]; [|lra]. pose proof (Hl x Hx). lra.
    + split; [exact O|]. split; [exact P|]. split; [exact Q|]. split; [destruct I as [I|I]; [now left|right; apply in_or_app; now left]|].
      intros x Hx. apply in_app_or in Hx. destruct Hx as [Hx|[<-|[]]]; [now apply L|lra].
Qed.
(** every multiple of the period up to the last time is one of the times *)
Definition on_grid (T : R) (ts : list R) : Prop := forall t j, In t ts -> (0 < j)%nat -> INR j * T <= t -> In (INR j * T) ts.
Lemma held_grid T ts : 0 < T -> ascending ts -> on_grid T ts -> r_t (held T rst0 ts) = INR (updates (held T rst0 ts)) * T.
Proof.
  intros HT. induction ts as [|t ts IH] using rev_ind; intros Ha Hg.
  - unfold updates. cbn [after rst0 r_t r_batch r_idx]. replace (0 * bufsize + 0)%nat with O by lia. cbn [INR]. lra.
  - destruct (ascending_app _ _ Ha) as (Ha' & Hl & Ht). destruct (held_inv T ts HT Ha') as (O & P & Q & I & L).
    assert (Hg' : on_grid T ts).
    { intros x j Hx Hj Hle. assert (G : In (INR j * T) (ts ++ [t])) by (apply (Hg x j); [apply in_or_app; now left|exact Hj|exact Hle]). apply in_app_or in G. destruct G as [G|[G|[]]]; [exact G|].
      pose proof (Hl x Hx). assert (x = t) by lra. now rewrite <- G, <- H0. }
    specialize (IH Ha' Hg'). rewrite after_snoc. set (s := held T rst0 ts) in *. unfold held_eval. cbn [fst].
    destruct (Rle_bool_spec T (t - r_t s)) as [H|H]; [|exact IH]. destruct (advance_spec s t O) as (O' & U & E). rewrite E, U, S_INR.
    assert (G : In (INR (S (updates s)) * T) (ts ++ [t])) by (apply (Hg t (S (updates s))); [apply in_or_app; right; now left|lia|rewrite S_INR; lra]).
    apply in_app_or in G. rewrite S_INR in G. destruct G as [G|[G|[]]]; [|lra]. pose proof (L _ G). lra.
Qed.
Lemma held_last T ts t : 0 < T -> ascending (ts ++ [t]) -> on_grid T (ts ++ [t]) ->
  let n := updates (held T rst0 (ts ++ [t])) in ok (held T rst0 (ts ++ [t])) /\ INR n * T <= t < (INR n + 1) * T.
Proof.
  intros HT Ha Hg n. destruct (held_inv T _ HT Ha) as (O & _ & Q & I & L). pose proof (held_grid T _ HT Ha Hg) as E. split; [exact O|]. fold n in E.
  assert (Ht : In t (ts ++ [t])) by (apply in_or_app; right; now left). pose proof (L t Ht). destruct (ascending_app _ _ Ha) as (_ & Hl & Ht0).
  assert (r_t (held T rst0 (ts ++ [t])) <= t). { destruct I as [I|I]; [lra|]. apply in_app_or in I. destruct I as [I|[I|[]]]; [now apply Hl|lra]. }
  split; nra.
Qed.
(** rate: the updates are at least [T] and, for gaps up to [g], less than [T + g] apart *)
Definition gaps (g : R) (ts : list R) : Prop := forall i, (i < length ts)%nat -> nth i ts 0 - (match i with O => 0 | S i => nth i ts 0 end) <= g.
Lemma gaps_app g ts t : gaps g (ts ++ [t]) -> gaps g ts /\ t - last ts 0 <= g.
Proof.
  intro H. split.
  - intros i Hi. specialize (H i). rewrite app_length in H. cbn in H. rewrite app_nth1 in H by lia. destruct i as [|i]; [apply H; lia|]. rewrite app_nth1 in H by lia. apply H; lia.
  - specialize (H (length ts)). rewrite app_length, nth_middle in H. cbn in H. destruct ts as [|x ts] using rev_ind; [apply H; cbn; lia|]. rewrite last_last. rewrite app_length in H. cbn in H. rewrite Nat.add_1_r in H.
    rewrite app_nth1 in H by (rewrite app_length; cbn; lia). rewrite nth_middle in H. apply H. lia.
Qed.
Lemma last_in (ts : list R) : ts = [] \/ In (last ts 0) ts.
Proof. destruct ts as [|x ts] using rev_ind; [now left|right]. rewrite last_last. apply in_or_app. right. now left. Qed.
Lemma held_rate T g ts : 0 < T -> 0 <= g -> ascending ts -> gaps g ts -> r_t (held T rst0 ts) <= INR (updates (held T rst0 ts)) * (T + g).
Proof.
  intros HT Hg. induction ts as [|t ts IH] using rev_ind; intros Ha Gp.
  - unfold updates. cbn [after rst0 r_t r_batch r_idx]. replace (0 * bufsize + 0)%nat with O by lia. cbn [INR]. lra.
  - destruct (ascending_app _ _ Ha) as (Ha' & Hl & Ht). destruct (gaps_app _ _ _ Gp) as [Gp' G]. destruct (held_inv T ts HT Ha') as (O & P & Q & I & L). specialize (IH Ha' Gp').
    rewrite after_snoc. set (s := held T rst0 ts) in *. unfold held_eval. cbn [fst]. destruct (Rle_bool_spec T (t - r_t s)) as [H|H]; [|exact IH].
    destruct (advance_spec s t O) as (O' & U & E). rewrite E, U, S_INR. assert (last ts 0 < r_t s + T); [|lra]. destruct (last_in ts) as [->|Hi]; [cbn; lra|now apply L].
Qed.

Lemma unif_inv T ts : 0 < T -> ascending ts -> gaps T ts -> let s := unif T rst0 ts in ok s /\ r_t s = INR (updates s) * T /\ (last ts 0 <= r_t s + T) /\ ((updates s = 0)%nat \/ r_t s < last ts 0).
Proof.
  intros HT. cbv zeta. induction ts as [|t ts IH] using rev_ind; intros Ha Gp.
  - split; [unfold ok; pose proof bufsize_pos; cbn [after rst0 r_idx]; lia|]. unfold updates. cbn [after rst0 r_t r_batch r_idx last]. replace (0 * bufsize + 0)%nat with O by lia. cbn [INR].
    split; [lra|]. split; [lra|now left].
  - destruct (ascending_app _ _ Ha) as (Ha' & Hl & Ht). destruct (gaps_app _ _ _ Gp) as [Gp' G]. destruct (IH Ha' Gp') as (O & E & L & B). rewrite after_snoc, last_last.
    set (s := unif T rst0 ts) in *. unfold uniform_eval. cbn [fst]. destruct (Rlt_bool_spec T (t - r_t s)) as [H|H].
    + destruct (advance_spec s (r_t s + T) O) as (O' & U & E'). rewrite E', U, S_INR. split; [exact O'|]. split; [lra|]. split; [lra|]. right. lra.
    + split; [exact O|]. split; [exact E|]. split; [lra|]. destruct B as [B|B]; [now left|right]. destruct (last_in ts) as [Z|Hi]; [|pose proof (Hl _ Hi); lra]. subst ts. cbn in B. cbn in s. subst s. cbn in B. lra.
Qed.
Lemma unif_tick T s : ok s -> ok (uniform_tick draw T s) /\ updates (uniform_tick draw T s) = S (updates s) /\ r_t (uniform_tick draw T s) = r_t s + T.
Proof.
  intro O. unfold uniform_tick, uniform_eval. cbn [fst]. rewrite Rlt_bool_true by lra. now apply advance_spec.
Qed.
End Random.
Lemma combined_iff l : (exists b, combined_piecewise l = Ok b) <-> ~ In None l.
Proof.
  induction l as [|[b|] l IH]; cbn; [split; [tauto|eauto]| |split; [intros [? ?]; discriminate|tauto]].
  split.
  - intros [r H] [X|X]; [discriminate|]. apply IH in X; [exact X|]. destruct (combined_piecewise l); [eauto|discriminate].
  - intro H. destruct (proj2 IH) as [r Hr]; [tauto|]. rewrite Hr. cbn. eauto.
Qed.
Lemma combined_value l b : combined_piecewise l = Ok b -> (b = true <-> forall x, In x l -> x = Some true).
Proof.
  revert b. induction l as [|[x|] l IH]; cbn; intros b H; [injection H as <-; split; [tauto|reflexivity]| |discriminate].
  destruct (combined_piecewise l) as [r|]; [|discriminate]. cbn in H. injection H as <-. rewrite andb_true_iff, (IH r eq_refl). split.
  - intros [-> Hl] y [<-|Hy]; auto.
  - intro Hl. split; [|intros y Hy; apply Hl; now right]. assert (Some x = Some true) by (apply Hl; now left). congruence.
Qed.
