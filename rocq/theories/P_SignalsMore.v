(** C97-C101: quadrature, sinc and random signals, demodulation, arrays as simulators. *)
From Coq Require Import List Arith Bool ZArith Reals Lra Lia.
From Flocq Require Import Core.
From Coquelicot Require Import Complex.
From Verif Require Import Base SignalsMore SignalsMoreProofs.
Import ListNotations.
Open Scope R_scope.

(** ** C97: [get_quadrature_signal_pair] is the baseband signal i + j q turned by the carrier; [cis a] is exp(j a) *)
Theorem C97_pair : forall amp w i q phase offset t iv qv, i t = Ok iv -> q t = Ok qv ->
  exists a b x y, get_quadrature_signal_pair amp w i q phase offset = Ok [a; b] /\ quadrature_eval a t = Ok x /\ quadrature_eval b t = Ok y /\
  ((x, y) : C) = (RtoC amp * ((iv, qv) * (cos (w * t), sin (w * t))))%C /\ x ^ 2 + y ^ 2 = amp ^ 2 * (iv ^ 2 + qv ^ 2).
Proof.
  intros amp w i q phase offset t iv qv Hi Hq. destruct (quadrature_pair amp w i q phase offset t iv qv Hi Hq) as (a & b & x & y & H1 & H2 & H3 & E). exists a, b, x, y.
  split; [exact H1|]. split; [exact H2|]. split; [exact H3|]. split; [exact E|]. unfold cis, Cmult, RtoC in E. cbn [fst snd] in E. injection E as -> ->.
  pose proof (sin2_cos2 (w * t)) as S. unfold Rsqr in S. transitivity (amp ^ 2 * (iv ^ 2 + qv ^ 2) * (sin (w * t) * sin (w * t) + cos (w * t) * cos (w * t))); [ring|rewrite S; ring].
Qed.
Print Assumptions C97_pair.
(** phase and offset are not used: the in-phase signal of a constant with an offset and a phase is that without *)
Theorem C97_offset_refuted : exists amp w phase offset t a b x, get_quadrature_signal_pair amp w (fun _ => Ok 1) (fun _ => Ok 0) phase offset = Ok [a; b] /\ quadrature_eval a t = Ok x /\
  phase = 0 /\ x <> amp * cos (w * t + phase) + offset.
Proof.
  exists 1, 1, 0, 1, 0. do 3 eexists. split; [reflexivity|]. split; [reflexivity|]. split; [reflexivity|]. unfold dot2, dotm2, rotation_matrix; cbn [fst snd dot2 dotm2 rotation_matrix q_phase q_w q_amp]; unfold dot2; cbn [fst snd]. replace (1 * 0) with 0 by ring. replace (0 + 0) with 0 by ring. rewrite cos_0, sin_0. lra.
Qed.
Print Assumptions C97_offset_refuted.
Theorem C97_phase_refuted : exists amp w phase offset t a b x, get_quadrature_signal_pair amp w (fun _ => Ok 1) (fun _ => Ok 0) phase offset = Ok [a; b] /\ quadrature_eval a t = Ok x /\
  offset = 0 /\ x <> amp * cos (w * t + phase) + offset.
Proof.
  exists 1, 1, PI, 0, 0. do 3 eexists. split; [reflexivity|]. split; [reflexivity|]. split; [reflexivity|]. unfold dot2, dotm2, rotation_matrix; cbn [fst snd dot2 dotm2 rotation_matrix q_phase q_w q_amp]; unfold dot2; cbn [fst snd]. replace (1 * 0) with 0 by ring. replace (0 + PI) with PI by ring. rewrite cos_0, sin_0, cos_PI. lra.
Qed.
Print Assumptions C97_phase_refuted.
(** The signal SineWaveModulator turns the other way, and is scaled: it is the in-phase part of the pair for i - j q over sqrt 2 *)
Theorem C97_modulator : forall i q carrier t iv qv, i t = Ok iv -> q t = Ok qv ->
  exists x, sine_modulator_eval i q carrier t = Ok x /\ x = / sqrt 2 * fst (((iv, qv) : C) * (cos (2 * PI * carrier * t), (- sin (2 * PI * carrier * t))%R))%C /\
  forall phase offset a b y, get_quadrature_signal_pair 1 (2 * PI * carrier) i (fun t => bind (q t) (fun v => Ok (- v))) phase offset = Ok [a; b] -> quadrature_eval a t = Ok y -> x = / sqrt 2 * y.
Proof.
  intros i q carrier t iv qv Hi Hq. destruct (modulator_pair i q carrier t iv qv Hi Hq) as (x & H & E). exists x. split; [exact H|]. unfold cis in E. rewrite cos_neg, sin_neg in E. split; [exact E|].
  intros phase offset a b y Hp Hy. destruct (quadrature_pair 1 (2 * PI * carrier) i (fun t => bind (q t) (fun v => Ok (- v))) phase offset t iv (- qv) Hi) as (a' & b' & x' & y' & H1 & H2 & _ & E2); [now rewrite Hq|].
  rewrite H1 in Hp. injection Hp as -> ->. rewrite H2 in Hy. injection Hy as ->. unfold cis, Cmult, RtoC in E2. cbn [fst snd] in E2. injection E2 as E2 _. rewrite E, E2. unfold Cmult. cbn [fst snd]. ring.
Qed.
Print Assumptions C97_modulator.
Theorem C97_modulator_refuted : exists i q carrier t a b x y, get_quadrature_signal_pair 1 (2 * PI * carrier) i q 0 0 = Ok [a; b] /\ quadrature_eval a t = Ok y /\ sine_modulator_eval i q carrier t = Ok x /\
  x <> / sqrt 2 * y.
Proof.
  exists (fun _ => Ok 0), (fun _ => Ok 1), 1, (1 / 4). do 4 eexists. split; [reflexivity|]. split; [reflexivity|]. split; [reflexivity|]. unfold dot2, dotm2, rotation_matrix. cbn [fst snd q_amp q_w q_phase].
  replace (2 * PI * 1 * (1 / 4)) with (PI / 2) by field. rewrite cos_PI2, sin_PI2. assert (0 < / sqrt 2) by (apply Rinv_0_lt_compat, sqrt_lt_R0; lra). unfold dot2. cbn [fst snd]. unfold Rdiv. set (r := / sqrt 2) in *. intro E. ring_simplify in E. lra.
Qed.
Print Assumptions C97_modulator_refuted.

(** ** C98: SincPulse *)
Theorem C98_evaluate : forall s, 0 < sp_bw s ->
  (forall t, exists x, sinc_eval s t = Ok x /\ Rabs (x - sp_off s) <= Rabs (sp_amp s)) /\
  sinc_eval s (sp_t0 s) = Ok (sp_amp s + sp_off s) /\
  (forall k, k <> 0%Z -> sinc_eval s (sp_t0 s + IZR k / (2 * sp_bw s)) = Ok (sp_off s)) /\
  (forall t, t <> sp_t0 s -> sinc_eval s t = Ok (sp_amp s * (sin (2 * PI * sp_bw s * (t - sp_t0 s)) / (2 * PI * sp_bw s * (t - sp_t0 s))) + sp_off s)) /\
  exists f, (forall t, sinc_eval s t = Ok (f t)) /\ forall t, Ranalysis1.continuity_pt f t.
Proof.
  intros s Hb. unfold sinc_eval. split; [|split; [|split; [|split]]].
  - intro t. eexists. split; [reflexivity|]. replace (sp_amp s * np_sinc (2 * sp_bw s * (t - sp_t0 s)) + sp_off s - sp_off s) with (sp_amp s * np_sinc (2 * sp_bw s * (t - sp_t0 s))) by ring.
    rewrite Rabs_mult. rewrite <- (Rmult_1_r (Rabs (sp_amp s))) at 2. apply Rmult_le_compat_l; [apply Rabs_pos|apply np_sinc_abs].
  - f_equal. unfold np_sinc. rewrite Req_bool_true by ring. ring.
  - intros k Hk. f_equal. replace (2 * sp_bw s * (sp_t0 s + IZR k / (2 * sp_bw s) - sp_t0 s)) with (IZR k) by (field; lra). rewrite np_sinc_zero by exact Hk. ring.
  - intros t Ht. f_equal. unfold np_sinc. rewrite Req_bool_false. { replace (PI * (2 * sp_bw s * (t - sp_t0 s))) with (2 * PI * sp_bw s * (t - sp_t0 s)) by ring. reflexivity. }
    intro E. apply Rmult_integral in E. destruct E as [E|E]; lra.
  - eexists. split; [reflexivity|]. intro t. apply (continuity_pt_plus (fun t => sp_amp s * np_sinc (2 * sp_bw s * (t - sp_t0 s))) (fun _ => sp_off s)); [|apply continuity_pt_const; intros ? ?; reflexivity].
    apply (continuity_pt_mult (fun _ => sp_amp s)); [apply continuity_pt_const; intros ? ?; reflexivity|].
    apply (continuity_pt_comp (fun t => 2 * sp_bw s * (t - sp_t0 s)) np_sinc); [reg|apply np_sinc_cont].
Qed.
Print Assumptions C98_evaluate.
(** [_mpmath] has no offset and raises at the peak *)
Theorem C98_mpmath : forall s, 0 < sp_bw s -> sinc_mpmath s (sp_t0 s) = Exn ZeroDivisionError /\
  forall t, t <> sp_t0 s -> exists x y, sinc_eval s t = Ok x /\ sinc_mpmath s t = Ok y /\ x = y + sp_off s.
Proof.
  intros s Hb. pose proof PI_RGT_0. unfold sinc_mpmath. split; [rewrite Req_bool_true by ring; reflexivity|]. intros t Ht. destruct (C98_evaluate s Hb) as (_ & _ & _ & E & _). rewrite (E t Ht).
  rewrite Req_bool_false. { do 2 eexists. split; [reflexivity|]. split; [reflexivity|]. unfold Rdiv. ring. }
  intro Z. apply Rmult_integral in Z. destruct Z as [Z|Z]; [|lra]. assert (0 < 2 * PI * sp_bw s) by (apply Rmult_lt_0_compat; [lra|exact Hb]). lra.
Qed.
Print Assumptions C98_mpmath.
(** [symbolic] is another signal: its first zero is not at 1 / (2 bandwidth) *)
Theorem C98_symbolic_refuted : exists s t x y, sinc_eval s t = Ok x /\ sinc_symbolic s t = Ok y /\ sp_amp s = 1 /\ x = 0 /\ 1 / 2 < y.
Proof.
  exists (mkSinc 1 (1 / 2) 0 0), 1. do 2 eexists. split; [reflexivity|]. split; [reflexivity|]. split; [reflexivity|]. cbn [sp_amp sp_bw sp_t0 sp_off]. split.
  - replace (2 * (1 / 2) * (1 - 0)) with (IZR 1) by field. rewrite np_sinc_zero by discriminate. ring.
  - replace (2 * (1 / 2) * (1 - 0)) with 1 by field. unfold sympy_sinc. rewrite Req_bool_false by lra. pose proof (sin_lb_gt_0 1 ltac:(lra) ltac:(pose proof PI2_3_2; lra)) as _.
    assert (L : 1 - 1 / 6 <= sin 1); [|lra]. pose proof (sin_bound 1 0 ltac:(lra) ltac:(pose proof PI2_3_2; pose proof PI_RGT_0; lra)) as [L _]. unfold sin_approx, sin_term in L. cbn in L. lra.
Qed.
Print Assumptions C98_symbolic_refuted.

(** ** C99: random signals.  [draw b i]: entry [i] of the [b]-th array of 2^10 values that the object draws *)
(** Finite alphabets and Gaussian: evaluated at times that include all multiples of T, the value in [nT, (n+1)T) is the n-th *)
Theorem C99_held : forall draw T ts k n, 0 < T -> ascending ts -> on_grid T ts -> (k < length ts)%nat -> INR n * T <= nth k ts 0 < (INR n + 1) * T ->
  nth k (calls (held_eval draw T) rst0 ts) 0 = draw (n / Nat.pow 2 10)%nat (n mod Nat.pow 2 10)%nat.
Proof.
  intros draw T ts k n HT Ha Hg Hk Hn. rewrite (calls_nth draw) by (try assumption; intros; reflexivity).
  assert (Hs : firstn (S k) ts = firstn k ts ++ [nth k ts 0]). { clear -Hk. revert k Hk. induction ts as [|t ts IH]; intros k Hk; [cbn in Hk; lia|]. destruct k as [|k]; [reflexivity|]. cbn in Hk |- *. f_equal. apply IH. lia. }
  assert (Hf : forall i, (i < S k)%nat -> nth i (firstn (S k) ts) 0 = nth i ts 0). { clear. intros i Hi. revert i k Hi. induction ts as [|t ts IH]; intros i k Hi; [destruct i; reflexivity|]. destruct i as [|i]; [reflexivity|]. cbn. destruct k; [lia|]. apply IH. lia. }
  assert (Hl : length (firstn (S k) ts) = S k) by (rewrite firstn_length; lia).
  assert (Ha' : ascending (firstn (S k) ts)) by (intros i j Hij; rewrite Hl in Hij; rewrite !Hf by lia; apply Ha; lia).
  assert (Hg' : on_grid T (firstn (S k) ts)).
  { intros t j Ht Hj Hle. assert (G : In (INR j * T) ts) by (apply (Hg t j); try assumption; clear -Ht; revert Ht; generalize (S k); intros m Ht; rewrite <- (firstn_skipn m ts); apply in_or_app; now left).
    apply (In_nth _ _ 0) in G. destruct G as (i & Hi & E). destruct (Nat.le_gt_cases i k) as [L|L].
    - rewrite <- E, <- (Hf i) by lia. apply nth_In. lia.
    - assert (Et : nth k ts 0 <= nth i ts 0) by (apply Ha; lia). assert (Htk : t <= nth k ts 0). { apply (In_nth _ _ 0) in Ht. destruct Ht as (i' & Hi' & <-). rewrite Hl in Hi'. rewrite Hf by lia. apply Ha. lia. }
      replace (INR j * T) with (nth k ts 0) by lra. rewrite <- (Hf k) by lia. apply nth_In. lia. }
  rewrite Hs in *. destruct (held_last draw T (firstn k ts) (nth k ts 0) HT Ha' Hg') as (O & B). cbv zeta in B. rewrite <- (stream_at draw) by exact O. unfold stream.
  replace (updates (after (held_eval draw T) rst0 (firstn k ts ++ [nth k ts 0]))) with n; [reflexivity|].
  destruct B as [B1 B2]. set (u := updates _) in *. assert (INR n < INR u + 1) by (apply Rmult_lt_reg_r with T; lra). assert (INR u < INR n + 1) by (apply Rmult_lt_reg_r with T; lra).
  rewrite <- S_INR in *. apply INR_lt in H, H0. lia.
Qed.
Print Assumptions C99_held.
(** Any increasing times with gaps up to [g]: the n-th value is taken between n T and n (T + g) *)
Theorem C99_rate : forall draw T g ts t, 0 < T -> 0 <= g -> ascending (ts ++ [t]) -> gaps g (ts ++ [t]) ->
  exists n, last (calls (held_eval draw T) rst0 (ts ++ [t])) 0 = draw (n / Nat.pow 2 10)%nat (n mod Nat.pow 2 10)%nat /\ INR n * T <= t < INR n * (T + g) + T.
Proof.
  intros draw T g ts t HT Hg Ha Gp. destruct (held_inv draw T _ HT Ha) as (O & _ & Q & I & L). pose proof (held_rate draw T g _ HT Hg Ha Gp) as Rt.
  exists (updates (after (held_eval draw T) rst0 (ts ++ [t]))). split.
  - assert (Hlen : forall ev s l, length (calls ev s l) = length l) by (intros ev s l; revert s; induction l as [|x l IH]; intro s; [reflexivity|]; cbn; destruct (ev s x); cbn; now rewrite IH).
    assert (Hlast : forall l : list R, last l 0 = nth (length l - 1) l 0). { intro l. destruct l as [|x l _] using rev_ind; [reflexivity|]. rewrite last_last, app_length. cbn [length]. replace (length l + 1 - 1)%nat with (length l) by lia. now rewrite nth_middle. }
    rewrite Hlast, Hlen, app_length. cbn [length]. replace (length ts + 1 - 1)%nat with (length ts) by lia. rewrite (calls_nth draw) by (try (rewrite app_length; cbn; lia); intros; reflexivity).
    rewrite firstn_all2 by (rewrite app_length; cbn; lia). now rewrite <- (stream_at draw) by exact O.
  - assert (Ht : In t (ts ++ [t])) by (apply in_or_app; right; now left). pose proof (L t Ht). destruct (ascending_app _ _ Ha) as (_ & Hl & Ht0).
    assert (r_t (after (held_eval draw T) rst0 (ts ++ [t])) <= t). { destruct I as [I|I]; [lra|]. apply in_app_or in I. destruct I as [I|[I|[]]]; [now apply Hl|lra]. }
    lra.
Qed.
Print Assumptions C99_rate.
(** The period is not kept when the multiples of T are missed: with evaluations every 0.6 T the third value is still there at 3 T *)
Theorem C99_drift_refuted : exists draw T ts k n, 0 < T /\ ascending ts /\ gaps T ts /\ (k < length ts)%nat /\ INR n * T <= nth k ts 0 < (INR n + 1) * T /\
  nth k (calls (held_eval draw T) rst0 ts) 0 <> draw (n / Nat.pow 2 10)%nat (n mod Nat.pow 2 10)%nat.
Proof.
  exists (fun b i => INR i), 1, [6 / 10; 12 / 10; 18 / 10; 24 / 10; 3], 4%nat, 3%nat. split; [lra|]. split.
  { intros i j Hij. cbn in Hij. destruct j as [|[|[|[|[|j]]]]]; [| | | | |lia]; destruct i as [|[|[|[|[|i]]]]]; try lia; cbn; lra. }
  split. { intros i Hi. cbn in Hi. destruct i as [|[|[|[|[|i]]]]]; [| | | | |lia]; cbn; lra. }
  split; [cbn; lia|]. split; [cbn; lra|]. rewrite Nat.mod_small by (apply Nat.ltb_lt; vm_compute; reflexivity).
  replace (nth 4 (calls (held_eval (fun b i => INR i) 1) rst0 [6 / 10; 12 / 10; 18 / 10; 24 / 10; 3]) 0) with 2; [cbn; lra|].
  assert (A : forall t i t', (i < 5)%nat -> advance (mkR t i 0) t' = mkR t' (S i) 0). { intros t i t' Hi. unfold advance. cbn [r_idx r_batch]. destruct (Nat.eqb_spec (S i) bufsize) as [E|E]; [|reflexivity]. exfalso. assert (5 < bufsize)%nat by (apply Nat.ltb_lt; vm_compute; reflexivity). lia. }
  cbn [calls]. unfold held_eval, rst0. cbn [r_t]. rewrite Rle_bool_false by lra. cbn [r_t]. rewrite Rle_bool_true by lra. rewrite A by lia. cbn [r_t]. rewrite Rle_bool_false by lra. cbn [r_t]. rewrite Rle_bool_true by lra. rewrite A by lia. cbn [r_t]. rewrite Rle_bool_false by lra. reflexivity.
Qed.
Print Assumptions C99_drift_refuted.
(** UniformReferenceSignal: whatever the times, as long as no gap exceeds T, the value on (nT, (n+1)T] is the n-th; [tick] moves on by one value and one period *)
Theorem C99_uniform : forall draw T ts t n, 0 < T -> ascending (ts ++ [t]) -> gaps T (ts ++ [t]) -> INR n * T < t <= (INR n + 1) * T ->
  last (calls (uniform_eval draw T) rst0 (ts ++ [t])) 0 = draw (n / Nat.pow 2 10)%nat (n mod Nat.pow 2 10)%nat.
Proof.
  intros draw T ts t n HT Ha Gp Hn. destruct (unif_inv draw T _ HT Ha Gp) as (O & E & L & B). cbv zeta in *. rewrite last_last in L, B.
  assert (Hlen : forall ev s l, length (calls ev s l) = length l) by (intros ev s l; revert s; induction l as [|x l IH]; intro s; [reflexivity|]; cbn; destruct (ev s x); cbn; now rewrite IH).
  assert (Hlast : forall l : list R, last l 0 = nth (length l - 1) l 0). { intro l. destruct l as [|x l _] using rev_ind; [reflexivity|]. rewrite last_last, app_length. cbn [length]. replace (length l + 1 - 1)%nat with (length l) by lia. now rewrite nth_middle. }
  rewrite Hlast, Hlen, app_length. cbn [length]. replace (length ts + 1 - 1)%nat with (length ts) by lia. rewrite (calls_nth draw) by (try (rewrite app_length; cbn; lia); intros; reflexivity).
  rewrite firstn_all2 by (rewrite app_length; cbn; lia). rewrite <- (stream_at draw) by exact O. unfold stream. set (u := updates _) in *.
  replace u with n; [reflexivity|]. rewrite E in L, B. assert (INR n < INR u + 1) by (apply Rmult_lt_reg_r with T; lra).
  assert (INR u < INR n + 1). { destruct B as [->|B]; [cbn [INR]; pose proof (pos_INR n); lra|]. apply Rmult_lt_reg_r with T; lra. }
  rewrite <- S_INR in *. apply INR_lt in H, H0. lia.
Qed.
Print Assumptions C99_uniform.
Theorem C99_tick : forall draw T s, (r_idx s < Nat.pow 2 10)%nat ->
  (r_idx (uniform_tick draw T s) < Nat.pow 2 10)%nat /\ (r_batch (uniform_tick draw T s) * Nat.pow 2 10 + r_idx (uniform_tick draw T s) = S (r_batch s * Nat.pow 2 10 + r_idx s))%nat /\ r_t (uniform_tick draw T s) = r_t s + T.
Proof. intros draw T s H. exact (unif_tick draw T s H). Qed.
Print Assumptions C99_tick.
(** Whatever the times and the period, each value is an entry of a drawn array: the index never leaves it *)
Theorem C99_values : forall draw T ts x, (In x (calls (held_eval draw T) rst0 ts) \/ In x (calls (uniform_eval draw T) rst0 ts)) -> exists b i, (i < Nat.pow 2 10)%nat /\ x = draw b i.
Proof.
  intros draw T ts x H.
  assert (G : forall ev, (forall s t, ok s -> ok (fst (ev s t)) /\ snd (ev s t) = draw (r_batch (fst (ev s t))) (r_idx (fst (ev s t)))) -> forall ts s, ok s -> In x (calls ev s ts) -> exists b i, (i < Nat.pow 2 10)%nat /\ x = draw b i).
  { intros ev Hev. induction ts0 as [|t ts0 IH]; intros s Hs Hx; [destruct Hx|]. cbn [calls] in Hx. destruct (Hev s t Hs) as [O E]. destruct (ev s t) as [s' y]. cbn [fst snd] in *.
    destruct Hx as [<-|Hx]; [|exact (IH s' O Hx)]. exists (r_batch s'), (r_idx s'). split; [exact O|exact E]. }
  assert (O0 : ok rst0) by (unfold ok; cbn [rst0 r_idx]; pose proof bufsize_pos; lia).
  destruct H as [H|H]; (eapply G; [|exact O0|exact H]); intros s t Hs; unfold held_eval, uniform_eval; cbn [fst snd]; split; try reflexivity.
  - destruct (Rle_bool T (t - r_t s)); [apply (advance_spec s t Hs)|exact Hs].
  - destruct (Rlt_bool T (t - r_t s)); [apply (advance_spec s _ Hs)|exact Hs].
Qed.
Print Assumptions C99_values.
(** Sums and products: a Gaussian signal cannot take part *)
Theorem C99_combined : forall l, (exists b, combined_piecewise (map piecewise_attr l) = Ok b) <-> ~ In Gaussian l.
Proof.
  intro l. rewrite combined_iff. split; intros H X; apply H.
  - apply in_map_iff. now exists Gaussian.
  - apply in_map_iff in X. destruct X as (k & E & Hk). destruct k; try discriminate. exact Hk.
Qed.
Print Assumptions C99_combined.

(** ** C100: demodulation *)
(** along the last axis: each sample times exp(-j Omega n); undone by -Omega; a tone is moved by Omega *)
Theorem C100_last : forall r c x Omega, exists y z,
  demodulate (A2 r c x) Omega (-1) = Ok (A2 r c y) /\ demodulate (A2 r c x) Omega 1 = Ok (A2 r c y) /\ demodulate (A2 r c y) (- Omega) (-1) = Ok (A2 r c z) /\
  (forall i j, z i j = x i j) /\ (forall i j, Cmod (y i j) = Cmod (x i j)) /\
  (forall a w i, (forall j, x i j = a * cis (w * INR j))%C -> forall j, y i j = (a * cis ((w - Omega) * INR j))%C).
Proof.
  intros r c x Omega.
  assert (D : forall x O axis, (axis = 1 \/ axis = -1)%Z -> demodulate (A2 r c x) O axis = Ok (A2 r c (fun i j => x i j * cis (- (O * INR j)))%C)) by (intros x' O axis [->| ->]; unfold demodulate; cbn [shape_at Z.eqb Pos.eqb orb bind]; unfold times_row; rewrite Nat.eqb_refl; reflexivity).
  do 2 eexists. split; [apply D; tauto|]. split; [apply D; tauto|]. split; [apply D; tauto|]. split; [|split].
  - intros i j. cbn beta. rewrite <- Cmult_assoc. replace (- (- Omega * INR j)) with (- - (Omega * INR j)) by ring. rewrite cis_opp. apply Cmult_1_r.
  - intros i j. rewrite Cmod_mult, cis_mod. ring.
  - intros a w i H j. rewrite H, <- Cmult_assoc, cis_mult. do 2 f_equal. ring.
Qed.
Print Assumptions C100_last.
Theorem C100_vector : forall n x Omega, exists y, demodulate (A1 n x) Omega 0 = Ok (A1 n y) /\ forall i, y i = (x i * (cos (Omega * INR i), (- sin (Omega * INR i))%R))%C.
Proof.
  intros n x Omega. eexists. unfold demodulate. cbn [shape_at Z.eqb Pos.eqb orb bind]. unfold times_row. rewrite Nat.eqb_refl. split; [reflexivity|]. intro i. unfold cis. now rewrite cos_neg, sin_neg.
Qed.
Print Assumptions C100_vector.
(** along the first axis (the default) of [r] samples of [c] channels: correct for r = 1 only; an outer product for one channel; an error unless c = r *)
Theorem C100_first : forall r c x Omega, r <> 1%nat ->
  (c = r -> exists y, demodulate (A2 r c x) Omega 0 = Ok (A2 r c y) /\ forall i j, y i j = (x i j * cis (- (Omega * INR j)))%C) /\
  (c = 1%nat -> exists y, demodulate (A2 r c x) Omega 0 = Ok (A2 r r y) /\ forall i j, y i j = (x i 0%nat * cis (- (Omega * INR j)))%C) /\
  (c <> r -> c <> 1%nat -> demodulate (A2 r c x) Omega 0 = Exn ValueError).
Proof.
  intros r c x Omega Hr. unfold demodulate. cbn [shape_at Z.eqb Pos.eqb orb bind]. unfold times_row. split; [|split].
  - intros ->. rewrite Nat.eqb_refl. eexists. split; [reflexivity|]. reflexivity.
  - intros ->. destruct (Nat.eqb_spec 1 r) as [E|_]; [congruence|]. destruct (Nat.eqb_spec r 1) as [E|_]; [contradiction|]. eexists. split; [reflexivity|]. reflexivity.
  - intros H1 H2. destruct (Nat.eqb_spec c r); [contradiction|]. destruct (Nat.eqb_spec r 1); [contradiction|]. destruct (Nat.eqb_spec c 1); [contradiction|]. reflexivity.
Qed.
Print Assumptions C100_first.
Theorem C100_first_refuted : exists n x Omega y m, (0 < n)%nat /\ demodulate (A2 n n x) Omega 0 = Ok y /\ m = (fun i j => x i j * cis (- (Omega * INR i)))%C /\ y <> A2 n n m.
Proof.
  exists 2%nat, (fun _ _ => 1%C), PI. do 2 eexists. split; [lia|]. split; [reflexivity|]. split; [reflexivity|]. intro E. injection E as E. assert (F := f_equal (fun f => fst (f 0%nat 1%nat)) E). cbn in F.
  rewrite !Rmult_1_r, !Rmult_1_l, !Rmult_0_r, !Rmult_0_l, !Rminus_0_r, Ropp_0, cos_0, cos_neg, cos_PI in F. lra.
Qed.
Print Assumptions C100_first_refuted.

(** ** C101: NumpySimulator *)
(** After any history, a reset and k steps, the next step gives row k, or StopIteration when there is none. *)
Theorem C101_rows : forall (X : Type) (load : result (list X)) (array : option (list X)) (l : list X) (ops : list nsop) (k : nat) s,
  match array with Some a => a = l | None => load = Ok l end -> ns_init load array = Ok s ->
  last (fst (ns_run load s (ops ++ Reset :: repeat Next k ++ [Next]))) (Ok None) = match nth_error l k with Some x => Ok (Some x) | None => Exn StopIteration end.
Proof.
  intros X load array l ops k s Hl Hs.
  assert (I : forall t, (if ns_file t then load = Ok l else ns_rows t = l) -> ns_reset load t = Ok (mkNS (ns_rows t) (ns_file t) l)).
  { intros t Ht. unfold ns_reset. destruct (ns_file t); [rewrite Ht; reflexivity|]. now rewrite Ht. }
  assert (Hi : if ns_file s then load = Ok l else ns_rows s = l). { destruct array as [a|]; cbn in Hs; unfold ns_reset in Hs; cbn in Hs; [injection Hs as <-; exact Hl|]. rewrite Hl in Hs. injection Hs as <-. exact Hl. }
  clear Hs Hl array. assert (N : forall rest t, (if ns_file t then load = Ok l else ns_rows t = l) -> rest <> [] -> fst (ns_run load t rest) <> []).
  { intros rest t Ht Hr. destruct rest as [|[] rest]; [contradiction| |]; cbn; [destruct (ns_next t) as [[x s']|e]; [destruct (ns_run load s' rest)|destruct (ns_run load t rest)]|destruct (ns_reset load t) as [s'|e]; [destruct (ns_run load s' rest)|destruct (ns_run load t rest)]]; discriminate. }
  revert s Hi. induction ops as [|o ops IH]; intros s Hi; cbn [app ns_run].
  - rewrite (I s Hi). assert (G : forall j pos t, ns_pos t = pos -> last (fst (ns_run load t (repeat Next j ++ [Next]))) (Ok None) = match nth_error pos j with Some x => Ok (Some x) | None => Exn StopIteration end).
    { induction j as [|j IHj]; intros pos t Ht; cbn [repeat app ns_run]; unfold ns_next at 1; rewrite Ht; destruct pos as [|x pos]; try reflexivity; cbn [nth_error].
      - assert (E := IHj [] t Ht). destruct (ns_run load t (repeat Next j ++ [Next])) as [r e] eqn:Er. cbn [fst] in E |- *. destruct r as [|a r]; [exfalso|cbn [last] in E |- *; rewrite E; now destruct j].
        apply (N (repeat Next j ++ [Next]) t); [|destruct j; discriminate|now rewrite Er]. clear -Er. exfalso. destruct j; cbn in Er; destruct (ns_next t) as [[? ?]|]; try (destruct (ns_run load _ _)); discriminate.
      - assert (E := IHj pos (mkNS (ns_rows t) (ns_file t) pos) eq_refl). destruct (ns_run load (mkNS (ns_rows t) (ns_file t) pos) (repeat Next j ++ [Next])) as [r e] eqn:Er. cbn [fst] in E |- *. destruct r as [|a r]; [|exact E].
        exfalso. clear -Er. destruct j; cbn in Er; destruct (ns_next _) as [[? ?]|]; try (destruct (ns_run load _ _)); discriminate. }
    specialize (G k l (mkNS (ns_rows s) (ns_file s) l) eq_refl). destruct (ns_run load _ _) as [r e] eqn:Er. cbn [fst] in G |- *. destruct r as [|a r]; [|exact G].
    exfalso. clear -Er. destruct k; cbn in Er; destruct (ns_next _) as [[? ?]|]; try (destruct (ns_run load _ _)); discriminate.
  - assert (Step : forall t (v : result (option X)), (if ns_file t then load = Ok l else ns_rows t = l) ->
      last (fst (let '(r, e) := ns_run load t (ops ++ Reset :: repeat Next k ++ [Next]) in (v :: r, e))) (Ok None) = match nth_error l k with Some x => Ok (Some x) | None => Exn StopIteration end).
    { intros t v Ht. specialize (IH t Ht). assert (Nt := N (ops ++ Reset :: repeat Next k ++ [Next]) t Ht). destruct (ns_run load t _) as [r e]. cbn [fst] in *. destruct r as [|a r]; [exfalso; apply Nt; [destruct ops; discriminate|reflexivity]|]. exact IH. }
    destruct o.
    + unfold ns_next. destruct (ns_pos s) as [|x pos]; [now apply Step|]. apply Step. exact Hi.
    + rewrite (I s Hi). apply Step. exact Hi.
Qed.
Print Assumptions C101_rows.
(** It is not iterable: no loop [for ... in], hence no extended_simulation_result *)
Theorem C101_iter_refuted : exists (l : list nat) s, l <> [] /\ ns_init (Exn GenericException) (Some l) = Ok s /\ (forall it, ns_iter s <> Ok it) /\ exists x s', ns_next s = Ok (x, s').
Proof. exists [1%nat]. eexists. split; [discriminate|]. split; [reflexivity|]. split; [discriminate|]. do 2 eexists. reflexivity. Qed.
Print Assumptions C101_iter_refuted.

(** ** Non-vacuity *)
Example C97_ex : exists a b, get_quadrature_signal_pair 2 (PI / 2) (fun _ => Ok 1) (fun t => Ok t) 0 0 = Ok [a; b] /\ quadrature_eval a 1 = Ok (-2).
Proof. do 2 eexists. split; [reflexivity|]. unfold quadrature_eval, dot2, dotm2, rotation_matrix. cbn [q_i q_q bind q_amp q_phase q_w fst snd dot2]. unfold dot2; cbn [fst snd]. replace (PI / 2 * 1) with (PI / 2) by ring. rewrite cos_PI2, sin_PI2. f_equal. ring. Qed.
Example C98_ex : 0 < sp_bw (mkSinc 3 1 5 0) /\ sinc_eval (mkSinc 3 1 5 0) 5 = Ok (3 + 0).
Proof. split; [cbn; lra|]. apply (C98_evaluate (mkSinc 3 1 5 0)). cbn. lra. Qed.
Example C99_ex : 0 < 1 /\ ascending [0; 1 / 2; 1; 3 / 2; 2] /\ on_grid 1 [0; 1 / 2; 1; 3 / 2; 2] /\ gaps 1 [0; 1 / 2; 1; 3 / 2; 2].
Proof.
  split; [lra|]. split; [|split].
  - intros i j Hij. cbn in Hij. destruct j as [|[|[|[|[|j]]]]]; [| | | | |lia]; destruct i as [|[|[|[|[|i]]]]]; try lia; cbn; lra.
  - intros t j Ht Hj Hle. assert (t <= 2) by (cbn in Ht; destruct Ht as [<-|[<-|[<-|[<-|[<-|[]]]]]]; lra). destruct j as [|[|[|j]]]; [lia|cbn; right; right; left; lra|cbn; do 4 right; left; lra|].
    exfalso. rewrite !S_INR in Hle. pose proof (pos_INR j). lra.
  - intros i Hi. cbn in Hi. destruct i as [|[|[|[|[|i]]]]]; [| | | | |lia]; cbn; lra.
Qed.
Example C99_combined_ex : combined_piecewise (map piecewise_attr [Binary; Uniform]) = Ok true /\ combined_piecewise (map piecewise_attr [Binary; Gaussian]) = Exn AttributeError.
Proof. split; reflexivity. Qed.
Example C101_ex : exists s, ns_init (Exn GenericException) (Some [1%nat; 2%nat]) = Ok s /\ fst (ns_run (Exn GenericException) s [Next; Next; Next; Reset; Next]) = [Ok (Some 1%nat); Ok (Some 2%nat); Exn StopIteration; Ok None; Ok (Some 1%nat)].
Proof. eexists. split; reflexivity. Qed.
