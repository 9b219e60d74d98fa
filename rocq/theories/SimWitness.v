(** Small systems on which the simulators can be evaluated: A = 0, one control, period 1. *)
From Coq Require Import List Arith Lia Bool Reals Lra.
From Flocq Require Import Core.
From Coquelicot Require Import Complex.
From Verif Require Import Base LinAlg FirExtras AnalogSystem AnalogProofs Signals DigitalControl DigitalControlProofs ControlKinds
  Integrators IntegratorsProofs Simulator Stability LinearOde PreSim PreRun.
Import ListNotations.
Open Scope R_scope.

Definition wclk : clock := mkClock 1 (1 / 100000000000000) 0 (1 / 2) 1.
Definition wdc (td : R) : dc := mkDC wclk 1 [WStep 0 1] td [0] KBin 0 1 2.
Definition wheap : heap := repeat (mkArr false [0]) 3.
Definition wsys (N L : nat) (b ct : nat -> nat -> R) (g : nat -> R) : asys Rring :=
  mkAS (K := Rring) (zeros (K := Rring) N N) (mk2 (K := Rring) N L b) (mk2 (K := Rring) N N ct) (Some (mk2 (K := Rring) N 1 (fun i _ => g i)))
    (Some (mk2 (K := Rring) 1 N (fun _ k => if Nat.eqb k 0 then 1 else 0))) (zeros (K := Rring) N L) (zeros (K := Rring) 1 L) (zeros (K := Rring) 1 1).
(** exact when the right-hand side is constant *)
Definition midpoint (f : R -> list R -> result (list R)) (a b : R) (y0 : list R) : result (list R) :=
  bind (f ((a + b) / 2) y0) (fun v => Ok (vplus y0 (map (Rmult (b - a)) v))).
Definition wexpm (m : nd2 Rring) (t : R) : nd2 Rring := eye2 (K := Rring) (rows m) (rows m).
Definition watf (S : asys Rring) (w : R) (i l : nat) : C := (0, - (ent (aB S) i l) / w).

Lemma wdc_init td : 0 <= td -> dc_init [] wclk 1 None td None = Ok (wdc td, wheap).
Proof. intros H. unfold dc_init. rewrite Rlt_bool_false by exact H. reflexivity. Qed.
Lemma wdc_wf td : 0 <= td -> wf (wdc td) wheap.
Proof. intros H. eapply dc_init_ok. now apply wdc_init. Qed.
Lemma wdc_at_once td : at_once (wdc td).
Proof. split; [|split; [cbn; lra|exact I]]. intros w [<-|[]]. split; [reflexivity|exact I]. Qed.
Lemma wdc_usable : usable (wdc 0).
Proof. split; [apply wdc_at_once|reflexivity]. Qed.
Lemma wsys_fit N L b ct g td : fitting (wsys N L b ct g) (wdc td).
Proof. split; try discriminate; [|reflexivity|cbn; lia]. split; cbn; auto. Qed.

Lemma zeroN_len N : length (zeroN N) = N.
Proof. apply repeat_length. Qed.
Lemma vplus_length : forall u v : list R, length u = length v -> length (vplus u v) = length u.
Proof. induction u as [|a u IH]; intros [|c v] H; cbn in *; congruence || (f_equal; apply IH; congruence). Qed.

Lemma const_value (f : R -> list R -> result (list R)) T (y0 v : list R) y : 0 <= T -> length v = length y0 ->
  (forall t x, 0 < t < T -> length x = length y0 -> f t x = Ok v) -> solves_pw f T y0 y ->
  forall n, (n < length y0)%nat -> nth n (y T) 0 = nth n y0 0 + T * nth n v 0.
Proof.
  intros HT Lv Hf Hy n Hn.
  assert (S1 := sol_of_solves (length y0) (fun _ _ => 0) f (fun n _ => nth n v 0) T y0 y).
  assert (S2 : sol (length y0) (fun _ _ => 0) T (fun n _ => nth n v 0) (fun n t => nth n (y t) 0)).
  { apply S1; auto. intros t x Ht Hx. rewrite Hf by auto. f_equal. apply list_ext with (d := 0); [now rewrite map_length, seq_length|].
    intros i Hi. rewrite nth_seq_R by lia. rewrite rsum_zero by (intros; ring). ring. }
  assert (S3 : sol (length y0) (fun _ _ => 0) T (fun n _ => nth n v 0) (fun n t => nth n y0 0 + nth n v 0 * t)).
  { split.
    - intros i t _ _. apply derivable_continuous_pt. exists (nth i v 0). apply derivable_val with (l := 0 + nth i v 0 * 1); [ring|].
      apply (derivable_pt_lim_plus (fct_cte (nth i y0 0)) (mult_real_fct (nth i v 0) id)); [apply derivable_pt_lim_const|apply derivable_pt_lim_scal, derivable_pt_lim_id].
    - exists []. intros i t _ _ _. rewrite rsum_zero by (intros; ring). apply derivable_val with (l := 0 + nth i v 0 * 1); [ring|].
      apply (derivable_pt_lim_plus (fct_cte (nth i y0 0)) (mult_real_fct (nth i v 0) id)); [apply derivable_pt_lim_const|apply derivable_pt_lim_scal, derivable_pt_lim_id]. }
  assert (Y0 : y 0 = y0) by apply Hy.
  rewrite (unique _ _ _ _ _ _ S2 S3); [ring| |exact Hn|lra]. intros i Hi. rewrite Y0. ring.
Qed.

Lemma const_endpoint (f : R -> list R -> result (list R)) T (y0 v : list R) : 0 < T -> length v = length y0 ->
  (forall t x, 0 < t < T -> length x = length y0 -> f t x = Ok v) -> endpoint f T y0 (midpoint f 0 T y0).
Proof.
  intros HT Lv Hf. exists (fun t => map (fun n => nth n y0 0 + t * nth n v 0) (seq 0 (length y0))). split.
  - apply solves_of_sol with (A := fun _ _ => 0) (b := fun n _ => nth n v 0); auto.
    + intros t x Ht Hx. rewrite Hf by auto. f_equal. apply list_ext with (d := 0); [now rewrite map_length, seq_length|].
      intros i Hi. rewrite nth_seq_R by lia. rewrite rsum_zero by (intros; ring). ring.
    + intros; ring.
    + assert (D : forall i t, derivable_pt_lim (fun t => nth i y0 0 + t * nth i v 0) t (nth i v 0)).
      { intros i t. apply derivable_val with (l := 0 + (1 * nth i v 0 + t * 0)); [ring|].
        apply (derivable_pt_lim_plus (fct_cte (nth i y0 0)) (id * fct_cte (nth i v 0))%F); [apply derivable_pt_lim_const|].
        apply (derivable_pt_lim_mult id (fct_cte (nth i v 0))); [apply derivable_pt_lim_id|apply derivable_pt_lim_const]. }
      split; [intros i t _ _; apply derivable_continuous_pt; eexists; apply D|]. exists []. intros i t _ _ _. rewrite rsum_zero by (intros; ring).
      apply derivable_val with (l := nth i v 0); [ring|apply D].
  - unfold midpoint. rewrite Hf by (auto; lra). cbn [bind]. f_equal. apply list_ext with (d := 0).
    + rewrite map_length, seq_length. now rewrite vplus_length by now rewrite map_length.
    + intros n Hn. rewrite vplus_length in Hn by now rewrite map_length.
      rewrite vplus_nth by (now rewrite map_length). rewrite nth_seq_R by exact Hn. rewrite nth_map_R with (d := 0) by lia. ring.
Qed.

Lemma wit_exact N L b ct g td inputs : 0 <= td -> (forall i, In i inputs -> match i with ISin _ f _ _ => f <> 0 | _ => True end) ->
  exact_routines midpoint wexpm watf (wsys N L b ct g) (wdc td) inputs.
Proof.
  intros Htd Hf. set (S := wsys N L b ct g). assert (F : fitting S (wdc 0)) by apply wsys_fit. assert (V := f_valid _ _ F).
  assert (Z : forall (x : list R) n, rsum N (fun k => ent (aA S) n k * nth k x 0) = 0) by (intros; apply rsum_zero; intros; cbn; ring).
  split.
  - split; reflexivity.
  - intros x Lx. change (ck_T (d_clk (wdc td))) with 1. exists (fun _ => x). split.
    + split; [reflexivity|]. split; [auto|]. split; [intros n t _; apply continuity_pt_const; intros ? ?; reflexivity|].
      exists []. intros t _ _. eexists. split; [apply flow_rhs_ok; auto|]. split; [now rewrite map_length, seq_length|].
      intros n Hn. rewrite Lx in Hn. rewrite nth_seq_R by exact Hn. apply derivable_val with (l := 0); [rewrite Z; ring|apply derivable_pt_lim_const].
    + rewrite dotv_R by (cbn [cols wexpm eye2]; symmetry; exact Lx). f_equal. apply list_ext with (d := 0); [now rewrite map_length, seq_length|].
      intros n Hn. rewrite map_length, seq_length in Hn. rewrite nth_seq_R by exact Hn. cbn [cols wexpm eye2 ent] in *.
      rewrite (rsum_ext _ _ (fun k => if Nat.eqb k n then nth k x 0 else 0)); [now rewrite rsum_single|].
      intros k Hk. rewrite (Nat.eqb_sym n k). cbn [Rring r1 r0]. destruct (Nat.eqb k n); ring.
  - intros m Hm. change (ck_T (d_clk (wdc td))) with 1. apply const_endpoint with (v := map (fun n => gent S n m * 1) (seq 0 N)); [lra|rewrite map_length, seq_length; symmetry; apply zeroN_len|].
    intros t x Ht Hx. rewrite zeroN_len in Hx. change (control_rhs S (wdc td) m t x) with (control_rhs S (wdc 0) m t x).
    rewrite (control_rhs_ok S (wdc 0) wheap); auto; [|apply wdc_wf; lra|apply wdc_at_once|cbn; lra].
    f_equal. apply map_seq_ext. intros n Hn. change (sN S) with N. rewrite Z. assert (m = O) as -> by (cbn in Hm; lia).
    unfold wave. cbn. rewrite Rle_bool_true by lra. ring.
  - intros l Hl. change (ck_T (d_clk (wdc td))) with 1. apply const_endpoint with (v := map (fun n => b n l) (seq 0 N)); [lra|rewrite map_length, seq_length; symmetry; apply zeroN_len|].
    intros t x Ht Hx. rewrite zeroN_len in Hx. rewrite input_rhs_ok by auto. f_equal. apply map_seq_ext. intros n Hn. change (sN S) with N. rewrite Z. cbn. ring.
  - intros l a f p o i Hl Hi. change (sN S) with N.
    assert (Hff : f <> 0).
    { assert (Hlt : (l < length inputs)%nat) by (destruct (Nat.lt_ge_cases l (length inputs)) as [X|X]; [exact X|rewrite nth_overflow in Hl by exact X; discriminate]).
      assert (X := Hf _ (nth_In inputs (IOther (fun _ => 0)) Hlt)). now rewrite Hl in X. }
    assert (HP := PI_RGT_0). assert (ang_freq f <> 0) by (unfold ang_freq; do 2 (apply Rmult_integral_contrapositive; split; [|try exact Hff]); lra).
    rewrite !rsum_zero by (intros; cbn; ring). cbn [watf fst snd]. split; [field; assumption|ring].
Qed.

(** the value of the first step *)
Lemma wit_first N L b ct g td inputs (x0 : list R) : 0 <= td -> (forall i, In i inputs -> match i with ISin _ f _ _ => f <> 0 | _ => True end) ->
  acceptable (wsys N L b ct g) inputs -> length x0 = N -> (length (sins inputs) = 0%nat \/ length (sins inputs) = 1%nat \/ length (sins inputs) = N) ->
  exists p s hh, pre_init midpoint wexpm watf (wsys N L b ct g) (wdc td) wheap inputs (Some x0) = Ok (p, mkSim 0 x0 (wdc td) wheap) /\
    observe_update (wsys N L b ct g) (inputs_at (wsys N L b ct g) (map sig_eval inputs) (0 + 0)) (mkSim 0 x0 (wdc td) wheap) = Ok hh /\
    pre_next (wsys N L b ct g) inputs p (mkSim 0 x0 (wdc td) wheap) = Ok (0%nat, s) /\ s_h s = hh /\ wf (wdc td) hh /\ decided (wdc td) wheap hh /\ length (s_x s) = N /\
    p_freq p = map (fun i => ang_freq (freq_of i)) (sins inputs) /\
    (forall n j a f ph o, (n < N)%nat -> (j < length (indices is_sin inputs))%nat -> nth (nth j (indices is_sin inputs) O) inputs nosig = ISin a f ph o ->
      p_mag p n j = Cmod (transfer watf (wsys N L b ct g) (ang_freq f) (if Nat.eqb N 1 then O else n) (nth j (indices is_sin inputs) O)) * a /\
      p_ph p n j = angle (transfer watf (wsys N L b ct g) (ang_freq f) (if Nat.eqb N 1 then O else n) (nth j (indices is_sin inputs) O)) + ph) /\
    forall n, (n < N)%nat -> nth n (s_x s) 0 = nth n x0 0 + (sine_at p 1 n - sine_at p 0 n) +
      rsum (length (indices is_pw inputs)) (fun j => b n (nth j (indices is_pw inputs) O) * sig_nth inputs (nth j (indices is_pw inputs) O) 1) + g n * (2 * rd hh 0%nat 0%nat - 1).
Proof.
  intros Htd Hf Acc L0 Hs. set (S := wsys N L b ct g). assert (F : fitting S (wdc td)) by apply wsys_fit. assert (V := f_valid _ _ F).
  destruct (pre_init_ok midpoint wexpm watf S (wdc td) wheap inputs x0 F (wdc_wf td Htd) (wdc_at_once td) Acc L0 (wit_exact N L b ct g td inputs Htd Hf))
    as (p & ctrl & pwc & EI & Sh & EPhi & Epwi & Efr & Hc & Ectrl & Hp & Epw & Hsin).
  set (s0 := mkSim 0 x0 (wdc td) wheap) in *.
  destruct (observe_ok S (wdc td) s0 (inputs_at S (map sig_eval inputs) (0 + 0)) F eq_refl (wdc_wf td Htd) (wdc_at_once td) L0) as (hh & EO & Wh & Hd).
  { unfold inputs_at. destruct inputs as [|i0 is0]; [apply repeat_length|]. cbn [map length]. rewrite !map_length. destruct (ac_len _ _ Acc) as [Y|Y]; [discriminate|exact Y]. }
  assert (Hfr : length (p_freq p) = 0%nat \/ length (p_freq p) = 1%nat \/ length (p_freq p) = sN S) by (rewrite Efr, map_length; exact Hs).
  assert (EN := pre_next_value S inputs p s0 hh Sh Hfr Wh (f_M _ _ F) L0 EO). change (ck_T (d_clk (s_d s0))) with 1 in EN. change (s_t s0) with 0 in EN.
  eexists p, _, hh. split; [exact EI|]. split; [exact EO|]. split; [exact EN|]. cbn [s_h s_x]. split; [reflexivity|]. split; [exact Wh|]. split; [exact Hd|].
  split; [now rewrite map_length, seq_length|]. split; [exact Efr|]. split; [exact Hsin|].
  intros n Hn. rewrite nth_seq_R by exact Hn. unfold step_value. change (sN S) with N. rewrite EPhi.
  assert (Idn : forall f, rsum N (fun k => ent (wexpm (aA S) (ck_T (d_clk (wdc td)))) n k * f k) = f n).
  { intros f. rewrite (rsum_ext _ _ (fun k => if Nat.eqb k n then f k else 0)); [now rewrite rsum_single|]. intros k Hk. cbn. rewrite (Nat.eqb_sym n k). destruct (Nat.eqb k n); ring. }
  rewrite !Idn, Rplus_0_l, Epwi, Epw, Ectrl. change (s_x s0) with x0. change (d_s (s_d s0)) with 0%nat. f_equal; [f_equal|].
  - apply rsum_ext. intros j Hj. f_equal. cbn [of_columns ent].
    destruct (Forall2_nth2 _ _ _ O [] j Hp Hj) as (y & Hy & Ey). apply Ok_inj in Ey. rewrite Ey. change (ck_T (d_clk (wdc td))) with 1 in *. change (sN S) with N in *.
    rewrite (const_value (input_rhs S (nth j (indices is_pw inputs) O)) 1 (zeroN N) (map (fun n => b n (nth j (indices is_pw inputs) O)) (seq 0 N)) y); auto; try lra.
    + rewrite zeroN_nth, nth_seq_R by exact Hn. rewrite Rplus_0_l, Rmult_1_l. reflexivity.
    + now rewrite map_length, seq_length, zeroN_len.
    + intros t x Ht Hx. rewrite zeroN_len in Hx. rewrite input_rhs_ok by auto. f_equal. apply map_seq_ext. intros i Hi. rewrite rsum_zero by (intros; cbn; ring). cbn. ring.
    + now rewrite zeroN_len.
  - change (sM S) with 1%nat in *. rewrite rsum_S, rsum_0, Rplus_0_l. f_equal. cbn [of_columns ent].
    destruct (Forall2_nth2 _ _ _ O [] O Hc) as (y & Hy & Ey); [cbn; lia|]. cbn [seq nth] in Hy. apply Ok_inj in Ey. rewrite Ey. change (ck_T (d_clk (wdc td))) with 1 in *. change (sN S) with N in *.
    rewrite (const_value (control_rhs S (wdc td) O) 1 (zeroN N) (map (fun n => g n) (seq 0 N)) y); auto; try lra.
    + rewrite zeroN_nth, nth_seq_R by exact Hn. rewrite Rplus_0_l, Rmult_1_l. reflexivity.
    + now rewrite map_length, seq_length, zeroN_len.
    + intros t x Ht Hx. rewrite zeroN_len in Hx. change (control_rhs S (wdc td) O t x) with (control_rhs S (wdc 0) O t x).
      rewrite (control_rhs_ok S (wdc 0) wheap); auto; try solve [apply wsys_fit|apply wdc_wf; lra|apply wdc_at_once|cbn; lia|cbn; lra].
      f_equal. apply map_seq_ext. intros i Hi. rewrite rsum_zero by (intros; cbn; ring). unfold wave. cbn. rewrite Rle_bool_true by lra. ring.
    + now rewrite zeroN_len.
Qed.

(** *** Simulator and differential equation disagree *)
(** the state after one step is not the value of the solution of the differential equation, which exists *)
Definition misses ivp expm atf (S : asys Rring) (d : dc) (h : heap) (inputs : list insig) (x0 : list R) : Prop :=
  exists p s h', pre_init ivp expm atf S d h inputs (Some x0) = Ok (p, mkSim 0 x0 d h) /\
    observe_update S (inputs_at S (map sig_eval inputs) 0) (mkSim 0 x0 d h) = Ok h' /\ pre_next S inputs p (mkSim 0 x0 d h) = Ok (d_s d, s) /\
    (exists y, solves_pw (physics S inputs (mkSim 0 x0 d h) h') (ck_T (d_clk d)) x0 y) /\
    (forall y, solves_pw (physics S inputs (mkSim 0 x0 d h) h') (ck_T (d_clk d)) x0 y -> y (ck_T (d_clk d)) <> s_x s).

Definition wdrive L (b : nat -> nat -> R) (g : nat -> R) td inputs (h : heap) (n : nat) (t : R) : R :=
  rsum L (fun l => b n l * sig_nth inputs l t) + g n * (if Rlt_bool t td then rd h 2 0 else rd h 1 0).

Lemma wit_physics N L b ct g td inputs x0 hh t (x : list R) : 0 <= td -> wf (wdc td) hh -> length inputs = L -> 0 < t -> length x = N ->
  physics (wsys N L b ct g) inputs (mkSim 0 x0 (wdc td) wheap) hh t x = Ok (map (fun n => rsum N (fun k => 0 * nth k x 0) + wdrive L b g td inputs hh n t) (seq 0 N)).
Proof.
  intros Htd W HL Ht Lx. unfold physics.
  assert (E : control_contribution (wdc td) hh t = Ok [if Rlt_bool t td then rd hh 2 0 else rd hh 1 0]).
  { unfold control_contribution. cbn [wdc d_clk d_resp d_tdelay d_dec d_old d_M seq contrib_go nth w_t0]. rewrite Rlt_bool_false by lra.
    cbn [w_eval bind]. rewrite Rle_bool_true by lra. cbn [bind]. unfold rd. destruct (Rlt_bool t td); cbn [bind]; f_equal; f_equal; ring. }
  cbn [s_d]. rewrite E. cbn [bind]. f_equal. unfold rhs. apply map_seq_ext. intros n Hn. unfold wdrive.
  cbn [car radd Rring]. rewrite !lin_rsum, <- Rplus_assoc. cbn [cols wsys aA aB aG zeros lino ent]. f_equal; [f_equal|].
  - apply rsum_ext. intros k Hk. f_equal. rewrite nth_map_R with (d := nosig) by (rewrite HL; exact Hk). cbn [s_t]. now rewrite Rplus_0_r.
  - rewrite lin_rsum. cbn [cols ent]. rewrite rsum_S, rsum_0, Rplus_0_l. reflexivity.
Qed.

Lemma wit_solution N L b ct g td inputs (x0 : list R) hh (Y : nat -> R -> R) : 0 <= td -> wf (wdc td) hh -> length inputs = L -> length x0 = N ->
  (forall n, (n < N)%nat -> Y n 0 = nth n x0 0) -> sol N (fun _ _ => 0) 1 (wdrive L b g td inputs hh) Y ->
  (exists y, solves_pw (physics (wsys N L b ct g) inputs (mkSim 0 x0 (wdc td) wheap) hh) 1 x0 y) /\
  (forall y, solves_pw (physics (wsys N L b ct g) inputs (mkSim 0 x0 (wdc td) wheap) hh) 1 x0 y -> forall n, (n < N)%nat -> nth n (y 1) 0 = Y n 1).
Proof.
  intros Htd W HL L0 H0 HY.
  assert (Hf : forall t x, 0 < t < 1 -> length x = N -> physics (wsys N L b ct g) inputs (mkSim 0 x0 (wdc td) wheap) hh t x =
    Ok (map (fun n => rsum N (fun k => 0 * nth k x 0) + wdrive L b g td inputs hh n t) (seq 0 N))) by (intros; apply wit_physics; auto; lra).
  split.
  - eexists. exact (solves_of_sol N (fun _ _ => 0) _ _ 1 x0 Y Hf L0 H0 HY).
  - intros y Hy n Hn. assert (S1 := sol_of_solves N (fun _ _ => 0) _ _ 1 x0 y Hf L0 Hy).
    apply (unique _ _ _ _ _ _ S1 HY); auto; [|lra]. intros i Hi. rewrite H0 by exact Hi. f_equal. apply Hy.
Qed.

(** the derivative of every component of [Y] is known, but for finitely many times *)
Lemma easy_sol N (d Y : nat -> R -> R) ex : (forall n t, (n < N)%nat -> continuity_pt (Y n) t) ->
  (forall n t, (n < N)%nat -> 0 < t < 1 -> ~ In t ex -> derivable_pt_lim (Y n) t (d n t)) -> sol N (fun _ _ => 0) 1 d Y.
Proof.
  intros HC HD. split; [auto|]. exists ex. intros n t Hn Ht Hi. apply derivable_val with (l := d n t); [rewrite rsum_zero by (intros; ring); ring|auto].
Qed.

(** a zero-order hold whose value changes at the end of the first step *)
Definition zoh_input (t : R) : R := match zoh_eval (ZArr [0; 1]) 1 t with Ok v => v | Exn _ => 0 end.
Lemma zoh_before t : 0 <= t < 1 -> zoh_input t = 0.
Proof.
  intros Ht. unfold zoh_input, zoh_eval. rewrite Req_bool_false by lra. replace (t / 1) with t by field.
  rewrite Ztrunc_floor by lra. replace (Zfloor t) with 0%Z by (symmetry; apply Zfloor_imp; cbn; lra). reflexivity.
Qed.
Lemma zoh_after : zoh_input 1 = 1.
Proof.
  unfold zoh_input, zoh_eval. rewrite Req_bool_false by lra. replace (1 / 1) with 1 by field. replace 1 with (IZR 1) at 1 by reflexivity. rewrite Ztrunc_IZR. reflexivity.
Qed.

Definition ident (i k : nat) : R := if Nat.eqb i k then 1 else 0.


Lemma no_sines p t n : p_freq p = [] -> sine_at p t n = 0.
Proof. intros H. unfold sine_at. rewrite H. reflexivity. Qed.

Lemma miss_hold : misses midpoint wexpm watf (wsys 1 1 (fun _ _ => 1) ident (fun _ => 0)) (wdc 0) wheap [IPw zoh_input] [0].
Proof.
  destruct (wit_first 1 1 (fun _ _ => 1) ident (fun _ => 0) 0 [IPw zoh_input] [0]) as (p & s & hh & EI & EO & EN & _ & W & _ & Ls & Efr & _ & Hx); try lra; auto.
  { intros i [<-|[]]. exact I. }
  { split; [auto|intros i [<-|[]]; exact I|intros X; now elim X]. }
  rewrite Rplus_0_r in EO. exists p, s, hh. split; [exact EI|]. split; [exact EO|]. split; [exact EN|].
  destruct (wit_solution 1 1 (fun _ _ => 1) ident (fun _ => 0) 0 [IPw zoh_input] [0] hh (fun _ _ => 0)) as [E1 E2]; auto; try lra.
  { intros [|n] H; [reflexivity|lia]. }
  { apply easy_sol with (ex := []); [intros; apply continuity_pt_const; intros ? ?; reflexivity|]. intros n t Hn Ht _.
    apply derivable_val with (l := 0); [|apply derivable_pt_lim_const]. unfold wdrive. rewrite rsum_S, rsum_0. cbn [sig_nth nth sig_eval]. rewrite zoh_before by lra. ring. }
  split; [exact E1|]. intros y Hy Heq. assert (A := E2 y Hy O (Nat.lt_0_succ _)). cbn [wdc d_clk wclk ck_T] in Heq. rewrite Heq, Hx in A by lia.
  cbn [indices is_pw filter seq length nth] in A. rewrite rsum_S, rsum_0 in A. cbn [sig_nth nth sig_eval] in A. rewrite zoh_after, !no_sines in A by exact Efr. lra.
Qed.

(** a control delay of half a period *)
Lemma late_deriv c t : t <> 1 / 2 -> derivable_pt_lim (fun t => c * (Rabs (t - 1 / 2) + (t - 1 / 2))) t (if Rlt_bool t (1 / 2) then 0 else 2 * c).
Proof.
  intros Ht. set (sg := if Rlt_bool t (1 / 2) then -1 else 1).
  assert (D : derivable_pt_lim (id - fct_cte (1 / 2))%F t 1) by (apply derivable_val with (l := 1 - 0); [ring|apply derivable_pt_lim_minus; [apply derivable_pt_lim_id|apply derivable_pt_lim_const]]).
  assert (A : derivable_pt_lim Rabs (t - 1 / 2) sg).
  { unfold sg. destruct (Rlt_bool_spec t (1 / 2)); [apply Rabs_derive_2|apply Rabs_derive_1]; lra. }
  apply derivable_val with (l := c * (sg * 1 + 1)).
  - unfold sg. destruct (Rlt_bool t (1 / 2)); ring.
  - apply (derivable_pt_lim_scal (comp Rabs (id - fct_cte (1 / 2)) + (id - fct_cte (1 / 2)))%F). apply derivable_pt_lim_plus; [|exact D].
    apply derivable_pt_lim_comp; [exact D|exact A].
Qed.
Lemma late_cont c t : continuity_pt (fun t => c * (Rabs (t - 1 / 2) + (t - 1 / 2))) t.
Proof.
  assert (D : continuity_pt (id - fct_cte (1 / 2))%F t) by (apply continuity_pt_minus; [apply derivable_continuous_pt; apply derivable_pt_id|apply continuity_pt_const; intros ? ?; reflexivity]).
  apply (continuity_pt_scal (comp Rabs (id - fct_cte (1 / 2)) + (id - fct_cte (1 / 2)))%F). apply continuity_pt_plus; [|exact D].
  apply continuity_pt_comp; [exact D|apply Rcontinuity_abs].
Qed.

Definition silent : insig := IPw (fun _ => 0).
Lemma miss_delay : misses midpoint wexpm watf (wsys 1 1 (fun _ _ => 1) ident (fun _ => 1)) (wdc (1 / 2)) wheap [silent] [0].
Proof.
  destruct (wit_first 1 1 (fun _ _ => 1) ident (fun _ => 1) (1 / 2) [silent] [0]) as (p & s & hh & EI & EO & EN & _ & W & Hd & Ls & Efr & _ & Hx); try lra; auto.
  { intros i [<-|[]]. exact I. }
  { split; [auto|intros i [<-|[]]; exact I|intros X; now elim X]. }
  rewrite Rplus_0_r in EO. exists p, s, hh. split; [exact EI|]. split; [exact EO|]. split; [exact EN|].
  destruct (Hd O) as [Hdec [Hs Hold]]; [cbn; lia|]. cbn [wdc d_dec d_s d_old] in Hdec, Hs, Hold. change (rd wheap 1 0) with 0 in Hold.
  set (c := rd hh 1 0) in *.
  destruct (wit_solution 1 1 (fun _ _ => 1) ident (fun _ => 1) (1 / 2) [silent] [0] hh (fun _ t => c / 2 * (Rabs (t - 1 / 2) + (t - 1 / 2)))) as [E1 E2]; auto; try lra.
  { intros n Hn. rewrite Rabs_left by lra. destruct n as [|n]; [cbn [nth]; clearbody c; lra|lia]. }
  { apply easy_sol with (ex := [1 / 2]); [intros; apply late_cont|]. intros n t Hn Ht Hi.
    apply derivable_val with (l := if Rlt_bool t (1 / 2) then 0 else 2 * (c / 2)); [|apply late_deriv; intros E; apply Hi; left; auto].
    unfold wdrive. rewrite rsum_S, rsum_0. cbn [sig_nth nth sig_eval silent]. rewrite Hold. fold c. destruct (Rlt_bool t (1 / 2)); lra. }
  split; [exact E1|]. intros y Hy Heq. assert (A := E2 y Hy O (Nat.lt_0_succ _)). cbn [wdc d_clk wclk ck_T] in Heq. rewrite Heq, Hx in A by lia.
  cbn [indices is_pw silent filter seq length nth] in A. rewrite rsum_S, rsum_0 in A. cbn [sig_nth nth sig_eval] in A. rewrite !no_sines in A by exact Efr.
  rewrite Rabs_right in A by lra. clearbody c. change (sig_nth [silent] 0 1) with 0 in A. destruct Hs as [Hs|Hs]; rewrite Hs in A, Hdec; lra.
Qed.

(** sinusoids: component [n] of the solution when the drive is b sin(w t) *)
Lemma sine_int w t k : w <> 0 -> derivable_pt_lim (fun t => k / w * (1 - cos (w * t))) t (k * sin (w * t)).
Proof.
  intros Hw. apply derivable_val with (l := k / w * (0 - (- sin (w * t) * (w * 1)))); [field; exact Hw|].
  apply (derivable_pt_lim_scal (fct_cte 1 - comp cos (mult_real_fct w id))%F). apply derivable_pt_lim_minus; [apply derivable_pt_lim_const|].
  apply derivable_pt_lim_comp; [apply derivable_pt_lim_scal, derivable_pt_lim_id|apply derivable_pt_lim_cos].
Qed.
Lemma sine_int_cont w t k : w <> 0 -> continuity_pt (fun t => k / w * (1 - cos (w * t))) t.
Proof. intros Hw. apply derivable_continuous_pt. eexists. now apply sine_int. Qed.

Lemma wit_transfer N L b ct g w i l : w <> 0 -> transfer watf (wsys N L b ct g) w i l = (0, - (rsum N (fun k => ct i k * b k l)) / w).
Proof.
  intros Hw. unfold transfer. apply injective_projections; cbn [fst snd Cplus RtoC].
  - rewrite csum_fst, map_map. change (0 + rsum N (fun k => fst (RtoC (ct i k) * (0, (- b k l / w)%R))%C) = 0). rewrite rsum_zero; [ring|]. intros k Hk. cbn. ring.
  - rewrite csum_snd, map_map. change (0 + rsum N (fun k => snd (RtoC (ct i k) * (0, (- b k l / w)%R))%C) = - rsum N (fun k => ct i k * b k l) / w).
    rewrite (rsum_ext _ _ (fun k => (- / w) * (ct i k * b k l))) by (intros k Hk; cbn; field; exact Hw). rewrite rsum_scale. field. exact Hw.
Qed.
Lemma polar_shift z a x ph : Cmod z * a * sin (x + (angle z + ph)) = a * (fst z * sin (x + ph) + snd z * cos (x + ph)).
Proof. rewrite <- polar_sin. replace (x + (angle z + ph)) with (x + ph + angle z) by ring. ring. Qed.

(** an output matrix other than the identity *)
Lemma miss_output : misses midpoint wexpm watf (wsys 1 1 (fun _ _ => 1) (fun _ _ => 2) (fun _ => 0)) (wdc 0) wheap [ISin 1 (1 / 2) 0 0] [0].
Proof.
  assert (HP := PI_RGT_0). assert (Hw : ang_freq (1 / 2) = PI) by (unfold ang_freq; field).
  destruct (wit_first 1 1 (fun _ _ => 1) (fun _ _ => 2) (fun _ => 0) 0 [ISin 1 (1 / 2) 0 0] [0]) as (p & s & hh & EI & EO & EN & _ & W & Hd & Ls & Efr & Hsin & Hx); try lra; auto.
  { intros i [<-|[]]. lra. }
  { split; [auto|intros i [<-|[]]; reflexivity|intros _; auto]. }
  rewrite Rplus_0_r in EO. exists p, s, hh. split; [exact EI|]. split; [exact EO|]. split; [exact EN|].
  destruct (wit_solution 1 1 (fun _ _ => 1) (fun _ _ => 2) (fun _ => 0) 0 [ISin 1 (1 / 2) 0 0] [0] hh (fun _ t => 1 / PI * (1 - cos (PI * t)))) as [E1 E2]; auto; try lra.
  { intros n Hn. rewrite Rmult_0_r, cos_0. destruct n as [|n]; [cbn; lra|lia]. }
  { apply easy_sol with (ex := []); [intros; apply sine_int_cont; lra|]. intros n t Hn Ht Hi.
    apply derivable_val with (l := 1 * sin (PI * t)); [|apply sine_int; lra].
    unfold wdrive. rewrite rsum_S, rsum_0. cbn [sig_nth nth sig_eval]. rewrite Hw, !Rplus_0_r. ring. }
  split; [exact E1|]. intros y Hy Heq. assert (A := E2 y Hy O (Nat.lt_0_succ _)). cbn [wdc d_clk wclk ck_T] in Heq. rewrite Heq, Hx in A by lia.
  cbn [indices is_pw filter seq length nth] in A. rewrite rsum_0 in A. unfold sine_at in A. rewrite Efr in A.
  cbn [sins filter is_sin map length freq_of Nat.eqb nth] in A. rewrite !rsum_S, !rsum_0 in A.
  destruct (Hsin O O 1 (1 / 2) 0 0) as [Em Ep]; [lia|cbn; lia|reflexivity|]. rewrite Em, Ep in A. cbn [indices filter is_sin seq length nth Nat.eqb] in A.
  rewrite !polar_shift, wit_transfer, Hw in A by lra. cbn [fst snd] in A. rewrite rsum_S, rsum_0 in A.
  replace (PI * 1 + 0) with PI in A by ring. replace (PI * 0 + 0) with 0 in A by ring. rewrite (Rmult_1_r PI), !cos_PI, cos_0 in A.
  assert (B : 0 < / PI) by now apply Rinv_0_lt_compat. unfold Rdiv in A. lra.
Qed.

(** *** Two sinusoids of different frequencies *)
Definition tri (i l : nat) : R := match i, l with 1%nat, 0%nat => 0 | _, _ => 1 end.
Definition two_sines : list insig := [ISin 0 (1 / 2) 0 0; ISin 1 1 0 0].
Lemma miss_two : misses midpoint wexpm watf (wsys 2 2 tri ident (fun _ => 0)) (wdc 0) wheap two_sines [0; 0].
Proof.
  assert (HP := PI_RGT_0). assert (Hw : ang_freq (1 / 2) = PI) by (unfold ang_freq; field). assert (Hw2 : ang_freq 1 = 2 * PI) by (unfold ang_freq; ring).
  destruct (wit_first 2 2 tri ident (fun _ => 0) 0 two_sines [0; 0]) as (p & s & hh & EI & EO & EN & _ & W & Hd & Ls & Efr & Hsin & Hx); try lra; auto.
  { intros i [<-|[<-|[]]]; lra. }
  { split; [auto|intros i [<-|[<-|[]]]; reflexivity|intros _; auto]. }
  rewrite Rplus_0_r in EO. exists p, s, hh. split; [exact EI|]. split; [exact EO|]. split; [exact EN|].
  destruct (wit_solution 2 2 tri ident (fun _ => 0) 0 two_sines [0; 0] hh (fun _ t => 1 / (2 * PI) * (1 - cos (2 * PI * t)))) as [E1 E2]; auto; try lra.
  { intros n Hn. rewrite Rmult_0_r, cos_0. destruct n as [|[|n]]; [cbn; lra|cbn; lra|lia]. }
  { apply easy_sol with (ex := []); [intros; apply sine_int_cont; lra|]. intros n t Hn Ht Hi.
    apply derivable_val with (l := 1 * sin (2 * PI * t)); [|apply sine_int; lra].
    unfold wdrive. rewrite !rsum_S, rsum_0. cbn [sig_nth two_sines nth sig_eval]. rewrite Hw2, !Rplus_0_r.
    replace (tri n 1) with 1 by (destruct n as [|[|n]]; reflexivity). ring. }
  split; [exact E1|]. intros y Hy Heq. assert (A := E2 y Hy O (Nat.lt_0_succ _)). cbn [wdc d_clk wclk ck_T] in Heq. rewrite Heq, Hx in A by lia.
  cbn [indices two_sines is_pw filter seq length nth] in A. rewrite rsum_0 in A. unfold sine_at in A. rewrite Efr in A.
  cbn [sins two_sines filter is_sin map length freq_of Nat.eqb nth] in A. rewrite !rsum_S, !rsum_0 in A.
  destruct (Hsin O O 0 (1 / 2) 0 0) as [Em Ep]; [lia|cbn; lia|reflexivity|]. rewrite Em, Ep in A.
  destruct (Hsin O 1%nat 1 1 0 0) as [Em1 Ep1]; [lia|cbn; lia|reflexivity|]. rewrite Em1, Ep1 in A.
  cbn [indices two_sines filter is_sin seq length nth Nat.eqb] in A.
  rewrite !polar_shift, !wit_transfer, Hw, Hw2 in A by lra. cbn [fst snd] in A. rewrite !rsum_S, !rsum_0 in A. cbn [ident Nat.eqb tri] in A.
  replace (PI * 1 + 0) with PI in A by ring. replace (PI * 0 + 0) with 0 in A by ring. rewrite (Rmult_1_r (2 * PI)), cos_PI, cos_0, cos_2PI in A.
  assert (B : 0 < / PI) by now apply Rinv_0_lt_compat. unfold Rdiv in A. rewrite Rinv_mult in A. lra.
Qed.

(** *** FullSimulator without inputs *)
Definition step_amp (w : waveform) : R := match w with WStep _ a => a | WNRZ _ _ a => a | WRC _ _ a => a end.
Definition steps_only (d : dc) : Prop := forall w, In w (d_resp d) -> exists a, w = WStep 0 a.

Lemma step_wave d m t : steps_only d -> (m < length (d_resp d))%nat -> 0 <= t -> wave d m t = step_amp (nth m (d_resp d) (WStep 0 0)).
Proof.
  intros H Hm Ht. unfold wave. destruct (H _ (nth_In _ (WStep 0 0) Hm)) as [a ->]. cbn [w_eval step_amp]. now rewrite Rle_bool_true by lra.
Qed.

Lemma euler ivp S s hh : fitting S (s_d s) -> usable (s_d s) -> steps_only (s_d s) -> length (s_x s) = sN S -> 0 <= ck_T (d_clk (s_d s)) -> wf (s_d s) hh ->
  observe_update S (repeat 0 (sL S)) s = Ok hh -> endpoint (full_rhs S [] s hh) (ck_T (d_clk (s_d s))) (s_x s) (ivp (full_rhs S [] s hh) 0 (ck_T (d_clk (s_d s))) (s_x s)) ->
  exists x, full_next ivp S [] s = Ok (d_s (s_d s), mkSim (s_t s + ck_T (d_clk (s_d s))) x (s_d s) hh) /\ length x = sN S /\
  forall n, (n < sN S)%nat -> nth n x 0 = nth n (s_x s) 0 + ck_T (d_clk (s_d s)) * (rsum (sN S) (fun k => ent (aA S) n k * nth k (s_x s) 0) +
    rsum (sM S) (fun m => gent S n m * (step_amp (nth m (d_resp (s_d s)) (WStep 0 0)) * rd hh (d_dec (s_d s)) m))).
Proof.
  intros F U St Lx HT W EO (y & Hy & Ey). set (d := s_d s) in *. set (T := ck_T (d_clk d)) in *. exists (y T). split; [|split].
  - unfold full_next. fold d T. cbn [inputs_at]. rewrite EO. cbn [bind]. now rewrite Ey.
  - rewrite <- Lx. apply Hy. lra.
  - intros n Hn. set (v := map (fun n => rsum (sN S) (fun k => ent (aA S) n k * nth k (s_x s) 0) +
      rsum (sM S) (fun m => gent S n m * (step_amp (nth m (d_resp d) (WStep 0 0)) * rd hh (d_dec d) m))) (seq 0 (sN S))).
    rewrite (const_value (full_rhs S [] s hh) T (s_x s) v y); auto.
    + f_equal. f_equal. unfold v. now rewrite nth_seq_R.
    + unfold v. rewrite map_length, seq_length. congruence.
    + intros t x Ht Hx. unfold full_rhs. rewrite dotv_R by (rewrite (v_A _ (f_valid _ _ F)); auto). cbn [bind]. fold d. rewrite usable_contribution by (auto; lra). cbn [bind].
      assert (HG := f_G _ _ F). assert (HM := f_M _ _ F). unfold v, gent, sM in *. destruct (aG S) as [g|] eqn:EG; [|congruence]. cbn [dotv_opt].
      assert (Lr : length (d_resp d) = d_M d) by apply W.
      rewrite dotv_R by (rewrite map_length, seq_length; fold d in HM; congruence). cbn [bind]. f_equal.
      assert (RG := v_G _ (f_valid _ _ F)). rewrite EG in RG. rewrite RG, (v_A _ (f_valid _ _ F)). fold (sN S). rewrite vadd_seq. apply map_seq_ext. intros i Hi. f_equal.
      apply rsum_ext. intros m Hm. fold d in HM. rewrite nth_seq_R by lia. f_equal. f_equal. apply step_wave; auto; [lia|lra].
    + congruence.
Qed.

(** the state decays *)
Definition decay : asys Rring :=
  mkAS (K := Rring) (mk2 (K := Rring) 1 1 (fun _ _ => -1)) (zeros (K := Rring) 1 1) (zeros (K := Rring) 1 1) (Some (zeros (K := Rring) 1 1))
    (Some (zeros (K := Rring) 1 1)) (zeros (K := Rring) 1 1) (zeros (K := Rring) 1 1) (zeros (K := Rring) 1 1).
Lemma decay_fit td : fitting decay (wdc td).
Proof. split; try discriminate; [|reflexivity|cbn; lia]. split; cbn; auto. Qed.

Lemma wdc_steps td : steps_only (wdc td).
Proof. intros w [<-|[]]. now exists 1. Qed.

Lemma full_const (S : asys Rring) s hh : fitting S (s_d s) -> usable (s_d s) -> steps_only (s_d s) -> length (s_x s) = sN S -> wf (s_d s) hh -> exists v : list R, length v = sN S /\
  forall t x, 0 < t -> full_rhs S [] s hh t x = Ok v.
Proof.
  intros F U St Lx W. set (d := s_d s) in *.
  exists (map (fun n => rsum (sN S) (fun k => ent (aA S) n k * nth k (s_x s) 0) +
      rsum (sM S) (fun m => gent S n m * (step_amp (nth m (d_resp d) (WStep 0 0)) * rd hh (d_dec d) m))) (seq 0 (sN S))).
  split; [now rewrite map_length, seq_length|]. intros t x Ht.
  unfold full_rhs. rewrite dotv_R by (rewrite (v_A _ (f_valid _ _ F)); auto). cbn [bind]. fold d. rewrite usable_contribution by (auto; lra). cbn [bind].
  assert (HG := f_G _ _ F). assert (HM := f_M _ _ F). unfold gent, sM in *. destruct (aG S) as [g|] eqn:EG; [|congruence]. cbn [dotv_opt].
  assert (Lr : length (d_resp d) = d_M d) by apply W.
  rewrite dotv_R by (rewrite map_length, seq_length; fold d in HM; congruence). cbn [bind]. f_equal.
  assert (RG := v_G _ (f_valid _ _ F)). rewrite EG in RG. rewrite RG, (v_A _ (f_valid _ _ F)). fold (sN S). rewrite vadd_seq. apply map_seq_ext. intros i Hi. f_equal.
  apply rsum_ext. intros m Hm. fold d in HM. rewrite nth_seq_R by lia. f_equal. f_equal. apply step_wave; auto; [lia|lra].
Qed.

(** a solver that is exact on the calls made, and yet the state is wrong *)
Lemma miss_euler : exists hh x', observe_update decay [0] (mkSim 0 [1] (wdc 0) wheap) = Ok hh /\
  endpoint (full_rhs decay [] (mkSim 0 [1] (wdc 0) wheap) hh) 1 [1] (midpoint (full_rhs decay [] (mkSim 0 [1] (wdc 0) wheap) hh) 0 1 [1]) /\
  full_next midpoint decay [] (mkSim 0 [1] (wdc 0) wheap) = Ok (d_s (wdc 0), mkSim 1 x' (wdc 0) hh) /\
  (exists y, solves_pw (physics decay [] (mkSim 0 [1] (wdc 0) wheap) hh) 1 [1] y) /\
  (forall y, solves_pw (physics decay [] (mkSim 0 [1] (wdc 0) wheap) hh) 1 [1] y -> y 1 <> x').
Proof.
  set (s := mkSim 0 [1] (wdc 0) wheap). assert (W0 : wf (wdc 0) wheap) by (apply wdc_wf; lra).
  destruct (observe_ok decay (wdc 0) s [0] (decay_fit 0) eq_refl W0 (wdc_at_once 0) eq_refl eq_refl) as (hh & EO & Wh & _).
  destruct (full_const decay s hh (decay_fit 0) wdc_usable (wdc_steps 0) eq_refl Wh) as (v & Lv & Hv).
  assert (EP : endpoint (full_rhs decay [] s hh) 1 [1] (midpoint (full_rhs decay [] s hh) 0 1 [1])) by (apply const_endpoint with (v := v); [lra|exact Lv|intros; apply Hv; lra]).
  destruct (euler midpoint decay s hh (decay_fit 0) wdc_usable (wdc_steps 0) eq_refl Rle_0_1 Wh EO EP) as (x' & EN & Lx' & Hx').
  change (ck_T (d_clk (s_d s))) with 1 in *. change (s_t s + 1) with (0 + 1) in EN. rewrite Rplus_0_l in EN.
  exists hh, x'. split; [exact EO|]. split; [exact EP|]. split; [exact EN|].
  assert (Hf : forall t x, 0 < t < 1 -> length x = 1%nat -> physics decay [] s hh t x = Ok (map (fun n => rsum 1 (fun k => -1 * nth k x 0) + 0) (seq 0 1))).
  { intros t x Ht Hx. rewrite physics_ok; auto; [|apply decay_fit|apply wdc_usable|lra]. f_equal. apply map_seq_ext. intros n Hn. unfold drive. cbn [length]. rewrite rsum_0.
    rewrite (rsum_zero (sM decay) (fun m => gent decay n m * (wave (s_d s) m t * rd hh (d_dec (s_d s)) m))) by (intros; apply Rmult_0_l). rewrite Rplus_0_l. reflexivity. }
  assert (SE : sol 1 (fun _ _ => -1) 1 (fun _ _ => 0) (fun _ t => exp (- t))).
  { assert (D : forall t, derivable_pt_lim (fun t => exp (- t)) t (- exp (- t))).
    { intros t. apply derivable_val with (l := exp (- t) * (- (1))); [ring|]. apply (derivable_pt_lim_comp (- id)%F exp); [apply derivable_pt_lim_opp, derivable_pt_lim_id|apply derivable_pt_lim_exp]. }
    split; [intros; apply derivable_continuous_pt; eexists; apply D|]. exists []. intros n t _ _ _. rewrite rsum_S, rsum_0. apply derivable_val with (l := - exp (- t)); [ring|apply D]. }
  assert (H0 : forall n, (n < 1)%nat -> exp (- 0) = nth n [1] 0) by (intros n Hn; rewrite Ropp_0, exp_0; destruct n; [reflexivity|lia]).
  split; [eexists; exact (solves_of_sol 1 (fun _ _ => -1) _ _ 1 [1] _ Hf eq_refl H0 SE)|].
  intros y Hy Heq. assert (S1 := sol_of_solves 1 (fun _ _ => -1) _ _ 1 [1] y Hf eq_refl Hy).
  assert (A : nth 0 (y 1) 0 = exp (- 1)).
  { apply (unique _ _ _ _ _ _ S1 SE); [|lia|lra]. intros n Hn. rewrite (H0 n Hn). f_equal. apply Hy. }
  rewrite Heq, Hx' in A by (cbn; lia). change (sN decay) with 1%nat in A. change (sM decay) with 1%nat in A. rewrite !rsum_S, !rsum_0 in A. cbn in A.
  assert (B := exp_pos (- 1)). lra.
Qed.

(** *** More than one sinusoid and not as many as states *)
Lemma pre_raises ivp expm atf S d h inputs x0 p s0 : pre_init ivp expm atf S d h inputs x0 = Ok (p, s0) ->
  cols (expm (aA S) (ck_T (d_clk d))) = sN S -> (2 <= length (sins inputs))%nat -> length (sins inputs) <> sN S ->
  forall s hh, length (s_x s) = sN S -> observe_update S (inputs_at S (map sig_eval inputs) (s_t s + 0)) s = Ok hh -> pre_next S inputs p s = Exn ValueError.
Proof.
  intros EI HC H2 HN s hh Lx EO. unfold pre_init in EI.
  apply bind_ok in EI as (s1 & _ & EI). destruct (existsb _ _); [discriminate|]. destruct (Rlt_bool _ _); [discriminate|].
  apply bind_ok in EI as (u & _ & EI). apply bind_ok in EI as (ctrl & _ & EI). apply bind_ok in EI as (pwc & _ & EI). apply Ok_inj in EI. injection EI as <- _.
  unfold pre_next. rewrite EO. cbn [bind p_Phi p_freq]. rewrite dotv_R by congruence. cbn [bind].
  assert (LF : length (map (fun l => match nth l inputs (ISin 0 0 0 0) with ISin _ f _ _ => ang_freq f | _ => 0 end) (indices is_sin inputs)) = length (sins inputs)).
  { rewrite map_length. unfold sins. now rewrite <- (indices_map is_sin inputs), map_length. }
  set (fr := map _ (indices is_sin inputs)) in *. unfold sine_sum. cbn [p_freq]. rewrite LF.
  destruct fr as [|f0 fr']; [cbn in LF; lia|]. destruct (Nat.eqb_spec (length (sins inputs)) 1); [lia|]. destruct (Nat.eqb_spec (length (sins inputs)) (sN S)); [contradiction|].
  reflexivity.
Qed.

(** *** What the constructor leaves behind, whatever the numerical routines return *)
Lemma mapM_len {A B} (f : A -> result B) l : forall m, mapM f l = Ok m -> length m = length l.
Proof.
  induction l as [|a l IH]; intros m H; cbn [mapM] in H; [apply Ok_inj in H; now subst|].
  apply bind_ok in H as (b & _ & H). apply bind_ok in H as (bs & E & H). apply Ok_inj in H. subst m. cbn. f_equal. now apply IH.
Qed.
Lemma no_sin_indices inputs : sins inputs = [] -> indices is_sin inputs = [].
Proof. unfold sins. rewrite <- (indices_map is_sin inputs). destruct (indices is_sin inputs); [reflexivity|discriminate]. Qed.

Lemma pre_init_shape ivp expm atf S d h inputs (x0 : list R) p s0 : pre_init ivp expm atf S d h inputs (Some x0) = Ok (p, s0) ->
  rows (expm (aA S) (ck_T (d_clk d))) = sN S -> cols (expm (aA S) (ck_T (d_clk d))) = sN S ->
  shaped S p /\ s0 = mkSim 0 x0 d h /\ length x0 = sN S /\ (inputs = [] \/ length inputs = sL S) /\ p_Phi p = expm (aA S) (ck_T (d_clk d)) /\ p_pwi p = indices is_pw inputs /\
  (sins inputs = [] -> p_freq p = []) /\
  (forall m, (m < sM S)%nat -> exists c, ivp (control_rhs S d m) 0 (ck_T (d_clk d)) (zeroN (sN S)) = Ok c /\ forall n, (n < sN S)%nat -> ent (p_ctrl p) n m = nth n c 0) /\
  (forall j, (j < length (p_pwi p))%nat -> exists c, ivp (input_rhs S (nth j (p_pwi p) O)) 0 (ck_T (d_clk d)) (zeroN (sN S)) = Ok c /\ forall n, (n < sN S)%nat -> ent (p_pw p) n j = nth n c 0).
Proof.
  intros EI HR HC. unfold pre_init in EI. apply bind_ok in EI as (s1 & E0 & EI). destruct (existsb _ _); [discriminate|]. destruct (Rlt_bool _ _); [discriminate|].
  apply bind_ok in EI as (u & _ & EI). apply bind_ok in EI as (ctrl & Ec & EI). apply bind_ok in EI as (pwc & Ep & EI). apply Ok_inj in EI. injection EI as <- <-.
  unfold base_init in E0. destruct (Nat.ltb 0 (length inputs) && negb (Nat.eqb (sL S) (length inputs))) eqn:EL; [discriminate|].
  destruct (Nat.eqb_spec (length x0) (sN S)) as [L0|]; [|discriminate]. apply Ok_inj in E0. subst s1.
  assert (Lc := mapM_len _ _ _ Ec). assert (Lp := mapM_len _ _ _ Ep). rewrite seq_length in Lc.
  assert (M : forall A (f : A -> result (list R)) (l : list A) (m : list (list R)) (a0 : A), mapM f l = Ok m -> forall j, (j < length l)%nat -> f (nth j l a0) = Ok (nth j m [])).
  { intros A f. induction l as [|a l IH]; intros m a0 H j Hj; [cbn in Hj; lia|]. cbn [mapM] in H. apply bind_ok in H as (b & Eb & H). apply bind_ok in H as (bs & E & H). apply Ok_inj in H. subst m.
    destruct j as [|j]; [exact Eb|]. cbn [nth]. apply IH; [exact E|cbn in Hj; lia]. }
  split; [split; cbn; auto; split; congruence|]. split; [reflexivity|]. split; [exact L0|].
  split. { destruct inputs as [|i0 is0]; [now left|right]. apply andb_false_iff in EL. destruct EL as [EL|EL]; [discriminate|]. apply negb_false_iff, Nat.eqb_eq in EL. now symmetry. }
  split; [reflexivity|]. split; [reflexivity|]. split; [intros Hs; cbn [p_freq]; now rewrite no_sin_indices|].
  split.
  - intros m Hm. exists (nth m ctrl []). split; [|reflexivity]. assert (X := M _ _ _ _ O Ec m). rewrite seq_length, seq_nth in X by exact Hm. exact (X Hm).
  - intros j Hj. exists (nth j pwc []). split; [|reflexivity]. exact (M _ _ _ _ O Ep j Hj).
Qed.
