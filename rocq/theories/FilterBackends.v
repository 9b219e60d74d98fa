(** The other ways to compute the coefficients: mpmath (the default), sympy, and mid points. *)
From Coq Require Import List Arith Lia Bool Reals Lra.
From Flocq Require Import Core.
From Coquelicot Require Import Complex.
From Verif Require Import Base LinAlg FirExtras AnalogSystem AnalogProofs Signals DigitalControl DigitalControlProofs ControlKinds
  Integrators IntegratorsProofs Simulator Stability LinearOde PreSim Zpk FilterCoeff FilterCoeffProofs FilterOde.
Import ListNotations.
Open Scope R_scope.

(** waveforms that are on during the whole period [0, T] *)
Definition full_period (T : R) (w : waveform) : Prop :=
  match w with WStep t0 _ => t0 <= 0 | WNRZ t0 te _ => t0 <= 0 /\ T <= te | WRC tau t0 _ => tau <> 0 /\ t0 <= 0 end.
(** constant during the whole period, starting at 0 *)
Definition constant_wave (T : R) (w : waveform) : Prop :=
  match w with WStep t0 _ => t0 = 0 | WNRZ t0 te _ => t0 = 0 /\ T <= te | WRC _ _ _ => False end.
Definition w_amp (w : waveform) : R := match w with WStep _ a => a | WNRZ _ _ a => a | WRC _ _ a => a end.

Lemma mp_wave T w t : full_period T w -> 0 < t < T -> w_mp w t = w_eval w t.
Proof.
  intros H Ht. destruct w as [t0 a|t0 te a|tau t0 a]; cbn in *.
  - now rewrite Rle_bool_true by lra.
  - now rewrite Rlt_bool_true, Rle_bool_true by lra.
  - now rewrite Rlt_bool_false by lra.
Qed.
Lemma constant_full T w : constant_wave T w -> full_period T w.
Proof. destruct w; cbn; intuition; lra. Qed.
Lemma constant_value T w t : constant_wave T w -> 0 < t < T -> w_eval w t = Ok (w_amp w).
Proof.
  intros H Ht. destruct w as [t0 a|t0 te a|tau t0 a]; cbn in *; [| |contradiction].
  - now rewrite Rle_bool_true by lra.
  - now rewrite Rlt_bool_true, Rle_bool_true by lra.
Qed.

Definition waves_are (d : dc) (P : R -> waveform -> Prop) : Prop := forall w, In w (d_resp d) -> P (ck_T (d_clk d)) w.

Lemma sig_mp_wave S d m t : fits S d -> waves_are d full_period -> (m < sM S)%nat -> 0 < t < ck_T (d_clk d) -> sig_mp d m t = Ok (wave d m t).
Proof.
  intros Fi Hw Hm Ht. destruct (fi_w _ _ Fi) as [Lr Hr]. rewrite (fi_M _ _ Fi) in Lr. unfold sig_mp. rewrite nth_error_nth' with (d := WStep 0 0) by lia.
  assert (Hin : In (nth m (d_resp d) (WStep 0 0)) (d_resp d)) by (apply nth_In; lia).
  rewrite (mp_wave (ck_T (d_clk d))) by auto. unfold wave. destruct (w_eval_ok _ t (Hr _ Hin)) as [x ->]. reflexivity.
Qed.

Lemma mp_rhs_ok (S : asys Rring) (M G : rmat) w m t (x : list R) (v : R) : rows M = sN S -> cols M = sN S -> rows G = sN S -> length x = sN S -> w m t = Ok v ->
  mp_rhs M G w m t x = Ok (map (fun n => rsum (sN S) (fun k => ent M n k * nth k x 0) + ent G n m * v) (seq 0 (sN S))).
Proof.
  intros RM CM RG Lx Ew. unfold mp_rhs. rewrite Ew. cbn [bind]. rewrite dotv_R by congruence. cbn [bind]. rewrite RM, CM, RG, vadd_seq. f_equal.
  apply map_seq_ext. intros; ring.
Qed.

(** *** Parts of a period *)
Lemma sol_restrict N A T T' b z : T' <= T -> sol N A T b z -> sol N A T' b z.
Proof. intros H [C [ex D]]. split; [intros; apply C; auto; lra|]. exists ex. intros. apply D; auto; lra. Qed.
Lemma sol_shift N A T a b z : 0 <= a -> sol N A T b z -> sol N A (T - a) (fun n t => b n (t + a)) (fun n t => z n (t + a)).
Proof.
  assert (Ds : forall t, derivable_pt_lim (fun t => t + a) t 1).
  { intros t. replace 1 with (1 + 0) by ring. apply (derivable_pt_lim_plus id (fct_cte a)); [apply derivable_pt_lim_id|apply derivable_pt_lim_const]. }
  intros Ha [C [ex D]]. split.
  - intros n t Hn Ht. apply (continuity_pt_comp (fun t => t + a) (z n)); [|apply C; [exact Hn|lra]]. apply derivable_continuous_pt. exists 1. apply Ds.
  - exists (map (fun e => e - a) ex). intros n t Hn Ht Hi.
    assert (Hi' : ~ In (t + a) ex). { intros X. apply Hi. apply in_map_iff. exists (t + a). split; [ring|exact X]. }
    specialize (D n (t + a) Hn ltac:(lra) Hi'). rewrite <- (Rmult_1_r (_ + b n (t + a))). apply (derivable_pt_lim_comp (fun t => t + a) (z n)); [apply Ds|exact D].
Qed.

(** every solution over a period follows the coefficients (no claim that solutions exist) *)
Definition follows_fwd (S : asys Rring) (d : dc) (F : nat -> nat -> R) (Af Bf : rmat) : Prop :=
  let T := ck_T (d_clk d) in
  forall c z, sol (sN S) F T (ctl S d c) z -> forall n, (n < sN S)%nat ->
    z n T = rsum (sN S) (fun k => ent Af n k * z k 0) + rsum (sM S) (fun m => ent Bf n m * c m).

Section P.
Variables (care_raw : rmat -> rmat -> rmat -> rmat -> result rmat) (inv : rmat -> result rmat) (solve : rmat -> rmat -> result rmat)
  (ivp : (R -> list R -> result (list R)) -> R -> R -> list R -> result (list R)) (expm : rmat -> R -> result rmat).
Variables (S : asys Rring) (d : dc).
Hypothesis SO : sound S d care_raw inv solve ivp expm.
Let coeff := coefficients care_raw inv solve ivp expm S d.

Lemma mpmath_ignores_mid eta2 : coeff eta2 BMpmath true = coeff eta2 BMpmath false.
Proof. reflexivity. Qed.

Lemma mpmath_good eta2 mid Af Ab Bf Bb WT : fits S d -> waves_are d full_period -> eta2 <> 0 -> 0 <= ck_T (d_clk d) ->
  coeff eta2 BMpmath mid = Ok (Af, Ab, Bf, Bb, WT) -> good_coefficients S d eta2 Af Ab Bf Bb WT.
Proof.
  intros Fi Hw He HT H. unfold coeff, coefficients in H. apply bind_Ok in H as ([[Rm Vf] Vb] & ER & H). assert (V := fi_valid _ _ Fi).
  apply (riccati_Ok _ _ _ _ _ _ _ SO) in ER as (-> & RF & CF & RB & CB & QF & QB); auto.
  unfold mp_solver in H. apply bind_Ok in H as ([tAf tAb] & ET & H). apply (temp_Ok _ _ _ _ _ _ _ SO) in ET as (R1 & C1 & R2 & C2 & EF & EB); auto.
  assert (VG := v_G _ V). assert (HG := fi_G _ _ Fi). destruct (aG S) as [G|] eqn:EG; [|congruence].
  apply bind_Ok in H as (Bf' & EBf & H). apply bind_Ok in H as (Bb' & EBb & H).
  apply bind_Ok in H as (Af' & EAf & H). apply bind_Ok in H as (Ab' & EAb & H). apply bind_Ok in H as (Vs & EV & H). apply bind_Ok in H as (W & EW & H).
  apply Ok_inj in H. injection H as <- <- <- <- <-.
  exists (ent Vf), (ent Vb). split; [exact QF|]. split; [exact QB|]. split; [eapply solve_weights; eauto|]. split.
  - eapply samples_fwd_ext; [exact EF|]. eapply regular_fwd; eauto; [intros; now constructor|]. intros m t x Hm Ht Hx.
    rewrite (mp_rhs_ok S) with (v := wave d m t) by (auto; eapply sig_mp_wave; eauto). unfold gent. rewrite EG. reflexivity.
  - eapply samples_bwd_ext; [exact EB|]. eapply regular_bwd; eauto; [intros; now constructor|]. intros m t x Hm Ht Hx.
    rewrite (mp_rhs_ok S) with (v := wave d m (ck_T (d_clk d) - t)); auto.
    + f_equal. apply map_seq_ext. intros n Hn. unfold gent. rewrite EG. cbn. f_equal. ring.
    + eapply sig_mp_wave; eauto. lra.
Qed.

Lemma sympy_mid eta2 Rm Vf Vb : riccati care_raw S eta2 = Ok (Rm, Vf, Vb) -> coeff eta2 BSympy true = Exn NotImplementedError.
Proof. intros H. unfold coeff, coefficients. rewrite H. reflexivity. Qed.

Lemma constant_wave_eq m t : fits S d -> waves_are d constant_wave -> (m < sM S)%nat -> 0 < t < ck_T (d_clk d) -> wave d m t = w_amp (nth m (d_resp d) (WStep 0 0)).
Proof.
  intros Fi Hw Hm Ht. destruct (fi_w _ _ Fi) as [Lr Hr]. rewrite (fi_M _ _ Fi) in Lr. unfold wave.
  rewrite (constant_value (ck_T (d_clk d))); auto. apply Hw, nth_In. lia.
Qed.

Lemma sympy_good eta2 Af Ab Bf Bb WT : fits S d -> waves_are d constant_wave -> eta2 <> 0 -> 0 <= ck_T (d_clk d) ->
  coeff eta2 BSympy false = Ok (Af, Ab, Bf, Bb, WT) -> good_coefficients S d eta2 Af Ab Bf Bb WT.
Proof.
  intros Fi Hw He HT H. unfold coeff, coefficients in H. apply bind_Ok in H as ([[Rm Vf] Vb] & ER & H). assert (V := fi_valid _ _ Fi).
  apply (riccati_Ok _ _ _ _ _ _ _ SO) in ER as (-> & RF & CF & RB & CB & QF & QB); auto.
  unfold analytical in H. apply bind_Ok in H as ([tAf tAb] & ET & H). apply (temp_Ok _ _ _ _ _ _ _ SO) in ET as (R1 & C1 & R2 & C2 & EF & EB); auto.
  assert (VG := v_G _ V). assert (HG := fi_G _ _ Fi). destruct (aG S) as [G|] eqn:EG; [|congruence].
  apply bind_Ok in H as (Bf' & EBf & H). apply bind_Ok in H as (Bb' & EBb & H).
  apply bind_Ok in H as (Af' & EAf & H). apply bind_Ok in H as (Ab' & EAb & H). apply bind_Ok in H as (Vs & EV & H). apply bind_Ok in H as (W & EW & H).
  apply Ok_inj in H. injection H as <- <- <- <- <-.
  assert (Hw' : waves_are d full_period) by (intros w Hin; apply constant_full, Hw, Hin).
  assert (Z0 : forall m, (m < sM S)%nat -> w_t0 (nth m (d_resp d) (WStep 0 0)) = 0).
  { intros m Hm. destruct (fi_w _ _ Fi) as [Lr _]. rewrite (fi_M _ _ Fi) in Lr. assert (X := Hw (nth m (d_resp d) (WStep 0 0)) ltac:(apply nth_In; lia)).
    destruct (nth m (d_resp d) (WStep 0 0)); cbn in *; tauto. }
  assert (Ecol : forall f, columns (sN S) (sM S) (fun m => ivp (f m) (w_t0 (nth m (d_resp d) (WStep 0 0))) (ck_T (d_clk d)) (repeat 0 (sN S))) =
                           columns (sN S) (sM S) (fun m => ivp (f m) 0 (ck_T (d_clk d)) (repeat 0 (sN S)))).
  { intros f. unfold columns. assert (X : forall l, (forall m, In m l -> (m < sM S)%nat) -> mapM (fun m => ivp (f m) (w_t0 (nth m (d_resp d) (WStep 0 0))) (ck_T (d_clk d)) (repeat 0 (sN S))) l =
        mapM (fun m => ivp (f m) 0 (ck_T (d_clk d)) (repeat 0 (sN S))) l).
    { induction l as [|a l IH]; intros Hl; [reflexivity|]. cbn [mapM]. rewrite Z0 by (apply Hl; now left). destruct (ivp _ _ _ _); [|reflexivity]. cbn [bind].
      rewrite IH by (intros; apply Hl; now right). reflexivity. }
    rewrite X; [reflexivity|]. intros m Hm. apply in_seq in Hm. lia. }
  rewrite Ecol in EBf, EBb.
  exists (ent Vf), (ent Vb). split; [exact QF|]. split; [exact QB|]. split; [eapply solve_weights; eauto|]. split.
  - eapply samples_fwd_ext; [exact EF|]. eapply regular_fwd; eauto; [intros; now constructor|]. intros m t x Hm Ht Hx.
    rewrite (mp_rhs_ok S) with (v := wave d m t) by (auto; eapply sig_mp_wave; eauto). unfold gent. rewrite EG. reflexivity.
  - eapply samples_bwd_ext; [exact EB|]. eapply regular_bwd; eauto; [intros; now constructor|]. intros m t x Hm Ht Hx.
    rewrite (mp_rhs_ok S) with (v := wave d m (ck_T (d_clk d) - t)); auto.
    + f_equal. apply map_seq_ext. intros n Hn. unfold gent. rewrite EG. cbn. f_equal. ring.
    + rewrite (sig_mp_wave S) by auto. f_equal. rewrite !constant_wave_eq by (auto; lra). reflexivity.
Qed.

(** the mid point option of the numpy solver leaves the forward filter as it is when the waveforms are constant *)
Lemma midpoint_fwd eta2 Af Ab Bf Bb WT : fits S d -> waves_are d constant_wave -> eta2 <> 0 -> 0 <= ck_T (d_clk d) ->
  coeff eta2 BNumpy true = Ok (Af, Ab, Bf, Bb, WT) ->
  exists Vf Vb, riccati_sol S eta2 1 Vf /\ riccati_sol S eta2 (-1) Vb /\ weights S Vf Vb WT /\ follows_fwd S d (fwdA S eta2 Vf) Af Bf.
Proof.
  intros Fi Hw He HT H. unfold coeff, coefficients in H. apply bind_Ok in H as ([[Rm Vf] Vb] & ER & H). assert (V := fi_valid _ _ Fi).
  apply (riccati_Ok _ _ _ _ _ _ _ SO) in ER as (-> & RF & CF & RB & CB & QF & QB); auto.
  unfold numerical in H. apply bind_Ok in H as ([tAf tAb] & ET & H). apply (temp_Ok _ _ _ _ _ _ _ SO) in ET as (R1 & C1 & R2 & C2 & EF & EB); auto.
  apply bind_Ok in H as (Af' & EAf & H). apply bind_Ok in H as (Ab' & EAb & H). apply bind_Ok in H as (Vs & EV & H). apply bind_Ok in H as (W & EW & H).
  unfold mid_point in H. apply bind_Ok in H as ([Bf' Bb'] & Ebb & H). apply Ok_inj in H. injection H as <- <- <- <- <-.
  apply bind_Ok in Ebb as (Bh & EBh & Ebb). apply bind_Ok in Ebb as (Bb2 & _ & Ebb). apply bind_Ok in Ebb as (E & EE & Ebb). apply bind_Ok in Ebb as (E1 & EE1 & Ebb).
  apply bind_Ok in Ebb as (Bf2 & EBf & Ebb). apply bind_Ok in Ebb as (X2 & _ & Ebb). apply bind_Ok in Ebb as (E2 & _ & Ebb). apply bind_Ok in Ebb as (Bb3 & _ & Ebb).
  apply Ok_inj in Ebb. injection Ebb as <- <-.
  exists (ent Vf), (ent Vb). split; [exact QF|]. split; [exact QB|]. split; [eapply solve_weights; eauto|].
  set (T := ck_T (d_clk d)) in *. assert (HT2 : 0 <= T / 2) by lra.
  apply (so_expm _ _ _ _ _ _ _ SO) in EE; [|exact HT2]. apply (so_expm _ _ _ _ _ _ _ SO) in EAf; [|exact HT]. rewrite R1 in EE, EAf.
  apply zip2_Ok in EE1 as (_ & _ & RE1 & CE1 & EE1). apply dotm_Ok in EBf as (_ & _ & _ & EBf). cbn [eye2 cols rows] in CE1, RE1.
  assert (EBh' := EBh). apply columns_Ok in EBh as (_ & _ & EBh).
  set (g := fun m n (t : R) => gent S n m * wave d m t).
  assert (HB : forall m, (m < sM S)%nat -> exists z, sol (sN S) (ent tAf) (T / 2) (fun n t => g m n t) z /\ (forall n, (n < sN S)%nat -> z n 0 = 0) /\
             forall n, (n < sN S)%nat -> z n (T / 2) = ent Bh n m).
  { intros m Hm. destruct (EBh m Hm) as (c & Ec & Eb). apply (so_ivp _ _ _ _ _ _ _ SO) in Ec; [|constructor|split; [exact HT2|unfold T in *; lra]].
    destruct (column_sol (sN S) (ent tAf) (T / 2) _ (fun n t => g m n t) c Ec) as (z & H1 & H2 & H3).
    - intros t x Ht Hx. apply fwd_rhs_ok; auto. fold T. lra.
    - exists z. split; [exact H1|]. split; [exact H2|]. intros n Hn. now rewrite Eb, H3. }
  assert (X : forall c n t, ctl S d c n t = rsum (sM S) (fun m => c m * g m n t)) by (intros; unfold ctl, g; apply rsum_ext; intros; ring).
  assert (Half : forall c z, sol (sN S) (ent tAf) (T / 2) (ctl S d c) z -> forall n, (n < sN S)%nat ->
      z n (T / 2) = rsum (sN S) (fun k => ent E n k * z k 0) + rsum (sM S) (fun m => ent Bh n m * c m)).
  { intros c z Sz. apply (period_all (sN S) (sM S) (T / 2) tAf E Bh g R1 C1 HT2 EE HB c z). eapply sol_ext; [|exact Sz]. intros. now rewrite X. }
  assert (Shift : forall c z, sol (sN S) (ent tAf) T (ctl S d c) z -> sol (sN S) (ent tAf) (T / 2) (ctl S d c) (fun n t => z n (t + T / 2))).
  { intros c z Sz. apply (sol_shift _ _ _ (T / 2)) in Sz; [|exact HT2]. replace (T - T / 2) with (T / 2) in Sz by field. eapply sol_ext; [|exact Sz].
    intros n t Hn Ht. cbv beta. unfold ctl. apply rsum_ext. intros m Hm. rewrite !constant_wave_eq by (auto; fold T; lra). reflexivity. }
  assert (Two : forall c z, sol (sN S) (ent tAf) T (ctl S d c) z -> forall n, (n < sN S)%nat ->
      z n T = rsum (sN S) (fun k => ent E n k * (rsum (sN S) (fun l => ent E k l * z l 0) + rsum (sM S) (fun m => ent Bh k m * c m))) + rsum (sM S) (fun m => ent Bh n m * c m)).
  { intros c z Sz n Hn. assert (Y := Half c _ (Shift c z Sz) n Hn). cbv beta in Y. replace (T / 2 + T / 2) with T in Y by field. rewrite Y. f_equal. apply rsum_ext. intros k Hk.
    rewrite Rplus_0_l. rewrite (Half c z); auto. eapply sol_restrict; [|exact Sz]. unfold T in *; lra. }
  intros c z Sz n Hn. fold T. assert (Sz' : sol (sN S) (ent tAf) T (ctl S d c) z) by (eapply sol_extA; [|exact Sz]; intros; now rewrite EF).
  rewrite (Two c z Sz' n Hn).
  (* the flow over a period *)
  assert (Fl : rsum (sN S) (fun k => ent Af' n k * z k 0) = rsum (sN S) (fun k => ent E n k * rsum (sN S) (fun l => ent E k l * z l 0))).
  { destruct (flow_sol (sN S) T tAf Af' R1 C1 EAf (map (fun k => z k 0) (seq 0 (sN S)))) as (y & Sy & Y0 & Y1); [now rewrite map_length, seq_length|].
    assert (Sy' : sol (sN S) (ent tAf) T (ctl S d (fun _ => 0)) y).
    { eapply sol_ext; [|exact Sy]. intros. unfold ctl. rewrite rsum_zero; [reflexivity|]. intros; ring. }
    assert (Y := Two _ y Sy' n Hn). rewrite Y1 in Y by exact Hn. rewrite (rsum_zero (sM S) (fun m => ent Bh n m * 0)) in Y by (intros; ring). rewrite Rplus_0_r in Y.
    transitivity (rsum (sN S) (fun k => ent Af' n k * nth k (map (fun k => z k 0) (seq 0 (sN S))) 0)); [apply rsum_ext; intros k Hk; now rewrite nth_seq_R|]. rewrite Y.
    apply rsum_ext. intros k Hk. f_equal. rewrite (rsum_zero (sM S)) by (intros; ring). rewrite Rplus_0_r. apply rsum_ext. intros l Hl. rewrite Y0 by exact Hl. now rewrite nth_seq_R. }
  rewrite Fl.
  assert (D : rsum (sN S) (fun k => ent E n k * (rsum (sN S) (fun l => ent E k l * z l 0) + rsum (sM S) (fun m => ent Bh k m * c m))) =
     rsum (sN S) (fun k => ent E n k * rsum (sN S) (fun l => ent E k l * z l 0)) + rsum (sN S) (fun k => ent E n k * rsum (sM S) (fun m => ent Bh k m * c m))).
  { rewrite <- rsum_add. apply rsum_ext. intros; ring. }
  rewrite D, Rplus_assoc. f_equal.
  rewrite (rsum_ext _ (fun m => ent Bf2 n m * c m) (fun m => rsum (sN S) (fun k => ent E n k * (ent Bh k m * c m)) + ent Bh n m * c m)).
  - rewrite rsum_add. f_equal. rewrite rsum_swap. apply rsum_ext. intros k _. now rewrite rsum_scale.
  - intros m Hm. rewrite EBf, CE1.
    rewrite (rsum_ext _ (fun k => ent E1 n k * ent Bh k m) (fun k => ent E n k * ent Bh k m + (if Nat.eqb k n then ent Bh k m else 0))).
    + rewrite rsum_add, rsum_single by exact Hn. rewrite Rmult_plus_distr_r. f_equal. rewrite Rmult_comm, <- rsum_scale. apply rsum_ext. intros; ring.
    + intros k Hk. rewrite EE1. cbn [eye2 ent car r0 r1 Rring]. rewrite (Nat.eqb_sym k n). destruct (Nat.eqb n k); ring.
Qed.
End P.
