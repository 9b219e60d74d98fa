(** Proofs about FixedPoint. *)
From Coq Require Import ZArith Reals Lia Lra List.
From Flocq Require Import Core IEEE754.BinarySingleNaN.
From Verif Require Import Base FixedPoint.
Open Scope R_scope.

(** Truncation towards zero, characterised without [Ztrunc]: the integer of largest magnitude not exceeding the value in
    magnitude and with its sign. *)
Definition trunc_spec (x : R) (k : Z) : Prop :=
  (0 <= x -> IZR k <= x < IZR k + 1) /\ (x <= 0 -> IZR k - 1 < x <= IZR k).

Lemma Ztrunc_spec x : trunc_spec x (Ztrunc x).
Proof.
  split; intros H.
  - rewrite Ztrunc_floor by assumption. split; [apply Zfloor_lb|apply Zfloor_ub].
  - rewrite Ztrunc_ceil by assumption. split; [|apply Zceil_ub]. unfold Zceil. rewrite opp_IZR. pose proof (Zfloor_ub (- x)). lra.
Qed.

Lemma trunc_spec_unique x k k' : trunc_spec x k -> trunc_spec x k' -> k = k'.
Proof.
  intros [H1 H2] [H3 H4]. destruct (Rle_or_lt 0 x) as [Hx|Hx].
  - specialize (H1 Hx). specialize (H3 Hx). apply Z.le_antisymm; apply Z.lt_succ_r, lt_IZR; rewrite succ_IZR; lra.
  - specialize (H2 ltac:(lra)). specialize (H4 ltac:(lra)). apply Z.le_antisymm; apply Z.lt_succ_r, lt_IZR; rewrite succ_IZR; lra.
Qed.

Lemma Ztrunc_abs_le x : Rabs (IZR (Ztrunc x)) <= Rabs x.
Proof.
  destruct (Ztrunc_spec x) as [H1 H2]. destruct (Rle_or_lt 0 x) as [Hx|Hx].
  - specialize (H1 Hx). assert (0 <= Ztrunc x)%Z. { rewrite Ztrunc_floor by assumption. apply Zfloor_lub. assumption. }
    apply IZR_le in H. rewrite !Rabs_pos_eq; lra.
  - specialize (H2 ltac:(lra)). assert (Ztrunc x <= 0)%Z. { rewrite Ztrunc_ceil by lra. apply Zceil_glb. simpl. lra. }
    apply IZR_le in H. rewrite !Rabs_left1; lra.
Qed.

Lemma Ztrunc_err x : Rabs (IZR (Ztrunc x) - x) < 1.
Proof.
  destruct (Ztrunc_spec x) as [H1 H2]. destruct (Rle_or_lt 0 x) as [Hx|Hx].
  - specialize (H1 Hx). apply Rabs_lt. lra.
  - specialize (H2 ltac:(lra)). apply Rabs_lt. lra.
Qed.

Section Exact.
Variables (n : Z) (mx : R) (f : fxp).
Hypothesis Hn : (1 <= n)%Z.
Hypothesis Hm : 0 < mx.
Hypothesis Hf : fxp_init n mx = Ok f.

Lemma int_max_pos : (1 <= Z.shiftl 1 (n - 1))%Z.
Proof. rewrite Z.shiftl_1_l. pose proof (Z.pow_pos_nonneg 2 (n - 1)). lia. Qed.

Lemma init_fields : f = mkFxp n mx (2 ^ (n - 1)) (IZR (2 ^ (n - 1)) / mx) (1 / (IZR (2 ^ (n - 1)) / mx)).
Proof.
  unfold fxp_init, fixed_to_float_raw in Hf. destruct (Z.ltb_spec n 1); [lia|].
  destruct (Req_bool_spec mx 0); [lra|]. pose proof int_max_pos as Hp.
  destruct (Z.ltb_spec (Z.shiftl 1 (n - 1)) (Z.abs 1)) as [H1|H1]; [cbn in H1; lia|]. cbn [bind] in Hf.
  apply Ok_inj in Hf. rewrite Z.shiftl_1_l in Hf. now rewrite <- Hf.
Qed.

Notation P := (IZR (2 ^ (n - 1))).
Lemma P_pos : 1 <= P.
Proof. pose proof int_max_pos as H. rewrite Z.shiftl_1_l in H. now apply IZR_le in H. Qed.

Lemma scale_pos : 0 < P / mx.
Proof. pose proof P_pos. apply Rdiv_lt_0_compat; lra. Qed.

Lemma f2x_spec v :
  (mx < Rabs v -> float_to_fixed f v = Exn ArithmeticError) /\
  (Rabs v <= mx -> exists k, float_to_fixed f v = Ok k /\ trunc_spec (v * P / mx) k /\ (Z.abs k <= 2 ^ (n - 1))%Z).
Proof.
  rewrite init_fields. unfold float_to_fixed. cbn [fx_max fx_scale]. split; intros H.
  - rewrite Rlt_bool_true by assumption. reflexivity.
  - rewrite Rlt_bool_false by assumption. eexists. split; [reflexivity|]. split.
    + replace (v * P / mx) with (v * (P / mx)) by (field; lra). apply Ztrunc_spec.
    + apply le_IZR. rewrite abs_IZR. eapply Rle_trans; [apply Ztrunc_abs_le|].
      rewrite Rabs_mult, (Rabs_pos_eq (P / mx)) by (pose proof scale_pos; lra).
      pose proof P_pos. apply Rmult_le_reg_r with mx; [assumption|].
      replace (Rabs v * (P / mx) * mx) with (Rabs v * P) by (field; lra). rewrite (Rmult_comm P mx). apply Rmult_le_compat_r; lra.
Qed.

Lemma x2f_spec k :
  ((2 ^ (n - 1) < Z.abs k)%Z -> fixed_to_float f k = Exn ArithmeticError) /\
  ((Z.abs k <= 2 ^ (n - 1))%Z -> fixed_to_float f k = Ok (IZR k * mx / P)).
Proof.
  rewrite init_fields. unfold fixed_to_float, fixed_to_float_raw. cbn [fx_int_max fx_scale]. pose proof P_pos. split; intros H1.
  - destruct (Z.ltb_spec (2 ^ (n - 1)) (Z.abs k)); [reflexivity|lia].
  - destruct (Z.ltb_spec (2 ^ (n - 1)) (Z.abs k)); [lia|]. f_equal. field. lra.
Qed.

(** float -> fixed -> float *)
Lemma round_trip_float v k : Rabs v <= mx -> float_to_fixed f v = Ok k ->
  exists w, fixed_to_float f k = Ok w /\ Rabs (w - v) < mx / P /\ Rabs w <= Rabs v /\ 0 <= w * v /\ float_to_fixed f w = Ok k.
Proof.
  intros Hv Hk. destruct (f2x_spec v) as [_ H]. destruct (H Hv) as (k' & E & Hs & Hb). rewrite Hk in E. apply Ok_inj in E. subst k'.
  exists (IZR k * mx / P). pose proof P_pos as HP. pose proof scale_pos as Hsc.
  assert (Ek : k = Ztrunc (v * P / mx)) by (eapply trunc_spec_unique; [exact Hs|apply Ztrunc_spec]).
  assert (Ev : v = v * P / mx * (mx / P)) by (field; lra).
  assert (Ew : IZR k * mx / P = IZR k * (mx / P)) by (field; lra).
  assert (Hmp : 0 < mx / P) by (apply Rdiv_lt_0_compat; lra).
  assert (Hle : Rabs (IZR k * mx / P) <= Rabs v).
  { rewrite Ew, Ev, !Rabs_mult, (Rabs_pos_eq (mx / P)) by lra. apply Rmult_le_compat_r; [lra|]. rewrite Ek. apply Ztrunc_abs_le. }
  split; [now apply x2f_spec|]. split; [|split; [assumption|split]].
  - rewrite Ew. rewrite Ev at 1. rewrite <- Rmult_minus_distr_r, Rabs_mult, (Rabs_pos_eq (mx / P)) by lra.
    rewrite <- (Rmult_1_l (mx / P)) at 2. apply Rmult_lt_compat_r; [lra|]. rewrite Ek. apply Ztrunc_err.
  - rewrite Ew. rewrite Ev at 1. replace (IZR k * (mx / P) * (v * P / mx * (mx / P))) with (IZR k * (v * P / mx) * (mx / P * (mx / P))) by ring.
    apply Rmult_le_pos; [|apply Rmult_le_pos; lra]. destruct Hs as [Hs1 Hs2]. set (y := v * P / mx) in *.
    destruct (Rle_or_lt 0 y) as [Hy|Hy].
    + assert (0 <= k)%Z. { rewrite Ek. rewrite Ztrunc_floor by assumption. now apply Zfloor_lub. }
      apply IZR_le in H0. apply Rmult_le_pos; lra.
    + assert (k <= 0)%Z. { rewrite Ek. rewrite Ztrunc_ceil by lra. apply Zceil_glb. simpl. lra. }
      apply IZR_le in H0. replace (IZR k * y) with ((- IZR k) * (- y)) by ring. apply Rmult_le_pos; lra.
  - destruct (f2x_spec (IZR k * mx / P)) as [_ H']. destruct H' as (k'' & E'' & Hs'' & _); [lra|]. rewrite E''. f_equal.
    eapply trunc_spec_unique; [exact Hs''|]. replace (IZR k * mx / P * P / mx) with (IZR k) by (field; lra). rewrite <- (Ztrunc_IZR k) at 2.
    apply Ztrunc_spec.
Qed.

(** fixed -> float -> fixed *)
Lemma round_trip_fixed k : (Z.abs k <= 2 ^ (n - 1))%Z ->
  exists w, fixed_to_float f k = Ok w /\ Rabs w <= mx /\ float_to_fixed f w = Ok k.
Proof.
  intros Hk. pose proof P_pos as HP. exists (IZR k * mx / P). destruct (x2f_spec k) as [_ Hx].
  assert (Hb : Rabs (IZR k * mx / P) <= mx).
  { unfold Rdiv. rewrite !Rabs_mult, (Rabs_pos_eq mx), (Rabs_pos_eq (/ P)) by (try lra; left; apply Rinv_0_lt_compat; lra).
    rewrite <- abs_IZR. apply IZR_le in Hk. apply Rmult_le_reg_r with P; [lra|].
    replace (IZR (Z.abs k) * mx * / P * P) with (IZR (Z.abs k) * mx) by (field; lra). rewrite (Rmult_comm mx P). apply Rmult_le_compat_r; lra. }
  split; [now apply Hx|]. split; [assumption|].
  destruct (f2x_spec (IZR k * mx / P)) as [_ H']. destruct (H' Hb) as (k'' & E'' & Hs'' & _). rewrite E''. f_equal.
  eapply trunc_spec_unique; [exact Hs''|]. replace (IZR k * mx / P * P / mx) with (IZR k) by (field; lra). rewrite <- (Ztrunc_IZR k) at 2.
  apply Ztrunc_spec.
Qed.

Lemma f2x_monotone v w k l : v <= w -> float_to_fixed f v = Ok k -> float_to_fixed f w = Ok l -> (k <= l)%Z.
Proof.
  rewrite init_fields. unfold float_to_fixed. cbn [fx_max fx_scale]. pose proof scale_pos.
  destruct (Rlt_bool mx (Rabs v)); [discriminate|]. destruct (Rlt_bool mx (Rabs w)); [discriminate|].
  intros Hvw E1 E2. apply Ok_inj in E1. apply Ok_inj in E2. subst. apply Ztrunc_le. apply Rmult_le_compat_r; lra.
Qed.

Lemma f2x_odd v : float_to_fixed f (- v) = match float_to_fixed f v with Ok k => Ok (- k)%Z | Exn e => Exn e end.
Proof.
  rewrite init_fields. unfold float_to_fixed. cbn [fx_max fx_scale]. rewrite Rabs_Ropp. destruct (Rlt_bool mx (Rabs v)); [reflexivity|].
  f_equal. rewrite Ropp_mult_distr_l_reverse. apply Ztrunc_opp.
Qed.

Lemma f2x_max : float_to_fixed f mx = Ok (2 ^ (n - 1))%Z.
Proof.
  destruct (f2x_spec mx) as [_ H]. destruct H as (k & E & Hs & _); [rewrite Rabs_pos_eq; lra|]. rewrite E. f_equal.
  eapply trunc_spec_unique; [exact Hs|]. replace (mx * P / mx) with P by (field; lra). rewrite <- (Ztrunc_IZR (2 ^ (n - 1))) at 2.
  apply Ztrunc_spec.
Qed.
End Exact.

Lemma init_ok n mx : (1 <= n)%Z -> 0 < mx -> exists f, fxp_init n mx = Ok f.
Proof.
  intros Hn Hm. unfold fxp_init, fixed_to_float_raw. destruct (Z.ltb_spec n 1); [lia|]. destruct (Req_bool_spec mx 0); [lra|].
  pose proof (int_max_pos n Hn). destruct (Z.ltb_spec (Z.shiftl 1 (n - 1)) (Z.abs 1)) as [H2|H2]; [cbn in H2; lia|]. cbn [bind]. eauto.
Qed.

(** *** binary64, power-of-two full scale *)
Notation fexp64 := (SpecFloat.fexp prec64 emax64).
Notation fmt := (generic_format radix2 fexp64).

Lemma fmt_dyadic k e : (Z.abs k <= 2 ^ 53)%Z -> (-1074 <= e)%Z -> fmt (IZR k * bpow radix2 e).
Proof.
  intros Hk He. apply generic_format_FLT.
  destruct (Z.eq_dec (Z.abs k) (2 ^ 53)) as [E|E].
  - (* 2^53 = 1 * 2^53 *)
    apply (FLT_spec radix2 (-1074) 53 _ (Float radix2 (Z.sgn k * 2 ^ 52) (e + 1))).
    + unfold F2R. cbn [Fnum Fexp]. rewrite mult_IZR, bpow_plus. change (bpow radix2 1) with 2.
      assert (Ek : (k = 2 ^ 52 * 2 * Z.sgn k)%Z) by (change (2 ^ 52 * 2)%Z with (2 ^ 53)%Z; lia).
      rewrite Ek at 1. rewrite !mult_IZR. ring.
    + cbn [Fnum]. rewrite Z.abs_mul. change (Zpower radix2 53) with (2 ^ 53)%Z. assert (Z.abs (Z.sgn k) <= 1)%Z by lia. 
      change (Z.abs (2 ^ 52)) with (2 ^ 52)%Z. change (2 ^ 53)%Z with (2 * 2 ^ 52)%Z. pose proof (Z.pow_pos_nonneg 2 52). nia.
    + cbn [Fexp]. lia.
  - apply (FLT_spec radix2 (-1074) 53 _ (Float radix2 k e)); cbn [Fnum Fexp]; auto. change (Zpower radix2 53) with (2 ^ 53)%Z. lia.
Qed.

Lemma round_dyadic k e : (Z.abs k <= 2 ^ 53)%Z -> (-1074 <= e)%Z ->
  round radix2 fexp64 (round_mode mode_NE) (IZR k * bpow radix2 e) = IZR k * bpow radix2 e.
Proof. intros Hk He. apply round_generic; [apply valid_rnd_N|now apply fmt_dyadic]. Qed.

Lemma dyadic_bound k e : (Z.abs k <= 2 ^ 53)%Z -> (e <= 970)%Z -> Rlt_bool (Rabs (IZR k * bpow radix2 e)) (bpow radix2 emax64) = true.
Proof.
  intros Hk He. apply Rlt_bool_true. rewrite Rabs_mult, (Rabs_pos_eq (bpow radix2 e)) by apply bpow_ge_0. rewrite <- abs_IZR.
  apply Rle_lt_trans with (bpow radix2 53 * bpow radix2 e).
  - apply Rmult_le_compat_r; [apply bpow_ge_0|]. change (bpow radix2 53) with (IZR (2 ^ 53)). now apply IZR_le.
  - rewrite <- bpow_plus. apply bpow_lt. unfold emax64. lia.
Qed.

Lemma b64_of_Z_spec k : (Z.abs k <= 2 ^ 53)%Z -> B2R (b64_of_Z k) = IZR k /\ is_finite (b64_of_Z k) = true.
Proof.
  intros Hk. pose proof (binary_normalize_correct prec64 emax64 Hprec64 Hmax64 mode_NE k 0 false) as H.
  replace (F2R (Float radix2 k 0)) with (IZR k * bpow radix2 0) in H by reflexivity.
  cbv zeta in H.
  rewrite round_dyadic in H by (assumption || lia). rewrite dyadic_bound in H by (assumption || lia).
  destruct H as (H1 & H2 & _). unfold b64_of_Z. rewrite H1. split; [change (bpow radix2 0) with 1; ring|assumption].
Qed.

Lemma not_zero (x : b64) : B2R x <> 0 -> match x with B754_zero _ => False | _ => True end.
Proof. destruct x; simpl; auto. Qed.

Section Pow2.
Variables (n e : Z) (mx : b64) (f : fxp64).
Hypothesis Hn : (1 <= n <= 53)%Z.
Hypothesis He : (-900 <= e <= 900)%Z.
Hypothesis Hmx : B2R mx = bpow radix2 e.
Hypothesis Hf : fxp64_init n mx = Ok f.

Lemma mx_finite : is_finite mx = true.
Proof. pose proof (bpow_gt_0 radix2 e) as H. rewrite <- Hmx in H. destruct mx; simpl in *; auto; lra. Qed.

Lemma int_max_le : (Z.abs (Z.shiftl 1 (n - 1)) <= 2 ^ 53)%Z.
Proof.
  rewrite Z.shiftl_1_l, Z.abs_eq by (apply Z.pow_nonneg; lia). apply Z.pow_le_mono_r; lia.
Qed.

Lemma init64_fields : fx64_max f = mx /\ fx64_int_max f = (2 ^ (n - 1))%Z
  /\ B2R (fx64_scale f) = bpow radix2 (n - 1 - e) /\ is_finite (fx64_scale f) = true.
Proof.
  unfold fxp64_init in Hf. destruct (Z.ltb_spec n 1); [lia|]. destruct (b64_of_Z_spec _ int_max_le) as [E1 E2].
  rewrite E2 in Hf. cbn [negb] in Hf.
  assert (Hnz : B2R mx <> 0) by (rewrite Hmx; pose proof (bpow_gt_0 radix2 e); lra).
  assert (Hf' : Ok (mkFxp64 mx (Z.shiftl 1 (n - 1)) (b64_div (b64_of_Z (Z.shiftl 1 (n - 1))) mx)) = Ok f).
  { pose proof (not_zero mx Hnz). destruct mx; [contradiction| | |]; exact Hf. }
  apply Ok_inj in Hf'. rewrite <- Hf'. cbn [fx64_max fx64_int_max fx64_scale]. split; [reflexivity|]. split; [apply Z.shiftl_1_l|].
  pose proof (@Bdiv_correct prec64 emax64 Hprec64 Hmax64 mode_NE (b64_of_Z (Z.shiftl 1 (n - 1))) mx Hnz) as H1.
  rewrite E1, Hmx in H1.
  assert (Eq : IZR (Z.shiftl 1 (n - 1)) / bpow radix2 e = IZR 1 * bpow radix2 (n - 1 - e)).
  { rewrite Z.shiftl_1_l. unfold Zminus at 2. rewrite bpow_plus, bpow_opp. rewrite (IZR_Zpower radix2) by lia. unfold Rdiv. ring. }
  rewrite Eq in H1. rewrite round_dyadic in H1 by lia. rewrite dyadic_bound in H1 by lia. destruct H1 as (H2 & H3 & _).
  unfold b64_div. rewrite H2. split; [ring|]. now rewrite H3.
Qed.

Lemma pow2_fixed_round_trip k : (Z.abs k <= 2 ^ (n - 1))%Z ->
  exists w, fixed_to_float64 f k = Ok w /\ is_finite w = true /\ B2R w = IZR k * B2R mx / IZR (2 ^ (n - 1)) /\ float_to_fixed64 f w = Ok k.
Proof.
  intros Hk. destruct init64_fields as (F1 & F2 & F3 & F4).
  assert (Hk53 : (Z.abs k <= 2 ^ 53)%Z).
  { eapply Z.le_trans; [exact Hk|]. apply Z.pow_le_mono_r; lia. }
  assert (Hnz : B2R (fx64_scale f) <> 0) by (rewrite F3; pose proof (bpow_gt_0 radix2 (n - 1 - e)); lra).
  destruct (b64_of_Z_spec k Hk53) as [E1 E2].
  pose proof (@Bdiv_correct prec64 emax64 Hprec64 Hmax64 mode_NE (b64_of_Z k) (fx64_scale f) Hnz) as HD.
  rewrite E1, F3 in HD.
  assert (Eq : IZR k / bpow radix2 (n - 1 - e) = IZR k * bpow radix2 (- (n - 1 - e))) by (rewrite bpow_opp; reflexivity).
  rewrite Eq in HD. rewrite round_dyadic in HD by lia. rewrite dyadic_bound in HD by lia. destruct HD as (D1 & D2 & D3).
  exists (b64_div (b64_of_Z k) (fx64_scale f)). rewrite E2 in D2.
  fold (b64_div (b64_of_Z k) (fx64_scale f)) in D1, D2. set (w := b64_div (b64_of_Z k) (fx64_scale f)) in *.
  split; [|split; [exact D2|split]].
  - unfold fixed_to_float64. rewrite F2. destruct (Z.ltb_spec (2 ^ (n - 1)) (Z.abs k)); [lia|]. rewrite E2. cbn [negb].
    pose proof (not_zero _ Hnz) as Hz. unfold w in *. destruct (fx64_scale f); [contradiction| | |]; reflexivity.
  - rewrite D1, Hmx. rewrite (IZR_Zpower radix2) by lia. replace (- (n - 1 - e))%Z with (e + - (n - 1))%Z by lia.
    rewrite bpow_plus, bpow_opp. unfold Rdiv. ring.
  - unfold float_to_fixed64. rewrite F1.
    assert (Hgt : b64_gt (Babs w) mx = false).
    { unfold b64_gt. rewrite Bcompare_correct by (rewrite ?is_finite_Babs; auto using mx_finite). rewrite B2R_Babs, D1, Hmx.
      replace (Rcompare _ _) with (Rcompare (Rabs (IZR k * bpow radix2 (- (n - 1 - e)))) (bpow radix2 e)) by reflexivity.
      destruct (Rcompare_spec (Rabs (IZR k * bpow radix2 (- (n - 1 - e)))) (bpow radix2 e)) as [_|_|Hc]; auto. exfalso.
      rewrite Rabs_mult, (Rabs_pos_eq (bpow radix2 _)) in Hc by apply bpow_ge_0. rewrite <- abs_IZR in Hc.
      apply IZR_le in Hk. rewrite (IZR_Zpower radix2) in Hk by lia.
      apply (Rmult_le_compat_r (bpow radix2 (- (n - 1 - e)))) in Hk; [|apply bpow_ge_0]. rewrite <- bpow_plus in Hk.
      replace (n - 1 + - (n - 1 - e))%Z with e in Hk by lia. lra. }
    rewrite Hgt.
    pose proof (@Bmult_correct prec64 emax64 Hprec64 Hmax64 mode_NE w (fx64_scale f)) as HM. rewrite D1, F3 in HM.
    assert (Ep : IZR k * bpow radix2 (- (n - 1 - e)) * bpow radix2 (n - 1 - e) = IZR k * bpow radix2 0).
    { rewrite Rmult_assoc, <- bpow_plus. do 2 f_equal. lia. }
    rewrite Ep in HM. rewrite round_dyadic in HM by lia. rewrite dyadic_bound in HM by lia. destruct HM as (M1 & M2 & M3).
    rewrite D2, F4 in M2. cbn [andb] in M2. fold (b64_mul w (fx64_scale f)) in M1, M2.
    assert (HT : Btrunc (b64_mul w (fx64_scale f)) = k).
    { apply eq_IZR. rewrite Btrunc_correct by reflexivity. rewrite M1. rewrite Rmult_1_r.
      apply round_generic; [apply valid_rnd_ZR|]. apply generic_format_FIX. exists (Float radix2 k 0); [unfold F2R; simpl; ring|reflexivity]. }
    destruct (b64_mul w (fx64_scale f)); cbn [is_finite] in M2; try discriminate; now rewrite HT.
Qed.
End Pow2.
