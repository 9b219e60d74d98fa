(** Property theorems C08, C09: FixedPoint.
    [trunc_spec x k] (FixedPointProofs.v): [k] is [x] truncated towards zero, stated with inequalities only. *)
From Coq Require Import ZArith Reals Lia Lra List.
From Flocq Require Import Core IEEE754.BinarySingleNaN.
From Verif Require Import Base FixedPoint FixedPointProofs.
Open Scope R_scope.

(** C08: construction never fails for [bits >= 1], [max > 0]; domain and value of both conversions. *)
Theorem C08_conversions : forall n mx, (1 <= n)%Z -> 0 < mx -> exists f, fxp_init n mx = Ok f /\
  (forall v, (mx < Rabs v -> float_to_fixed f v = Exn ArithmeticError) /\
             (Rabs v <= mx -> exists k, float_to_fixed f v = Ok k /\ trunc_spec (v * IZR (2 ^ (n - 1)) / mx) k
                                        /\ (Z.abs k <= 2 ^ (n - 1))%Z)) /\
  (forall k, ((2 ^ (n - 1) < Z.abs k)%Z -> fixed_to_float f k = Exn ArithmeticError) /\
             ((Z.abs k <= 2 ^ (n - 1))%Z -> fixed_to_float f k = Ok (IZR k * mx / IZR (2 ^ (n - 1))))).
Proof.
  intros n mx Hn Hm. destruct (init_ok n mx Hn Hm) as [f Hf]. exists f. split; [assumption|]. split.
  - intros v. now apply f2x_spec.
  - intros k. now apply x2f_spec.
Qed.
Print Assumptions C08_conversions.
Example C08_ex1 : trunc_spec (- 0.7 * IZR (2 ^ (4 - 1)) / 2) (-2) /\ 0 < 2 /\ Rabs (- 0.7) <= 2.
Proof. change (IZR (2 ^ (4 - 1))) with 8. split; [split; intros; lra|]. split; [lra|]. rewrite Rabs_left; lra. Qed.

(** C08: float to fixed to float loses less than one LSB, never grows, keeps the sign and is idempotent. *)
Theorem C08_float_round_trip : forall n mx f v, (1 <= n)%Z -> 0 < mx -> fxp_init n mx = Ok f -> Rabs v <= mx ->
  exists k w, float_to_fixed f v = Ok k /\ fixed_to_float f k = Ok w /\
    Rabs (w - v) < mx / IZR (2 ^ (n - 1)) /\ Rabs w <= Rabs v /\ 0 <= w * v /\ float_to_fixed f w = Ok k.
Proof.
  intros n mx f v Hn Hm Hf Hv. destruct (f2x_spec n mx f Hn Hm Hf v) as [_ H]. destruct (H Hv) as (k & E & _).
  destruct (round_trip_float n mx f Hn Hm Hf v k Hv E) as (w & Hw). exists k, w. split; [assumption|]. exact Hw.
Qed.
Print Assumptions C08_float_round_trip.

Theorem C08_fixed_round_trip : forall n mx f k, (1 <= n)%Z -> 0 < mx -> fxp_init n mx = Ok f -> (Z.abs k <= 2 ^ (n - 1))%Z ->
  exists w, fixed_to_float f k = Ok w /\ Rabs w <= mx /\ float_to_fixed f w = Ok k.
Proof. intros. eapply round_trip_fixed; eauto. Qed.
Print Assumptions C08_fixed_round_trip.

Theorem C08_monotone_odd : forall n mx f, (1 <= n)%Z -> 0 < mx -> fxp_init n mx = Ok f ->
  (forall v w k l, v <= w -> float_to_fixed f v = Ok k -> float_to_fixed f w = Ok l -> (k <= l)%Z) /\
  (forall v k, float_to_fixed f v = Ok k -> float_to_fixed f (- v) = Ok (- k)%Z).
Proof.
  intros n mx f Hn Hm Hf. split.
  - intros. eapply f2x_monotone; eauto.
  - intros v k E. rewrite (f2x_odd n mx f Hn Hm Hf), E. reflexivity.
Qed.
Print Assumptions C08_monotone_odd.
Example C08_ex2 : exists f, fxp_init 8 1 = Ok f.
Proof. apply init_ok; [lia|lra]. Qed.

(** C08: full scale does not fit in an [n]-bit two's complement word [-2^(n-1), 2^(n-1) - 1]. *)
Theorem C08_full_scale_fits_word_refuted : forall n mx f, (1 <= n)%Z -> 0 < mx -> fxp_init n mx = Ok f ->
  exists v k, Rabs v <= fx_max f /\ float_to_fixed f v = Ok k /\ ~ (- 2 ^ (n - 1) <= k < 2 ^ (n - 1))%Z.
Proof.
  intros n mx f Hn Hm Hf. exists mx, (2 ^ (n - 1))%Z. rewrite (init_fields n mx f Hn Hm Hf) at 1. cbn [fx_max].
  split; [rewrite Rabs_pos_eq; lra|]. split; [now apply (f2x_max n mx f)|lia].
Qed.
Print Assumptions C08_full_scale_fits_word_refuted.

(** C09 *)
Definition b64_lit (m e : Z) : b64 := binary_normalize prec64 emax64 Hprec64 Hmax64 mode_NE m e false.

Definition get {A} (r : result A) (d : A) : A := match r with Ok a => a | Exn _ => d end.
Lemma get_ok {A} (r : result A) d : is_ok r = true -> r = Ok (get r d).
Proof. destruct r; [reflexivity|discriminate]. Qed.

(** [FixedPoint(8, 1.1)] and [FixedPoint(4, 1.9)]; 1.1 = 4953959590107546 / 2^52, 1.9 = 8556839292003942 / 2^52. *)
Definition d64 : fxp64 := mkFxp64 (b64_lit 1 0) 1 (b64_lit 1 0).
Definition mx11 : b64 := b64_lit 4953959590107546 (-52).
Definition fx11 : fxp64 := get (fxp64_init 8 mx11) d64.
Definition mx19 : b64 := b64_lit 8556839292003942 (-52).
Definition fx19 : fxp64 := get (fxp64_init 4 mx19) d64.

(** The integer 126 comes back as 125. *)
Theorem C09_integer_round_trip_refuted : exists n mx f k w,
  fxp64_init n mx = Ok f /\ (Z.abs k <= 2 ^ (n - 1))%Z /\ fixed_to_float64 f k = Ok w /\ is_finite w = true /\
  exists k', float_to_fixed64 f w = Ok k' /\ k' <> k.
Proof.
  exists 8%Z, mx11, fx11, 126%Z, (get (fixed_to_float64 fx11 126) mx11).
  split; [apply get_ok; vm_compute; reflexivity|]. split; [vm_compute; discriminate|].
  split; [apply get_ok; vm_compute; reflexivity|]. split; [vm_compute; reflexivity|].
  exists 125%Z. split; [vm_compute; reflexivity|discriminate].
Qed.
Print Assumptions C09_integer_round_trip_refuted.

(** The float of the largest integer is itself rejected. *)
Theorem C09_full_scale_round_trip_refuted : exists n mx f k w,
  fxp64_init n mx = Ok f /\ (Z.abs k <= 2 ^ (n - 1))%Z /\ fixed_to_float64 f k = Ok w /\ is_finite w = true /\
  float_to_fixed64 f w = Exn ArithmeticError.
Proof.
  exists 4%Z, mx19, fx19, 8%Z, (get (fixed_to_float64 fx19 8) mx19).
  split; [apply get_ok; vm_compute; reflexivity|]. split; [vm_compute; discriminate|].
  split; [apply get_ok; vm_compute; reflexivity|]. split; [vm_compute; reflexivity|]. vm_compute; reflexivity.
Qed.
Print Assumptions C09_full_scale_round_trip_refuted.

(** Whenever [max] is a power of two the double arithmetic is exact and every integer survives. *)
Theorem C09_power_of_two_exact : forall n e mx, (1 <= n <= 53)%Z -> (-900 <= e <= 900)%Z -> B2R mx = bpow radix2 e ->
  exists f, fxp64_init n mx = Ok f /\ forall k, (Z.abs k <= 2 ^ (n - 1))%Z ->
    exists w, fixed_to_float64 f k = Ok w /\ is_finite w = true /\ B2R w = IZR k * B2R mx / IZR (2 ^ (n - 1)) /\
              float_to_fixed64 f w = Ok k.
Proof.
  intros n e mx Hn He Hmx.
  assert (Hf : exists f, fxp64_init n mx = Ok f).
  { unfold fxp64_init. destruct (Z.ltb_spec n 1); [lia|]. destruct (b64_of_Z_spec _ (int_max_le n Hn)) as [_ E2]. rewrite E2. cbn [negb].
    assert (Hnz : B2R mx <> 0) by (rewrite Hmx; pose proof (bpow_gt_0 radix2 e); lra).
    pose proof (not_zero mx Hnz). destruct mx; [contradiction| | |]; eauto. }
  destruct Hf as [f Hf]. exists f. split; [assumption|]. intros k Hk. eapply pow2_fixed_round_trip; eauto.
Qed.
Print Assumptions C09_power_of_two_exact.
Example C09_ex : B2R (b64_lit 1 (-2)) = bpow radix2 (-2).
Proof.
  pose proof (binary_normalize_correct prec64 emax64 Hprec64 Hmax64 mode_NE 1 (-2) false) as H. cbv zeta in H.
  replace (F2R (Float radix2 1 (-2))) with (IZR 1 * bpow radix2 (-2)) in H by reflexivity.
  rewrite round_dyadic in H by lia. rewrite dyadic_bound in H by lia. unfold b64_lit. rewrite (proj1 H). ring.
Qed.
