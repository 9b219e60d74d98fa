(** Sums of the symmetric Blackman window; sums of the bins of separated sinusoids over masks. *)
From Coq Require Import List Arith Bool ZArith Reals Lra Lia.
From Coquelicot Require Import Complex.
From Verif Require Import Base LinAlg AnalogSystem AnalogProofs IntegratorsProofs LinearOde CplxLin SignalsMore SignalsMoreProofs EstimatorDecay FirFreq FirFreqProofs Psd PsdProofs PsdNoise PsdRms Peaks P_Peaks P_Psd P_PsdNoise.
Import ListNotations.
Open Scope R_scope.
Lemma sym_periodic M k : (2 <= M)%nat -> (k <= M)%nat -> nth k (blackman_sym (M + 1)) 0 = blackman M k.
Proof.
  intros H Hk. unfold blackman_sym. replace (Nat.leb (M + 1) 1) with false by (symmetry; apply Nat.leb_gt; lia). set (f := fun k => _). rewrite (nth_indep _ 0 (f O)) by (rewrite map_length, seq_length; lia). rewrite map_nth, seq_nth by lia. unfold f, blackman.
  replace (Nat.leb M 1) with false by (symmetry; apply Nat.leb_gt; lia). replace (M + 1 - 1)%nat with M by lia. cbn [Nat.add]. cbv zeta. rewrite Rmult_0_l, cos_0, Rmult_1_l. replace (INR k * (2 * PI / INR M)) with (2 * PI * INR k / INR M) by (unfold Rdiv; ring). set (a := 2 * PI * INR k / INR M).
  replace (- PI + a) with (a - PI) by ring. replace (2 * (a - PI)) with (2 * a - 2 * PI) by ring. rewrite (cos_minus a PI), (cos_minus (2 * a) (2 * PI)), cos_PI, sin_PI, cos_2PI, sin_2PI. ring.
Qed.
Lemma sym_length N : length (blackman_sym N) = N.
Proof. unfold blackman_sym. destruct (Nat.leb N 1); [apply repeat_length|now rewrite map_length, seq_length]. Qed.
Lemma fold_rsum (l : list R) g : fold_right (fun v s => g v + s) 0 l = rsum (length l) (fun k => g (nth k l 0)).
Proof. induction l as [|v l IH]; [now rewrite rsum_0|]. cbn [length fold_right]. rewrite rsum_S_l, IH. reflexivity. Qed.
Lemma blackman_end M : (2 <= M)%nat -> blackman M M = 0.
Proof. intros H. assert (INR M <> 0) by (apply not_0_INR; lia). unfold blackman. replace (Nat.leb M 1) with false by (symmetry; apply Nat.leb_gt; lia). replace (2 * PI * INR M / INR M) with (2 * PI) by (field; assumption). rewrite cos_2PI. rewrite cos_2a_cos, cos_2PI. lra. Qed.
Lemma blackman_sum M : (3 <= M)%nat -> rsum M (blackman M) = INR M * (42 / 100).
Proof.
  intros H. assert (W := window_bins M 0 ltac:(lia)). unfold window_at in W. apply RtoC_inj. unfold weight in W. cbn [Z.eqb] in W. rewrite <- W.
  rewrite <- csum_R. apply csum_ext. intros k _. replace (2 * PI * IZR 0 * INR k / INR M) with 0 by (unfold Rdiv; ring). unfold cis. rewrite cos_0, sin_0. unfold RtoC, Cmult. cbn [fst snd]. f_equal; ring.
Qed.
Lemma sym_sum M : (3 <= M)%nat -> fold_right Rplus 0 (blackman_sym (M + 1)) = INR M * (42 / 100).
Proof.
  intros H. change (fold_right Rplus 0 (blackman_sym (M + 1))) with (fold_right (fun v s => (fun v => v) v + s) 0 (blackman_sym (M + 1))). rewrite fold_rsum, sym_length, Nat.add_1_r, rsum_S, (rsum_ext _ _ (blackman M)) by (intros; rewrite <- Nat.add_1_r; apply sym_periodic; lia). rewrite <- Nat.add_1_r, sym_periodic, blackman_end, blackman_sum by lia. ring.
Qed.
Lemma sym_power M : (5 <= M)%nat -> fold_right (fun v s => v * v + s) 0 (blackman_sym (M + 1)) = INR M * (3046 / 10000).
Proof.
  intros H. change (fold_right (fun v s => v * v + s) 0 (blackman_sym (M + 1))) with (fold_right (fun v s => (fun v => v * v) v + s) 0 (blackman_sym (M + 1))). rewrite fold_rsum, sym_length, Nat.add_1_r, rsum_S, (rsum_ext _ _ (fun k => blackman M k * blackman M k)) by (intros; rewrite <- Nat.add_1_r, sym_periodic by lia; reflexivity).
  rewrite <- Nat.add_1_r, sym_periodic, blackman_end by lia. fold (window_power M). rewrite window_power_eq by lia. ring.
Qed.

(** Sums over masks *)
Lemma sum_over_add {X} (f g : X -> R) l : sum_over (fun t => f t + g t) l = sum_over f l + sum_over g l.
Proof. unfold sum_over. induction l; cbn [fold_right]; [ring|]. rewrite IHl. ring. Qed.
Lemma sum_over_swap {X Y} (f : X -> Y -> R) a b : sum_over (fun x => sum_over (f x) b) a = sum_over (fun y => sum_over (fun x => f x y) a) b.
Proof.
  induction a as [|x a IH].
  - symmetry. apply sum_over_zero. reflexivity.
  - change (sum_over (f x) b + sum_over (fun x => sum_over (f x) b) a = sum_over (fun y => f x y + sum_over (fun x => f x y) a) b). rewrite IH, sum_over_add. reflexivity.
Qed.
Lemma parts_in m mask : NoDup mask -> (2 <= m)%nat -> (forall q, (m - 2 <= q <= m + 2)%nat -> In q mask) -> sum_over (fun q => parts (Z.of_nat m - Z.of_nat q)) mask = 1.
Proof.
  intros ND Hm H. apply Rle_antisym.
  - apply Rle_trans with (sum_over (fun q => parts (Z.of_nat m - Z.of_nat q)) (seq (m - 2) 5 ++ filter (fun q => negb (existsb (Nat.eqb q) (seq (m - 2) 5))) mask)).
    + apply sub_sum; [intros; apply parts_nonneg|exact ND|]. intros q Hq. apply in_or_app. destruct (existsb (Nat.eqb q) (seq (m - 2) 5)) eqn:E; [left|right; apply filter_In; split; [exact Hq|]; rewrite E; reflexivity].
      apply existsb_exists in E. destruct E as (z & Hz & E). apply Nat.eqb_eq in E. now subst.
    + assert (A : forall a b : list nat, forall f, sum_over f (a ++ b) = sum_over f a + sum_over f b) by (intros a b f; unfold sum_over; induction a; cbn [fold_right app]; [ring|]; rewrite IHa; ring). rewrite A.
      rewrite (sum_over_zero _ (filter _ _)).
      * unfold sum_over. cbn [seq fold_right]. replace (Z.of_nat m - Z.of_nat (m - 2))%Z with 2%Z by lia. replace (Z.of_nat m - Z.of_nat (S (m - 2)))%Z with 1%Z by lia. replace (Z.of_nat m - Z.of_nat (S (S (m - 2))))%Z with 0%Z by lia.
        replace (Z.of_nat m - Z.of_nat (S (S (S (m - 2)))))%Z with (-1)%Z by lia. replace (Z.of_nat m - Z.of_nat (S (S (S (S (m - 2))))))%Z with (-2)%Z by lia. cbn [parts Z.abs]. lra.
      * intros q Hq. apply filter_In in Hq. destruct Hq as [_ Hq]. apply parts_far. destruct (Z.le_gt_cases (Z.abs (Z.of_nat m - Z.of_nat q)) 2) as [Y|Y]; [|lia]. exfalso. apply Bool.negb_true_iff in Hq. enough (existsb (Nat.eqb q) (seq (m - 2) 5) = true) by congruence. apply existsb_exists. exists q. split; [apply in_seq; lia|apply Nat.eqb_refl].
  - apply Rle_trans with (sum_over (fun q => parts (Z.of_nat m - Z.of_nat q)) (seq (m - 2) 5)).
    + unfold sum_over. cbn [seq fold_right]. replace (Z.of_nat m - Z.of_nat (m - 2))%Z with 2%Z by lia. replace (Z.of_nat m - Z.of_nat (S (m - 2)))%Z with 1%Z by lia. replace (Z.of_nat m - Z.of_nat (S (S (m - 2))))%Z with 0%Z by lia.
      replace (Z.of_nat m - Z.of_nat (S (S (S (m - 2)))))%Z with (-1)%Z by lia. replace (Z.of_nat m - Z.of_nat (S (S (S (S (m - 2))))))%Z with (-2)%Z by lia. cbn [parts Z.abs]. lra.
    + apply sub_sum; [intros; apply parts_nonneg|apply seq_NoDup|]. intros q Hq. apply in_seq in Hq. apply H. lia.
Qed.
Lemma parts_out m mask : (forall q, In q mask -> (2 < Z.abs (Z.of_nat m - Z.of_nat q))%Z) -> sum_over (fun q => parts (Z.of_nat m - Z.of_nat q)) mask = 0.
Proof. intros H. apply sum_over_zero. intros q Hq. apply parts_far, H, Hq. Qed.
