(** The transform of a sinusoid without window, and the inverse transform. *)
From Coq Require Import List Arith Bool ZArith Reals Lra Lia.
From Coquelicot Require Import Complex.
From Verif Require Import Base LinAlg AnalogSystem AnalogProofs IntegratorsProofs LinearOde CplxLin SignalsMore SignalsMoreProofs EstimatorDecay FirFreq FirFreqProofs Psd PsdProofs Decimate.
Import ListNotations.
Open Scope R_scope.

Lemma tone_dft n m A p q : (1 <= n)%nat -> (2 * m <= n)%nat -> (2 * q < n)%nat ->
  rfft_bin n (fun k => A * cos (2 * PI * INR m * INR k / INR n + p)) q = if Nat.eqb m q then (if Nat.eqb q 0 then RtoC (A * INR n * cos p) else (RtoC (A / 2 * INR n) * cis p)%C) else RtoC 0.
Proof.
  intros Hn Hm Hq. assert (N : INR n <> 0) by (apply not_0_INR; lia).
  transitivity (RtoC (A / 2) * cis p * turns n (Z.of_nat m - Z.of_nat q) + RtoC (A / 2) * cis (- p) * turns n (- Z.of_nat m - Z.of_nat q))%C.
  - unfold turns, rfft_bin. rewrite <- !csum_scale, <- csum_add. apply csum_ext. intros k _. rewrite !RtoC_mult, cos_cis.
    set (a := 2 * PI * INR m * INR k / INR n). set (b := 2 * PI * INR q * INR k / INR n).
    replace (2 * PI * IZR (Z.of_nat m - Z.of_nat q) * INR k / INR n) with (a + - b) by (unfold a, b; rewrite minus_IZR, <- !INR_IZR_INZ; field; exact N).
    replace (2 * PI * IZR (- Z.of_nat m - Z.of_nat q) * INR k / INR n) with (- a + - b) by (unfold a, b; rewrite minus_IZR, opp_IZR, <- !INR_IZR_INZ; field; exact N).
    rewrite Ropp_plus_distr, <- !cis_mult. replace (RtoC (A / 2)) with (RtoC A * RtoC (1 / 2))%C by (rewrite <- RtoC_mult; f_equal; field). ring.
  - rewrite !turns_eq by lia. destruct (Nat.eqb_spec m q) as [->|E].
    + rewrite Z.sub_diag. cbn [Z.eqb]. destruct (Nat.eqb_spec q 0) as [->|E].
      * cbn [Z.of_nat Z.opp Z.sub Z.add Z.eqb]. unfold cis, RtoC, Cmult, Cplus. cbn [fst snd]. rewrite cos_neg, sin_neg. f_equal; field.
      * rewrite (proj2 (Z.eqb_neq (- Z.of_nat q - Z.of_nat q) 0)) by lia. rewrite RtoC_mult. ring.
    + rewrite (proj2 (Z.eqb_neq (Z.of_nat m - Z.of_nat q) 0)), (proj2 (Z.eqb_neq (- Z.of_nat m - Z.of_nat q) 0)) by lia. ring.
Qed.
Lemma bin_add Nx num x y q : resample_bin Nx num (fun k => x k + y k) q = Cplus (resample_bin Nx num x q) (resample_bin Nx num y q).
Proof. unfold resample_bin. destruct (Nat.ltb q (Nat.min num Nx / 2 + 1)); [rewrite dft_add|]; (destruct (Nat.even (Nat.min num Nx) && Nat.eqb q (Nat.min num Nx / 2)); [destruct (Nat.ltb num Nx); [ring|destruct (Nat.ltb Nx num); ring]|ring]). Qed.
Lemma resample_add Nx num x y j : resample Nx num (fun k => x k + y k) j = resample Nx num x j + resample Nx num y j.
Proof.
  unfold resample, irfft. rewrite <- Rmult_plus_distr_r. f_equal. unfold Rdiv. rewrite <- Rmult_plus_distr_r. f_equal. rewrite <- rsum_add. apply rsum_ext. intros q _. rewrite bin_add. rewrite <- Rmult_plus_distr_l. f_equal.
  destruct (resample_bin Nx num x q), (resample_bin Nx num y q). unfold Cmult, Cplus. cbn [fst snd]. ring.
Qed.
Lemma resample_ext Nx num x y j : (forall k, (k < Nx)%nat -> x k = y k) -> resample Nx num x j = resample Nx num y j.
Proof. intros H. unfold resample, irfft. f_equal. f_equal. apply rsum_ext. intros q _. unfold resample_bin. now rewrite (dft_ext Nx x y q H). Qed.
Lemma resample_zero Nx num j : resample Nx num (fun _ => 0) j = 0.
Proof.
  assert (H := resample_add Nx num (fun _ => 0) (fun _ => 0) j). rewrite (resample_ext Nx num (fun _ => 0 + 0) (fun _ => 0)) in H by (intros; ring). lra.
Qed.
Lemma single_bin n f m : (m <= n)%nat -> (forall q, (q <= n)%nat -> q <> m -> f q = 0) -> rsum (n + 1) f = f m.
Proof.
  intros Hm H. rewrite (rsum_ext _ _ (fun q => if Nat.eqb q m then f q else 0)).
  - apply RtoC_inj. rewrite <- csum_R. rewrite (csum_ext _ _ (fun q => if Nat.eqb q m then RtoC (f q) else RtoC 0)) by (intros q _; now destruct (Nat.eqb q m)). apply (csum_single (n + 1) m (fun q => RtoC (f q))). lia.
  - intros q Hq. destruct (Nat.eqb_spec q m) as [->|E]; [reflexivity|]. apply H; [lia|exact E].
Qed.
(** one sinusoid, fewer samples than before *)
Lemma resample_tone Nx num m A p j : (1 <= num < Nx)%nat -> (2 * m <= Nx)%nat ->
  resample Nx num (fun k => A * cos (2 * PI * INR m * INR k / INR Nx + p)) j = if Nat.leb (2 * m) num then A * cos (2 * PI * INR m * INR j / INR num + p) else 0.
Proof.
  intros Hn Hm. assert (N1 : INR num <> 0) by (apply not_0_INR; lia). assert (N2 : INR Nx <> 0) by (apply not_0_INR; lia). assert (D := Nat.div_mod num 2 ltac:(lia)). assert (U := Nat.mod_upper_bound num 2 ltac:(lia)).
  set (x := fun k => A * cos (2 * PI * INR m * INR k / INR Nx + p)).
  assert (B : forall q, (q <= num / 2)%nat -> resample_bin Nx num x q = Cmult (RtoC (if Nat.even num && Nat.eqb q (num / 2) then 2 else 1)) (if Nat.eqb m q then (if Nat.eqb q 0 then RtoC (A * INR Nx * cos p) else (RtoC (A / 2 * INR Nx) * cis p)%C) else RtoC 0)).
  { intros q Hq. unfold resample_bin. rewrite Nat.min_l by lia. rewrite (proj2 (Nat.ltb_lt q (num / 2 + 1))), (proj2 (Nat.ltb_lt num Nx)) by lia. unfold x. rewrite tone_dft by lia. destruct (Nat.even num && Nat.eqb q (num / 2)); [reflexivity|]. ring. }
  unfold resample, irfft. destruct (Nat.leb_spec (2 * m) num) as [L|L].
  - rewrite (single_bin (num / 2) _ m); [|lia|].
    + rewrite B by lia. rewrite Nat.eqb_refl. destruct (Nat.eqb_spec m 0) as [->|E].
      * replace (Nat.even num && Nat.eqb 0 (num / 2)) with false. 2: { symmetry. apply andb_false_iff. destruct (Nat.eqb_spec 0 (num / 2)) as [Y|Y]; [|now right]. left. assert (num = 1)%nat by lia. subst. reflexivity. }
        change (sides num 0) with 1. change (INR 0) with 0. cbn [Nat.eqb]. replace (2 * PI * 0 * INR j / INR num) with 0 by (unfold Rdiv; ring). rewrite cis_0. unfold RtoC, Cmult. cbn [fst snd]. rewrite (Rplus_0_l p).
field. split; assumption.
      * unfold sides. rewrite (proj2 (Nat.eqb_neq m 0)) by exact E. cbn [orb]. destruct (Nat.even num) eqn:Ev; cbn [andb]; [destruct (Nat.eqb_spec m (num / 2)) as [Y|Y]|].
        -- assert (E2 : num = (2 * m)%nat). { apply Nat.even_spec in Ev. destruct Ev as [h Hh]. lia. }
           replace (2 * PI * INR m * INR j / INR num) with (INR j * PI). 2: { rewrite E2, mult_INR. cbn [INR]. field. apply not_0_INR. lia. }
           assert (SJ : sin (INR j * PI) = 0) by (apply sin_eq_0_1; exists (Z.of_nat j); now rewrite <- INR_IZR_INZ). rewrite cos_plus, SJ.
           unfold cis, RtoC, Cmult. cbn [fst snd]. rewrite SJ. field. split; assumption.
        -- rewrite cos_plus. unfold cis, RtoC, Cmult. cbn [fst snd]. field. split; assumption.
        -- rewrite cos_plus. unfold cis, RtoC, Cmult. cbn [fst snd]. field. split; assumption.
    + intros q Hq Y. rewrite B by exact Hq. rewrite (proj2 (Nat.eqb_neq m q)) by (intros Z; apply Y; now symmetry). unfold RtoC, Cmult. cbn [fst snd]. ring.
  - rewrite (rsum_ext _ _ (fun _ => 0)).
    + rewrite rsum_const. unfold Rdiv. ring.
    + intros q Hq. rewrite B by lia. rewrite (proj2 (Nat.eqb_neq m q)) by lia. unfold RtoC, Cmult. cbn [fst snd]. ring.
Qed.
Lemma fst_csum n f : fst (csum n f) = rsum n (fun i => fst (f i)).
Proof. induction n as [|n IH]; [now rewrite rsum_0|]. cbn [csum]. rewrite rsum_S, <- IH. reflexivity. Qed.
(** as many samples as before *)
Lemma resample_same n x j : (j < n)%nat -> resample n n x j = x j.
Proof.
  intros Hj. assert (N : INR n <> 0) by (apply not_0_INR; lia). unfold resample, irfft.
  rewrite (rsum_ext _ _ (fun q => sides n q * fst (Cmult (rfft_bin n x q) (cis (2 * PI * INR q * INR j / INR n))))).
  - rewrite (fold_sides n (fun q => fst (Cmult (rfft_bin n x q) (cis (2 * PI * INR q * INR j / INR n))))) by (try lia; intros q Hq; rewrite dft_mirror by exact Hq;
      replace (cis (2 * PI * INR (n - q) * INR j / INR n)) with (Cconj (cis (2 * PI * INR q * INR j / INR n))) by
        (rewrite cis_conj, <- (cis_turns (- (2 * PI * INR q * INR j / INR n)) j), minus_INR by lia; f_equal; field; exact N); rewrite <- Cconj_mul; reflexivity).
    assert (I := inversion n x j Hj). apply (f_equal fst) in I.
    replace (rsum n (fun q => fst (Cmult (rfft_bin n x q) (cis (2 * PI * INR q * INR j / INR n))))) with (fst (csum n (fun q => (rfft_bin n x q * cis (2 * PI * INR q * INR j / INR n))%C))).
    + rewrite I. unfold RtoC. cbn [fst]. field. exact N.
    + apply fst_csum.
  - intros q Hq. unfold resample_bin. rewrite Nat.min_id, (proj2 (Nat.ltb_lt q (n / 2 + 1))), (proj2 (Nat.ltb_ge n n)) by lia. now destruct (Nat.even n && Nat.eqb q (n / 2)).
Qed.
