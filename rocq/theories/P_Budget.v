(** Property theorems C78: noise and harmonic budgets of the estimator (batch_estimator.py 563-668).
    Vocabulary: [largest n f m], [largest_in l f m] (BudgetProofs.v): m is the maximum of f over the indices below n, over the list;
    [flat N Nt L B CT D g] (TransferExample.v): systems with A = 0; other words as in P_Transfer.v. *)
From Coq Require Import List Arith Lia Bool Reals Lra ZArith.
From Flocq Require Import Core.
From Coquelicot Require Import Complex.
From Verif Require Import Base LinAlg FirExtras AnalogSystem AnalogProofs Zpk Integrators Fom IntegratorsProofs LinearOde FilterCoeff TransferFn CplxLin TransferProofs
  TransferExtra BudgetProofs TransferExample P_Transfer.
Import ListNotations.
Open Scope R_scope.

(** C78: for one input the admissible noise powers contribute equally to the estimate, each measured by the largest squared
    magnitude of the transfer function on the frequency grid, and together input_power / target_snr times the largest of these. *)
Theorem C78_sensitivities_balanced : forall pinv S eta2 bw snr p v, sL S = 1%nat -> white_noise_sensitivities pinv S eta2 bw snr p false = Ok v ->
  exists tfs, general_transfer_function pinv S eta2 (geomspace (fst bw) (snd bw) grid_size) = Ok tfs /\ rows v = 1%nat /\ cols v = sN S /\
    forall res mx, (forall n, (n < sN S)%nat -> largest_in tfs (fun X : cmat => Rsqr (Cmod (cent X 0 n))) (res n)) -> largest (sN S) res mx ->
      (forall n m, (n < sN S)%nat -> (m < sN S)%nat -> ent v 0 n * res n = ent v 0 m * res m) /\ rsum (sN S) (fun n => ent v 0 n * res n) = p / snr * mx.
Proof.
  intros pinv S eta2 bw snr p v L1 H. destruct (sens_one _ _ _ _ _ _ _ L1 H) as (res0 & ER & R1 & R2 & HR). destruct (peak_ok _ _ _ _ _ ER) as (tfs & ET & _ & _ & HL).
  exists tfs. split; [exact ET|]. split; [exact R1|]. split; [exact R2|]. intros res mx Hres Hmx.
  assert (E : forall n, (n < sN S)%nat -> ent res0 0 n = res n).
  { intros n Hn. destruct (Hres n Hn) as [(x & Ix & Ex) Ux]. destruct (HL 0%nat n) as [(y & Iy & Ey) Uy]. apply Rle_antisym; [rewrite <- Ey; now apply Ux|rewrite <- Ex; now apply Uy]. }
  destruct (HR mx) as [H1 H2].
  { destruct Hmx as [(i & Hi & Ei) U]. split; [exists i; split; [exact Hi|now rewrite E]|]. intros i' Hi'. rewrite E by exact Hi'. auto. }
  split; [intros n m Hn Hm; rewrite <- !E by assumption; now apply H1|]. rewrite <- H2. apply rsum_ext. intros i Hi. now rewrite E.
Qed.
Print Assumptions C78_sensitivities_balanced.

(** C78: with [spectrum=True] the densities times the bandwidth are these powers. *)
Theorem C78_sensitivities_spectrum : forall pinv S eta2 bw snr p v, fst bw <> snd bw -> white_noise_sensitivities pinv S eta2 bw snr p true = Ok v ->
  exists v0, white_noise_sensitivities pinv S eta2 bw snr p false = Ok v0 /\ rows v = rows v0 /\ cols v = cols v0 /\ forall l n, ent v l n * (snd bw - fst bw) = ent v0 l n.
Proof.
  intros pinv S eta2 bw snr p v NE H. unfold white_noise_sensitivities in *. destruct (Req_bool_spec snr 0) as [|Hs]; [discriminate|]. destruct (white_noise_balance pinv S eta2 bw) as [b|e]; [|discriminate].
  cbn [bind andb] in *. rewrite Req_bool_false in H by (intros E; apply NE; lra). apply Ok_inj in H. subst v. eexists. split; [reflexivity|]. split; [reflexivity|]. split; [reflexivity|]. cbn [ent]. intros l n. field. split; [exact Hs|intros E; apply NE; lra].
Qed.
Print Assumptions C78_sensitivities_spectrum.
(** C78: the frequencies of the noise budget: both ends of the band, and only frequencies inside it, increasing by a constant factor. *)
Theorem C78_noise_grid : forall a b, 0 < a < b -> let g := geomspace a b grid_size in
  (2 <= length g)%nat /\ nth 0 g 0 = a /\ nth (length g - 1) g 0 = b /\ Forall (fun f => a <= f <= b) g /\
  exists q, 1 < q /\ forall k, (S k < length g)%nat -> nth (S k) g 0 = nth k g 0 * q.
Proof.
  intros a b [Ha Hb]. cbv zeta. set (n := grid_size). assert (Hn : (2 <= n)%nat) by (unfold n, grid_size; lia). clearbody n.
  assert (L : length (geomspace a b n) = n) by (unfold geomspace; now rewrite map_length, seq_length). rewrite L.
  assert (Q : 1 < b / a) by (apply (Rmult_lt_reg_r a); [lra|]; unfold Rdiv; rewrite Rmult_assoc, Rinv_l by lra; lra).
  assert (Nn : forall k, (k < n)%nat -> nth k (geomspace a b n) 0 = a * Rpower (b / a) (INR k / INR (n - 1))).
  { intros k Hk. unfold geomspace. set (f := fun k : nat => a * Rpower (b / a) (INR k / INR (n - 1))). rewrite (nth_indep _ 0 (f 0%nat)) by (rewrite map_length, seq_length; lia). rewrite map_nth, seq_nth by lia. reflexivity. }
  assert (P : 0 < INR (n - 1)) by (apply lt_0_INR; lia).
  split; [exact Hn|]. split; [rewrite Nn by lia; cbn [INR]; unfold Rdiv at 2; rewrite Rmult_0_l, Rpower_O by lra; ring|].
  split; [rewrite Nn by lia; unfold Rdiv at 2; rewrite Rinv_r by lra; rewrite Rpower_1 by lra; field; lra|]. split.
  - apply Forall_forall. intros f If. apply In_nth with (d := 0) in If. destruct If as (k & Hk & <-). rewrite L in Hk. rewrite Nn by exact Hk.
    assert (K0 : 0 <= INR k / INR (n - 1)) by (apply Rmult_le_pos; [apply pos_INR|left; now apply Rinv_0_lt_compat]).
    assert (K1 : INR k / INR (n - 1) <= 1). { apply (Rmult_le_reg_r (INR (n - 1))); [exact P|]. unfold Rdiv. rewrite Rmult_assoc, Rinv_l, Rmult_1_r, Rmult_1_l by lra. apply le_INR. lia. }
    assert (X0 : Rpower (b / a) 0 <= Rpower (b / a) (INR k / INR (n - 1))) by (apply Rle_Rpower; lra). assert (X1 : Rpower (b / a) (INR k / INR (n - 1)) <= Rpower (b / a) 1) by (apply Rle_Rpower; lra).
    rewrite Rpower_O in X0 by lra. rewrite Rpower_1 in X1 by lra. split; [rewrite <- (Rmult_1_r a) at 1; apply Rmult_le_compat_l; lra|].
    replace b with (a * (b / a)) at 2 by (field; lra). apply Rmult_le_compat_l; lra.
  - exists (Rpower (b / a) (1 / INR (n - 1))). split.
    + rewrite <- (Rpower_O (b / a)) at 1 by lra. apply Rpower_lt; [exact Q|]. apply Rdiv_lt_0_compat; lra.
    + intros k Hk. rewrite !Nn by lia. rewrite Rmult_assoc, <- Rpower_plus. rewrite S_INR. do 2 f_equal. field. lra.
Qed.
Print Assumptions C78_noise_grid.

(** C78: so the budget does not meet the requested SNR: here the noise at the estimate is four times the power the SNR allows. *)
Theorem C78_target_snr_refuted : exists pinv S eta2 bw snr p X v,
  valid S /\ pinv_ok pinv (sN S) /\ pinv_ok pinv (sNt S) /\ 0 < eta2 /\ 0 < fst bw <= snd bw /\ 0 < snr /\ 0 < p /\ sL S = 1%nat /\ sN S = 1%nat /\
  white_noise_sensitivities pinv S eta2 bw snr p false = Ok v /\ general_transfer_function pinv S eta2 [fst bw] = Ok [X] /\
  ent v 0 0 * Rsqr (Cmod (cent X 0 0)) = 4 * (p / snr).
Proof.
  set (S := flat 1 1 1 (c11 (1/4)) (c11 1) nil2 None). destruct (flat_gtf 1 1 (c11 (1/4)) (c11 1) pinv2 (1/16) pinv2_1 pinv2_1 ltac:(lra)) as (X & EX & HX). fold S in EX.
  specialize (HX O O ltac:(lia) ltac:(lia)). assert (M2 : Rsqr (Cmod (cent X 0 0)) = 4).
  { rewrite HX. rewrite Cmod_mult, Cmod_R. unfold c11. rewrite Cmod_j, Rabs_R1, Rmult_1_r, <- Rsqr_abs. rewrite !rsum_S, !rsum_0. rewrite Rabs_pos_eq by lra. unfold Rsqr. field. }
  destruct (peak_const pinv2 S (1/16) X EX) as (res & ER & R1 & R2 & HR).
  assert (EB : white_noise_sensitivities pinv2 S (1/16) (1, 1) 1 1 false = Ok (@mk2 Rring (sL S) (sN S) (fun l n => 1 * 1 / 1 * ent (@mk2 Rring 1 1 (fun _ n => rmax (map (fun n => ent res 0 n) (seq 0 1)) / ent res 0 n / INR 1)) l n))).
  { unfold white_noise_sensitivities. rewrite Req_bool_false by lra. unfold white_noise_balance. rewrite ER. cbn [bind]. unfold balance_of. rewrite R1, R2. change (sL S) with 1%nat. change (sN S) with 1%nat. cbn [Nat.eqb seq existsb].
    rewrite HR, M2. rewrite Req_bool_false by lra. reflexivity. }
  exists pinv2, S, (1/16), (1, 1), 1, 1. eexists X, _. cbn [fst snd]. split; [apply flat_valid; exact Logic.I|]. split; [exact pinv2_1|]. split; [exact pinv2_1|].
  split; [lra|]. split; [lra|]. split; [lra|]. split; [lra|]. split; [reflexivity|]. split; [reflexivity|]. split; [exact EB|]. split; [apply (proj2 (mapM1 _ _ _)); exact EX|].
  cbn [ent seq map rmax fold_left]. rewrite HR, M2. cbn [INR]. field.
Qed.
Print Assumptions C78_target_snr_refuted.
Example C78_ex : exists S v, sL S = 1%nat /\ white_noise_sensitivities pinv2 S (1/16) (1, 1) 1 1 false = Ok v.
Proof.
  set (S := flat 1 1 1 (c11 (1/4)) (c11 1) nil2 None). destruct (flat_gtf 1 1 (c11 (1/4)) (c11 1) pinv2 (1/16) pinv2_1 pinv2_1 ltac:(lra)) as (X & EX & HX). fold S in EX.
  specialize (HX O O ltac:(lia) ltac:(lia)). assert (M2 : Rsqr (Cmod (cent X 0 0)) = 4).
  { rewrite HX. rewrite Cmod_mult, Cmod_R. unfold c11. rewrite Cmod_j, Rabs_R1, Rmult_1_r, <- Rsqr_abs. rewrite !rsum_S, !rsum_0. rewrite Rabs_pos_eq by lra. unfold Rsqr. field. }
  destruct (peak_const pinv2 S (1/16) X EX) as (res & ER & R1 & R2 & HR). exists S. eexists. split; [reflexivity|].
  unfold white_noise_sensitivities. rewrite Req_bool_false by lra. unfold white_noise_balance. rewrite ER. cbn [bind]. unfold balance_of. rewrite R1, R2. change (sL S) with 1%nat. change (sN S) with 1%nat. cbn [Nat.eqb seq existsb].
  rewrite HR, M2. rewrite Req_bool_false by lra. reflexivity.
Qed.

Example C78_spectrum_ex : exists S v, fst (1, 2) <> snd (1, 2) /\ white_noise_sensitivities pinv2 S (1/16) (1, 2) 1 1 true = Ok v.
Proof.
  set (S := flat 1 1 1 (c11 (1/4)) (c11 1) nil2 None). destruct (flat_gtf 1 1 (c11 (1/4)) (c11 1) pinv2 (1/16) pinv2_1 pinv2_1 ltac:(lra)) as (X & EX & HX). fold S in EX.
  specialize (HX O O ltac:(lia) ltac:(lia)). assert (M2 : Rsqr (Cmod (cent X 0 0)) = 4).
  { rewrite HX. rewrite Cmod_mult, Cmod_R. unfold c11. rewrite Cmod_j, Rabs_R1, Rmult_1_r, <- Rsqr_abs. rewrite !rsum_S, !rsum_0. rewrite Rabs_pos_eq by lra. unfold Rsqr. field. }
  destruct (C78_noise_grid 1 2 ltac:(lra)) as (GL & G0 & _ & GF & _). rewrite Forall_forall in GF. set (g := geomspace 1 2 grid_size) in *.
  destruct (mapM_spec (gtf pinv2 S (1/16)) (fun w X => gtf pinv2 S (1/16) w = Ok X) g) as (tfs & ET & HT).
  { intros w Hw. specialize (GF w Hw). cbn beta in GF. destruct (gtf_ok pinv2 S (1/16) w) as (_ & _ & Y & _ & _ & EY & _); [apply flat_valid; exact Logic.I|exact pinv2_1|exact pinv2_1|apply flat_off; lra|lra|]. exists Y. now split. }
  assert (exists res, max_transfer_function_peak pinv2 S (1/16) (1, 2) = Ok res) as (res & ER). { unfold max_transfer_function_peak, general_transfer_function. cbn [fst snd]. fold g. rewrite ET. eexists. reflexivity. }
  destruct (peak_ok _ _ _ _ _ ER) as (tfs' & ET' & R1 & R2 & HL). cbn [fst snd] in ET'. fold g in ET'. unfold general_transfer_function in ET'. rewrite ET in ET'. apply Ok_inj in ET'. subst tfs'.
  assert (IX : In X tfs). { destruct HT as [|w Y g' tfs' HY HT]; [cbn in GL; lia|]. cbn in G0. subst w. rewrite EX in HY. apply Ok_inj in HY. subst Y. now left. }
  assert (NZ : ent res 0 0 <> 0). { destruct (HL 0%nat 0%nat) as [_ U]. specialize (U X IX). cbn beta in U. rewrite M2 in U. intros E. rewrite E in U. lra. }
  exists S. eexists. cbn [fst snd]. split; [lra|]. unfold white_noise_sensitivities. rewrite Req_bool_false by lra. unfold white_noise_balance. rewrite ER. cbn [bind]. unfold balance_of. rewrite R1, R2. change (sL S) with 1%nat. change (sN S) with 1%nat. cbn [Nat.eqb seq existsb fst snd].
  rewrite (Req_bool_false _ _ NZ). cbn [orb bind andb]. rewrite Req_bool_false by lra. reflexivity.
Qed.

(** C78: with several inputs and a different number of states white_noise_balance raises ValueError. *)
Theorem C78_balance_shape : forall pinv S eta2 bw tfs, (2 <= sL S)%nat -> (2 <= sN S)%nat -> sL S <> sN S ->
  general_transfer_function pinv S eta2 (geomspace (fst bw) (snd bw) grid_size) = Ok tfs -> white_noise_balance pinv S eta2 bw = Exn ValueError.
Proof.
  intros pinv S eta2 bw tfs H1 H2 H3 E. unfold white_noise_balance, max_transfer_function_peak. rewrite E. cbn [bind]. now apply balance_shape.
Qed.
Print Assumptions C78_balance_shape.
Example C78_balance_shape_ex : white_noise_balance pinv2 (flat 2 1 3 (c11 1) (c11 1) nil2 None) 1 (1, 1) = Exn ValueError.
Proof.
  destruct (flat_gtf 2 3 (c11 1) (c11 1) pinv2 1 pinv2_2 pinv2_1 ltac:(lra)) as (X & EX & _). eapply C78_balance_shape; [cbn; lia|cbn; lia|cbn; lia|]. cbn [fst snd]. apply (gtf_const _ _ _ X); [exact EX|apply geomspace_1].
Qed.

Definition diag12 (i l : nat) : R := match i, l with O, O => 1 | 1%nat, 1%nat => 2 | _, _ => 0 end.
(** C78: with as many inputs as states it divides by the maximum of another input: the balance of input 0 is not its own. *)
Theorem C78_balance_square_refuted : exists pinv S eta2 bw res b,
  valid S /\ pinv_ok pinv (sN S) /\ pinv_ok pinv (sNt S) /\ 0 < eta2 /\ 0 < fst bw <= snd bw /\ sL S = 2%nat /\ sN S = 2%nat /\
  max_transfer_function_peak pinv S eta2 bw = Ok res /\ white_noise_balance pinv S eta2 bw = Ok b /\
  exists mx, largest (sN S) (fun n => ent res 0 n) mx /\ ent b 0 1 * ent res 0 1 * INR (sN S) = 4 * mx /\ 0 < mx.
Proof.
  set (S := flat 2 1 2 diag12 (c11 1) nil2 None). destruct (flat_gtf 2 2 diag12 (c11 1) pinv2 1 pinv2_2 pinv2_1 ltac:(lra)) as (X & EX & HX). fold S in EX.
  assert (M : forall n, (n < 2)%nat -> Rsqr (Cmod (cent X 0 n)) = 1/36 /\ Rsqr (Cmod (cent X 1 n)) = 4/36).
  { intros n Hn. split; rewrite HX by lia; rewrite Cmod_mult, Cmod_R; unfold c11; rewrite Cmod_j, Rabs_R1, Rmult_1_r, <- Rsqr_abs; rewrite !rsum_S, !rsum_0; cbn [diag12]; rewrite Rabs_pos_eq by lra; unfold Rsqr; field. }
  destruct (M 0%nat ltac:(lia)) as [M00 M10]. destruct (M 1%nat ltac:(lia)) as [M01 M11].
  destruct (peak_const pinv2 S 1 X EX) as (res & ER & R1 & R2 & HR). assert (PL : rmax [1/36; 1/36] = 1/36) by (cbn; apply Rmax_left; lra). assert (PL' : rmax [4/36; 4/36] = 4/36) by (cbn; apply Rmax_left; lra).
  assert (EB : white_noise_balance pinv2 S 1 (1, 1) = Ok (@mk2 Rring 2 2 (fun l n => rmax (map (fun k => ent res n k) (seq 0 2)) / ent res l n / INR 2))).
  { unfold white_noise_balance. rewrite ER. cbn [bind]. unfold balance_of. rewrite R1, R2. change (sL S) with 2%nat. change (sN S) with 2%nat. cbn [Nat.eqb seq existsb]. rewrite !HR, M00, M01, M10, M11. rewrite !Req_bool_false by lra. reflexivity. }
  exists pinv2, S, 1, (1, 1), res. eexists. cbn [fst snd]. split; [apply flat_valid; exact Logic.I|]. split; [exact pinv2_2|]. split; [exact pinv2_1|]. split; [lra|]. split; [lra|]. split; [reflexivity|]. split; [reflexivity|].
  split; [exact ER|]. split; [exact EB|]. exists (1/36). split; [|split; [|lra]].
  - change (sN S) with 2%nat. split; [exists O; split; [lia|now rewrite HR]|]. intros i Hi. rewrite HR. destruct i as [|[|i]]; [lra|lra|lia].
  - cbn [ent seq map]. rewrite !HR, M10, M11, M01. change (rmax [4/36; 4/36] / (1/36) / INR 2 * (1/36) * INR 2 = 4 * (1/36)). rewrite PL'. cbn [INR]. field.
Qed.
Print Assumptions C78_balance_square_refuted.

(** C78: max_harmonic_estimate for one input: harmonics inversely proportional to the largest magnitudes on its frequency grid; the
    largest of them, at the state with the smallest magnitude, is 1 / sfdr. *)
Theorem C78_harmonics : forall pinv S eta2 bw SFDR h, sL S = 1%nat -> max_harmonic_estimate pinv S eta2 bw SFDR = Ok h ->
  exists tfs, general_transfer_function pinv S eta2 (logspace (ln (fst bw)) (ln (snd bw)) grid_size) = Ok tfs /\ rows h = 1%nat /\ cols h = sN S /\
    forall mag, (forall n, (n < sN S)%nat -> largest_in tfs (fun X : cmat => Cmod (cent X 0 n)) (mag n)) ->
      exists k, (k < sN S)%nat /\ (forall n, (n < sN S)%nat -> mag k <= mag n) /\
        forall n, (n < sN S)%nat -> 0 < mag n /\ ent h 0 n = mag k / mag n / snr_from_dB SFDR.
Proof. exact harmonic_one. Qed.
Print Assumptions C78_harmonics.

Lemma two_states : exists X, gtf pinv2 (flat 2 1 1 (c11 1) (c11 1) nil2 None) 1 1 = Ok X /\ forall n, (n < 2)%nat -> Cmod (cent X 0 n) = 2/5.
Proof.
  destruct (flat_gtf 2 1 (c11 1) (c11 1) pinv2 1 pinv2_2 pinv2_1 ltac:(lra)) as (X & EX & HX). exists X. split; [exact EX|]. intros n Hn.
  rewrite HX by lia. rewrite Cmod_mult, Cmod_R. unfold c11. rewrite Cmod_j, Rabs_R1, Rmult_1_r. rewrite !rsum_S, !rsum_0. unfold Rsqr. rewrite (Rabs_pos_eq (0 + 1 * 1 + 1 * 1)) by lra. rewrite Rabs_pos_eq by lra. field.
Qed.
Lemma two_states_h SFDR : exists h, max_harmonic_estimate pinv2 (flat 2 1 1 (c11 1) (c11 1) nil2 None) 1 (1, 1) SFDR = Ok h.
Proof.
  destruct two_states as (X & EX & HX). set (S := flat 2 1 1 (c11 1) (c11 1) nil2 None) in *. assert (ET := gtf_const pinv2 S 1 X (logspace (ln 1) (ln 1) grid_size) EX (logspace_1 _)). rewrite logspace_length in ET.
  unfold max_harmonic_estimate. cbn [fst snd]. rewrite ET. cbn [bind]. change (sL S * sN S)%nat with 2%nat. cbn [Nat.eqb].
  assert (EP : forall n, (n < 2)%nat -> ent (peak Cmod S (repeat X grid_size)) 0 n = 2/5).
  { intros n Hn. rewrite <- (HX n Hn). apply (largest_repeat (fun X : cmat => Cmod (cent X 0 n)) X _ _ grid_pos). cbn [peak ent]. apply (rmax_spec (fun X : cmat => Cmod (ent X 0 n))).
    assert (G := grid_pos). destruct grid_size; [lia|discriminate]. }
  assert (Z : existsb (fun l => existsb (fun n => Req_bool (ent (peak Cmod S (repeat X grid_size)) l n) 0) (seq 0 (sN S))) (seq 0 (sL S)) = false).
  { change (sL S) with 1%nat. change (sN S) with 2%nat. cbn [seq existsb]. rewrite !EP by lia. rewrite !Req_bool_false by lra. reflexivity. }
  cbv zeta. rewrite Z. eexists. reflexivity.
Qed.
Example C78_harmonics_ex : sL (flat 2 1 1 (c11 1) (c11 1) nil2 None) = 1%nat /\ exists h, max_harmonic_estimate pinv2 (flat 2 1 1 (c11 1) (c11 1) nil2 None) 1 (1, 1) 60 = Ok h.
Proof. split; [reflexivity|apply two_states_h]. Qed.
(** C78: together they may exceed the largest signal magnitude over sfdr: the 1-norm of a row matrix is its largest entry, not the sum. *)
Theorem C78_harmonics_total_refuted : exists pinv S eta2 bw SFDR X h,
  valid S /\ pinv_ok pinv (sN S) /\ pinv_ok pinv (sNt S) /\ 0 < eta2 /\ 0 < fst bw <= snd bw /\ sL S = 1%nat /\ sN S = 2%nat /\
  max_harmonic_estimate pinv S eta2 bw SFDR = Ok h /\ general_transfer_function pinv S eta2 [fst bw] = Ok [X] /\
  exists mx, largest (sN S) (fun n => Cmod (cent X 0 n)) mx /\ rsum (sN S) (fun n => ent h 0 n * Cmod (cent X 0 n)) = 2 * (mx / snr_from_dB SFDR) /\ 0 < mx / snr_from_dB SFDR.
Proof.
  destruct two_states as (X & EX & HX). destruct (two_states_h 0) as (h & Eh). set (S := flat 2 1 1 (c11 1) (c11 1) nil2 None) in *.
  assert (S0 : snr_from_dB 0 = 1). { unfold snr_from_dB. replace (0 / 10) with 0 by field. unfold ppow. destruct (Req_bool_spec 0 0); [|lra] || idtac. all: try (rewrite Rmult_0_l; apply exp_0); try reflexivity. }
  exists pinv2, S, 1, (1, 1), 0, X, h. cbn [fst snd]. split; [apply flat_valid; exact Logic.I|]. split; [exact pinv2_2|]. split; [exact pinv2_1|]. split; [lra|]. split; [lra|]. split; [reflexivity|]. split; [reflexivity|].
  split; [exact Eh|]. split; [apply (proj2 (mapM1 _ _ _)); exact EX|]. exists (2/5). rewrite S0. change (sN S) with 2%nat. split; [|split; [|lra]].
  - split; [exists O; split; [lia|apply HX; lia]|]. intros i Hi. rewrite HX by exact Hi. lra.
  - destruct (harmonic_one pinv2 S 1 (1, 1) 0 h eq_refl Eh) as (tfs & ET & _ & _ & HM). cbn [fst snd] in ET. rewrite (gtf_const pinv2 S 1 X _ EX (logspace_1 _)), logspace_length in ET. apply Ok_inj in ET. subst tfs.
    destruct (HM (fun n => Cmod (cent X 0 n))) as (k & Hk & _ & HE).
    { intros n Hn. split; [exists X; split; [|reflexivity]|intros x Ix; apply repeat_spec in Ix; subst; lra]. assert (G := grid_pos). destruct grid_size; [lia|now left]. }
    change (sN S) with 2%nat in *. rewrite !rsum_S, rsum_0. destruct (HE 0%nat ltac:(lia)) as [_ E0]. destruct (HE 1%nat ltac:(lia)) as [_ E1]. rewrite E0, E1, !HX, S0 by lia. field.
Qed.
Print Assumptions C78_harmonics_total_refuted.
(** C78: and the frequencies searched are not those of the band: exponents are natural logarithms, the base is ten. *)
Theorem C78_harmonics_grid_refuted : exists bw f, 0 < fst bw < snd bw /\ In f (logspace (ln (fst bw)) (ln (snd bw)) grid_size) /\ 3 * snd bw < f.
Proof.
  exists (1, exp 1), (Rpower 10 (ln 1 + (ln (exp 1) - ln 1) * (INR (grid_size - 1) / INR (grid_size - 1)))). cbn [fst snd]. assert (E := exp_le_3). assert (X := exp_ineq1 1 ltac:(lra)).
  split; [lra|]. split.
  - unfold logspace. apply in_map_iff. exists (grid_size - 1)%nat. split; [reflexivity|]. apply in_seq. assert (G := grid_pos). lia.
  - rewrite ln_1, ln_exp. assert (N : INR (grid_size - 1) <> 0). { apply not_0_INR. unfold grid_size. lia. }
    replace (0 + (1 - 0) * (INR (grid_size - 1) / INR (grid_size - 1))) with 1 by (field; exact N). rewrite Rpower_1 by lra. lra.
Qed.
Print Assumptions C78_harmonics_grid_refuted.
