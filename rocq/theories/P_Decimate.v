(** C120: decimate. *)
From Coq Require Import List Arith Bool ZArith Reals Lra Lia.
From Coquelicot Require Import Complex.
From Verif Require Import Base LinAlg AnalogSystem AnalogProofs IntegratorsProofs LinearOde CplxLin SignalsMore SignalsMoreProofs FirFreq FirFreqProofs Psd PsdProofs Decimate DecimateProofs.
Import ListNotations.
Open Scope R_scope.

Lemma decimated x DSR : (1 <= DSR <= Z.of_nat (length x))%Z -> let num := Z.to_nat (Z.of_nat (length x) / DSR) in
  (1 <= num <= length x)%nat /\ Z.of_nat num = (Z.of_nat (length x) / DSR)%Z /\ decimate (V x) DSR 0 = Ok (V (map (resample (length x) num (fun k => nth k x 0)) (seq 0 num))).
Proof.
  intros H num. assert (P : (1 <= Z.of_nat (length x) / DSR)%Z) by (apply Z.div_le_lower_bound; lia). assert (Q : (Z.of_nat (length x) / DSR <= Z.of_nat (length x))%Z) by (apply Z.div_le_upper_bound; nia).
  split; [unfold num; lia|]. split; [unfold num; lia|]. unfold decimate, axis_of. cbn [Z.eqb orb bind]. rewrite (proj2 (Z.eqb_neq DSR 0)), (proj2 (Z.ltb_ge (Z.of_nat (length x) / DSR) 1)) by lia. reflexivity.
Qed.
Lemma entry Nx num x j : (j < num)%nat -> nth j (map (resample Nx num x) (seq 0 num)) 0 = resample Nx num x j.
Proof. intros H. rewrite (nth_indep _ 0 (resample Nx num x O)) by (rewrite map_length, seq_length; lia). rewrite map_nth, seq_nth by lia. reflexivity. Qed.

(** what comes out, in one dimension *)
Theorem C120_outcome : forall x DSR axis,
  (axis <> 0 /\ axis <> -1 -> decimate (V x) DSR axis = Exn IndexError)%Z /\ (axis = 0 \/ axis = -1 -> (DSR = 0 -> decimate (V x) DSR axis = Exn ZeroDivisionError) /\
    (DSR < 0 \/ Z.of_nat (length x) < DSR -> decimate (V x) DSR axis = Exn ValueError) /\ (1 <= DSR <= Z.of_nat (length x) -> exists y, decimate (V x) DSR axis = Ok (V y) /\ Z.of_nat (length y) = Z.of_nat (length x) / DSR))%Z.
Proof.
  intros x DSR axis. split; [intros [A B]; unfold decimate, axis_of; now rewrite (proj2 (Z.eqb_neq _ _) A), (proj2 (Z.eqb_neq _ _) B)|].
  intros A. assert (E : decimate (V x) DSR axis = decimate (V x) DSR 0) by (destruct A as [->| ->]; reflexivity). rewrite E. split; [intros ->; reflexivity|]. split.
  - intros H. unfold decimate, axis_of. cbn [Z.eqb orb bind]. destruct (Z.eqb_spec DSR 0) as [Z|Z].
    + subst. lia.
    + assert (Y : (Z.of_nat (length x) / DSR < 1)%Z). { destruct H as [H|H]; [|rewrite Z.div_small by lia; lia]. rewrite <- Z.div_opp_opp by exact Z. apply Z.div_lt_upper_bound; lia. }
      now rewrite (proj2 (Z.ltb_lt _ _) Y).
  - intros H. destruct (decimated x DSR H) as (N & L & D). eexists. split; [exact D|]. rewrite map_length, seq_length. exact L.
Qed.
Print Assumptions C120_outcome.

(** With DSR = 1 nothing happens, whatever the sequence. *)
Theorem C120_identity : forall x, x <> [] -> decimate (V x) 1 0 = Ok (V x).
Proof.
  intros x H. assert (L : (1 <= length x)%nat) by (destruct x; [contradiction|cbn; lia]). destruct (decimated x 1 ltac:(lia)) as (_ & _ & ->). rewrite Z.div_1_r, Nat2Z.id. do 2 f_equal. apply (nth_ext _ _ 0 0); [now rewrite map_length, seq_length|].
  intros j Hj. rewrite map_length, seq_length in Hj. rewrite entry by exact Hj. now apply resample_same.
Qed.
Print Assumptions C120_identity.

(** The mean is kept, whatever the sequence. *)
Theorem C120_mean : forall x DSR, (1 <= DSR <= Z.of_nat (length x))%Z -> exists y, decimate (V x) DSR 0 = Ok (V y) /\
  rsum (length y) (fun j => nth j y 0) / INR (length y) = rsum (length x) (fun k => nth k x 0) / INR (length x).
Proof.
  intros x DSR H. destruct (decimated x DSR H) as (N & _ & ->). set (num := Z.to_nat (Z.of_nat (length x) / DSR)) in *. set (Nx := length x) in *. eexists. split; [reflexivity|]. rewrite map_length, seq_length.
  assert (N1 : INR num <> 0) by (apply not_0_INR; lia). assert (N2 : INR Nx <> 0) by (apply not_0_INR; lia). rewrite (rsum_ext _ _ (resample Nx num (fun k => nth k x 0))) by (intros; now apply entry).
  assert (T : rsum num (resample Nx num (fun k => nth k x 0)) = INR num / INR Nx * fst (resample_bin Nx num (fun k => nth k x 0) 0)).
  { unfold resample, irfft. set (Y := resample_bin Nx num (fun k => nth k x 0)).
    transitivity (INR num / INR Nx / INR num * fst (csum (num / 2 + 1) (fun q => RtoC (sides num q) * (Y q * turns num (Z.of_nat q)))%C)).
    - rewrite fst_csum. rewrite (rsum_ext (num / 2 + 1) _ (fun q => rsum num (fun j => sides num q * fst (Y q * cis (2 * PI * INR q * INR j / INR num))%C))).
      + rewrite <- rsum_scale. rewrite (rsum_ext num _ (fun j => INR num / INR Nx / INR num * rsum (num / 2 + 1) (fun q => sides num q * fst (Y q * cis (2 * PI * INR q * INR j / INR num))%C))) by (intros; unfold Rdiv; ring).
        rewrite !rsum_scale. f_equal. apply RtoC_inj. rewrite <- !csum_R. rewrite (csum_ext num _ (fun j => csum (num / 2 + 1) (fun q => RtoC (sides num q * fst (Y q * cis (2 * PI * INR q * INR j / INR num))%C)))) by (intros; now rewrite csum_R).
        rewrite csum_swap. apply csum_ext. intros q _. now rewrite csum_R.
      + intros q _. unfold turns. rewrite <- csum_scale, <- csum_scale, fst_csum. apply rsum_ext. intros j _. rewrite <- INR_IZR_INZ. set (w := Cmult (Y q) (cis (2 * PI * INR q * INR j / INR num))). unfold RtoC, Cmult at 1. cbn [fst snd]. ring.
    - rewrite fst_csum. rewrite (single_bin (num / 2) _ 0); [|lia|].
      + change (sides num 0) with 1. change (Z.of_nat 0) with 0%Z. rewrite turns_0. unfold RtoC, Cmult. cbn [fst snd]. field. split; assumption.
      + intros q Hq Q0. assert (D := Nat.div_mod num 2 ltac:(lia)). rewrite turns_pos by lia. unfold RtoC, Cmult. cbn [fst snd]. ring. }
  rewrite T. unfold resample_bin. rewrite Nat.min_l by lia. rewrite (proj2 (Nat.ltb_lt 0 (num / 2 + 1))) by lia. replace (Nat.even num && Nat.eqb 0 (num / 2)) with false.
  2: { symmetry. apply andb_false_iff. destruct (Nat.eqb_spec 0 (num / 2)) as [Y|Y]; [|now right]. left. assert (D := Nat.div_mod num 2 ltac:(lia)). assert (U := Nat.mod_upper_bound num 2 ltac:(lia)). replace num with 1%nat by lia. reflexivity. }
  unfold rfft_bin. rewrite (csum_ext _ _ (fun k => RtoC (nth k x 0))).
  - rewrite csum_R. unfold RtoC. cbn [fst]. field. split; assumption.
  - intros k _. change (INR 0) with 0. replace (- (2 * PI * 0 * INR k / INR Nx)) with 0 by (unfold Rdiv; ring). rewrite cis_0. ring.
Qed.
Print Assumptions C120_mean.

(** Sinusoids on multiples of the lowest frequency: those up to the new end of the spectrum are sampled anew, at the times j * size / (size // DSR); those above vanish, none comes back at another frequency. *)
Definition tones (n : nat) (l : list sinusoid) (k : nat) : R := sum_over (fun t => s_amp t * cos (2 * PI * INR (s_bin t) * INR k / INR n + s_phase t)) l.
Lemma resample_tones Nx num l j : (1 <= num < Nx)%nat -> (forall t, In t l -> (2 * s_bin t <= Nx)%nat) -> resample Nx num (tones Nx l) j = tones num (filter (fun t => Nat.leb (2 * s_bin t) num) l) j.
Proof.
  intros Hn. induction l as [|t l IH]; intros B.
  - apply resample_zero.
  - rewrite (resample_ext Nx num _ (fun k => s_amp t * cos (2 * PI * INR (s_bin t) * INR k / INR Nx + s_phase t) + tones Nx l k)) by reflexivity. rewrite resample_add, resample_tone, IH by (try exact Hn; try (intros; apply B; now right); apply B; now left).
    cbn [filter]. destruct (Nat.leb (2 * s_bin t) num); unfold tones, sum_over; cbn [fold_right]; ring.
Qed.
Theorem C120_sinusoids : forall x DSR l, (2 <= DSR <= Z.of_nat (length x))%Z -> (forall t, In t l -> (2 * s_bin t <= length x)%nat) ->
  (forall k, (k < length x)%nat -> nth k x 0 = sum_over (fun t => s_amp t * cos (2 * PI * INR (s_bin t) * INR k / INR (length x) + s_phase t)) l) ->
  exists y, decimate (V x) DSR 0 = Ok (V y) /\ Z.of_nat (length y) = (Z.of_nat (length x) / DSR)%Z /\
    forall j, (j < length y)%nat -> nth j y 0 = sum_over (fun t => s_amp t * cos (2 * PI * INR (s_bin t) * INR j / INR (length y) + s_phase t)) (filter (fun t => Nat.leb (2 * s_bin t) (length y)) l).
Proof.
  intros x DSR l H B E. destruct (decimated x DSR ltac:(lia)) as (N & L & ->). set (num := Z.to_nat (Z.of_nat (length x) / DSR)) in *. eexists. split; [reflexivity|]. rewrite map_length, seq_length. split; [exact L|]. intros j Hj. rewrite entry by exact Hj.
  rewrite (resample_ext _ _ _ (tones (length x) l)) by exact E. apply resample_tones; [|exact B]. split; [lia|]. assert ((Z.of_nat (length x) / DSR < Z.of_nat (length x))%Z) by (apply Z.div_lt; lia). lia.
Qed.
Print Assumptions C120_sinusoids.

(** If DSR divides the size, sequences without higher frequencies are simply sampled. *)
Theorem C120_samples : forall x DSR num l, (2 <= DSR)%nat -> (1 <= num)%nat -> length x = (num * DSR)%nat -> (forall t, In t l -> (2 * s_bin t <= num)%nat) ->
  (forall k, (k < length x)%nat -> nth k x 0 = sum_over (fun t => s_amp t * cos (2 * PI * INR (s_bin t) * INR k / INR (length x) + s_phase t)) l) ->
  decimate (V x) (Z.of_nat DSR) 0 = Ok (V (map (fun j => nth (j * DSR) x 0) (seq 0 num))).
Proof.
  intros x DSR num l HD Hn L B E. assert (Q : (Z.of_nat (length x) / Z.of_nat DSR)%Z = Z.of_nat num) by (rewrite L, Nat2Z.inj_mul; apply Z.div_mul; lia).
  destruct (C120_sinusoids x (Z.of_nat DSR) l) as (y & D & Ly & Y); [nia|intros t Ht; specialize (B t Ht); nia|exact E|]. rewrite D. rewrite Q in Ly. assert (Ly' : length y = num) by lia. do 2 f_equal. apply (nth_ext _ _ 0 0); [now rewrite map_length, seq_length|].
  intros j Hj. rewrite (Y j Hj). rewrite Ly' in *. set (g := fun j => nth (j * DSR) x 0). rewrite (nth_indep _ 0 (g O)) by (rewrite map_length, seq_length; lia). rewrite map_nth, seq_nth by lia. unfold g. cbn [Nat.add]. rewrite E by nia.
  replace (filter (fun t => Nat.leb (2 * s_bin t) num) l) with l.
  - apply sum_over_ext. intros t _. do 2 f_equal. f_equal. rewrite L, !mult_INR. field. split; apply not_0_INR; lia.
  - clear - B. induction l as [|t l IH]; [reflexivity|]. cbn [filter]. rewrite (proj2 (Nat.leb_le _ _)) by (apply B; now left). f_equal. apply IH. intros; apply B; now right.
Qed.
Print Assumptions C120_samples.

(** If not, the spacing is not DSR: seven samples of one period, decimated by two, give three samples a third of a period apart. *)
Theorem C120_spacing_refuted : exists x DSR y, (forall k, (k < length x)%nat -> nth k x 0 = cos (2 * PI * INR k / INR (length x))) /\ (6 < length x)%nat /\ DSR = 2%nat /\ decimate (V x) (Z.of_nat DSR) 0 = Ok (V y) /\ (1 < length y)%nat /\ nth 1 y 0 <> nth (1 * DSR) x 0.
Proof.
  set (x := map (fun k => cos (2 * PI * INR k / 7)) (seq 0 7)). assert (L : length x = 7%nat) by reflexivity.
  assert (I7 : INR 7 = 7) by (rewrite INR_IZR_INZ; reflexivity).
  assert (X : forall k, (k < length x)%nat -> nth k x 0 = cos (2 * PI * INR k / INR (length x))).
  { rewrite L, I7. intros k Hk. unfold x. set (g := fun k => cos _). rewrite (nth_indep _ 0 (g O)) by (rewrite map_length, seq_length; lia). rewrite map_nth, seq_nth by lia. reflexivity. }
  destruct (C120_sinusoids x 2 [mkS 1 1 0]) as (y & D & Ly & Y); [rewrite L; lia|intros t [<-|[]]; rewrite L; cbn; lia| |].
  - intros k Hk. rewrite (X k Hk). unfold sum_over. cbn [fold_right s_bin s_amp s_phase]. change (INR 1) with 1. rewrite Rmult_1_l, !Rplus_0_r. do 2 f_equal. ring.
  - rewrite L in Ly. change (Z.of_nat 7 / 2)%Z with 3%Z in Ly. assert (Ly' : length y = 3%nat) by lia. rewrite Ly' in *. exists x, 2%nat, y. split; [exact X|]. split; [rewrite L; lia|]. split; [reflexivity|]. split; [exact D|]. split; [lia|].
    rewrite (Y 1%nat ltac:(lia)), X by (rewrite L; lia). rewrite L, I7. unfold sum_over. cbn [filter s_bin Nat.mul Nat.add Nat.leb fold_right s_amp s_phase]. replace (INR 3) with 3 by (rewrite INR_IZR_INZ; reflexivity). replace (INR 2) with 2 by (rewrite INR_IZR_INZ; reflexivity). change (INR 1) with 1.
    rewrite Rmult_1_l, !Rplus_0_r, !Rmult_1_r. apply Rlt_not_eq. assert (P := PI_RGT_0). apply cos_decreasing_1; lra.
Qed.
Print Assumptions C120_spacing_refuted.

(** In two dimensions the channels, along axis 0, are decimated separately. *)
Theorem C120_channels : forall c rows DSR, (1 <= DSR <= Z.of_nat (length rows))%Z -> exists rows', decimate (Mx c rows) DSR 0 = Ok (Mx c rows') /\ Z.of_nat (length rows') = (Z.of_nat (length rows) / DSR)%Z /\
  forall l, (l < c)%nat -> decimate (V (map (fun r => nth l r 0) rows)) DSR 0 = Ok (V (map (fun r => nth l r 0) rows')).
Proof.
  intros c rows DSR H. assert (P : (1 <= Z.of_nat (length rows) / DSR)%Z) by (apply Z.div_le_lower_bound; lia). unfold decimate at 1, axis_of. cbn [Z.eqb orb bind]. rewrite (proj2 (Z.eqb_neq DSR 0)), (proj2 (Z.ltb_ge (Z.of_nat (length rows) / DSR) 1)) by lia.
  eexists. split; [reflexivity|]. split; [rewrite map_length, seq_length; lia|]. intros l Hl. destruct (decimated (map (fun r => nth l r 0) rows) DSR ltac:(rewrite map_length; exact H)) as (_ & _ & ->). rewrite map_length. set (num := Z.to_nat _). do 2 f_equal. rewrite map_map. apply map_ext. intros j.
  set (g := fun l => resample (length rows) num (fun k => nth l (nth k rows []) 0) j). rewrite (nth_indep (map g _) 0 (g O)) by (rewrite map_length, seq_length; exact Hl). rewrite map_nth, seq_nth by exact Hl. unfold g. cbn [Nat.add].
  apply resample_ext. intros k Hk. set (f := fun r : list R => nth l r 0). replace 0 with (f []) at 1 by (unfold f; destruct l; reflexivity). rewrite map_nth. reflexivity.
Qed.
Print Assumptions C120_channels.

(** Twelve samples of 2 + cos(2 pi k / 12) + cos(2 pi 5 k / 12), by three: the last term goes, the rest is taken at 0, 3, 6, 9. *)
Example C120_ex : decimate (V (map (fun k => 2 + cos (2 * PI * INR k / 12) + cos (2 * PI * 5 * INR k / 12)) (seq 0 12))) 3 0 = Ok (V [3; 2; 1; 2]).
Proof.
  set (x := map _ _). assert (L : length x = 12%nat) by reflexivity. assert (I12 : INR 12 = 12) by (rewrite INR_IZR_INZ; reflexivity).
  destruct (C120_sinusoids x 3 [mkS 0 2 0; mkS 1 1 0; mkS 5 1 0]) as (y & D & Ly & Y); [rewrite L; lia|intros t [<-|[<-|[<-|[]]]]; rewrite L; cbn; lia| |].
  - rewrite L, I12. intros k Hk. unfold x. set (g := fun k => _ + _). rewrite (nth_indep _ 0 (g O)) by (rewrite map_length, seq_length; lia). rewrite map_nth, seq_nth by lia. unfold g, sum_over. cbn [fold_right s_bin s_amp s_phase Nat.add]. change (INR 0) with 0. change (INR 1) with 1. replace (INR 5) with 5 by (rewrite INR_IZR_INZ; reflexivity).
    replace (2 * PI * 0 * INR k / 12 + 0) with 0 by field. rewrite cos_0, !Rplus_0_r. replace (2 * PI * 1 * INR k / 12) with (2 * PI * INR k / 12) by field. ring.
  - rewrite L in Ly. change (Z.of_nat 12 / 3)%Z with 4%Z in Ly. assert (Ly' : length y = 4%nat) by lia. rewrite D. do 2 f_equal. apply (nth_ext _ _ 0 0); [exact Ly'|]. intros j Hj. rewrite (Y j Hj). rewrite Ly' in *. unfold sum_over. cbn [filter s_bin Nat.mul Nat.add Nat.leb fold_right s_amp s_phase].
    change (INR 0) with 0. change (INR 1) with 1. replace (INR 4) with 4 by (rewrite INR_IZR_INZ; reflexivity). replace (2 * PI * 0 * INR j / 4 + 0) with 0 by field. rewrite cos_0, !Rplus_0_r, Rmult_1_l, !Rmult_1_r.
    destruct j as [|[|[|[|j]]]]; [| | | |lia]; cbn [nth INR].
    + replace (2 * PI * 0 / 4) with 0 by field. rewrite cos_0. ring.
    + replace (2 * PI * 1 / 4) with (PI / 2) by field. rewrite cos_PI2. ring.
    + replace (2 * PI * (1 + 1) / 4) with PI by field. rewrite cos_PI. ring.
    + replace (2 * PI * (1 + 1 + 1) / 4) with (3 * (PI / 2)) by field. rewrite cos_3PI2. ring.
Qed.
