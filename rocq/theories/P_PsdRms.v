(** C119: the absolute figures of snr_spectrum_computation_extended for a spectrum from compute_power_spectral_density. *)
From Coq Require Import List Arith Bool ZArith Reals Lra Lia.
From Flocq Require Import Core.
From Verif Require Import Base LinAlg AnalogSystem AnalogProofs SignalsMore SignalsMoreProofs Psd PsdProofs PsdNoise PsdRms PsdRmsProofs Peaks PeaksProofs P_Peaks P_Psd P_PsdNoise.
Import ListNotations.
Open Scope R_scope.

Lemma sqrt_inv a v : rsqrt a = Ok v -> v * v = a.
Proof. unfold rsqrt. destruct (Rlt_bool_spec a 0) as [H|H]; [discriminate|]. intros Y. apply Ok_inj in Y. subst. now apply sqrt_sqrt. Qed.
Lemma div_inv a b v : rdiv a b = Ok v -> b <> 0 /\ v = a / b.
Proof. unfold rdiv. destruct (Req_bool_spec b 0) as [H|H]; [discriminate|]. intros Y. apply Ok_inj in Y. now subst. Qed.
Lemma extended_inv window l sm nm hm fs i : in_mask l sm -> in_mask l nm -> snr_extended window l sm nm hm fs = Ok i ->
  i_CG i = rmean (window (length l)) /\ i_NG i = fold_right (fun v s => v * v + s) 0 (window (length l)) / INR (length l) /\ i_CG i <> 0 /\
  i_signal_rms i * i_signal_rms i = power l sm * i_NG i * (fs / INR (length l)) / (i_CG i * i_CG i) /\ i_noise_rms i * i_noise_rms i = power l nm * (fs / INR (length l)).
Proof.
  intros Hs Hn. unfold snr_extended. destruct (Nat.eqb (length l) 0); [discriminate|]. rewrite (masked_sum_ok l nm Hn), (masked_sum_ok l sm Hs). cbn [bind]. set (CG := rmean _). set (NG := _ / INR (length l)). set (fb := fs / INR (length l)).
  destruct (masked_sum l _) as [h|]; cbn [bind]; [|discriminate]. destruct (rdiv (power l sm) (power l nm)); cbn [bind]; [|discriminate]. destruct (rdiv (power l sm + power l nm + h) (power l nm + h)); cbn [bind]; [|discriminate].
  destruct (rdiv h (power l sm)); cbn [bind]; [|discriminate]. destruct (rsqrt a1); cbn [bind]; [|discriminate]. destruct (rdiv (h + power l nm) (power l sm)); cbn [bind]; [|discriminate]. destruct (rsqrt a3); cbn [bind]; [|discriminate].
  destruct (rdiv (power l sm * NG * fb) (CG * CG)) as [w|] eqn:D; cbn [bind]; [|discriminate]. destruct (rsqrt w) as [v|] eqn:Q; cbn [bind]; [|discriminate]. destruct (rsqrt (power l nm * fb)) as [u|] eqn:U; cbn [bind]; [|discriminate].
  intros Y. apply Ok_inj in Y. subst i. cbn [i_CG i_NG i_signal_rms i_noise_rms]. apply div_inv in D. destruct D as [D ->]. apply sqrt_inv in Q. apply sqrt_inv in U. repeat split; try assumption. intros Z. apply D. rewrite Z. ring.
Qed.

(** The bin width is taken to be fs / (n // 2 + 1), the number of bins, rather than fs / n, and the noise bandwidth of the window is counted for the signal though its bins are already summed:
    for any sequence the squares of the figures are these multiples of the powers in the masks (for even n: nearly 2 for the noise, 2 * 1.727 for the signal). *)
Theorem C119_scale : forall x nperseg fs, (1 <= nperseg)%Z -> 0 < fs -> let n := Nat.min (Z.to_nat nperseg) (length x) in (10 <= n)%nat ->
  exists f s, compute_power_spectral_density (V x) nperseg fs = Ok (f, V s) /\ forall sm nm hm i, in_mask s sm -> in_mask s nm -> snr_extended blackman_sym s sm nm hm fs = Ok i ->
    i_CG i = 42 / 100 * (INR (n / 2) / INR (n / 2 + 1)) /\ i_NG i = 3046 / 10000 * (INR (n / 2) / INR (n / 2 + 1)) /\
    i_signal_rms i ^ 2 = 3046 / 1764 * (INR n / INR (n / 2)) * (power s sm * (fs / INR n)) /\ i_noise_rms i ^ 2 = INR n / INR (n / 2 + 1) * (power s nm * (fs / INR n)).
Proof.
  intros x nperseg fs Hn Hf n H. assert (Hx : x <> []) by (intros ->; unfold n in H; cbn in H; lia). rewrite call by (try assumption; lra). change (used nperseg x) with n. eexists _, (welch_row n fs x). split; [reflexivity|].
  intros sm nm hm i Hs Hm Y. apply extended_inv in Y; [|assumption|assumption]. destruct Y as (C & G & C0 & S2 & N2). rewrite welch_row_length in C, G, S2, N2.
  assert (D := Nat.div_mod n 2 ltac:(lia)). assert (U := Nat.mod_upper_bound n 2 ltac:(lia)). assert (M5 : (5 <= n / 2)%nat) by lia. set (M := (n / 2)%nat) in *. unfold rmean in C. rewrite sym_sum in C by lia. rewrite sym_power in G by lia. rewrite sym_length in C.
  assert (P1 : 0 < INR M) by (apply lt_0_INR; lia). assert (P2 : 0 < INR (M + 1)) by (apply lt_0_INR; lia). assert (P3 : 0 < INR n) by (apply lt_0_INR; lia).
  split; [rewrite C; field; lra|]. split; [rewrite G; field; lra|]. rewrite <- !Rsqr_pow2. unfold Rsqr. rewrite S2, N2, C, G. split; field; lra.
Qed.
Print Assumptions C119_scale.

Definition within2 (q : Z) (t : sinusoid) : Prop := (Z.abs (q - Z.of_nat (s_bin t)) <= 2)%Z.
(** The bins of a mask that takes the five bins of each sinusoid in [a] and none of those in [b] *)
Lemma power_mask n fs s a b mask : (forall q, (q <= n / 2)%nat -> nth q s 0 * (fs / INR n) = sum_over (fun t => s_amp t ^ 2 / 2 * parts (Z.of_nat (s_bin t) - Z.of_nat q)) (a ++ b)) -> length s = (n / 2 + 1)%nat ->
  NoDup mask -> (forall z, In z mask -> (0 <= z < Z.of_nat (length s))%Z) -> (forall t, In t (a ++ b) -> (3 <= s_bin t)%nat) ->
  (forall t z, In t a -> within2 z t -> In z mask) -> (forall t z, In t b -> In z mask -> ~ within2 z t) -> power s mask * (fs / INR n) = sum_over (fun t => s_amp t ^ 2 / 2) a.
Proof.
  intros Q L ND R B Ha Hb. rewrite power_nat by exact R. rewrite Rmult_comm, <- sum_over_scale. rewrite (sum_over_ext _ (fun q => sum_over (fun t => s_amp t ^ 2 / 2 * parts (Z.of_nat (s_bin t) - Z.of_nat q)) (a ++ b))).
  - rewrite (sum_over_swap (fun q t => s_amp t ^ 2 / 2 * parts (Z.of_nat (s_bin t) - Z.of_nat q))). assert (A : forall f, sum_over f (a ++ b) = sum_over f a + sum_over f b) by (clear; intros f; unfold sum_over; induction a; cbn [fold_right app]; [ring|]; rewrite IHa; ring). rewrite A.
    rewrite (sum_over_zero _ b), Rplus_0_r.
    + apply sum_over_ext. intros t Ht. rewrite (sum_over_scale (s_amp t ^ 2 / 2)), parts_in; [ring|apply NoDup_nat; [intros z Hz; specialize (R z Hz); lia|exact ND]|specialize (B t ltac:(apply in_or_app; now left)); lia|].
      intros q Hq. apply in_map_iff. exists (Z.of_nat q). split; [lia|]. apply (Ha t); [exact Ht|]. unfold within2. lia.
    + intros t Ht. rewrite (sum_over_scale (s_amp t ^ 2 / 2)), parts_out; [ring|]. intros q Hq. apply in_map_iff in Hq. destruct Hq as (z & <- & Hz). specialize (Hb t z Ht Hz). specialize (R z Hz). unfold within2 in Hb. lia.
  - intros q Hq. rewrite Rmult_comm. apply Q. apply in_map_iff in Hq. destruct Hq as (z & <- & Hz). specialize (R z Hz). lia.
Qed.

(** A sinusoid and other sinusoids as noise: the ratio is that of the powers, but the squared root-mean-square figures are not the powers. *)
Theorem C119_sinusoids : forall x nperseg fs c t0 l sm nm hm, (1 <= nperseg)%Z -> 0 < fs -> let n := Nat.min (Z.to_nat nperseg) (length x) in
  (forall t, In t (t0 :: l) -> (3 <= s_bin t)%nat /\ (2 * s_bin t + 4 < n)%nat) -> ForallOrdPairs (fun t u => (5 <= Z.abs (Z.of_nat (s_bin t) - Z.of_nat (s_bin u)))%Z) (t0 :: l) ->
  (forall k, (k < length x)%nat -> nth k x 0 = c + sum_over (fun t => s_amp t * cos (2 * PI * INR (s_bin t) * INR k / INR n + s_phase t)) (t0 :: l)) ->
  s_amp t0 <> 0 -> (exists t, In t l /\ s_amp t <> 0) -> NoDup sm -> NoDup nm ->
  (forall z, In z sm \/ In z nm \/ In z hm -> (0 <= z <= Z.of_nat (n / 2))%Z) ->
  (forall z, within2 z t0 -> In z sm) -> (forall z, In z nm -> ~ within2 z t0) -> (forall t z, In t l -> within2 z t -> In z nm) -> (forall t z, In t l -> In z sm -> ~ within2 z t) ->
  let P := s_amp t0 ^ 2 / 2 in let N := sum_over (fun t => s_amp t ^ 2 / 2) l in
  exists f s i, compute_power_spectral_density (V x) nperseg fs = Ok (f, V s) /\ snr_extended blackman_sym s sm nm (Some hm) fs = Ok i /\ i_snr i = P / N /\
    0 <= i_signal_rms i /\ i_signal_rms i ^ 2 = 3046 / 1764 * (INR n / INR (n / 2)) * P /\ 0 <= i_noise_rms i /\ i_noise_rms i ^ 2 = INR n / INR (n / 2 + 1) * N.
Proof.
  intros x nperseg fs c t0 l sm nm hm Hn Hf n B A E Z0 Zl Ns Nn HR S1 N1 N2 S2 P N.
  assert (B0 := B t0 ltac:(now left)). assert (n10 : (10 <= n)%nat) by lia. destruct (C119_scale x nperseg fs Hn Hf n10) as (f & s & C & SC). fold n in SC. destruct (C117_sinusoids x nperseg fs c (t0 :: l) Hn Hf ltac:(fold n; lia) B A E) as (f' & s' & C' & L & Q & _). fold n in L, Q.
  assert (s' = s) by congruence. subst s'. clear C' f'. exists f, s. assert (D := Nat.div_mod n 2 ltac:(lia)). assert (U := Nat.mod_upper_bound n 2 ltac:(lia)).
  assert (n0 : 0 < INR n) by (apply lt_0_INR; lia). assert (g0 : 0 < fs / INR n) by (apply Rdiv_lt_0_compat; lra).
  assert (Rs : forall z, In z sm -> (0 <= z < Z.of_nat (length s))%Z) by (intros z Hz; specialize (HR z (or_introl Hz)); lia). assert (Rn : forall z, In z nm -> (0 <= z < Z.of_nat (length s))%Z) by (intros z Hz; specialize (HR z (or_intror (or_introl Hz))); lia).
  assert (Rh : forall z, In z hm -> (0 <= z < Z.of_nat (length s))%Z) by (intros z Hz; specialize (HR z (or_intror (or_intror Hz))); lia).
  assert (Is : in_mask s sm) by (intros z Hz; specialize (Rs z Hz); lia). assert (In' : in_mask s nm) by (intros z Hz; specialize (Rn z Hz); lia). assert (Ih : in_mask s hm) by (intros z Hz; specialize (Rh z Hz); lia).
  assert (PS : power s sm * (fs / INR n) = P).
  { rewrite (power_mask n fs s [t0] l sm); try assumption; [unfold sum_over, P; cbn [fold_right]; ring|intros t Ht; apply B in Ht; lia|]. intros t z [<-|[]]. apply S1. }
  assert (PN : power s nm * (fs / INR n) = N).
  { apply (power_mask n fs s l [t0] nm); try assumption.
    - intros q Hq. rewrite (Q q Hq). apply sum_over_perm. apply (Permutation.Permutation_cons_append l t0).
    - intros t Ht. apply in_app_or in Ht. destruct Ht as [Ht|[<-|[]]]; [apply (B t); now right|apply B; now left].
    - intros t z [<-|[]]. apply N1. }
  assert (PP : 0 < P) by (unfold P; assert (0 < s_amp t0 ^ 2) by (now apply pow2_gt_0); lra).
  assert (NP : 0 < N).
  { destruct Zl as (t & Ht & Zt). unfold N. clear - Ht Zt. induction l as [|u l IH]; [destruct Ht|]. unfold sum_over. cbn [fold_right]. fold (sum_over (fun t => s_amp t ^ 2 / 2) l). assert (0 <= s_amp u ^ 2) by apply pow2_ge_0.
    assert (0 <= sum_over (fun t => s_amp t ^ 2 / 2) l). { clear. unfold sum_over. induction l; cbn [fold_right]; [lra|]. assert (0 <= s_amp a ^ 2) by apply pow2_ge_0. lra. }
    destruct Ht as [->|Ht]; [assert (0 < s_amp t ^ 2) by (now apply pow2_gt_0); lra|]. specialize (IH Ht). lra. }
  assert (PS0 : 0 < power s sm) by (apply Rmult_lt_reg_r with (fs / INR n); [exact g0|]; lra). assert (PN0 : 0 < power s nm) by (apply Rmult_lt_reg_r with (fs / INR n); [exact g0|]; lra).
  assert (PH : 0 <= power s hm).
  { rewrite power_nat by exact Rh. unfold sum_over. assert (H : forall q, In q (map Z.to_nat hm) -> 0 <= nth q s 0).
    - intros q Hq. apply in_map_iff in Hq. destruct Hq as (z & <- & Hz). specialize (Rh z Hz). apply Rmult_le_reg_r with (fs / INR n); [exact g0|]. rewrite Rmult_0_l, Q by lia. clear. unfold sum_over. induction (t0 :: l) as [|t r IH]; cbn [fold_right]; [lra|].
      assert (0 <= s_amp t ^ 2 / 2 * parts (Z.of_nat (s_bin t) - Z.of_nat (Z.to_nat z))) by (apply Rmult_le_pos; [assert (0 <= s_amp t ^ 2) by apply pow2_ge_0; lra|apply parts_nonneg]). lra.
    - clear - H. induction (map Z.to_nat hm) as [|q r IH]; cbn [fold_right]; [lra|]. assert (0 <= nth q s 0) by (apply H; now left). assert (0 <= fold_right (fun t s0 => nth t s 0 + s0) 0 r) by (apply IH; intros; apply H; now right). lra. }
  assert (WL : length (blackman_sym (length s)) = length s) by apply sym_length.
  destruct (C73_extended blackman_sym s sm nm (Some hm) fs Is In' Ih) as (i & Y & SN & _); try lra.
  - intros ->. cbn in L. lia.
  - rewrite L, sym_sum by lia. assert (0 < INR (n / 2)) by (apply lt_0_INR; lia). lra.
  - intros Z. rewrite Z, L in WL. cbn in WL. lia.
  - exists i. split; [exact C|]. split; [exact Y|]. destruct (SC sm nm (Some hm) i Is In' Y) as (_ & _ & R1 & R2). rewrite PS in R1. rewrite PN in R2.
    destruct (C73_snr s sm nm) as [SN' _]. destruct (SN' Is In') as [SN1 _]. rewrite SN1 in SN by lra. assert (V1 : i_snr i = power s sm / power s nm) by congruence.
    split; [rewrite V1, <- PS, <- PN; field; lra|]. assert (NN : 0 <= i_signal_rms i /\ 0 <= i_noise_rms i).
    { clear - Y. unfold snr_extended in Y. destruct (Nat.eqb (length s) 0); [discriminate|]. repeat match type of Y with bind ?r _ = Ok _ => destruct r eqn:?; cbn [bind] in Y; [|discriminate] end. apply Ok_inj in Y. subst i. cbn [i_signal_rms i_noise_rms].
      repeat match goal with H : rsqrt ?b = Ok ?a |- _ /\ 0 <= ?a => unfold rsqrt in H; destruct (Rlt_bool b 0); [discriminate|]; apply Ok_inj in H; subst a end.
      match goal with H : bind _ rsqrt = Ok ?a |- 0 <= ?a /\ _ => destruct (rdiv _ (rmean _ * rmean _)) in H; cbn [bind] in H; [|discriminate]; unfold rsqrt in H; match type of H with (if ?b then _ else _) = _ => destruct b end; [discriminate|]; apply Ok_inj in H; subst a end. split; apply sqrt_pos. }
    destruct NN. repeat split; assumption.
Qed.
Print Assumptions C119_sinusoids.

Example C119_ex : exists f s i, compute_power_spectral_density (V (sampled 60 24 (1 / 3) two)) 24 48 = Ok (f, V s) /\ snr_extended blackman_sym s [1; 2; 3; 4; 5]%Z [6; 7; 8; 9; 10]%Z (Some [0%Z]) 48 = Ok i /\ i_snr i = 100 /\
  0 <= i_signal_rms i /\ i_signal_rms i ^ 2 = 3046 / 1764 /\ 0 <= i_noise_rms i /\ i_noise_rms i ^ 2 = 24 / 13 * (1 / 200).
Proof.
  assert (L : length (sampled 60 24 (1 / 3) two) = 60%nat) by (unfold sampled; now rewrite map_length, seq_length).
  destruct (C119_sinusoids (sampled 60 24 (1 / 3) two) 24 48 (1 / 3) (mkS 3 1 (1 / 5)) [mkS 8 (1 / 10) 0] [1; 2; 3; 4; 5]%Z [6; 7; 8; 9; 10]%Z [0%Z]) as (f & s & i & C & Y & R1 & R2 & R3 & R4 & R5); try rewrite L in *; change (Nat.min (Z.to_nat 24) 60) with 24%nat in *; unfold within2; cbn [s_bin]; try lia; try lra.
  - intros t [<-|[<-|[]]]; cbn [s_bin]; lia.
  - repeat constructor; cbn [s_bin]; lia.
  - intros k Hk. now rewrite sampled_nth by exact Hk.
  - cbn [s_amp]. lra.
  - eexists. split; [left; reflexivity|cbn [s_amp]; lra].
  - repeat (constructor; [intros Y; cbn in Y; lia|]). constructor.
  - repeat (constructor; [intros Y; cbn in Y; lia|]). constructor.
  - change (24 / 2)%nat with 12%nat. intros z Hz. cbn in Hz. lia.
  - intros z Hz. cbn. lia.
  - intros z Hz. cbn in Hz. lia.
  - intros t z [<-|[]] Hz. cbn [s_bin] in Hz. cbn. lia.
  - intros t z [<-|[]] Hz. cbn [s_bin]. cbn in Hz. lia.
  - exists f, s, i. split; [exact C|]. split; [exact Y|]. change (24 / 2 + 1)%nat with 13%nat in *. change (24 / 2)%nat with 12%nat in *. unfold sum_over in *. cbn [fold_right s_amp] in *. rewrite !INR_IZR_INZ in *. cbn [Z.of_nat Pos.of_succ_nat Pos.succ] in *.
    split; [rewrite R1; field|]. split; [exact R2|]. split; [rewrite R3; field|]. split; [exact R4|]. rewrite R5. field.
Qed.
(** signal_rms is not the root mean square of the signal, A / sqrt 2: here it is more than 1.8 times as large. *)
Theorem C119_rms_refuted : exists x nperseg fs f s sm nm hm i, (forall k, (k < length x)%nat -> nth k x 0 = 1 / 3 + (cos (2 * PI * 3 * INR k / 24 + 1 / 5) + 1 / 10 * cos (2 * PI * 8 * INR k / 24))) /\
  compute_power_spectral_density (V x) nperseg fs = Ok (f, V s) /\ snr_extended blackman_sym s sm nm hm fs = Ok i /\ i_snr i = 1 ^ 2 / (1 / 10) ^ 2 /\ 18 / 10 * (1 / sqrt 2) < i_signal_rms i.
Proof.
  destruct C119_ex as (f & s & i & C & Y & R1 & R2 & R3 & R4 & R5). do 8 eexists. exists i. split; [|split; [exact C|split; [exact Y|split; [rewrite R1; field|]]]].
  - intros k Hk. assert (L : length (sampled 60 24 (1 / 3) two) = 60%nat) by (unfold sampled; now rewrite map_length, seq_length). rewrite L in Hk. rewrite sampled_nth by exact Hk. unfold sum_over, two. cbn [fold_right s_amp s_bin s_phase]. rewrite (INR_IZR_INZ 3), (INR_IZR_INZ 8), (INR_IZR_INZ 24). cbn [Z.of_nat Pos.of_succ_nat Pos.succ]. rewrite Rmult_1_l, !Rplus_0_r. reflexivity.
  - assert (Q2 : 0 < sqrt 2) by (apply sqrt_lt_R0; lra). assert (QQ : sqrt 2 * sqrt 2 = 2) by (apply sqrt_sqrt; lra). set (q := 1 / sqrt 2). assert (q2 : q * q = 1 / 2) by (unfold q; replace (1 / sqrt 2 * (1 / sqrt 2)) with (1 / (sqrt 2 * sqrt 2)) by (field; lra); rewrite QQ; reflexivity). assert (q0 : 0 < q) by (apply Rdiv_lt_0_compat; lra).
    clearbody q. nra.
Qed.
Print Assumptions C119_rms_refuted.
