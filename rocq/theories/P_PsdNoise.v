(** C118: the signal-to-noise ratio that compute_power_spectral_density, find_sinusoidal and snr_spectrum_computation report for a sinusoid with bounded errors. *)
From Coq Require Import List Arith Bool ZArith Reals Lra Lia Permutation.
From Flocq Require Import Core.
From Coquelicot Require Import Complex.
From Verif Require Import Base LinAlg AnalogSystem AnalogProofs IntegratorsProofs LinearOde CplxLin SignalsMore SignalsMoreProofs EstimatorDecay FirFreq FirFreqProofs Psd PsdProofs PsdNoise Peaks PeaksProofs P_Peaks P_Psd.
Import ListNotations.
Open Scope R_scope.

Lemma power_nat s mask : (forall z, In z mask -> (0 <= z < Z.of_nat (length s))%Z) -> power s mask = sum_over (fun q => nth q s 0) (map Z.to_nat mask).
Proof. intros H. unfold power, sum_over. induction mask as [|z l IH]; [reflexivity|]. cbn [map fold_right]. rewrite IH by (intros; apply H; now right). rewrite Z.mod_small by (apply H; now left). reflexivity. Qed.
Lemma NoDup_nat mask : (forall z, In z mask -> (0 <= z)%Z) -> NoDup mask -> NoDup (map Z.to_nat mask).
Proof.
  induction mask as [|z l IH]; intros H ND; [constructor|]. inversion ND; subst. cbn [map]. constructor; [|apply IH; [intros; apply H; now right|assumption]].
  intros I. apply in_map_iff in I. destruct I as (y & E & Hy). assert (0 <= y)%Z by (apply H; now right). assert (0 <= z)%Z by (apply H; now left). assert (y = z) by lia. subst. contradiction.
Qed.

Section Bounded.
Context (x : list R) (nperseg : Z) (fs c A p d : R) (m : nat).
Let n := Nat.min (Z.to_nat nperseg) (length x).
Hypotheses (Hn : (1 <= nperseg)%Z) (Hf : 0 < fs) (H3 : (3 <= m)%nat) (Hm : (2 * m + 4 < n)%nat) (Hd : 0 < d) (HA : 16 * sqrt 2 * d <= A)
  (E : forall k, (k < length x)%nat -> Rabs (nth k x 0 - (c + A * cos (2 * PI * INR m * INR k / INR n + p))) <= d).
Let u := sampled (length x) n c [mkS m A p].
Let e := map (fun k => nth k x 0 - nth k u 0) (seq 0 (length x)).
Let g := fs / INR n.
Let P := A ^ 2 / 2.
Let s := welch_row n fs x.
Lemma u_nth k : (k < length x)%nat -> nth k u 0 = c + A * cos (2 * PI * INR m * INR k / INR n + p).
Proof. intros H. unfold u. rewrite sampled_nth by exact H. unfold sum_over. cbn [fold_right s_bin s_amp s_phase]. ring. Qed.
Lemma e_nth k : (k < length x)%nat -> nth k e 0 = nth k x 0 - nth k u 0.
Proof. intros H. unfold e. set (f := fun k => _ - _). rewrite (nth_indep _ 0 (f O)) by (rewrite map_length, seq_length; lia). rewrite map_nth, seq_nth by lia. reflexivity. Qed.
Lemma lengths : length u = length x /\ length e = length x.
Proof. unfold u, e, sampled. now rewrite !map_length, !seq_length. Qed.
Lemma n_range : (10 < n <= length x)%nat.
Proof. unfold n in *. lia. Qed.
Lemma g_pos : 0 < g.
Proof. assert (R := n_range). apply Rdiv_lt_0_compat; [exact Hf|apply lt_0_INR; lia]. Qed.
Lemma parts_u q : (q <= n / 2)%nat -> nth q (welch_row n fs u) 0 * g = P * parts (Z.of_nat m - Z.of_nat q).
Proof.
  intros Hq. assert (R := n_range). destruct lengths as [Lu _]. unfold g. rewrite (welch_row_tones n fs c [mkS m A p] u q); [|lia|exact Hf|repeat constructor; cbn; lia|repeat constructor|exact Hq|].
  - unfold sum_over. cbn [fold_right s_bin s_amp]. rewrite parts_share. unfold P. ring.
  - rewrite Lu. intros k Hk. rewrite u_nth by exact Hk. unfold sum_over, at_sample. cbn [fold_right s_bin s_amp s_phase]. ring.
Qed.
Lemma e_total : sum_over (fun v => v) (welch_row n fs e) * g <= 4 * d ^ 2.
Proof.
  assert (R := n_range). destruct lengths as [_ Le]. apply row_bound; [lia|exact Hf|]. intros k Hk. rewrite Le in Hk. rewrite e_nth, u_nth by exact Hk. now apply E.
Qed.
Lemma e_part l : NoDup l -> (forall q, In q l -> (q <= n / 2)%nat) -> sum_over (fun q => nth q (welch_row n fs e) 0) l * g <= 4 * d ^ 2.
Proof.
  intros ND H. assert (R := n_range). destruct lengths as [_ Le]. eapply Rle_trans; [|apply e_total]. apply Rmult_le_compat_r; [apply Rlt_le, g_pos|]. rewrite <- sum_nth. rewrite welch_row_length. apply sub_sum; [|exact ND|].
  - intros q Hq. apply in_seq in Hq. apply welch_row_nonneg; [lia|exact Hf|lia].
  - intros q Hq. apply in_seq. specialize (H q Hq). lia.
Qed.
Lemma x_split k : (k < length x)%nat -> nth k x 0 = nth k u 0 + nth k e 0.
Proof. intros H. rewrite e_nth by exact H. ring. Qed.
(** noise bins *)
Lemma noise l : NoDup l -> (forall q, In q l -> (q <= n / 2)%nat /\ (2 < Z.abs (Z.of_nat m - Z.of_nat q))%Z) -> sum_over (fun q => nth q s 0) l * g <= 4 * d ^ 2.
Proof.
  intros ND H. assert (R := n_range). destruct lengths as [Lu Le]. eapply Rle_trans; [|apply (e_part l ND); intros q Hq; apply H, Hq]. apply Rmult_le_compat_r; [apply Rlt_le, g_pos|]. apply sum_over_le. intros q Hq. destruct (H q Hq) as [Hq1 Hq2].
  apply (row_alone n fs x u e); try assumption; [lia|exact x_split|]. assert (Y := parts_u q Hq1). rewrite parts_far in Y by exact Hq2. assert (G := g_pos). rewrite Rmult_0_r in Y. apply Rmult_integral in Y. lra.
Qed.
(** signal bins *)
Lemma in_five q : In q (seq (m - 2) 5) -> (q <= n / 2)%nat.
Proof. intros H. apply in_seq in H. assert (D := Nat.div_mod n 2 ltac:(lia)). assert (U := Nat.mod_upper_bound n 2 ltac:(lia)). lia. Qed.
Lemma five h : 0 < h <= 1 -> (1 - h) * P - (1 / h - 1) * (4 * d ^ 2) <= sum_over (fun q => nth q s 0) (seq (m - 2) 5) * g.
Proof.
  intros Hh. assert (R := n_range). destruct lengths as [Lu Le]. assert (G := g_pos).
  assert (U : sum_over (fun q => nth q (welch_row n fs u) 0) (seq (m - 2) 5) * g = P).
  { unfold sum_over. cbn [seq fold_right]. rewrite Rplus_0_r, !Rmult_plus_distr_r. rewrite !parts_u by (apply in_five; cbn [seq]; repeat (try (left; reflexivity); right)).
    replace (Z.of_nat m - Z.of_nat (m - 2))%Z with 2%Z by lia. replace (Z.of_nat m - Z.of_nat (S (m - 2)))%Z with 1%Z by lia. replace (Z.of_nat m - Z.of_nat (S (S (m - 2))))%Z with 0%Z by lia.
    replace (Z.of_nat m - Z.of_nat (S (S (S (m - 2)))))%Z with (-1)%Z by lia. replace (Z.of_nat m - Z.of_nat (S (S (S (S (m - 2))))))%Z with (-2)%Z by lia. cbn [parts Z.abs]. field. }
  assert (EP := e_part (seq (m - 2) 5) (seq_NoDup _ _) in_five). assert (H1 : 0 <= 1 / h - 1).
  { assert (1 <= 1 / h); [|lra]. apply Rmult_le_reg_r with h; [lra|]. unfold Rdiv. rewrite Rmult_assoc, Rinv_l, Rmult_1_r by lra. lra. }
  assert (L : (1 - h) * sum_over (fun q => nth q (welch_row n fs u) 0) (seq (m - 2) 5) - (1 / h - 1) * sum_over (fun q => nth q (welch_row n fs e) 0) (seq (m - 2) 5) <= sum_over (fun q => nth q s 0) (seq (m - 2) 5)).
  { rewrite <- sum_over_lin. apply sum_over_le. intros q Hq. apply (row_low n fs x u e); try assumption; [lia|exact x_split|now apply in_five|lra]. }
  apply (Rmult_le_compat_r g _ _ (Rlt_le _ _ G)) in L. rewrite Rmult_minus_distr_r, !Rmult_assoc, U in L. apply (Rmult_le_compat_l _ _ _ H1) in EP. lra.
Qed.
Lemma small : 64 * (4 * d ^ 2) <= P /\ 0 < A /\ 0 < P.
Proof.
  assert (S2 : 0 < sqrt 2) by (apply sqrt_lt_R0; lra). assert (Q : sqrt 2 * sqrt 2 = 2) by (apply sqrt_sqrt; lra). assert (A0 : 0 < A) by nra. split; [|split; [exact A0|unfold P; nra]].
  assert (Y : (16 * sqrt 2 * d) ^ 2 <= A ^ 2) by (apply pow_incr; split; [|exact HA]; apply Rlt_le; repeat apply Rmult_lt_0_compat; lra).
  replace ((16 * sqrt 2 * d) ^ 2) with (256 * (sqrt 2 * sqrt 2) * d ^ 2) in Y by ring. rewrite Q in Y. unfold P. lra.
Qed.
(** the largest bin *)
Lemma peak mw : (2 <= mw)%Z -> find_sinusoidal s mw = Ok (map Z.of_nat (seq (m - Z.to_nat (mw / 2)) (Nat.min (length s) (m + Z.to_nat (mw / 2)) - (m - Z.to_nat (mw / 2))))).
Proof.
  intros Hw. assert (R := n_range). destruct lengths as [Lu Le]. assert (G := g_pos). destruct small as (S1 & S2 & S3). assert (L : length s = (n / 2 + 1)%nat) by apply welch_row_length. assert (D := Nat.div_mod n 2 ltac:(lia)). assert (U := Nat.mod_upper_bound n 2 ltac:(lia)).
  destruct (C60_one s mw) as (c0 & (F1 & F2 & F3) & ->); [intros Y; rewrite Y in L; cbn in L; lia|exact Hw|]. replace c0 with m; [reflexivity|]. destruct (Nat.eq_dec c0 m) as [Y|Y]; [now symmetry|]. exfalso. specialize (F2 m ltac:(lia)). cbn beta in F2.
  rewrite !Rabs_pos_eq in F2 by (apply welch_row_nonneg; [lia|exact Hf|lia]).
  assert (Lo := row_low n fs x u e ltac:(lia) Hf Lu Le x_split m (1 / 3) ltac:(lia) ltac:(lra)). assert (Hi := row_high n fs x u e ltac:(lia) Hf Lu Le x_split c0 (1 / 3) ltac:(lia) ltac:(lra)).
  assert (Em := e_part [m] ltac:(repeat constructor; intros []) ltac:(intros q [<-|[]]; lia)). assert (Ec := e_part [c0] ltac:(repeat constructor; intros []) ltac:(intros q [<-|[]]; lia)). unfold sum_over in Em, Ec. cbn [fold_right] in Em, Ec. rewrite Rplus_0_r in Em, Ec.
  assert (Um := parts_u m ltac:(lia)). assert (Uc := parts_u c0 ltac:(lia)). rewrite Z.sub_diag in Um. change (parts 0) with (1764 / 3046) in Um.
  assert (Pc : parts (Z.of_nat m - Z.of_nat c0) <= 625 / 3046) by (unfold parts; destruct (Z.abs (Z.of_nat m - Z.of_nat c0)) as [|[q|[q|q|]|]|q] eqn:AB; try (exfalso; lia); lra).
  apply (Rmult_le_compat_r g _ _ (Rlt_le _ _ G)) in F2. apply (Rmult_le_compat_r g _ _ (Rlt_le _ _ G)) in Lo. apply (Rmult_le_compat_r g _ _ (Rlt_le _ _ G)) in Hi. fold s in Lo, Hi.
  rewrite Rmult_minus_distr_r, !Rmult_assoc, Um in Lo. rewrite Rmult_plus_distr_r, !Rmult_assoc, Uc in Hi. apply (Rmult_le_compat_l P _ _ (Rlt_le _ _ S3)) in Pc. 
  replace (1 / (1 / 3)) with 3 in * by field. lra.
Qed.
Lemma ratio sm nm : NoDup sm -> NoDup nm -> (forall z, In z sm -> (0 <= z < Z.of_nat (length s))%Z) -> (forall z, In z nm -> (0 <= z < Z.of_nat (length s))%Z /\ ~ In z sm) ->
  (forall z, (Z.of_nat m - 2 <= z <= Z.of_nat m + 2)%Z -> In z sm) ->
  snr_spectrum s sm nm = Ok None \/ exists v, snr_spectrum s sm nm = Ok (Some v) /\ (A / (2 * sqrt 2 * d) - 1) ^ 2 <= v.
Proof.
  intros NS NN Hs Hn' H5. assert (R := n_range). assert (G := g_pos). destruct small as (S1 & S2 & S3). assert (L : length s = (n / 2 + 1)%nat) by apply welch_row_length.
  assert (Im : in_mask s sm) by (intros z Hz; specialize (Hs z Hz); lia). assert (In' : in_mask s nm) by (intros z Hz; destruct (Hn' z Hz); lia).
  destruct (C73_snr s sm nm) as [SN _]. destruct (SN Im In') as [SN1 SN2]. destruct (Rle_lt_dec (power s nm) 0) as [Z|Z]; [left; now apply SN2|]. right. exists (power s sm / power s nm). split; [now apply SN1|].
  assert (PN : power s nm * g <= 4 * d ^ 2).
  { rewrite power_nat by (intros z Hz; apply Hn', Hz). apply noise; [apply NoDup_nat; [intros z Hz; destruct (Hn' z Hz); lia|exact NN]|]. intros q Hq. apply in_map_iff in Hq. destruct Hq as (z & <- & Hz). destruct (Hn' z Hz) as [Hr Hout]. split; [lia|].
    destruct (Z.le_gt_cases (Z.abs (Z.of_nat m - Z.of_nat (Z.to_nat z))) 2) as [Q|Q]; [|lia]. exfalso. apply Hout, H5. lia. }
  set (r := 2 * sqrt 2 * d / A). assert (Q2 : 0 < sqrt 2) by (apply sqrt_lt_R0; lra). assert (QQ : sqrt 2 * sqrt 2 = 2) by (apply sqrt_sqrt; lra).
  assert (r0 : 0 < r) by (apply Rdiv_lt_0_compat; [repeat apply Rmult_lt_0_compat; lra|exact S2]). assert (r1 : r <= 1 / 8) by (apply Rmult_le_reg_r with A; [exact S2|]; unfold r, Rdiv; rewrite Rmult_assoc, Rinv_l, Rmult_1_r by lra; lra).
  assert (rr : 4 * d ^ 2 = r ^ 2 * P) by (unfold r, P; replace ((2 * sqrt 2 * d / A) ^ 2 * (A ^ 2 / 2)) with (2 * (sqrt 2 * sqrt 2) * d ^ 2) by (field; lra); rewrite QQ; ring).
  assert (PS : (1 - r) ^ 2 * P <= power s sm * g).
  { eapply Rle_trans; [|eapply Rle_trans; [apply (five r); lra|]].
    - rewrite rr. replace ((1 - r) * P - (1 / r - 1) * (r ^ 2 * P)) with ((1 - r) ^ 2 * P) by (field; lra). apply Rle_refl.
    - apply Rmult_le_compat_r; [lra|]. rewrite power_nat by exact Hs. apply sub_sum; [|apply seq_NoDup|].
      + intros q Hq. apply in_map_iff in Hq. destruct Hq as (z & <- & Hz). specialize (Hs z Hz). apply welch_row_nonneg; [lia|exact Hf|lia].
      + intros q Hq. apply in_seq in Hq. apply in_map_iff. exists (Z.of_nat q). split; [lia|]. apply H5. lia. }
  replace (A / (2 * sqrt 2 * d) - 1) with ((1 - r) / r) by (unfold r; field; repeat split; lra).
  apply Rmult_le_reg_r with (power s nm * g); [now apply Rmult_lt_0_compat|]. replace (power s sm / power s nm * (power s nm * g)) with (power s sm * g) by (field; lra).
  eapply Rle_trans; [|exact PS]. rewrite rr in PN. apply Rle_trans with (((1 - r) / r) ^ 2 * (r ^ 2 * P)); [apply Rmult_le_compat_l; [apply pow2_ge_0|exact PN]|]. apply Req_le. field. lra.
Qed.
End Bounded.

(** A sequence that stays within d of an offset sinusoid of amplitude A >= 16 sqrt 2 d on a multiple m of fs / n, three bins or more from both ends: the largest bin is m, and with the mask that
    find_sinusoidal returns for six bins or more, the ratio to any other bins is at least (A / (2 sqrt 2 d) - 1)^2, or infinite. *)
Theorem C118_measured_snr : forall x nperseg fs c A p d m mw, let n := Nat.min (Z.to_nat nperseg) (length x) in
  (1 <= nperseg)%Z -> 0 < fs -> (3 <= m)%nat -> (2 * m + 4 < n)%nat -> 0 < d -> 16 * sqrt 2 * d <= A ->
  (forall k, (k < length x)%nat -> Rabs (nth k x 0 - (c + A * cos (2 * PI * INR m * INR k / INR n + p))) <= d) -> (6 <= mw)%Z ->
  exists f s sm, compute_power_spectral_density (V x) nperseg fs = Ok (f, V s) /\ find_sinusoidal s mw = Ok sm /\ In (Z.of_nat m) sm /\
    forall nm, NoDup nm -> (forall z, In z nm -> (0 <= z < Z.of_nat (length s))%Z /\ ~ In z sm) ->
      snr_spectrum s sm nm = Ok None \/ exists v, snr_spectrum s sm nm = Ok (Some v) /\ (A / (2 * sqrt 2 * d) - 1) ^ 2 <= v.
Proof.
  intros x nperseg fs c A p d m mw n Hn Hf H3 Hm Hd HA E Hw. assert (Hx : x <> []) by (intros Y; unfold n in Hm; rewrite Y in Hm; cbn [length] in Hm; lia). rewrite call by (try assumption; lra). change (used nperseg x) with n.
  assert (PK := peak x nperseg fs c A p d m Hn Hf H3 Hm Hd HA E mw ltac:(lia)). fold n in PK. eexists _, (welch_row n fs x), _. split; [reflexivity|]. split; [exact PK|].
  assert (L : length (welch_row n fs x) = (n / 2 + 1)%nat) by apply welch_row_length. assert (D := Nat.div_mod n 2 ltac:(lia)). assert (U := Nat.mod_upper_bound n 2 ltac:(lia)). assert (W : (3 <= mw / 2)%Z) by (apply Z.div_le_lower_bound; lia).
  assert (IN : forall z, (Z.of_nat m - 2 <= z <= Z.of_nat m + 2)%Z -> In z (map Z.of_nat (seq (m - Z.to_nat (mw / 2)) (Nat.min (length (welch_row n fs x)) (m + Z.to_nat (mw / 2)) - (m - Z.to_nat (mw / 2)))))).
  { intros z Hz. apply in_map_iff. exists (Z.to_nat z). split; [lia|]. apply in_seq. lia. }
  split; [apply IN; lia|]. intros nm NN Hnm. apply (ratio x nperseg fs c A p d m); try assumption.
  - apply FinFun.Injective_map_NoDup; [intros a b; apply Nat2Z.inj|apply seq_NoDup].
  - intros z Hz. fold n. apply in_map_iff in Hz. destruct Hz as (j & <- & Hj). apply in_seq in Hj. lia.
Qed.
Print Assumptions C118_measured_snr.

(** Sixteen samples of 2 + 32 cos(2 pi 3 k / 16) with errors 1, -1, 1, -1, ...: the mask is 0 .. 5, and the ratio to the bins 6, 7, 8 is at least (32 / (2 sqrt 2) - 1)^2 > 100, or infinite. *)
Example C118_ex : exists f s, let x := map (fun k => 2 + 32 * cos (2 * PI * 3 * INR k / 16) + (-1) ^ k) (seq 0 16) in
  compute_power_spectral_density (V x) 16 1 = Ok (f, V s) /\ find_sinusoidal s 6 = Ok [0; 1; 2; 3; 4; 5]%Z /\
  (snr_spectrum s [0; 1; 2; 3; 4; 5]%Z [6; 7; 8]%Z = Ok None \/ exists v, snr_spectrum s [0; 1; 2; 3; 4; 5]%Z [6; 7; 8]%Z = Ok (Some v) /\ 100 < v).
Proof.
  set (x := map _ _). assert (L : length x = 16%nat) by reflexivity. assert (Q2 : 0 < sqrt 2) by (apply sqrt_lt_R0; lra). assert (QQ : sqrt 2 * sqrt 2 = 2) by (apply sqrt_sqrt; lra). assert (Q3 : sqrt 2 < 143 / 100) by nra.
  assert (E : forall k, (k < length x)%nat -> Rabs (nth k x 0 - (2 + 32 * cos (2 * PI * INR 3 * INR k / INR 16 + 0))) <= 1).
  { intros k Hk. rewrite L in Hk. unfold x. set (f := fun k => _ + _). rewrite (nth_indep _ 0 (f O)) by (rewrite map_length, seq_length; lia). rewrite map_nth, seq_nth by lia. unfold f. cbn [Nat.add].
    replace (INR 3) with 3 by (cbn; lra). replace (INR 16) with 16 by (cbn; lra). rewrite Rplus_0_r. set (y := 32 * _). replace (2 + y + (-1) ^ k - (2 + y)) with ((-1) ^ k) by ring. rewrite pow_1_abs. lra. }
  assert (W : length (welch_row 16 1 x) = 9%nat) by apply (welch_row_length 16 1 x).
  assert (PK := peak x 16 1 2 32 0 1 3 ltac:(lia) ltac:(lra) ltac:(lia) ltac:(rewrite L; cbn; lia) ltac:(lra) ltac:(lra) E 6 ltac:(lia)).
  rewrite L in PK. change (Nat.min (Z.to_nat 16) 16) with 16%nat in PK. rewrite W in PK.
  destruct (C118_measured_snr x 16 1 2 32 0 1 3 6) as (f & s & sm & H1 & H2 & H3 & H4); try lia; try lra; try exact E; try (rewrite L; change (Nat.min (Z.to_nat 16) 16) with 16%nat; lia).
  exists f, s. cbv zeta. assert (Es : s = welch_row 16 1 x).
  { rewrite call in H1; [|discriminate|lia|lra]. apply Ok_inj in H1. injection H1 as _ H1. now symmetry. }
  rewrite Es in H2, H4 |- *. rewrite PK in H2. apply Ok_inj in H2. subst sm. split; [rewrite <- Es; exact H1|]. split; [exact PK|].
  destruct (H4 [6; 7; 8]%Z) as [Y|(v & Y & Z)].
  - repeat (constructor; [intros Y; cbn in Y; lia|]). constructor.
  - rewrite W. intros z [<-|[<-|[<-|[]]]]; (split; [lia|]); intros Y; vm_compute in Y; repeat (destruct Y as [Y|Y]; [discriminate Y|]); exact Y.
  - left. exact Y.
  - right. exists v. split; [exact Y|]. eapply Rlt_le_trans; [|exact Z]. assert (B : 111 / 10 < 32 / (2 * sqrt 2 * 1)).
    { apply Rmult_lt_reg_r with (2 * sqrt 2 * 1); [lra|]. replace (32 / (2 * sqrt 2 * 1) * (2 * sqrt 2 * 1)) with 32 by (field; lra). lra. }
    set (w := 32 / _) in *. clearbody w. nra.
Qed.
