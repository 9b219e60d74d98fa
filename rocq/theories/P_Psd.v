(** C117: what compute_power_spectral_density measures.  Statements use the frequencies and densities the function returns, and [sum_over] (a sum along a list). *)
From Coq Require Import List Arith Bool ZArith Reals Lra Lia Permutation.
From Flocq Require Import Core.
From Coquelicot Require Import Complex.
From Verif Require Import Base LinAlg AnalogSystem AnalogProofs IntegratorsProofs LinearOde CplxLin SignalsMore SignalsMoreProofs EstimatorDecay FirFreq FirFreqProofs Psd PsdProofs ByteCodec Peaks PeaksProofs P_Peaks.
Import ListNotations.
Open Scope R_scope.

(** the length of the segments that a call uses *)
Definition used (nperseg : Z) (x : list R) : nat := Nat.min (Z.to_nat nperseg) (length x).

Lemma pow2_gt_0 (v : R) : v <> 0 -> 0 < v ^ 2.
Proof. intros H. replace (v ^ 2) with (Rsqr v) by (unfold Rsqr; ring). now apply Rlt_0_sqr. Qed.
Lemma call x nperseg fs : x <> [] -> (1 <= nperseg)%Z -> fs <> 0 -> let n := used nperseg x in
  compute_power_spectral_density (V x) nperseg fs = Ok (map (fun q => INR q * (1 / (INR n * (1 / fs)))) (seq 0 (n / 2 + 1)), V (welch_row n fs x)).
Proof.
  intros Hx Hn Hf n. assert (L : (1 <= length x)%nat) by (destruct x; [congruence|cbn; lia]). assert (N : (1 <= n)%nat) by (unfold n, used; lia).
  unfold compute_power_spectral_density, welch. cbn [arr_size last_axis map_rows]. rewrite (proj2 (Nat.eqb_neq _ _)) by lia. rewrite (proj2 (Z.ltb_ge _ _)) by lia. rewrite Req_bool_false by exact Hf.
  replace (Nat.min (Z.to_nat (Z.min nperseg (Z.of_nat (length x)))) (length x)) with n by (unfold n, used; lia). unfold rfftfreq. rewrite Req_bool_false; [reflexivity|].
  apply Rmult_integral_contrapositive_currified; [apply not_0_INR; lia|]. unfold Rdiv. rewrite Rmult_1_l. now apply Rinv_neq_0_compat.
Qed.

(** A nonempty sequence gives the n // 2 + 1 frequencies 0, fs / n, 2 fs / n, ... up to fs / 2, and as many densities, none negative; n is nperseg or the length of the sequence if that is less. *)
Theorem C117_result : forall x nperseg fs, x <> [] -> (1 <= nperseg)%Z -> 0 < fs -> let n := Nat.min (Z.to_nat nperseg) (length x) in
  exists f s, compute_power_spectral_density (V x) nperseg fs = Ok (f, V s) /\ length f = (n / 2 + 1)%nat /\ length s = (n / 2 + 1)%nat /\
    (forall q, (q <= n / 2)%nat -> nth q f 0 = INR q * fs / INR n /\ nth q f 0 <= fs / 2 /\ 0 <= nth q s 0).
Proof.
  intros x nperseg fs Hx Hn Hf n. rewrite call by (try assumption; lra). change (used nperseg x) with n. eexists _, _. split; [reflexivity|].
  assert (L : (1 <= length x)%nat) by (destruct x; [congruence|cbn; lia]). assert (N : (1 <= n <= length x)%nat) by (unfold n; lia). assert (N0 : 0 < INR n) by (apply lt_0_INR; lia).
  split; [now rewrite map_length, seq_length|]. split; [apply welch_row_length|]. intros q Hq.
  assert (E : nth q (map (fun q => INR q * (1 / (INR n * (1 / fs)))) (seq 0 (n / 2 + 1))) 0 = INR q * fs / INR n).
  { set (g := fun q => INR q * _). rewrite (nth_indep _ 0 (g O)) by (rewrite map_length, seq_length; lia). rewrite map_nth, seq_nth by lia. unfold g. cbn [Nat.add]. field. lra. }
  rewrite E. split; [reflexivity|]. split; [|now apply welch_row_nonneg].
  assert (D := Nat.div_mod n 2 ltac:(lia)). assert (Q : 2 * INR q <= INR n) by (change 2 with (INR 2); rewrite <- mult_INR; apply le_INR; lia).
  apply Rmult_le_reg_r with (INR n); [exact N0|]. replace (INR q * fs / INR n * INR n) with (INR q * fs) by (field; lra). nra.
Qed.
Print Assumptions C117_result.

(** What makes it raise: nperseg below one, or a sampling frequency of zero; never for an empty sequence. *)
Theorem C117_errors : forall x nperseg fs,
  (x = [] -> compute_power_spectral_density (V x) nperseg fs = Ok ([], V [])) /\
  (x <> [] -> (nperseg < 1)%Z -> compute_power_spectral_density (V x) nperseg fs = Exn ValueError) /\
  (x <> [] -> (1 <= nperseg)%Z -> compute_power_spectral_density (V x) nperseg 0 = Exn ZeroDivisionError).
Proof.
  intros x nperseg fs. split; [intros ->; reflexivity|]. assert (L : x <> [] -> (1 <= length x)%nat) by (destruct x; [congruence|cbn; lia]).
  split; intros Hx Hn; specialize (L Hx); unfold compute_power_spectral_density, welch; cbn [arr_size]; rewrite (proj2 (Nat.eqb_neq _ _)) by lia.
  - rewrite (proj2 (Z.ltb_lt _ _)) by lia. reflexivity.
  - rewrite (proj2 (Z.ltb_ge _ _)) by lia. rewrite Req_bool_true by reflexivity. reflexivity.
Qed.
Print Assumptions C117_errors.

(** An offset does not show at all, a gain by its square... *)
Theorem C117_offset_gain : forall x nperseg fs a b, x <> [] -> (1 <= nperseg)%Z -> fs <> 0 ->
  exists f s, compute_power_spectral_density (V x) nperseg fs = Ok (f, V s) /\
    compute_power_spectral_density (V (map (fun v => a * v + b) x)) nperseg fs = Ok (f, V (map (fun p => a ^ 2 * p) s)).
Proof.
  intros x nperseg fs a b Hx Hn Hf. rewrite call by assumption. eexists _, _. split; [reflexivity|]. assert (L : (1 <= length x)%nat) by (destruct x; [congruence|cbn; lia]).
  rewrite call; [|destruct x; [congruence|discriminate]|assumption|assumption]. assert (U : used nperseg (map (fun v => a * v + b) x) = used nperseg x) by (unfold used; now rewrite map_length). rewrite U. do 3 f_equal. apply welch_row_affine. unfold used. lia.
Qed.
Print Assumptions C117_offset_gain.
(** ... so that the signal-to-noise ratio read off it is that of the sequence whatever its offset and gain. *)
Theorem C117_snr_offset_gain : forall x nperseg fs a b sm nm, x <> [] -> (1 <= nperseg)%Z -> fs <> 0 -> a <> 0 ->
  exists f s s', compute_power_spectral_density (V x) nperseg fs = Ok (f, V s) /\ compute_power_spectral_density (V (map (fun v => a * v + b) x)) nperseg fs = Ok (f, V s') /\
    (in_mask s sm -> in_mask s nm -> snr_spectrum s' sm nm = snr_spectrum s sm nm).
Proof.
  intros x nperseg fs a b sm nm Hx Hn Hf Ha. destruct (C117_offset_gain x nperseg fs a b Hx Hn Hf) as (f & s & E & E'). exists f, s, (map (fun p => a ^ 2 * p) s). split; [exact E|]. split; [exact E'|].
  intros Hs Hm. apply C73_invariant; try assumption; try apply Permutation_refl. apply Rlt_gt, pow2_gt_0, Ha.
Qed.
Print Assumptions C117_snr_offset_gain.

(** The densities times the distance fs / n of the frequencies add up to the power of the sequence less its mean, weighted by the squared Blackman window: the mean over the segments
    (n samples each, starting every n - n // 2) of the weighted means of squares. *)
Theorem C117_total_power : forall x nperseg fs, x <> [] -> (1 <= nperseg)%Z -> 0 < fs ->
  let n := Nat.min (Z.to_nat nperseg) (length x) in let hop := (n - n / 2)%nat in let count := ((length x - n / 2) / hop)%nat in
  let w := fun k => if Nat.leb n 1 then 1 else 42 / 100 - 1 / 2 * cos (2 * PI * INR k / INR n) + 8 / 100 * cos (2 * (2 * PI * INR k / INR n)) in
  let mean := fun i => rsum n (fun k => nth (i * hop + k) x 0) / INR n in
  exists f s, compute_power_spectral_density (V x) nperseg fs = Ok (f, V s) /\ (1 <= count)%nat /\
    sum_over (fun v => v) s * (fs / INR n) =
    rsum count (fun i => rsum n (fun k => (w k * (nth (i * hop + k) x 0 - mean i)) ^ 2) / rsum n (fun k => w k * w k)) / INR count.
Proof.
  intros x nperseg fs Hx Hn Hf n hop count w mean. rewrite call by (try assumption; lra). change (used nperseg x) with n. eexists _, _. split; [reflexivity|].
  assert (L : (1 <= length x)%nat) by (destruct x; [congruence|cbn; lia]). assert (N : (1 <= n <= length x)%nat) by (unfold n; lia). split; [exact (segments_pos (length x) n N)|]. rewrite (welch_row_total n fs x N Hf). reflexivity.
Qed.
Print Assumptions C117_total_power.

(** A constant plus sinusoids whose frequencies are multiples of fs / n, at least five bins from each other and three from both ends: each occupies the five bins around its own,
    with 1764, 625 and 16 parts in 3046 of its power, and none sees the others.  Nothing else shows. *)
Definition parts (d : Z) : R := match Z.abs d with 0%Z => 1764 / 3046 | 1%Z => 625 / 3046 | 2%Z => 16 / 3046 | _ => 0 end.
Lemma parts_share d : share d = parts d.
Proof.
  unfold share, weight, parts. destruct (Z.eqb_spec d 0) as [->|E]; [cbn; field|]. destruct (Z.eqb_spec (Z.abs d) 1) as [->|E1]; [field|]. destruct (Z.eqb_spec (Z.abs d) 2) as [->|E2]; [field|].
  destruct (Z.abs d) as [|[p|[p|p|]|]|p] eqn:A; try lia; field.
Qed.
Theorem C117_sinusoids : forall x nperseg fs c l, (1 <= nperseg)%Z -> 0 < fs -> let n := Nat.min (Z.to_nat nperseg) (length x) in
  (5 <= n)%nat -> (forall t, In t l -> (3 <= s_bin t)%nat /\ (2 * s_bin t + 4 < n)%nat) -> ForallOrdPairs (fun t u => (5 <= Z.abs (Z.of_nat (s_bin t) - Z.of_nat (s_bin u)))%Z) l ->
  (forall k, (k < length x)%nat -> nth k x 0 = c + sum_over (fun t => s_amp t * cos (2 * PI * INR (s_bin t) * INR k / INR n + s_phase t)) l) ->
  exists f s, compute_power_spectral_density (V x) nperseg fs = Ok (f, V s) /\ length s = (n / 2 + 1)%nat /\
    (forall q, (q <= n / 2)%nat -> nth q s 0 * (fs / INR n) = sum_over (fun t => s_amp t ^ 2 / 2 * parts (Z.of_nat (s_bin t) - Z.of_nat q)) l) /\
    (forall t, In t l -> sum_over (fun q => nth q s 0) (seq (s_bin t - 2) 5) * (fs / INR n) = s_amp t ^ 2 / 2).
Proof.
  intros x nperseg fs c l Hn Hf n H5 B A E. assert (Hx : x <> []) by (intros ->; unfold n in H5; cbn in H5; lia). rewrite call by (try assumption; lra). change (used nperseg x) with n. eexists _, _. split; [reflexivity|]. split; [apply welch_row_length|].
  assert (Q : forall q, (q <= n / 2)%nat -> nth q (welch_row n fs x) 0 * (fs / INR n) = sum_over (fun t => s_amp t ^ 2 / 2 * parts (Z.of_nat (s_bin t) - Z.of_nat q)) l).
  { intros q Hq. rewrite (welch_row_tones n fs c l x q); [apply sum_over_ext; intros; now rewrite parts_share|unfold n in *; lia|exact Hf|apply Forall_forall; exact B|exact A|exact Hq|exact E]. }
  split; [exact Q|]. intros t Ht. destruct (B t Ht) as [B1 B2]. assert (D := Nat.div_mod n 2 ltac:(lia)). assert (U := Nat.mod_upper_bound n 2 ltac:(lia)).
  assert (O : forall q, (s_bin t - 2 <= q <= s_bin t + 2)%nat -> nth q (welch_row n fs x) 0 * (fs / INR n) = s_amp t ^ 2 / 2 * parts (Z.of_nat (s_bin t) - Z.of_nat q)).
  { intros q Hq. rewrite Q by lia. clear - A Ht Hq. induction A as [|u l F A IH]; [destruct Ht|]. unfold sum_over in *. cbn [fold_right]. rewrite Forall_forall in F. destruct Ht as [->|Ht].
    - fold (sum_over (fun t => s_amp t ^ 2 / 2 * parts (Z.of_nat (s_bin t) - Z.of_nat q)) l). rewrite sum_over_zero; [ring|]. intros v Hv. specialize (F v Hv). rewrite <- parts_share. unfold share. rewrite weight_far by lia. field.
    - rewrite (IH Ht). specialize (F t Ht). cbn beta in F. rewrite <- (parts_share (Z.of_nat (s_bin u) - Z.of_nat q)). unfold share. rewrite weight_far by lia. field. }
  unfold sum_over. cbn [seq fold_right]. set (m := s_bin t) in *. set (g := fs / INR n) in *. set (P := s_amp t ^ 2 / 2) in *. rewrite Rplus_0_r, !Rmult_plus_distr_r, !O by lia.
  replace (Z.of_nat m - Z.of_nat (m - 2))%Z with 2%Z by lia. replace (Z.of_nat m - Z.of_nat (S (m - 2)))%Z with 1%Z by lia. replace (Z.of_nat m - Z.of_nat (S (S (m - 2))))%Z with 0%Z by lia.
  replace (Z.of_nat m - Z.of_nat (S (S (S (m - 2)))))%Z with (-1)%Z by lia. replace (Z.of_nat m - Z.of_nat (S (S (S (S (m - 2))))))%Z with (-2)%Z by lia. cbn [parts Z.abs]. field.
Qed.
Print Assumptions C117_sinusoids.

(** A single such sinusoid without any noise: find_sinusoidal with a mask of at least six bins takes all of it, and the ratio to any other bins is infinite; a mask of four or five bins
    leaves the bin two above to the noise, and the ratio is 3030 / 16 (22.8 dB) whatever the amplitude. *)
Section One.
Context (x : list R) (nperseg : Z) (fs c A p : R) (m : nat).
Let n := Nat.min (Z.to_nat nperseg) (length x).
Hypotheses (Hn : (1 <= nperseg)%Z) (Hf : 0 < fs) (HA : A <> 0) (H3 : (3 <= m)%nat) (Hm : (2 * m + 4 < n)%nat)
  (E : forall k, (k < length x)%nat -> nth k x 0 = c + A * cos (2 * PI * INR m * INR k / INR n + p)).
Lemma one_bins : exists f s, compute_power_spectral_density (V x) nperseg fs = Ok (f, V s) /\ length s = (n / 2 + 1)%nat /\ exists P, 0 < P /\ forall q, (q < length s)%nat -> nth q s 0 = P * parts (Z.of_nat m - Z.of_nat q).
Proof.
  assert (N0 : 0 < INR n) by (apply lt_0_INR; lia).
  destruct (C117_sinusoids x nperseg fs c [mkS m A p] Hn Hf) as (f & s & C & L & Q & _).
  - fold n. lia.
  - intros t [<-|[]]. cbn. fold n. lia.
  - repeat constructor.
  - intros k Hk. rewrite (E k Hk). unfold sum_over. cbn [fold_right s_amp s_bin s_phase]. fold n. ring.
  - exists f, s. split; [exact C|]. split; [exact L|]. exists (A ^ 2 / 2 * (INR n / fs)). split.
    + apply Rmult_lt_0_compat; [apply Rdiv_lt_0_compat; [apply pow2_gt_0, HA|lra]|now apply Rdiv_lt_0_compat].
    + intros q Hq. fold n in Q. fold n in L. specialize (Q q ltac:(lia)). unfold sum_over in Q. cbn [fold_right s_amp s_bin s_phase] in Q. apply Rmult_eq_reg_r with (fs / INR n); [|apply Rgt_not_eq, Rdiv_lt_0_compat; lra]. rewrite Q. field. lra.
Qed.
Lemma parts_nonneg d : 0 <= parts d.
Proof. rewrite <- parts_share. unfold share. apply Rmult_le_pos; [apply pow2_ge_0|lra]. Qed.
Lemma parts_far d : (2 < Z.abs d)%Z -> parts d = 0.
Proof. intros H. rewrite <- parts_share. unfold share. rewrite weight_far by exact H. field. Qed.
Lemma parts_less d : d <> 0%Z -> parts d < parts 0.
Proof. intros H. change (parts 0) with (1764 / 3046). unfold parts. destruct (Z.abs d) as [|[q|[q|q|]|]|q] eqn:D; try (exfalso; lia); lra. Qed.
Lemma one_peak s P mw : length s = (n / 2 + 1)%nat -> 0 < P -> (forall q, (q < length s)%nat -> nth q s 0 = P * parts (Z.of_nat m - Z.of_nat q)) -> (2 <= mw)%Z ->
  find_sinusoidal s mw = Ok (map Z.of_nat (seq (m - Z.to_nat (mw / 2)) (Nat.min (length s) (m + Z.to_nat (mw / 2)) - (m - Z.to_nat (mw / 2))))).
Proof using Hn H3 Hm.
  intros L HP Q Hw. assert (D := Nat.div_mod n 2 ltac:(lia)). assert (U := Nat.mod_upper_bound n 2 ltac:(lia)). destruct (C60_one s mw) as (c0 & (F1 & F2 & F3) & ->); [intros ->; cbn in L; lia|exact Hw|].
  replace c0 with m; [reflexivity|]. destruct (Nat.eq_dec c0 m) as [Y|Y]; [now symmetry|]. exfalso. specialize (F2 m ltac:(lia)). cbn beta in F2. rewrite !Q in F2 by lia. rewrite Z.sub_diag in F2.
  rewrite !Rabs_pos_eq in F2 by (apply Rmult_le_pos; [lra|apply parts_nonneg]). assert (Z1 := parts_less (Z.of_nat m - Z.of_nat c0) ltac:(lia)). nra.
Qed.
End One.
Theorem C117_noiseless : forall x nperseg fs c A p m mw nm, let n := Nat.min (Z.to_nat nperseg) (length x) in
  (1 <= nperseg)%Z -> 0 < fs -> A <> 0 -> (3 <= m)%nat -> (2 * m + 4 < n)%nat ->
  (forall k, (k < length x)%nat -> nth k x 0 = c + A * cos (2 * PI * INR m * INR k / INR n + p)) -> (4 <= mw)%Z ->
  exists f s sm, compute_power_spectral_density (V x) nperseg fs = Ok (f, V s) /\ find_sinusoidal s mw = Ok sm /\
    ((forall z, In z nm -> (0 <= z < Z.of_nat (length s))%Z /\ ~ In z sm) ->
      ((6 <= mw)%Z -> snr_spectrum s sm nm = Ok None) /\
      ((mw < 6)%Z -> NoDup nm -> In (Z.of_nat m + 2)%Z nm -> snr_spectrum s sm nm = Ok (Some (3030 / 16)))).
Proof.
  intros x nperseg fs c A p m mw nm n Hn Hf HA H3 Hm E Hw. destruct (one_bins x nperseg fs c A p m Hn Hf HA H3 Hm E) as (f & s & C & L & P & HP & Q). fold n in L.
  assert (D := Nat.div_mod n 2 ltac:(lia)). assert (U := Nat.mod_upper_bound n 2 ltac:(lia)). assert (F := one_peak x nperseg m Hn H3 Hm s P mw L HP Q ltac:(lia)). fold n in F. eexists f, s, _. split; [exact C|]. split; [exact F|]. intros Hnm.
  set (sm := map Z.of_nat _) in *. assert (In_sm : forall z, In z sm <-> (Z.max 0 (Z.of_nat m - mw / 2) <= z < Z.min (Z.of_nat (length s)) (Z.of_nat m + mw / 2))%Z).
  { intros z. unfold sm. rewrite in_map_iff. split; [intros (j & <- & Hj); apply in_seq in Hj; assert (0 <= mw / 2)%Z by (apply Z.div_pos; lia); lia|]. intros Hz. exists (Z.to_nat z). rewrite in_seq. assert (0 <= mw / 2)%Z by (apply Z.div_pos; lia). lia. }
  assert (Im : in_mask s sm) by (intros z Hz; apply In_sm in Hz; lia). assert (In' : in_mask s nm) by (intros z Hz; destruct (Hnm z Hz); lia).
  assert (val : forall z, (0 <= z < Z.of_nat (length s))%Z -> nth (Z.to_nat (z mod Z.of_nat (length s))) s 0 = P * parts (Z.of_nat m - z)) by (intros z Hz; rewrite Z.mod_small, Q by lia; do 2 f_equal; lia).
  destruct (C73_snr s sm nm) as [SN _]. destruct (SN Im In') as [S1 S2]. split.
  - intros H6. apply S2. apply Req_le. clear - Hnm val In_sm H6 Hm H3 L D U. induction nm as [|z nm IH]; [reflexivity|]. cbn [power fold_right]. fold (power s nm). rewrite IH by (intros; apply Hnm; now right). destruct (Hnm z ltac:(now left)) as [Hz Hout]. rewrite val by exact Hz. rewrite parts_far; [ring|].
    rewrite In_sm in Hout. assert (3 <= mw / 2)%Z by (apply Z.div_le_lower_bound; lia). lia.
  - intros H6 ND Hin. assert (H2 : (mw / 2 = 2)%Z) by (assert (2 <= mw / 2)%Z by (apply Z.div_le_lower_bound; lia); assert (mw / 2 < 3)%Z by (apply Z.div_lt_upper_bound; lia); lia).
    assert (PN : power s nm = P * (16 / 3046)).
    { apply in_split in Hin. destruct Hin as (a & b & ->). assert (ZZ : forall l, (forall z, In z l -> In z (a ++ b)) -> power s l = 0).
      { induction l as [|z l IH]; intros Hl; [reflexivity|]. cbn [power fold_right]. fold (power s l). rewrite IH by (intros; apply Hl; now right). assert (Hz := Hl z ltac:(now left)).
        assert (Hz' : In z (a ++ Z.of_nat m + 2 :: b)%Z) by (rewrite in_app_iff in *; cbn; tauto). destruct (Hnm z Hz') as [Hr Hout]. rewrite val by exact Hr. rewrite parts_far; [ring|].
        assert (z <> Z.of_nat m + 2)%Z by (intros ->; apply NoDup_remove_2 in ND; tauto). rewrite In_sm in Hout. lia. }
      assert (AP : forall u v, power s (u ++ v) = power s u + power s v) by (intros u v; unfold power; induction u as [|z u IH]; cbn [app fold_right]; [ring|rewrite IH; ring]).
      rewrite AP. cbn [power fold_right]. fold (power s b). rewrite !ZZ by (intros; rewrite in_app_iff; tauto). destruct (Hnm (Z.of_nat m + 2)%Z) as [Hr _]; [rewrite in_app_iff; cbn; tauto|]. rewrite val by exact Hr.
      replace (Z.of_nat m - (Z.of_nat m + 2))%Z with (-2)%Z by lia. cbn [parts Z.abs]. ring. }
    assert (PS : power s sm = P * (3030 / 3046)).
    { unfold sm. rewrite H2. replace (Nat.min (length s) (m + Z.to_nat 2) - (m - Z.to_nat 2))%nat with 4%nat by lia. cbn [seq map power fold_right]. rewrite !val by lia.
      replace (Z.of_nat m - Z.of_nat (m - Z.to_nat 2))%Z with 2%Z by lia. replace (Z.of_nat m - Z.of_nat (S (m - Z.to_nat 2)))%Z with 1%Z by lia. replace (Z.of_nat m - Z.of_nat (S (S (m - Z.to_nat 2))))%Z with 0%Z by lia.
      replace (Z.of_nat m - Z.of_nat (S (S (S (m - Z.to_nat 2)))))%Z with (-1)%Z by lia. cbn [parts Z.abs]. field. }
    rewrite S1 by (rewrite PN; apply Rlt_gt; nra). do 2 f_equal. rewrite PN, PS. field. lra.
Qed.
Print Assumptions C117_noiseless.

(** The hypotheses are met: two sinusoids on an offset, 60 samples, segments of 24. *)
Definition two : list sinusoid := [mkS 3 1 (1 / 5); mkS 8 (1 / 10) 0].
Definition sampled (K n : nat) (c : R) (l : list sinusoid) : list R := map (fun k => c + sum_over (fun t => s_amp t * cos (2 * PI * INR (s_bin t) * INR k / INR n + s_phase t)) l) (seq 0 K).
Lemma sampled_nth K n c l k : (k < K)%nat -> nth k (sampled K n c l) 0 = c + sum_over (fun t => s_amp t * cos (2 * PI * INR (s_bin t) * INR k / INR n + s_phase t)) l.
Proof. intros H. unfold sampled. set (g := fun k => c + _). rewrite (nth_indep _ 0 (g O)) by (rewrite map_length, seq_length; lia). rewrite map_nth, seq_nth by lia. reflexivity. Qed.
Example C117_ex : exists f s, compute_power_spectral_density (V (sampled 60 24 (1 / 3) two)) 24 48 = Ok (f, V s) /\ length s = 13%nat /\ nth 3 s 0 = 1764 / 3046 / 4 /\ nth 6 s 0 = 1 / 100 * (16 / 3046) / 4 /\ nth 11 s 0 = 0 /\
  sum_over (fun q => nth q s 0) (seq 6 5) * 2 = 1 / 200.
Proof.
  destruct (C117_sinusoids (sampled 60 24 (1 / 3) two) 24 48 (1 / 3) two) as (f & s & C & L & Q & T).
  - lia.
  - lra.
  - unfold sampled. rewrite map_length, seq_length. cbn. lia.
  - unfold sampled. rewrite map_length, seq_length. intros t [<-|[<-|[]]]; cbn; lia.
  - unfold two. repeat constructor; cbn; lia.
  - unfold sampled at 1. rewrite map_length, seq_length. intros k Hk. rewrite sampled_nth by exact Hk. unfold sampled. rewrite map_length, seq_length. reflexivity.
  - assert (N : Nat.min (Z.to_nat 24) (length (sampled 60 24 (1 / 3) two)) = 24%nat) by (unfold sampled; rewrite map_length, seq_length; reflexivity). rewrite N in *. change (24 / 2 + 1)%nat with 13%nat in L. change (24 / 2)%nat with 12%nat in Q. exists f, s. split; [exact C|]. split; [exact L|].
    replace (48 / INR 24) with 2 in * by (rewrite INR_IZR_INZ; cbn; field). assert (Q3 := Q 3%nat ltac:(lia)). assert (Q6 := Q 6%nat ltac:(lia)). assert (Q11 := Q 11%nat ltac:(lia)). assert (T8 := T (mkS 8 (1 / 10) 0) ltac:(cbn; tauto)).
    cbn [two sum_over fold_right s_amp s_bin s_phase Z.of_nat Pos.of_succ_nat Pos.succ Z.sub Z.opp Z.add Z.pos_sub Pos.pred_double Z.double Z.succ_double Z.pred_double parts Z.abs] in Q3, Q6, Q11. split; [|split; [|split]]; try lra.
    change (8 - 2)%nat with 6%nat in T8. change (s_bin (mkS 8 (1 / 10) 0) - 2)%nat with 6%nat in T8. cbn [s_amp] in T8. rewrite T8. field.
Qed.
(** With the mask of four bins a noiseless sinusoid does have noise. *)
Theorem C117_four_bins_refuted : exists x nperseg fs f s sm nm, compute_power_spectral_density (V x) nperseg fs = Ok (f, V s) /\ find_sinusoidal s 4 = Ok sm /\
  (exists n, nperseg = Z.of_nat n /\ length x = n /\ forall k, (k < n)%nat -> nth k x 0 = cos (2 * PI * INR 3 * INR k / INR n)) /\ (forall z, In z nm -> ~ In z sm) /\ snr_spectrum s sm nm = Ok (Some (3030 / 16)).
Proof.
  set (x := sampled 16 16 0 [mkS 3 1 0]). assert (Lx : length x = 16%nat) by (unfold x, sampled; now rewrite map_length, seq_length).
  assert (Ex : forall k, (k < 16)%nat -> nth k x 0 = cos (2 * PI * INR 3 * INR k / INR 16)).
  { intros k Hk. unfold x. rewrite sampled_nth by exact Hk. unfold sum_over. cbn [fold_right s_amp s_bin s_phase]. rewrite Rplus_0_l, Rmult_1_l, !Rplus_0_r. reflexivity. }
  destruct (C117_noiseless x 16 1 0 1 0 3 4 [5%Z]) as (f & s & sm & C & F & H); try lia; try lra.
  - rewrite Lx. intros k Hk. rewrite Ex by exact Hk. change (Nat.min (Z.to_nat 16) 16) with 16%nat. rewrite Rplus_0_l, Rmult_1_l, Rplus_0_r. reflexivity.
  - destruct (one_bins x 16 1 0 1 0 3) as (f' & s' & C' & L' & P & HP & Q); try lia; try lra.
    + rewrite Lx. intros k Hk. rewrite Ex by exact Hk. change (Nat.min (Z.to_nat 16) 16) with 16%nat. rewrite Rplus_0_l, Rmult_1_l, Rplus_0_r. reflexivity.
    + rewrite C in C'. assert (s' = s) by congruence. subst s'. rewrite Lx in L'. change (Nat.min (Z.to_nat 16) 16 / 2 + 1)%nat with 9%nat in L'.
      assert (F' := one_peak x 16 3 ltac:(lia) ltac:(lia) ltac:(rewrite Lx; change (Nat.min (Z.to_nat 16) 16) with 16%nat; lia) s P 4 ltac:(rewrite Lx; exact L') HP Q ltac:(lia)). rewrite F in F'. assert (Y : sm = [1; 2; 3; 4]%Z) by (rewrite L' in F'; injection F' as ->; reflexivity). subst sm.
      assert (W : forall z, In z [5%Z] -> ~ In z [1; 2; 3; 4]%Z) by (intros z [<-|[]] W; cbn in W; lia).
      exists x, 16%Z, 1, f, s, [1; 2; 3; 4]%Z, [5%Z]. split; [exact C|]. split; [exact F|]. split; [exists 16%nat; split; [reflexivity|split; [exact Lx|exact Ex]]|]. split; [exact W|].
      apply H; [|lia|repeat constructor; cbn; tauto|cbn; tauto]. intros z Hz. split; [destruct Hz as [<-|[]]; rewrite L'; lia|now apply W].
Qed.
Print Assumptions C117_four_bins_refuted.

(** In two dimensions the last axis is analysed: the (size, 1) array that iterator_to_numpy_array returns is taken for size sequences of one sample, and the density is zero at the one frequency zero. *)
Lemma fill_rows_shape (X : Type) L e : forall n (xs : list (list X)) ys, fill_rows n L xs e = Ok ys -> length ys = n /\ forall r, In r ys -> length r = L.
Proof.
  induction n as [|n IH]; intros xs ys H; [injection H as <-; split; [reflexivity|intros r []]|]. destruct xs as [|v xs]; [cbn in H; destruct e; discriminate|]. cbn [fill_rows] in H. unfold row in H.
  destruct (Nat.eqb_spec (length v) L) as [Q|Q].
  - cbn [bind] in H. destruct (fill_rows n L xs e) as [zs|] eqn:E; [|discriminate]. injection H as <-. destruct (IH _ _ E) as [I1 I2]. split; [cbn; lia|]. intros r [<-|Hr]; [exact Q|now apply I2].
  - destruct v as [|v [|? ?]]; try discriminate. cbn [bind] in H. destruct (fill_rows n L xs e) as [zs|] eqn:E; [|discriminate]. injection H as <-. destruct (IH _ _ E) as [I1 I2]. split; [cbn; lia|]. intros r [<-|Hr]; [apply repeat_length|now apply I2].
Qed.
Theorem C117_column : forall (st : Base.stream (list R)) size a nperseg fs, (1 <= nperseg)%Z -> fs <> 0 -> iterator_to_numpy_array st size 1 = Ok a ->
  compute_power_spectral_density (Mx 1 a) nperseg fs = Ok ([0], Mx 1 (repeat [0] (Z.to_nat size))).
Proof.
  intros st size a nperseg fs Hn Hf Hs. unfold iterator_to_numpy_array in Hs. destruct (Z.ltb_spec size 1) as [B|B]; [discriminate|]. cbn [orb Z.ltb Z.compare] in Hs. destruct (fill_rows_shape _ _ _ _ _ _ Hs) as [L0 Hr].
  assert (L : (1 <= length a)%nat) by lia. unfold compute_power_spectral_density, welch. cbn [arr_size last_axis map_rows]. rewrite (proj2 (Nat.eqb_neq _ _)) by lia.
  rewrite (proj2 (Z.ltb_ge _ _)) by lia. rewrite Req_bool_false by exact Hf. replace (Nat.min _ 1) with 1%nat by lia. unfold rfftfreq. rewrite Req_bool_false.
  - cbn [bind]. do 2 f_equal; [cbn; f_equal; ring|]. change (1 / 2 + 1)%nat with 1%nat. f_equal. rewrite <- L0. clear - Hr. induction a as [|r a IH]; [reflexivity|]. cbn [map length repeat]. f_equal; [|apply IH; intros; apply Hr; now right]. specialize (Hr r ltac:(now left)). destruct r as [|v [|? ?]]; try discriminate.
    unfold welch_row. cbn [length seq map segments step Nat.div Nat.divmod Nat.sub fst Nat.add]. f_equal. rewrite rsum_S, rsum_0. unfold periodogram, rfft_bin, detrended. cbn [csum]. rewrite rsum_S, rsum_0. cbn [nth Nat.mul Nat.add]. replace (v - (0 + v) / INR 1) with 0 by (cbn; field).
    rewrite Rmult_0_r, Cmult_0_l, Cplus_0_l, Cmod_0. unfold Rdiv. ring.
  - cbn [INR]. rewrite Rmult_1_l. unfold Rdiv. rewrite Rmult_1_l. now apply Rinv_neq_0_compat.
Qed.
Print Assumptions C117_column.
Example C117_column_ex : iterator_to_numpy_array (mkStream [[1]; [2]; [3]] EndStop) 2 1 = Ok [[1]; [2]].
Proof. reflexivity. Qed.
