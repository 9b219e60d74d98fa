(** Properties C60 and C73: peak search masks and signal-to-noise ratios of a spectrum. *)
From Coq Require Import List Arith Bool Reals ZArith Lia Lra Sorted Permutation.
From Flocq Require Import Core.
From Verif Require Import Base Peaks PeaksProofs.
Import ListNotations.
Open Scope R_scope.

(** Specification: what is left of the magnitude at bin [i] when the bins c - d, ..., c + mw - 1 around every peak c found so far are cleared. *)
Definition remaining (l : list R) (mw d : Z) (cs : list nat) (i : nat) : R :=
  if existsb (fun c => (Z.of_nat c - d <=? Z.of_nat i) && (Z.of_nat i <? Z.of_nat c + mw))%Z cs then 0 else Rabs (nth i l 0).
Lemma remaining_left l mw d cs i : (1 <= mw)%Z -> (0 <= d)%Z -> (forall c, In c cs -> (c < length l)%nat) -> (i < length l)%nat -> left l mw d cs i = remaining l mw d cs i.
Proof.
  intros Hm Hd Hc Hi. unfold left, remaining. replace (existsb (fun c => cleared (length l) mw d c i) cs) with (existsb (fun c => (Z.of_nat c - d <=? Z.of_nat i) && (Z.of_nat i <? Z.of_nat c + mw))%Z cs); [reflexivity|].
  induction cs as [|c cs IH]; [reflexivity|]. cbn [existsb]. rewrite IH by (intros; apply Hc; now right). f_equal. specialize (Hc c (or_introl eq_refl)).
  apply eq_true_iff_eq. unfold cleared, clip. rewrite !andb_true_iff, !Z.ltb_lt, !Z.leb_le. lia.
Qed.
Lemma in_firstn {X} (x : X) k : forall l, In x (firstn k l) -> In x l.
Proof. induction k; intros [|y l] H; cbn in *; try contradiction. destruct H; auto. Qed.
Lemma peaks_lt l mw d cs : peaks_of l mw d cs -> forall c, In c cs -> (c < length l)%nat.
Proof. intros P c Hc. destruct (In_nth _ _ 0%nat Hc) as (k & Hk & <-). apply P. exact Hk. Qed.

Lemma distance l mw d cs k j : (j < k < length cs)%nat -> remaining l mw d (firstn k cs) (nth k cs 0%nat) <> 0 ->
  (Z.of_nat (nth k cs 0%nat) < Z.of_nat (nth j cs 0%nat) - d \/ Z.of_nat (nth j cs 0%nat) + mw <= Z.of_nat (nth k cs 0%nat))%Z.
Proof.
  intros Hj Hn. unfold remaining in Hn. destruct (existsb _ (firstn k cs)) eqn:E; [congruence|]. clear Hn.
  assert (Hin : In (nth j cs 0%nat) (firstn k cs)).
  { rewrite <- (firstn_skipn k cs) at 1. rewrite app_nth1 by (rewrite firstn_length; lia). apply nth_In. rewrite firstn_length. lia. }
  destruct (Z.leb_spec (Z.of_nat (nth j cs 0%nat) - d) (Z.of_nat (nth k cs 0%nat))); [|left; lia]. right.
  destruct (Z.ltb_spec (Z.of_nat (nth k cs 0%nat)) (Z.of_nat (nth j cs 0%nat) + mw)); [|lia]. exfalso. apply Bool.not_true_iff_false in E. apply E. apply existsb_exists.
  exists (nth j cs 0%nat). split; [exact Hin|]. rewrite andb_true_iff, Z.leb_le, Z.ltb_lt. lia.
Qed.

(** For a mask of at least two bins the result is the increasing list of the bins c - h, ..., c + h - 1 (h = mask_width // 2) within the spectrum around
    n peaks; each peak is the first bin of largest magnitude outside the cleared windows of those before it,
    so a peak with something left in it keeps min_peak_dist to the left and mask_width to the right of all peaks found before it. *)
Theorem C60_mask : forall l n mw dist, l <> [] -> (2 <= mw)%Z -> let d := match dist with None => (mw / 2)%Z | Some d => d end in (0 <= d)%Z ->
  exists cs r, find_n_sinusoidals l n mw dist = Ok r /\ length cs = n /\ StronglySorted Z.lt r /\
    (forall z, In z r <-> exists c, In c cs /\ Z.max 0 (Z.of_nat c - mw / 2) <= z <= Z.min (Z.of_nat (length l) - 1) (Z.of_nat c + mw / 2 - 1))%Z /\
    (forall k, (k < n)%nat -> first_max (remaining l mw d (firstn k cs)) (length l) (nth k cs 0%nat)) /\
    (forall j k, (j < k < n)%nat -> remaining l mw d (firstn k cs) (nth k cs 0%nat) <> 0 ->
      (Z.of_nat (nth k cs 0%nat) < Z.of_nat (nth j cs 0%nat) - d \/ Z.of_nat (nth j cs 0%nat) + mw <= Z.of_nat (nth k cs 0%nat))%Z).
Proof.
  intros l n mw dist Hl Hm d Hd. destruct (find_n_spec l n mw dist Hl) as (cs & r & E & L & P & S & I). fold d in P. exists cs, r.
  pose proof (peaks_lt _ _ _ _ P) as Hc. assert (Hh : (1 <= mw / 2)%Z) by (apply Z.div_le_lower_bound; lia).
  split; [exact E|]. split; [exact L|]. split; [exact S|]. split.
  - intro z. rewrite I. split; intros (c & H1 & H2); exists c; (split; [exact H1|]); specialize (Hc c H1); unfold window, clip in *; lia.
  - split; [|intros j k Hjk; apply distance; lia]. intros k Hk. destruct (P k ltac:(lia)) as (P1 & P2 & P3).
    assert (G : forall i, (i < length l)%nat -> left l mw d (firstn k cs) i = remaining l mw d (firstn k cs) i) by (intros; apply remaining_left; try lia; intros; apply Hc; eapply in_firstn; eauto).
    split; [exact P1|]. split; intros i Hi; rewrite <- !G by lia; [now apply P2|now apply P3].
Qed.
Print Assumptions C60_mask.

Lemma sorted_eq : forall a b, StronglySorted Z.lt a -> StronglySorted Z.lt b -> (forall z, In z a <-> In z b) -> a = b.
Proof.
  induction a as [|x a IH]; intros [|y b] Ha Hb H; [reflexivity|exfalso; apply (proj2 (H y)); now left|exfalso; apply (proj1 (H x)); now left|].
  apply StronglySorted_inv in Ha, Hb. destruct Ha as [A1 A2], Hb as [B1 B2]. rewrite Forall_forall in A2, B2.
  assert (x = y). { destruct (proj1 (H x) (or_introl eq_refl)) as [E|E]; [now symmetry|]. destruct (proj2 (H y) (or_introl eq_refl)) as [E'|E']; [exact E'|]. specialize (A2 _ E'). specialize (B2 _ E). lia. }
  subst y. f_equal. apply IH; [exact A1|exact B1|]. intro z. split; intro Hz.
  - destruct (proj1 (H z) (or_intror Hz)) as [<-|E]; [specialize (A2 _ Hz); lia|exact E].
  - destruct (proj2 (H z) (or_intror Hz)) as [<-|E]; [specialize (B2 _ Hz); lia|exact E].
Qed.
Lemma natseq_sorted k : forall s, StronglySorted Z.lt (map Z.of_nat (seq s k)).
Proof.
  induction k as [|k IH]; intro s; cbn [seq map]; constructor; [apply IH|].
  rewrite Forall_forall. intros z Hz. apply in_map_iff in Hz. destruct Hz as (j & <- & Hj). apply in_seq in Hj. lia.
Qed.
(** A single search gives the contiguous window around the first bin of largest magnitude... *)
Theorem C60_one : forall l mw, l <> [] -> (2 <= mw)%Z -> exists c, first_max (fun i => Rabs (nth i l 0)) (length l) c /\
  find_sinusoidal l mw = Ok (map Z.of_nat (seq (c - Z.to_nat (mw / 2)) (Nat.min (length l) (c + Z.to_nat (mw / 2)) - (c - Z.to_nat (mw / 2))))).
Proof.
  intros l mw Hl Hm. assert (Hh : (1 <= mw / 2)%Z) by (apply Z.div_le_lower_bound; lia).
  destruct (C60_mask l 1 mw None Hl Hm ltac:(lia)) as (cs & r & E & L & S & I & P & _). destruct cs as [|c [|? ?]]; try discriminate. exists c.
  specialize (P 0%nat ltac:(lia)). cbn [firstn nth] in P. split; [exact P|]. unfold find_sinusoidal. rewrite E. f_equal.
  destruct P as (Pc & _). apply sorted_eq; [exact S| |].
  - apply natseq_sorted.
  - intro z. rewrite I, in_map_iff. split.
    + intros (c' & [->|[]] & Hz). exists (Z.to_nat z). rewrite in_seq. lia.
    + intros (j & <- & Hj). apply in_seq in Hj. exists c. split; [now left|]. lia.
Qed.
Print Assumptions C60_one.

(** Every call on a nonempty spectrum succeeds, the indices are increasing and lie in the spectrum; a mask of at most one bin gives no index at all;
    an empty spectrum is a ValueError, which find_sinusoidal lets through. *)
Theorem C60_total : forall l n mw dist, (l <> [] -> exists r, find_n_sinusoidals l n mw dist = Ok r /\ StronglySorted Z.lt r /\ (forall z, In z r -> (0 <= z < Z.of_nat (length l))%Z) /\ ((mw <= 1)%Z -> r = [])) /\
  find_n_sinusoidals [] (S n) mw dist = Exn ValueError /\ find_sinusoidal [] mw = Exn ValueError.
Proof.
  intros l n mw dist. split; [|split; reflexivity]. intro Hl. destruct (find_n_spec l n mw dist Hl) as (cs & r & E & L & P & S & I). exists r.
  split; [exact E|]. split; [exact S|]. split.
  - intros z Hz. apply I in Hz. destruct Hz as (c & _ & _ & Hw). assert (0 < length l)%nat by (destruct l; [congruence|cbn; lia]). unfold clip in Hw. lia.
  - intro Hm. destruct r as [|z r]; [reflexivity|]. exfalso. destruct (proj1 (I z) (or_introl eq_refl)) as (c & _ & Hw & _).
    assert (mw / 2 <= 0)%Z by (apply Z.lt_succ_r, Z.div_lt_upper_bound; lia). lia.
Qed.
Print Assumptions C60_total.

(** The mask need not contain the peak. *)
Theorem C60_peak_refuted : exists l mw c, (1 <= mw)%Z /\ first_max (fun i => Rabs (nth i l 0)) (length l) c /\ exists r, find_sinusoidal l mw = Ok r /\ ~ In (Z.of_nat c) r.
Proof.
  exists [1], 1%Z, 0%nat. split; [lia|]. split; [split; [cbn; lia|split; intros i Hi; [|lia]]|].
  - cbn in Hi. replace i with 0%nat by lia. lra.
  - destruct (proj1 (C60_total [1] 1 1 None) ltac:(discriminate)) as (r & E & _ & _ & H). exists r. unfold find_sinusoidal. rewrite E. split; [reflexivity|]. rewrite H by lia. intros [].
Qed.
Print Assumptions C60_peak_refuted.

(** Two peaks whose distance is at least min_peak_dist are not always considered separate: to the right of a peak mask_width bins are cleared. *)
Theorem C60_dist_refuted : exists l mw d r, (2 <= mw)%Z /\ (0 < d)%Z /\ find_n_sinusoidals l 2 mw (Some d) = Ok r /\
  (forall i, (i < length l)%nat -> Rabs (nth i l 0) > 0 -> i = 0%nat \/ i = 2%nat) /\ 0 < Rabs (nth 2 l 0) < Rabs (nth 0 l 0) /\ (d <= 2 - 0)%Z /\ ~ In 2%Z r.
Proof.
  exists [3; 0; 2; 0; 0; 0], 4%Z, 2%Z, [0; 1]%Z. split; [lia|]. split; [lia|].
  assert (A3 : Rabs 3 = 3) by (apply Rabs_right; lra). assert (A2 : Rabs 2 = 2) by (apply Rabs_right; lra).
  split.
  - unfold find_n_sinusoidals, find_loop. cbn [length map argmax argmax_from]. rewrite A3, A2, !Rabs_R0.
    repeat (rewrite Rlt_bool_false by lra). cbn [bind].
    change (zero_at _ [3; 0; 2; 0; 0; 0]) with [0; 0; 0; 0; 0; 0]. cbn [map argmax argmax_from]. rewrite !Rabs_R0. repeat (rewrite Rlt_bool_false by lra). reflexivity.
  - split; [|cbn; rewrite A3, A2; repeat split; try lra; try lia; intros [H|[H|[]]]; discriminate].
    intros i Hi. cbn in Hi. destruct i as [|[|[|[|[|[|i]]]]]]; cbn; try lia; rewrite ?Rabs_R0; intro; try lra; auto.
Qed.
Print Assumptions C60_dist_refuted.

Example C60_one_ex : find_sinusoidal [0; 1; 5; 2; 0] 2 = Ok [1; 2]%Z.
Proof.
  unfold find_sinusoidal, find_n_sinusoidals, find_loop. cbn [length map argmax argmax_from]. rewrite !Rabs_R0, Rabs_R1. rewrite !(Rabs_right 5), !(Rabs_right 2) by lra.
  repeat match goal with |- context [Rlt_bool ?a ?b] => first [rewrite (Rlt_bool_true a b) by lra|rewrite (Rlt_bool_false a b) by lra] end. reflexivity.
Qed.
Example C60_mask_ex : [0; 1; 5; 2; 0] <> [] /\ (2 <= 2)%Z. Proof. split; [discriminate|lia]. Qed.
Example C60_distance_ex : first_max (remaining [5; 0; 0; 4] 2 1 (firstn 1 [0; 3]%nat)) 4 3%nat /\ remaining [5; 0; 0; 4] 2 1 (firstn 1 [0; 3]%nat) 3 <> 0.
Proof.
  unfold first_max. assert (A : Rabs 4 = 4) by (apply Rabs_right; lra). split; [split; [lia|split; intros i Hi]|].
  - destruct i as [|[|[|[|i]]]]; try lia; unfold remaining; cbn; rewrite ?A, ?Rabs_R0; lra.
  - destruct i as [|[|[|i]]]; try lia; unfold remaining; cbn; rewrite ?A, ?Rabs_R0; lra.
  - unfold remaining; cbn. rewrite A. lra.
Qed.

(** *** C73 *)
(** the power in the bins of a mask; negative indices count from the end *)
Definition power (l : list R) (mask : list Z) : R := fold_right (fun z s => nth (Z.to_nat (z mod Z.of_nat (length l))) l 0 + s) 0 mask.
Definition in_mask (l : list R) (mask : list Z) : Prop := forall z, In z mask -> (- Z.of_nat (length l) <= z < Z.of_nat (length l))%Z.
Lemma take1_ok l z : (- Z.of_nat (length l) <= z < Z.of_nat (length l))%Z -> take1 l z = Ok (nth (Z.to_nat (z mod Z.of_nat (length l))) l 0).
Proof.
  intro H. unfold take1. set (n := Z.of_nat (length l)) in *. assert (E : (if Z.ltb z 0 then z + n else z)%Z = (z mod n)%Z).
  { destruct (Z.ltb_spec z 0); [apply (Z.mod_unique z n (-1)); lia|symmetry; apply Z.mod_small; lia]. }
  rewrite E. pose proof (Z.mod_pos_bound z n ltac:(lia)) as B. destruct (Z.ltb_spec (z mod n) 0); [lia|]. rewrite (nth_error_nth' l 0); [reflexivity|]. unfold n in *. lia.
Qed.
Lemma take1_bad l z : ~ (- Z.of_nat (length l) <= z < Z.of_nat (length l))%Z -> take1 l z = Exn IndexError.
Proof.
  intro H. unfold take1. destruct (Z.ltb_spec z 0).
  - destruct (Z.ltb_spec (z + Z.of_nat (length l)) 0); [reflexivity|lia].
  - destruct (Z.ltb_spec z 0); [lia|]. rewrite (proj2 (nth_error_None l _)); [reflexivity|lia].
Qed.
Lemma masked_sum_ok l mask : in_mask l mask -> masked_sum l mask = Ok (power l mask).
Proof.
  unfold masked_sum, power. induction mask as [|z m IH]; intro H; [reflexivity|]. cbn [fold_right]. rewrite IH by (intros y Hy; apply H; now right). cbn [bind]. rewrite take1_ok by (apply H; now left). reflexivity.
Qed.
Lemma take1_cases l z : (exists v, take1 l z = Ok v) \/ take1 l z = Exn IndexError.
Proof. destruct (Z_lt_le_dec z (- Z.of_nat (length l))); [right; apply take1_bad; lia|]. destruct (Z_lt_le_dec z (Z.of_nat (length l))); [left; rewrite take1_ok by lia; eauto|right; apply take1_bad; lia]. Qed.
Lemma masked_cases l mask : (exists v, masked_sum l mask = Ok v) \/ masked_sum l mask = Exn IndexError.
Proof.
  unfold masked_sum. induction mask as [|z m IH]; cbn [fold_right]; [left; eexists; reflexivity|]. destruct IH as [[v ->]| ->]; [|now right]. cbn [bind].
  destruct (take1_cases l z) as [[w ->]| ->]; [left; eexists; reflexivity|now right].
Qed.
Lemma masked_sum_bad l mask : ~ in_mask l mask -> masked_sum l mask = Exn IndexError.
Proof.
  induction mask as [|z m IH]; intro H; [exfalso; apply H; intros y []|].
  change (masked_sum l (z :: m)) with (bind (masked_sum l m) (fun r => bind (take1 l z) (fun v => Ok (v + r)))).
  destruct (masked_cases l m) as [[v E]|E]; [|now rewrite E]. rewrite E. cbn [bind]. rewrite take1_bad; [reflexivity|]. intro Hz. rewrite IH in E; [discriminate|].
  intro Hm. apply H. intros y [<-|Hy]; [exact Hz|now apply Hm].
Qed.

(** The ratio is that of the powers in the two masks, infinite when there is no noise power; an index outside the spectrum is an IndexError. *)
Theorem C73_snr : forall l sm nm, (in_mask l sm -> in_mask l nm -> (power l nm > 0 -> snr_spectrum l sm nm = Ok (Some (power l sm / power l nm))) /\ (power l nm <= 0 -> snr_spectrum l sm nm = Ok None)) /\
  (~ in_mask l sm \/ ~ in_mask l nm -> snr_spectrum l sm nm = Exn IndexError).
Proof.
  intros l sm nm. unfold snr_spectrum. split.
  - intros Hs Hn. rewrite (masked_sum_ok l nm Hn), (masked_sum_ok l sm Hs). cbn [bind]. split; intro H; [rewrite Rlt_bool_true by lra|rewrite Rlt_bool_false by lra]; reflexivity.
  - intros H. destruct H as [H|H].
    + rewrite (masked_sum_bad l sm H). destruct (masked_cases l nm) as [[v ->]| ->]; reflexivity.
    + rewrite (masked_sum_bad l nm H). reflexivity.
Qed.
Print Assumptions C73_snr.

Lemma power_scale k l mask : power (map (fun v => k * v) l) mask = k * power l mask.
Proof.
  unfold power. rewrite map_length. induction mask as [|z m IH]; cbn [fold_right]; [ring|]. rewrite IH. replace 0 with (k * 0) at 1 by ring. rewrite (map_nth (fun v => k * v)). ring.
Qed.
Lemma power_perm l a b : Permutation a b -> power l a = power l b.
Proof. unfold power. induction 1; cbn [fold_right]; [reflexivity|now rewrite IHPermutation|ring|congruence]. Qed.
(** It does not depend on the unit of the spectrum nor on the order of the masks. *)
Theorem C73_invariant : forall l sm nm sm' nm' k, in_mask l sm -> in_mask l nm -> k > 0 -> Permutation sm sm' -> Permutation nm nm' ->
  snr_spectrum (map (fun v => k * v) l) sm' nm' = snr_spectrum l sm nm.
Proof.
  intros l sm nm sm' nm' k Hs Hn Hk Ps Pn.
  assert (Hs' : in_mask (map (fun v => k * v) l) sm') by (intros z Hz; rewrite map_length; apply Hs; eapply Permutation_in; [apply Permutation_sym; exact Ps|exact Hz]).
  assert (Hn' : in_mask (map (fun v => k * v) l) nm') by (intros z Hz; rewrite map_length; apply Hn; eapply Permutation_in; [apply Permutation_sym; exact Pn|exact Hz]).
  destruct (C73_snr l sm nm) as [A _], (C73_snr (map (fun v => k * v) l) sm' nm') as [A' _]. destruct (A Hs Hn) as [A1 A2], (A' Hs' Hn') as [A1' A2']. rewrite (power_scale k l nm'), (power_scale k l sm') in A1'. rewrite (power_scale k l nm') in A2'.
  rewrite <- (power_perm l _ _ Ps), <- (power_perm l _ _ Pn) in A1'. rewrite <- (power_perm l _ _ Pn) in A2'. destruct (Rlt_le_dec 0 (power l nm)) as [H|H].
  - rewrite A1 by lra. rewrite A1' by (apply Rmult_lt_0_compat; lra). do 2 f_equal. field. lra.
  - rewrite A2, A2' by nra. reflexivity.
Qed.
Print Assumptions C73_invariant.

(** The extended figures: with signal and noise present they exist and are tied together. *)
Theorem C73_extended : forall window l sm nm hm fs, in_mask l sm -> in_mask l nm -> let h := match hm with None => [0%Z] | Some h => h end in in_mask l h -> l <> [] ->
  power l sm > 0 -> power l nm > 0 -> power l h >= 0 -> fs >= 0 -> fold_right Rplus 0 (window (length l)) <> 0 -> window (length l) <> [] ->
  exists i, snr_extended window l sm nm hm fs = Ok i /\ snr_spectrum l sm nm = Ok (Some (i_snr i)) /\
    i_sinad i = 1 + power l sm / (power l nm + power l h) /\ 0 <= i_thd i <= i_thd_n i /\
    i_thd i * i_thd i = power l h / power l sm /\ i_thd_n i * i_thd_n i = i_thd i * i_thd i + / i_snr i /\ (i_sinad i - 1) * (i_thd_n i * i_thd_n i) = 1 /\
    i_noise_rms i * i_noise_rms i = power l nm * fs / INR (length l) /\ (i_signal_rms i * i_signal_rms i) * (i_CG i * i_CG i) = power l sm * i_NG i * fs / INR (length l).
Proof.
  intros window l sm nm hm fs Hs Hn h Hh Hl Ps Pn Ph Hf Hw Hwn.
  assert (HN : 0 < INR (length l)) by (apply lt_0_INR; destruct l; [congruence|cbn; lia]).
  assert (HCG : rmean (window (length l)) <> 0). { unfold rmean. apply Rmult_integral_contrapositive_currified; [exact Hw|]. apply Rinv_neq_0_compat, not_0_INR. destruct (window (length l)); [congruence|cbn; lia]. }
  set (CG := rmean (window (length l))) in *. set (NG := fold_right (fun v s => v * v + s) 0 (window (length l)) / INR (length l)) in *.
  assert (HNG : 0 <= NG). { unfold NG. apply Rmult_le_pos; [|left; now apply Rinv_0_lt_compat]. clear. induction (window (length l)); cbn; nra. }
  assert (HC2 : 0 < CG * CG) by (pose proof (Rle_0_sqr CG) as Q; unfold Rsqr in Q; pose proof (Rmult_integral_contrapositive_currified CG CG HCG HCG); lra).
  assert (Hfb : 0 <= fs / INR (length l)) by (apply Rmult_le_pos; [lra|left; now apply Rinv_0_lt_compat]).
  assert (I1 : 0 <= power l h / power l sm) by (apply Rmult_le_pos; [lra|left; apply Rinv_0_lt_compat; lra]).
  assert (I2 : 0 <= (power l h + power l nm) / power l sm) by (apply Rmult_le_pos; [lra|left; apply Rinv_0_lt_compat; lra]).
  assert (I3 : 0 <= power l sm * NG * (fs / INR (length l)) / (CG * CG)) by (apply Rmult_le_pos; [apply Rmult_le_pos; [apply Rmult_le_pos; lra|exact Hfb]|left; now apply Rinv_0_lt_compat]).
  assert (I4 : 0 <= power l nm * (fs / INR (length l))) by (apply Rmult_le_pos; lra).
  unfold snr_extended. fold h. rewrite (proj2 (Nat.eqb_neq (length l) 0)) by (destruct l; [congruence|discriminate]). fold CG NG.
  rewrite (masked_sum_ok l nm Hn), (masked_sum_ok l sm Hs), (masked_sum_ok l h Hh). cbn [bind]. unfold rdiv, rsqrt.
  repeat (rewrite Req_bool_false by lra; cbn [bind]). rewrite !Rlt_bool_false by assumption. cbn [bind].
  eexists. split; [reflexivity|]. cbn [i_snr i_sinad i_thd i_thd_n i_noise_rms i_signal_rms i_CG i_NG]. rewrite !sqrt_sqrt by assumption.
  split; [now apply (proj1 (C73_snr l sm nm))|]. split; [field; lra|]. split; [split; [apply sqrt_pos|]; apply sqrt_le_1; [exact I1|exact I2|]; unfold Rdiv; apply Rmult_le_compat_r; [left; apply Rinv_0_lt_compat; lra|lra]|].
  split; [reflexivity|]. split; [field; lra|]. split; [field; lra|]. split; [field; lra|]. field. split; lra.
Qed.
Print Assumptions C73_extended.

(** With the default harmonics mask the distortion is not zero for a spectrum without harmonics: it is the power at zero frequency. *)
Theorem C73_default_refuted : exists window l sm nm i, snr_extended window l sm nm None 1 = Ok i /\ in_mask l sm /\ in_mask l nm /\ power l sm > 0 /\
  (forall k, (0 < k < length l)%nat -> nth k l 0 <> 0 -> In (Z.of_nat k) sm \/ In (Z.of_nat k) nm) /\ i_thd i <> 0.
Proof.
  assert (M : forall z : Z, (0 <= z < 3)%Z -> in_mask [1; 1; 1] [z]) by (intros z Hz y [<-|[]]; cbn; lia).
  assert (P : forall z : Z, (0 <= z < 3)%Z -> power [1; 1; 1] [z] = 1). { intros z Hz. unfold power. cbn [fold_right length]. rewrite Z.mod_small by (cbn; lia). destruct (Z.to_nat z) as [|[|[|k]]] eqn:E; cbn; try lra; lia. }
  destruct (C73_extended (fun n => repeat 1 n) [1; 1; 1] [1%Z] [2%Z] None 1) as (i & E & _ & _ & _ & T & _); try (apply M; lia); try (rewrite P by lia; lra); try discriminate; try lra; [cbn; lra|].
  exists (fun n => repeat 1 n), [1; 1; 1], [1%Z], [2%Z], i. split; [exact E|]. split; [apply M; lia|]. split; [apply M; lia|]. split; [rewrite P by lia; lra|]. split.
  - intros k Hk _. cbn in Hk. destruct k as [|[|[|k]]]; try lia; cbn; auto.
  - rewrite !P in T by lia. intro Z0. rewrite Z0 in T. lra.
Qed.
Print Assumptions C73_default_refuted.

Example C73_snr_ex : in_mask [1; 6; 2; 1] [1%Z] /\ in_mask [1; 6; 2; 1] [2; -1]%Z /\ power [1; 6; 2; 1] [2; -1]%Z = 3 /\ snr_spectrum [1; 6; 2; 1] [1%Z] [2; -1]%Z = Ok (Some 2).
Proof.
  assert (A : in_mask [1; 6; 2; 1] [1%Z]) by (intros z [<-|[]]; cbn; lia). assert (B : in_mask [1; 6; 2; 1] [2; -1]%Z) by (intros z [<-|[<-|[]]]; cbn; lia).
  assert (P : power [1; 6; 2; 1] [2; -1]%Z = 3) by (change (2 + (1 + 0) = 3); lra). split; [exact A|]. split; [exact B|]. split; [exact P|].
  rewrite (proj1 (proj1 (C73_snr _ _ _) A B)) by (rewrite P; lra). rewrite P. change (power [1; 6; 2; 1] [1%Z]) with (6 + 0). do 2 f_equal. field.
Qed.
