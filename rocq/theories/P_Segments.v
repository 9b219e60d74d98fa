(** Property theorems C126: estimators at a reduced rate, on a part of a recording, and on complemented control signals.
    Models: Estimators.v.  [window_est], [zsig], [fir_results], [iir_results] as in P_Estimators.v. *)
From Coq Require Import List Lia Arith Bool ZArith Ring.
From Verif Require Import Base LinAlg Estimators BatchProofs BatchRun FirProofs EstProps P_Estimators.
Import ListNotations.

Definition stop {K : cring} (xs : list (list K)) : @source K := mkSrc xs (SrcObj StopIteration).

(** *** Downsampling *)
(** Estimate [k] of a FIR filter that is downsampled by [ds] is estimate [(k + 1) ds - 1] of the same filter at full rate. *)
Theorem C126_fir_downsample : forall (K : cring) (c : @coef K) K1 K2 ds offset xs n m k,
  coef_wf c -> (1 <= ds <= K1 + K2)%nat -> Forall (fun x => length x = cM c) xs ->
  (k < n)%nat -> ((k + 1) * ds <= length xs)%nat -> ((k + 1) * ds <= m)%nat ->
  exists r, nth_error (fir_results c K1 K2 ds offset 0 (stop xs) n) k = Some (Ok r)
    /\ nth_error (fir_results c K1 K2 1 offset 0 (stop xs) m) ((k + 1) * ds - 1) = Some (Ok r).
Proof.
  intros K c K1 K2 ds offset xs n m k Hwf Hds Hxs Hk HT Hm. assert (1 <= (k + 1) * ds)%nat by nia. eexists. split.
  - apply C23_fir_closed_form; auto.
  - unfold stop. rewrite (C23_fir_closed_form K c K1 K2 1 offset 0 xs (SrcObj StopIteration) m ((k + 1) * ds - 1)); auto; try lia.
    do 5 f_equal. lia.
Qed.
Print Assumptions C126_fir_downsample.

(** Estimate [k] of a downsampled IIR filter is estimate [k ds] at full rate: the first sample of each group, not the last. *)
Theorem C126_iir_downsample : forall (K : cring) (c : @coef K) K2 ds xs n m k,
  coef_wf c -> (1 <= K2)%nat -> (1 <= ds)%nat -> Forall (fun x => length x = cM c) xs ->
  (k < n)%nat -> (k * ds < length xs)%nat -> (k * ds < m)%nat ->
  exists r, nth_error (iir_results c K2 ds 0 (stop xs) n) k = Some (Ok r)
    /\ nth_error (iir_results c K2 1 0 (stop xs) m) (k * ds) = Some (Ok r).
Proof.
  intros K c K2 ds xs n m k Hwf HK2 Hds Hxs Hk HT Hm. eexists. split.
  - apply C24_iir_closed_form; auto. lia.
  - unfold stop. rewrite (C24_iir_closed_form K c K2 1 0 xs (SrcObj StopIteration) m (k * ds)); auto; try lia. now rewrite Nat.mul_1_r.
Qed.
Print Assumptions C126_iir_downsample.

(** naive: within the look-back of the FIR filter, FIR and IIR filter with the same downsampling agree (they do for ds = 1, C24) *)
Theorem C126_same_instant_refuted : exists (c : @coef Zring) K1 K2 ds xs k f i, coef_wf c /\ (1 <= ds <= K1 + K2)%nat /\ ((k + 1) * ds <= length xs)%nat /\ (k * ds < K1 + K2)%nat /\
  nth_error (fir_results c K1 K2 ds (vzero (cL c)) 0 (stop xs) 5) k = Some (Ok f) /\ nth_error (iir_results c K2 ds 0 (stop xs) 5) k = Some (Ok i) /\ f <> i.
Proof.
  exists exc, 4%nat, 2%nat, 2%nat, exs, 0%nat. do 2 eexists. split; [exact exc_wf|]. split; [lia|]. split; [cbn; lia|]. split; [lia|].
  split; [vm_compute; reflexivity|]. split; [vm_compute; reflexivity|]. discriminate.
Qed.
Print Assumptions C126_same_instant_refuted.

(** *** Parts of a recording *)
Lemma zsig_app (K : cring) M (pre seg : list (list K)) p : (0 <= p)%Z -> zsig M (pre ++ seg) (Z.of_nat (length pre) + p) = zsig M seg p.
Proof.
  intros Hp. unfold zsig. destruct (Z.ltb_spec (Z.of_nat (length pre) + p) 0); [lia|]. destruct (Z.ltb_spec p 0); [lia|].
  rewrite map_app, app_nth2 by (rewrite map_length; lia). f_equal. rewrite map_length. lia.
Qed.
(** A FIR filter that is started in the middle of a recording (after [length pre] samples, a multiple of [ds]) gives the estimates of the whole recording as
    soon as its window is full, that is once K1 + K2 samples were read. *)
Theorem C126_fir_segment : forall (K : cring) (c : @coef K) K1 K2 ds offset pre seg n m j k,
  coef_wf c -> (1 <= ds <= K1 + K2)%nat -> Forall (fun x => length x = cM c) (pre ++ seg) -> length pre = (j * ds)%nat ->
  (k < n)%nat -> (j + k < m)%nat -> ((k + 1) * ds <= length seg)%nat -> (K1 + K2 <= (k + 1) * ds)%nat ->
  exists r, nth_error (fir_results c K1 K2 ds offset 0 (stop seg) n) k = Some (Ok r)
    /\ nth_error (fir_results c K1 K2 ds offset 0 (stop (pre ++ seg)) m) (j + k) = Some (Ok r).
Proof.
  intros K c K1 K2 ds offset pre seg n m j k Hwf Hds Hxs Hj Hk Hm HT HW. eexists. split.
  - apply C23_fir_closed_form; auto. now apply Forall_app in Hxs.
  - unfold stop. rewrite (C23_fir_closed_form K c K1 K2 ds offset 0 (pre ++ seg) (SrcObj StopIteration) m (j + k)); auto.
    2:{ rewrite app_length, Hj. nia. }
    assert (ET : (Z.of_nat ((j + k + 1) * ds) = Z.of_nat (length pre) + Z.of_nat ((k + 1) * ds))%Z) by (rewrite Hj; nia).
    do 3 f_equal. unfold window_est. do 2 f_equal.
    + apply vsum_ext. intros i Hi. do 2 f_equal. rewrite ET. rewrite <- (zsig_app K (cM c) pre seg) by lia. f_equal. lia.
    + apply vsum_ext. intros i Hi. do 2 f_equal. rewrite ET. rewrite <- (zsig_app K (cM c) pre seg) by lia. f_equal. lia.
Qed.
Print Assumptions C126_fir_segment.
(** naive: the same for the IIR filter (it remembers the whole recording), and for a FIR filter whose window is not full *)
Theorem C126_iir_segment_refuted : exists (c : @coef Zring) K2 pre seg k r r', coef_wf c /\ (1 <= K2)%nat /\ (K2 <= k + 1)%nat /\
  nth_error (iir_results c K2 1 0 (stop seg) 9) k = Some (Ok r) /\ nth_error (iir_results c K2 1 0 (stop (pre ++ seg)) 9) (length pre + k) = Some (Ok r') /\ r <> r'.
Proof.
  exists exc, 2%nat, (firstn 3 exs), (skipn 3 exs), 3%nat. do 2 eexists. split; [exact exc_wf|]. split; [lia|]. split; [lia|].
  split; [vm_compute; reflexivity|]. split; [vm_compute; reflexivity|]. discriminate.
Qed.
Print Assumptions C126_iir_segment_refuted.
Theorem C126_short_segment_refuted : exists (c : @coef Zring) K1 K2 offset pre seg k r r', coef_wf c /\ (k + 2 = K1 + K2)%nat /\
  nth_error (fir_results c K1 K2 1 offset 0 (stop seg) 9) k = Some (Ok r) /\ nth_error (fir_results c K1 K2 1 offset 0 (stop (pre ++ seg)) 9) (length pre + k) = Some (Ok r') /\ r <> r'.
Proof.
  exists exc, 2%nat, 2%nat, [0]%Z, (firstn 3 exs), (skipn 3 exs), 2%nat. do 2 eexists. split; [exact exc_wf|]. split; [lia|].
  split; [vm_compute; reflexivity|]. split; [vm_compute; reflexivity|]. discriminate.
Qed.
Print Assumptions C126_short_segment_refuted.

(** *** Complemented control signals *)
Section Complement.
Context {K : cring}.
Add Ring Kring : (rth K).
Definition complement (xs : list (list K)) : list (list K) := map (map (fun x => rsub K (r1 K) x)) xs.

Lemma pm1_complement (x : list K) : pm1 (map (fun x => rsub K (r1 K) x) x) = vopp (pm1 x).
Proof. unfold pm1, vopp. rewrite !map_map. apply map_ext. intros a. ring. Qed.
Lemma zsig_complement M xs p : zsig M (complement xs) p = vopp (zsig M xs p).
Proof.
  rewrite !zsig_pm1. destruct (p <? 0)%Z; [now rewrite vopp_vzero|]. unfold complement. rewrite map_map. rewrite <- (vopp_vzero (K := K) M) at 1. rewrite <- (map_nth vopp).
  f_equal. rewrite map_map. apply map_ext. intros x. apply pm1_complement.
Qed.
Lemma mpow_vopp (A : list (list K)) i v : mpow A i (vopp v) = vopp (mpow A i v).
Proof. induction i as [|i IH]; [reflexivity|]. cbn [mpow]. now rewrite IH, mv_vopp. Qed.
Lemma vsum_vopp N n f g : (forall i, f i = vopp (g i)) -> vsum N n f = vopp (vsum (K := K) N n g).
Proof. intros H. induction n as [|n IH]; cbn [vsum]; [now rewrite vopp_vzero|]. now rewrite IH, H, vopp_vadd. Qed.
Lemma window_complement (c : @coef K) xs n m t : window_est c (zsig (cM c) (complement xs)) n m t = vopp (window_est c (zsig (cM c) xs) n m t).
Proof.
  unfold window_est. rewrite <- mv_vopp. f_equal.
  rewrite (vsum_vopp _ _ (fun i => mpow (cAb c) i (mv (cBb c) (zsig (cM c) (complement xs) (t + Z.of_nat i)%Z))) (fun i => mpow (cAb c) i (mv (cBb c) (zsig (cM c) xs (t + Z.of_nat i)%Z)))) by (intros i; now rewrite zsig_complement, mv_vopp, mpow_vopp).
  rewrite (vsum_vopp _ _ (fun i => mpow (cAf c) i (mv (cBf c) (zsig (cM c) (complement xs) (t - 1 - Z.of_nat i)%Z))) (fun i => mpow (cAf c) i (mv (cBf c) (zsig (cM c) xs (t - 1 - Z.of_nat i)%Z)))) by (intros i; now rewrite zsig_complement, mv_vopp, mpow_vopp).
  now rewrite !vsub_vadd, vopp_vadd.
Qed.
Lemma complement_width M xs : Forall (fun x => length x = M) xs -> Forall (fun x => length x = M) (complement xs).
Proof. intros H. unfold complement. apply Forall_map. eapply Forall_impl; [|exact H]. intros x <-. apply map_length. Qed.
End Complement.

(** Exchanging 0 and 1 in all control signals (swapped comparator outputs) negates every estimate, from the first one on, apart from the offset. *)
Theorem C126_complement_fir : forall (K : cring) (c : @coef K) K1 K2 ds offset xs n k,
  coef_wf c -> (1 <= ds <= K1 + K2)%nat -> Forall (fun x => length x = cM c) xs -> (k < n)%nat -> ((k + 1) * ds <= length xs)%nat ->
  exists r, nth_error (fir_results c K1 K2 ds offset 0 (stop xs) n) k = Some (Ok (vadd r offset))
    /\ nth_error (fir_results c K1 K2 ds offset 0 (stop (complement xs)) n) k = Some (Ok (vadd (vopp r) offset)).
Proof.
  intros K c K1 K2 ds offset xs n k Hwf Hds Hxs Hk HT. eexists. split.
  - apply C23_fir_closed_form; auto.
  - unfold stop. rewrite (C23_fir_closed_form K c K1 K2 ds offset 0 (complement xs) (SrcObj StopIteration) n k); auto; [now rewrite window_complement|now apply complement_width|].
    unfold complement. now rewrite map_length.
Qed.
Print Assumptions C126_complement_fir.
Theorem C126_complement_iir : forall (K : cring) (c : @coef K) K2 ds xs n k,
  coef_wf c -> (1 <= K2)%nat -> (1 <= ds)%nat -> Forall (fun x => length x = cM c) xs -> (k < n)%nat -> (k * ds < length xs)%nat ->
  exists r, nth_error (iir_results c K2 ds 0 (stop xs) n) k = Some (Ok r) /\ nth_error (iir_results c K2 ds 0 (stop (complement xs)) n) k = Some (Ok (vopp r)).
Proof.
  intros K c K2 ds xs n k Hwf HK2 Hds Hxs Hk HT. eexists. split.
  - apply C24_iir_closed_form; auto. lia.
  - unfold stop. rewrite (C24_iir_closed_form K c K2 ds 0 (complement xs) (SrcObj StopIteration) n k); auto; [now rewrite window_complement|now apply complement_width|].
    unfold complement. rewrite map_length. lia.
Qed.
Print Assumptions C126_complement_iir.
(** BatchEstimator: all complete batches. *)
Theorem C126_complement_batch : forall (K : cring) (c : @coef K) K1 K2 limit xs n k,
  coef_wf c -> (1 <= K1)%nat -> Forall (fun x => length x = cM c) xs -> (k < n)%nat -> (Z.of_nat (k + 1 + k / K1) <= limit)%Z ->
  (k < (length xs - K2) / K1 * K1)%nat ->
  exists r, nth_error (batch_results c K1 K2 limit (stop xs) n) k = Some (Ok r) /\ nth_error (batch_results c K1 K2 limit (stop (complement xs)) n) k = Some (Ok (vopp r)).
Proof.
  intros K c K1 K2 limit xs n k Hwf HK1 Hxs Hk Hl HB.
  assert (CL : length (complement xs) = length xs) by (unfold complement; apply map_length).
  destruct (C29_batch_end_of_stream K c K1 K2 limit xs (SrcObj StopIteration) n k Hwf HK1 Hxs Hk Hl _ (or_introl (conj eq_refl eq_refl))) as [H1 _].
  destruct (C29_batch_end_of_stream K c K1 K2 limit (complement xs) (SrcObj StopIteration) n k Hwf HK1 (complement_width _ _ Hxs) Hk Hl _ (or_introl (conj eq_refl eq_refl))) as [H2 _].
  rewrite CL in H2. specialize (H1 HB). specialize (H2 HB). eexists. split; [exact H1|]. unfold stop. rewrite H2. do 2 f_equal.
  assert (HE : (k + (K1 + K2 - k mod K1) <= length xs)%nat).
  { assert (D := Nat.div_mod k K1 ltac:(lia)). assert (U := Nat.mod_upper_bound k K1 ltac:(lia)).
    assert (k / K1 < (length xs - K2) / K1)%nat by (apply Nat.div_lt_upper_bound; [lia|]; rewrite Nat.mul_comm; exact HB).
    assert (M := Nat.mul_div_le (length xs - K2) K1 ltac:(lia)). nia. }
  assert (DS : forall q, (q < length xs)%nat -> dsig c (complement xs) q = vopp (dsig c xs q)).
  { intros q Hq. rewrite <- !zsig_dsig by lia. apply zsig_complement. }
  unfold wiener. rewrite <- mv_vopp. f_equal. unfold lookahead_sum, lookback_sum.
  assert (SV : forall N m f g, (forall i, (i < m)%nat -> f i = vopp (g i)) -> vsum N m f = vopp (vsum (K := K) N m g)).
  { intros N m f g H. rewrite (vsum_ext N m f (fun i => vopp (g i)) H). apply vsum_vopp. reflexivity. }
  rewrite (SV _ _ (fun i => mpow (cAb c) i (mv (cBb c) (dsig c (complement xs) (k + i)))) (fun i => mpow (cAb c) i (mv (cBb c) (dsig c xs (k + i))))) by (intros i Hi; rewrite DS by lia; now rewrite mv_vopp, mpow_vopp).
  rewrite (SV _ _ (fun i => mpow (cAf c) i (mv (cBf c) (dsig c (complement xs) (k - 1 - i)))) (fun i => mpow (cAf c) i (mv (cBf c) (dsig c xs (k - 1 - i))))) by (intros i Hi; rewrite DS by lia; now rewrite mv_vopp, mpow_vopp).
  now rewrite !vsub_vadd, vopp_vadd.
Qed.
Print Assumptions C126_complement_batch.
(** naive: with the offset included *)
Theorem C126_offset_refuted : exists (c : @coef Zring) K1 K2 offset xs k r r', coef_wf c /\
  nth_error (fir_results c K1 K2 1 offset 0 (stop xs) 5) k = Some (Ok r) /\ nth_error (fir_results c K1 K2 1 offset 0 (stop (complement xs)) 5) k = Some (Ok r') /\ r' <> vopp r.
Proof. exists exc, 2%nat, 2%nat, [10]%Z, exs, 0%nat. do 2 eexists. split; [exact exc_wf|]. split; [vm_compute; reflexivity|]. split; [vm_compute; reflexivity|]. discriminate. Qed.
Print Assumptions C126_offset_refuted.

Example C126_ex : fir_results exc 2 2 1 [10]%Z 0 (stop exs) 7 = [Ok [13]; Ok [9]; Ok [0]; Ok [5]; Ok [31]; Ok [15]; Ok [-5]]%Z
  /\ fir_results exc 2 2 2 [10]%Z 0 (stop exs) 3 = [Ok [9]; Ok [5]; Ok [15]]%Z
  /\ nth_error (fir_results exc 2 2 1 [10]%Z 0 (stop (skipn 3 exs)) 4) 3 = Some (Ok [-5]%Z)
  /\ fir_results exc 2 2 1 [10]%Z 0 (stop (complement exs)) 2 = [Ok [7]; Ok [11]]%Z.
Proof. vm_compute. repeat split; reflexivity. Qed.
