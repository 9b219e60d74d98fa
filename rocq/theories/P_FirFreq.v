(** Property theorems C112: the frequency response that FIRFilter.fir_filter_transfer_function reports, against the estimates the filter returns.
    Vocabulary: [shaped L M K3 h]: coefficients of shape (L, K3, M); [coefficient h l k m] = h[l, k, m]; [value xs t m]: decision m of sample t as +1 / -1
    (FirFreqProofs.v); [tone w c t]: the real part of c exp (i w t) (ToneResponse.v); [bin]: the bins above the middle are conjugates (FirFreqProofs.v). *)
From Coq Require Import List Arith Bool ZArith Reals Lra Lia.
From Flocq Require Import Core.
From Coquelicot Require Import Complex.
From Verif Require Import Base LinAlg Estimators BatchProofs BatchRun FirProofs FirExtras AnalogSystem AnalogProofs IntegratorsProofs LinearOde CplxLin SignalsMore SignalsMoreProofs
  EstimatorDecay FilterRun ToneResponse FirFreq FirFreqProofs.
Import ListNotations.
Open Scope R_scope.

(** response[l, q, m] *)
Definition resp (H : list (list (list C))) (l q m : nat) : C := nth m (nth q (nth l H []) []) (RtoC 0).
(** the discrete Fourier transform of n numbers *)
Definition dft (n : nat) (x : nat -> R) (q : nat) : C := csum n (fun k => RtoC (x k) * (cos (2 * PI * INR q * INR k / INR n), - sin (2 * PI * INR q * INR k / INR n))%R)%C.
(** the results of n calls of next() on a filter without downsampling *)
Definition outputs (L M K3 : nat) (h : list (list (list R))) (offset : list R) (limit : Z) (xs : list (list R)) (e : src_end) (n : nat) : list (result (list R)) :=
  fst (Estimators.calls (f_next (K := Rring) K3 M L 1 h offset limit) n (f_init (K := Rring) K3 M (mkSrc (K := Rring) xs e))).
Definition ends (e : src_end) : Prop := e = SrcObj StopIteration \/ e = SrcGen RuntimeError \/ e = SrcObj RuntimeError.

Lemma dft_rfft n x q : rfft_bin n x q = dft n x q.
Proof. apply csum_ext. intros k _. f_equal. unfold cis. now rewrite cos_neg, sin_neg. Qed.
Lemma nth_mk {X} (f : nat -> X) n k d : (k < n)%nat -> nth k (map f (seq 0 n)) d = f k.
Proof. intros H. rewrite (nth_indep _ d (f O)) by (rewrite map_length, seq_length; exact H). now rewrite (map_nth f), seq_nth. Qed.
Lemma response_eq L M K3 h Ts f H : fir_filter_transfer_function L M K3 h Ts = Ok (f, H) -> (1 <= K3)%nat /\ Ts <> 0 /\ f = map (fun q => INR q * (1 / (INR K3 * Ts))) (seq 0 (K3 / 2 + 1)) /\
  forall l q m, (l < L)%nat -> (q <= K3 / 2)%nat -> (m < M)%nat -> resp H l q m = rfft_bin K3 (fun k => coefficient h l k m) q.
Proof.
  unfold fir_filter_transfer_function, rfftfreq. destruct (Nat.eqb_spec K3 0) as [|HK]; [discriminate|]. destruct (Req_bool_spec (INR K3 * Ts) 0) as [|HT]; [discriminate|]. cbn [bind]. intros E. apply Ok_inj in E. injection E as <- <-.
  split; [lia|]. split; [intros ->; apply HT; ring|]. split; [reflexivity|]. intros l q m Hl Hq Hm. unfold resp. rewrite (nth_mk _ L l) by exact Hl. rewrite (nth_mk _ (K3 / 2 + 1) q) by lia. now rewrite (nth_mk _ M m).
Qed.

(** C112: the frequencies in Hz and the shape of the response; Ts = 0 is an error. *)
Theorem C112_bins : forall L M K3 h Ts, (1 <= K3)%nat ->
  (Ts = 0 -> fir_filter_transfer_function L M K3 h Ts = Exn ZeroDivisionError) /\
  (Ts <> 0 -> exists f H, fir_filter_transfer_function L M K3 h Ts = Ok (f, H) /\ length f = (K3 / 2 + 1)%nat /\
    (forall q, (q <= K3 / 2)%nat -> nth q f 0 = INR q / (INR K3 * Ts)) /\
    length H = L /\ Forall (fun r => length r = (K3 / 2 + 1)%nat /\ Forall (fun c => length c = M) r) H).
Proof.
  intros L M K3 h Ts HK. assert (N : INR K3 <> 0) by (apply not_0_INR; lia). unfold fir_filter_transfer_function, rfftfreq. destruct (Nat.eqb_spec K3 0) as [|_]; [lia|]. split.
  - intros ->. now rewrite Req_bool_true by ring.
  - intros HT. rewrite Req_bool_false by (now apply Rmult_integral_contrapositive_currified). cbn [bind]. do 2 eexists. split; [reflexivity|].
    split; [now rewrite map_length, seq_length|]. split; [intros q Hq; rewrite nth_mk by lia; field; split; assumption|]. split; [now rewrite map_length, seq_length|].
    apply Forall_forall. intros r Hr. apply in_map_iff in Hr. destruct Hr as (l & <- & _). split; [now rewrite map_length, seq_length|].
    apply Forall_forall. intros c Hc. apply in_map_iff in Hc. destruct Hc as (q & <- & _). now rewrite map_length, seq_length.
Qed.
Print Assumptions C112_bins.
Example C112_bins_ex : exists H, fir_filter_transfer_function 1 1 4 [[[1]]; [[2]]; [[3]]; [[4]]] (1 / 2) = Ok ([0 * (1 / (INR 4 * (1 / 2))); 1 * (1 / (INR 4 * (1 / 2))); INR 2 * (1 / (INR 4 * (1 / 2)))], H).
Proof. unfold fir_filter_transfer_function, rfftfreq. cbn [Nat.eqb]. rewrite Req_bool_false by (cbn; lra). eexists. reflexivity. Qed.
(** the documented shape (L, K3 // 2, M) is one bin short *)
Theorem C112_shape_refuted : exists L M K3 h Ts f H r, fir_filter_transfer_function L M K3 h Ts = Ok (f, H) /\ In r H /\ length r <> (K3 / 2)%nat.
Proof.
  exists 1%nat, 1%nat, 2%nat, [[[1]]; [[1]]], 1. unfold fir_filter_transfer_function, rfftfreq. cbn [Nat.eqb]. rewrite Req_bool_false by (cbn; lra). cbn [bind].
  do 3 eexists. split; [reflexivity|]. split; [now left|]. discriminate.
Qed.
Print Assumptions C112_shape_refuted.

(** C112: nothing is lost: the coefficients are the inverse transform of the reported response. *)
Theorem C112_inverse : forall L M K3 h Ts f H, fir_filter_transfer_function L M K3 h Ts = Ok (f, H) -> forall l k m, (l < L)%nat -> (k < K3)%nat -> (m < M)%nat ->
  RtoC (coefficient h l k m) = (RtoC (/ INR K3)%R * csum K3 (fun q => bin K3 (fun q => resp H l q m) q * (cos (2 * PI * INR q * INR k / INR K3), sin (2 * PI * INR q * INR k / INR K3))%R))%C.
Proof.
  intros L M K3 h Ts f H E l k m Hl Hk Hm. destruct (response_eq _ _ _ _ _ _ _ E) as (HK & HT & _ & R).
  assert (N : INR K3 <> 0) by (apply not_0_INR; lia).
  rewrite (csum_ext K3 _ (fun q => rfft_bin K3 (fun k => coefficient h l k m) q * cis (2 * PI * INR q * INR k / INR K3)%R)%C).
  - rewrite (inversion K3 (fun k => coefficient h l k m) k Hk), <- RtoC_mult. f_equal. field. exact N.
  - intros q Hq. rewrite (bin_full K3 (fun k => coefficient h l k m)); [reflexivity|exact Hq|]. intros q' Hq'. now apply R.
Qed.
Print Assumptions C112_inverse.

(** C112: sinusoidal control values at one of the reported frequencies come out with the conjugate of the reported response, relative to the oldest sample of
    the window. *)
Theorem C112_sinusoid : forall L M K3 h Ts f H offset limit xs e n j q c, fir_filter_transfer_function L M K3 h Ts = Ok (f, H) -> shaped L M K3 h -> length offset = L ->
  Forall (fun x => length x = M) xs -> ends e -> (j < n)%nat -> (K3 <= j + 1 <= length xs)%nat -> (limit = 0 \/ Z.of_nat (j + 1) <= limit)%Z -> (q <= K3 / 2)%nat ->
  (forall t m, (j + 1 - K3 <= t <= j)%nat -> (m < M)%nat -> value xs t m = tone (2 * PI * nth q f 0) (c m) (INR t * Ts)) ->
  exists v, nth_error (outputs L M K3 h offset limit xs e n) j = Some (Ok v) /\ length v = L /\
    forall l, (l < L)%nat -> nth l v 0 = tone (2 * PI * nth q f 0) (csum M (fun m => Cconj (resp H l q m) * c m)%C) (INR (j + 1 - K3) * Ts) + nth l offset 0.
Proof.
  intros L M K3 h Ts f H offset limit xs e n j q c E SH LO FX EE Hj HJ HL Hq Hz. destruct (response_eq _ _ _ _ _ _ _ E) as (HK & HT & Ef & R).
  destruct (fir_estimate L M K3 h offset limit xs e n j HK SH LO FX EE Hj HJ HL) as (v & Ev & Lv & Nv). exists v. split; [exact Ev|]. split; [exact Lv|]. intros l Hl. rewrite Nv by exact Hl. f_equal.
  assert (Eq : nth q f 0 = INR q * (1 / (INR K3 * Ts))) by (rewrite Ef; apply (nth_mk (fun q => INR q * (1 / (INR K3 * Ts)))); lia). rewrite Eq in *. rewrite tone_csum. apply rsum_ext. intros m Hm. rewrite R by assumption.
  rewrite <- tone_filter by assumption. apply rsum_ext. intros k Hk. f_equal. rewrite Hz by lia. f_equal. rewrite plus_INR. ring.
Qed.
Print Assumptions C112_sinusoid.

(** C112: control signals (any decisions) of period K3: over one period, the transform of the estimates is the conjugate response times the transform of the
    control values, plus the offset in bin 0. *)
Theorem C112_periodic : forall L M K3 h Ts f H offset limit xs e n a q, fir_filter_transfer_function L M K3 h Ts = Ok (f, H) -> shaped L M K3 h -> length offset = L ->
  Forall (fun x => length x = M) xs -> ends e -> (a + 2 * K3 - 2 < n)%nat -> (a + 2 * K3 - 1 <= length xs)%nat -> (limit = 0 \/ Z.of_nat (a + 2 * K3 - 1) <= limit)%Z -> (q <= K3 / 2)%nat -> (q < K3)%nat ->
  (forall t m, (a <= t)%nat -> (t + 1 < a + K3)%nat -> (m < M)%nat -> value xs (t + K3) m = value xs t m) ->
  exists v, (forall i, (i < K3)%nat -> nth_error (outputs L M K3 h offset limit xs e n) (a + K3 - 1 + i) = Some (Ok (v i)) /\ length (v i) = L) /\
    forall l, (l < L)%nat -> dft K3 (fun i => nth l (v i) 0) q =
      (csum M (fun m => Cconj (resp H l q m) * dft K3 (fun i => value xs (a + i) m) q) + (if Nat.eqb q 0 then RtoC (INR K3 * nth l offset 0)%R else RtoC 0))%C.
Proof.
  intros L M K3 h Ts f H offset limit xs e n a q E SH LO FX EE Hn Hx HL Hq Hq' HP. destruct (response_eq _ _ _ _ _ _ _ E) as (HK & HT & Ef & R).
  set (out := outputs L M K3 h offset limit xs e n).
  assert (ES : forall i, (i < K3)%nat -> exists v, nth_error out (a + K3 - 1 + i) = Some (Ok v) /\ length v = L /\
    forall l, (l < L)%nat -> nth l v 0 = rsum M (fun m => rsum K3 (fun k => coefficient h l k m * value xs (a + (i + k)) m)) + nth l offset 0).
  { intros i Hi. destruct (fir_estimate L M K3 h offset limit xs e n (a + K3 - 1 + i) HK SH LO FX EE ltac:(lia) ltac:(lia) ltac:(lia)) as (v & Ev & Lv & Nv). exists v. split; [exact Ev|]. split; [exact Lv|].
    intros l Hl. rewrite Nv by exact Hl. f_equal. apply rsum_ext. intros m Hm. apply rsum_ext. intros k Hk. do 2 f_equal. lia. }
  exists (fun i => match nth_error out (a + K3 - 1 + i) with Some (Ok v) => v | _ => [] end).
  split; [intros i Hi; destruct (ES i Hi) as (v & Ev & Lv & _); rewrite Ev; split; [reflexivity|exact Lv]|]. intros l Hl.
  rewrite <- !dft_rfft. rewrite <- (dft_const K3) by exact Hq'.
  rewrite (dft_ext K3 _ (fun i => rsum M (fun m => rsum K3 (fun k => coefficient h l k m * value xs (a + (i + k)) m)) + nth l offset 0)).
  2:{ intros i Hi. destruct (ES i Hi) as (v & Ev & _ & Nv). rewrite Ev. now apply Nv. }
  rewrite dft_add, dft_sum. f_equal. apply csum_ext. intros m Hm. rewrite R by assumption. rewrite <- dft_rfft.
  apply (periodic_filter K3 (fun k => coefficient h l k m) (fun t => value xs (a + t) m) q HK). intros t Ht. rewrite Nat.add_assoc. apply HP; lia.
Qed.
Print Assumptions C112_periodic.

(** decisions 1 0 0 1 1 0 0 1: the values are the sinusoid (1 + i) exp (i pi t / 2); the filter picks the second oldest sample of four *)
Definition pick : list (list (list R)) := [[[0]]; [[1]]; [[0]]; [[0]]].
Definition bits : list (list R) := [[1]; [0]; [0]; [1]; [1]; [0]; [0]; [1]].
Lemma pick_shaped : shaped 1 1 4 pick.
Proof. split; [reflexivity|]. repeat constructor. Qed.
Lemma bits_ok : Forall (fun x => length x = 1%nat) bits.
Proof. repeat constructor. Qed.
Lemma pick_ok : exists f H, fir_filter_transfer_function 1 1 4 pick 1 = Ok (f, H) /\ nth 1 f 0 = 1 / 4 /\ resp H 0 1 0 = (0, -1).
Proof.
  destruct (proj2 (C112_bins 1 1 4 pick 1 ltac:(lia)) ltac:(lra)) as (f & H & E & _ & F & _). exists f, H. split; [exact E|]. destruct (response_eq _ _ _ _ _ _ _ E) as (_ & _ & _ & R). split.
  - rewrite F by (cbn; lia). cbn. lra.
  - rewrite R by (cbn; lia). unfold rfft_bin, coefficient, pick, cis. cbn [csum nth INR].
    replace (2 * PI * 1 * 1 / (1 + 1 + 1 + 1)) with (PI / 2) by field. rewrite !cos_neg, !sin_neg, cos_PI2, sin_PI2. unfold RtoC, Cmult, Cplus. cbn [fst snd]. f_equal; ring.
Qed.
Lemma quarter t : cos (2 * PI * (1 / 4) * (t + 1)) = - sin (2 * PI * (1 / 4) * t) /\ sin (2 * PI * (1 / 4) * (t + 1)) = cos (2 * PI * (1 / 4) * t).
Proof.
  replace (2 * PI * (1 / 4) * (t + 1)) with (PI / 2 + 2 * PI * (1 / 4) * t) by field. split; [now rewrite cos_plus, cos_PI2, sin_PI2; ring_simplify|].
  rewrite sin_plus, cos_PI2, sin_PI2. ring.
Qed.
Lemma bits_tone t : (t < 8)%nat -> value bits t 0 = tone (2 * PI * (1 / 4)) (1, 1) (INR t * 1).
Proof.
  assert (V : forall t, (cos (2 * PI * (1 / 4) * INR (4 * t)) = 1 /\ sin (2 * PI * (1 / 4) * INR (4 * t)) = 0)).
  { intros k. replace (2 * PI * (1 / 4) * INR (4 * k)) with (0 + 2 * INR k * PI) by (rewrite mult_INR; cbn [INR]; field). now rewrite cos_period, sin_period, cos_0, sin_0. }
  intros H. rewrite Rmult_1_r. unfold tone. cbn [fst snd].
  destruct (V 0%nat) as [C0 S0]. destruct (V 1%nat) as [C4 S4]. cbn [Nat.mul Nat.add] in *.
  do 8 (destruct t as [|t]; [unfold value, bits; cbn [nth]; repeat (rewrite S_INR, (proj1 (quarter _)), (proj2 (quarter _))); rewrite ?C0, ?S0; cbn [INR]; rewrite ?Rmult_0_r, ?cos_0, ?sin_0; lra|]). lia.
Qed.
Example C112_sinusoid_ex : exists f H, fir_filter_transfer_function 1 1 4 pick 1 = Ok (f, H) /\
  exists v, nth_error (outputs 1 1 4 pick [0] 0 bits (SrcObj StopIteration) 8) 4 = Some (Ok v) /\ nth 0 v 0 = tone (2 * PI * (1 / 4)) (Cconj (0, -1) * (1, 1))%C 1 /\ nth 0 v 0 = -1.
Proof.
  destruct pick_ok as (f & H & E & F & R). exists f, H. split; [exact E|].
  destruct (C112_sinusoid 1 1 4 pick 1 f H [0] 0 bits (SrcObj StopIteration) 8 4 1 (fun _ => (1, 1)) E pick_shaped eq_refl bits_ok (or_introl eq_refl) ltac:(lia) ltac:(cbn; lia) (or_introl eq_refl) ltac:(cbn; lia)) as (v & Ev & _ & Nv).
  - intros t m Ht Hm. assert (m = 0)%nat as -> by lia. rewrite F. apply bits_tone. lia.
  - exists v. split; [exact Ev|]. specialize (Nv 0%nat ltac:(lia)). rewrite F in Nv. assert (Q : nth 0 v 0 = tone (2 * PI * (1 / 4)) (Cconj (0, -1) * (1, 1))%C 1).
    { rewrite Nv. cbn [csum nth]. rewrite R, Rplus_0_r. f_equal; [|cbn; ring]. unfold Cconj, Cmult, Cplus, RtoC. cbn [fst snd]. f_equal; ring. }
    split; [exact Q|]. rewrite Q. unfold tone, Cconj, Cmult. cbn [fst snd]. replace (2 * PI * (1 / 4) * 1) with (PI / 2) by field. rewrite cos_PI2, sin_PI2. lra.
Qed.
(** the response itself, instead of its conjugate, does not predict the estimates: at a quarter of the sampling rate it gets the sign wrong *)
Theorem C112_direction_refuted : exists L M K3 h Ts f H offset xs e n j q c v, fir_filter_transfer_function L M K3 h Ts = Ok (f, H) /\ shaped L M K3 h /\
  (K3 <= j + 1 <= length xs)%nat /\ (q <= K3 / 2)%nat /\ (forall t, (j + 1 - K3 <= t <= j)%nat -> value xs t 0 = tone (2 * PI * nth q f 0) c (INR t * Ts)) /\
  nth_error (outputs L M K3 h offset 0 xs e n) j = Some (Ok v) /\ nth 0 v 0 <> tone (2 * PI * nth q f 0) (resp H 0 q 0 * c)%C (INR (j + 1 - K3) * Ts) + nth 0 offset 0.
Proof.
  destruct pick_ok as (f & H & E & F & R). destruct C112_sinusoid_ex as (f' & H' & E' & v & Ev & _ & Q).
  exists 1%nat, 1%nat, 4%nat, pick, 1, f, H, [0], bits, (SrcObj StopIteration), 8%nat, 4%nat, 1%nat, (1, 1), v. split; [exact E|]. split; [exact pick_shaped|]. split; [cbn; lia|]. split; [cbn; lia|].
  split; [intros t Ht; rewrite F; apply bits_tone; lia|]. split; [exact Ev|]. rewrite Q, F, R. unfold tone, Cmult. cbn [fst snd nth]. replace (2 * PI * (1 / 4) * (INR (4 + 1 - 4) * 1)) with (PI / 2) by (cbn; field).
  rewrite cos_PI2, sin_PI2. lra.
Qed.
Print Assumptions C112_direction_refuted.
Example C112_periodic_ex : exists f H v, fir_filter_transfer_function 1 1 4 pick 1 = Ok (f, H) /\ nth_error (outputs 1 1 4 pick [0] 0 bits (SrcObj StopIteration) 8) 4 = Some (Ok (v 1%nat)) /\
  dft 4 (fun i => nth 0 (v i) 0) 1 = (Cconj (0, -1) * dft 4 (fun i => value bits i 0) 1)%C.
Proof.
  destruct pick_ok as (f & H & E & F & R).
  destruct (C112_periodic 1 1 4 pick 1 f H [0] 0 bits (SrcObj StopIteration) 8 0 1 E pick_shaped eq_refl bits_ok (or_introl eq_refl) ltac:(lia) ltac:(cbn; lia) (or_introl eq_refl) ltac:(cbn; lia) ltac:(lia)) as (v & Ev & Nv).
  - intros t m _ Ht Hm. assert (m = 0)%nat as -> by lia. do 3 (destruct t as [|t]; [reflexivity|]). lia.
  - exists f, H, v. split; [exact E|]. split; [exact (proj1 (Ev 1%nat ltac:(lia)))|]. rewrite (Nv 0%nat ltac:(lia)). cbn [csum Nat.eqb Nat.add]. rewrite R. ring.
Qed.
