(** Property theorems C124: what an estimator delivers from a stored control signal depends on how the reader ends.
    Specification vocabulary as in P_Estimators.v: [wiener], [window_est], [dsig], [zsig]. *)
From Coq Require Import List Lia Arith Bool ZArith.
From Verif Require Import Base LinAlg ByteCodec ByteCodecProofs Estimators BatchProofs BatchRun FirProofs EstProps UrlReader StoredRun P_Codec P_UrlReader P_Estimators.
Import ListNotations.

(** A source that ends in an exception [x] other than RuntimeError.  All complete batches are delivered, then [x] comes out of
    [__next__] exactly once, and from then on StopIteration. *)
Theorem C124_batch_other_exception : forall (K : cring) (c : @coef K) K1 K2 limit xs x n k,
  coef_wf c -> (1 <= K1)%nat -> Forall (fun v => length v = cM c) xs -> x <> RuntimeError -> (k < n)%nat -> (Z.of_nat (2 * n) <= limit)%Z ->
  let B := ((length xs - K2) / K1 * K1)%nat in
  nth_error (batch_results c K1 K2 limit (mkSrc xs (SrcGen x)) n) k =
  Some (if Nat.ltb k B then Ok (wiener c (dsig c xs) k (K1 + K2 - k mod K1)) else if Nat.eqb k B then Exn x else Exn StopIteration).
Proof.
  intros K c K1 K2 limit xs x n k Hwf HK1 Hxs Hx Hk Hl. cbv zeta. set (B := ((length xs - K2) / K1 * K1)%nat).
  assert (HC : forall q, (q < n)%nat ->
    ((q < B)%nat -> nth_error (batch_results c K1 K2 limit (mkSrc xs (SrcObj StopIteration)) n) q = Some (Ok (wiener c (dsig c xs) q (K1 + K2 - q mod K1))))
    /\ ((B <= q)%nat -> nth_error (batch_results c K1 K2 limit (mkSrc xs (SrcObj StopIteration)) n) q = Some (Exn StopIteration))).
  { intros q Hq. apply (C29_batch_end_of_stream K c K1 K2 limit xs (SrcObj StopIteration) n q Hwf HK1 Hxs Hq).
    - assert (q / K1 <= q)%nat by (apply Nat.div_le_upper_bound; nia). lia.
    - left. split; reflexivity. }
  unfold batch_results in *.
  rewrite (sim_run (b_next c K1 K2 limit) (fun i st st' => bR x st st' /\ (b_iter st <= Z.of_nat (2 * i))%Z) x n) with
    (i := 0%nat) (s' := b_init c K1 K2 (mkSrc xs (SrcObj StopIteration))) (J := B).
  - destruct (HC k Hk) as [H1 H2]. destruct (Nat.ltb_spec k B).
    + replace (Nat.eqb k B) with false by (symmetry; apply Nat.eqb_neq; lia). auto.
    + destruct (Nat.eqb k B); [reflexivity|]. auto.
  - intros i s s' Hi [HR Hit].
    destruct (next_sim x Hx c K1 K2 HK1 limit 2 s s' HR) as [(r & t & t' & E1 & E2 & E3 & E4 & E5)|(t & E1 & E2)]; [lia| |].
    + left. exists r, t, t'. repeat split; try assumption; try apply E4. lia.
    + right. exists t. split; assumption.
  - lia.
  - split; [|cbn [b_init b_iter]; lia]. repeat split. exists xs. split; reflexivity.
  - intros q Hq HB. destruct (HC q Hq) as [H1 _]. rewrite (H1 HB). discriminate.
  - intros q Hq HB. destruct (HC q Hq) as [_ H2]. exact (H2 HB).
  - exact Hk.
Qed.
Print Assumptions C124_batch_other_exception.

Theorem C124_fir_other_exception : forall (K : cring) (c : @coef K) K1 K2 ds offset limit xs x n k,
  coef_wf c -> (1 <= ds <= K1 + K2)%nat -> Forall (fun v => length v = cM c) xs -> x <> RuntimeError -> (k < n)%nat ->
  (limit = 0 \/ Z.of_nat (n * ds) <= limit)%Z ->
  nth_error (fir_results c K1 K2 ds offset limit (mkSrc xs (SrcGen x)) n) k =
  Some (if Nat.ltb k (length xs / ds) then Ok (vadd (window_est c (zsig (cM c) xs) K1 K2 (Z.of_nat ((k + 1) * ds) - Z.of_nat K2)) offset)
        else if Nat.eqb k (length xs / ds) then Exn x else Exn StopIteration).
Proof.
  intros K c K1 K2 ds offset limit xs x n k Hwf Hds Hxs Hx Hk Hl. set (B := (length xs / ds)%nat).
  assert (HBs : forall q, (q < B)%nat <-> ((q + 1) * ds <= length xs)%nat).
  { intros q. unfold B. assert (D := Nat.div_mod (length xs) ds ltac:(lia)). assert (U := Nat.mod_upper_bound (length xs) ds ltac:(lia)). split; intros H; nia. }
  assert (HL : forall q, (q < n)%nat -> (limit = 0 \/ Z.of_nat ((q + 1) * ds) <= limit)%Z).
  { intros q Hq. destruct Hl as [->|Hl]; [now left|right]. assert ((q + 1) * ds <= n * ds)%nat by (apply Nat.mul_le_mono_r; lia). lia. }
  assert (HG : forall q, (q < n)%nat -> (q < B)%nat ->
    nth_error (fir_results c K1 K2 ds offset limit (mkSrc xs (SrcObj StopIteration)) n) q =
    Some (Ok (vadd (window_est c (zsig (cM c) xs) K1 K2 (Z.of_nat ((q + 1) * ds) - Z.of_nat K2)) offset))).
  { intros q Hq HB. apply C23_fir_closed_form; auto. now apply HBs. }
  assert (HS : forall q, (q < n)%nat -> (B <= q)%nat ->
    nth_error (fir_results c K1 K2 ds offset limit (mkSrc xs (SrcObj StopIteration)) n) q = Some (Exn StopIteration)).
  { intros q Hq HB. unfold fir_results.
    destruct (fir_run (K1 + K2) (cM c) (cL c) ds (fir_h c K1 K2) offset limit xs (SrcObj StopIteration) Hds Hxs ltac:(auto) n q Hq) as [_ H].
    apply H. unfold fgood. rewrite <- (Nat.add_1_r q). intros [H1 _]. apply HBs in H1. lia. }
  unfold fir_results in *.
  rewrite (sim_run (f_next (K1 + K2) (cM c) (cL c) ds (fir_h c K1 K2) offset limit) (fR x ds) x n) with
    (i := 0%nat) (s' := f_init (K1 + K2) (cM c) (mkSrc xs (SrcObj StopIteration))) (J := B).
  - destruct (Nat.ltb_spec k B).
    + replace (Nat.eqb k B) with false by (symmetry; apply Nat.eqb_neq; lia). auto.
    + destruct (Nat.eqb k B); [reflexivity|]. auto.
  - intros i s s' Hi HR. exact (f_sim x Hx (K1 + K2) (cM c) (cL c) ds (fir_h c K1 K2) offset limit n i s s' Hl Hi HR).
  - lia.
  - repeat split. exists xs. split; reflexivity.
  - intros q Hq HB. rewrite (HG q Hq HB). discriminate.
  - intros q Hq HB. exact (HS q Hq HB).
  - exact Hk.
Qed.
Print Assumptions C124_fir_other_exception.

(** The IIR filter needs one sample per estimate and skips [ds - 1] in between, so it delivers the ceiling of [length xs / ds]. *)
Theorem C124_iir_other_exception : forall (K : cring) (c : @coef K) K2 ds limit xs x n k,
  coef_wf c -> (1 <= K2)%nat -> (1 <= ds)%nat -> Forall (fun v => length v = cM c) xs -> x <> RuntimeError -> (k < n)%nat ->
  (limit = 0 \/ Z.of_nat (n * (ds + 1)) <= limit)%Z ->
  let B := ((length xs + ds - 1) / ds)%nat in
  nth_error (iir_results c K2 ds limit (mkSrc xs (SrcGen x)) n) k =
  Some (if Nat.ltb k B then Ok (window_est c (zsig (cM c) xs) (k * ds) K2 (Z.of_nat (k * ds) + 1 - Z.of_nat K2))
        else if Nat.eqb k B then Exn x else Exn StopIteration).
Proof.
  intros K c K2 ds limit xs x n k Hwf HK2 Hds Hxs Hx Hk Hl. cbv zeta. set (B := ((length xs + ds - 1) / ds)%nat).
  assert (HBs : forall q, (q < B)%nat <-> (q * ds + 1 <= length xs)%nat).
  { intros q. unfold B. assert (D := Nat.div_mod (length xs + ds - 1) ds ltac:(lia)). assert (U := Nat.mod_upper_bound (length xs + ds - 1) ds ltac:(lia)). split; intros H; nia. }
  assert (HL : forall q, (q < n)%nat -> (limit = 0 \/ Z.of_nat (q * ds + 1) <= limit)%Z).
  { intros q Hq. destruct Hl as [->|Hl]; [now left|right]. assert (q * ds + 1 <= n * (ds + 1))%nat by nia. lia. }
  assert (HG : forall q, (q < n)%nat -> (q < B)%nat ->
    nth_error (iir_results c K2 ds limit (mkSrc xs (SrcObj StopIteration)) n) q =
    Some (Ok (window_est c (zsig (cM c) xs) (q * ds) K2 (Z.of_nat (q * ds) + 1 - Z.of_nat K2)))).
  { intros q Hq HB. apply C24_iir_closed_form; auto. now apply HBs. }
  assert (HS : forall q, (q < n)%nat -> (B <= q)%nat ->
    nth_error (iir_results c K2 ds limit (mkSrc xs (SrcObj StopIteration)) n) q = Some (Exn StopIteration)).
  { intros q Hq HB. unfold iir_results.
    destruct (iir_run c K2 ds HK2 Hds limit xs Hxs (SrcObj StopIteration) ltac:(auto) n q Hq) as [_ H].
    apply H. unfold can_read. rewrite <- (Nat.add_1_r (q * ds)). intros [H1 _]. apply HBs in H1. lia. }
  unfold iir_results in *.
  rewrite (sim_run (i_next c K2 ds limit) (fun i st st' => iR x st st' /\ (i_iter st <= Z.of_nat (i * (ds + 1)))%Z) x n) with
    (i := 0%nat) (s' := i_init c K2 (mkSrc xs (SrcObj StopIteration))) (J := B).
  - destruct (Nat.ltb_spec k B).
    + replace (Nat.eqb k B) with false by (symmetry; apply Nat.eqb_neq; lia). auto.
    + destruct (Nat.eqb k B); [reflexivity|]. auto.
  - intros i s s' Hi [HR Hit].
    destruct (i_sim x Hx c K2 ds Hds limit (S ds) s s' HR) as [(r & t & t' & E1 & E2 & E3 & E4 & E5)|(t & E1 & E2)].
    + destruct Hl as [->|Hl]; [now left|right]. assert (S i * (ds + 1) <= n * (ds + 1))%nat by (apply Nat.mul_le_mono_r; lia). cbn [Nat.mul] in *. lia.
    + left. exists r, t, t'. repeat split; try assumption; try apply E4. cbn [Nat.mul] in *. lia.
    + right. exists t. split; assumption.
  - lia.
  - split; [|cbn [i_init i_iter]; lia]. repeat split. exists xs. split; reflexivity.
  - intros q Hq HB. rewrite (HG q Hq HB). discriminate.
  - intros q Hq HB. exact (HS q Hq HB).
  - exact Hk.
Qed.
Print Assumptions C124_iir_other_exception.

(** *** From a file *)
(** The samples an estimator sees: each stored entry became 1 (set) or 0. *)
Definition stored {K : cring} (inj : Z -> K) (ss : list (list Z)) : list (list K) := map (map inj) (map indicator ss).
Lemma stored_length K inj ss : length (@stored K inj ss) = length ss.
Proof. unfold stored. now rewrite !map_length. Qed.
Lemma stored_width K inj ss M : Forall (fun s => length s = M) ss -> Forall (fun v => length v = M) (@stored K inj ss).
Proof.
  intros H. unfold stored. rewrite map_map. apply Forall_map. eapply Forall_impl; [|exact H]. intros s <-. unfold indicator. now rewrite !map_length.
Qed.

(** The file written from [ss], read back, decoded and handed to a batch estimator or FIR filter: the complete batches (windows)
    of the stored samples, then struct.error instead of a normal end. *)
Theorem C124_batch_from_file : forall (K : cring) (inj : Z -> K) (c : @coef K) K1 K2 limit ss ws n k,
  coef_wf c -> (1 <= K1)%nat -> (cM c <= 128)%nat -> Forall (fun s => length s = cM c) ss ->
  Forall2 (fun s w => encode (cM c) s = Ok w) ss ws -> (k < n)%nat -> (Z.of_nat (2 * n) <= limit)%Z ->
  let file := fst (write_byte_stream_to_file (control_signal_2_byte_stream (mkStream ss EndStop) (cM c))) in
  let B := ((length ss - K2) / K1 * K1)%nat in
  nth_error (batch_results c K1 K2 limit (generator_source inj (byte_stream_2_control_signal (read_byte_stream_from_file [file] (cM c)) (cM c))) n) k =
  Some (if Nat.ltb k B then Ok (wiener c (dsig c (stored inj ss)) k (K1 + K2 - k mod K1))
        else if Nat.eqb k B then Exn StructError else Exn StopIteration).
Proof.
  intros K inj c K1 K2 limit ss ws n k Hwf HK1 HM Hss Hws Hk Hl. cbv zeta. destruct (C03_file_round_trip (cM c) ss ws HM Hss Hws) as [_ E]. rewrite E.
  unfold generator_source. cbn [items sending]. fold (stored inj ss).
  rewrite (C124_batch_other_exception K c K1 K2 limit (stored inj ss) StructError n k Hwf HK1 (stored_width K inj ss _ Hss) ltac:(discriminate) Hk Hl).
  now rewrite stored_length.
Qed.
Print Assumptions C124_batch_from_file.

Theorem C124_fir_from_file : forall (K : cring) (inj : Z -> K) (c : @coef K) K1 K2 ds offset ss ws n k,
  coef_wf c -> (1 <= ds <= K1 + K2)%nat -> (cM c <= 128)%nat -> Forall (fun s => length s = cM c) ss ->
  Forall2 (fun s w => encode (cM c) s = Ok w) ss ws -> (k < n)%nat ->
  let file := fst (write_byte_stream_to_file (control_signal_2_byte_stream (mkStream ss EndStop) (cM c))) in
  nth_error (fir_results c K1 K2 ds offset 0 (generator_source inj (byte_stream_2_control_signal (read_byte_stream_from_file [file] (cM c)) (cM c))) n) k =
  Some (if Nat.ltb k (length ss / ds) then Ok (vadd (window_est c (zsig (cM c) (stored inj ss)) K1 K2 (Z.of_nat ((k + 1) * ds) - Z.of_nat K2)) offset)
        else if Nat.eqb k (length ss / ds) then Exn StructError else Exn StopIteration).
Proof.
  intros K inj c K1 K2 ds offset ss ws n k Hwf Hds HM Hss Hws Hk. cbv zeta. destruct (C03_file_round_trip (cM c) ss ws HM Hss Hws) as [_ E]. rewrite E.
  unfold generator_source. cbn [items sending]. fold (stored inj ss).
  rewrite (C124_fir_other_exception K c K1 K2 ds offset 0 (stored inj ss) StructError n k Hwf Hds (stored_width K inj ss _ Hss) ltac:(discriminate) Hk ltac:(auto)).
  now rewrite stored_length.
Qed.
Print Assumptions C124_fir_from_file.

Theorem C124_iir_from_file : forall (K : cring) (inj : Z -> K) (c : @coef K) K2 ds ss ws n k,
  coef_wf c -> (1 <= K2)%nat -> (1 <= ds)%nat -> (cM c <= 128)%nat -> Forall (fun s => length s = cM c) ss ->
  Forall2 (fun s w => encode (cM c) s = Ok w) ss ws -> (k < n)%nat ->
  let file := fst (write_byte_stream_to_file (control_signal_2_byte_stream (mkStream ss EndStop) (cM c))) in
  let B := ((length ss + ds - 1) / ds)%nat in
  nth_error (iir_results c K2 ds 0 (generator_source inj (byte_stream_2_control_signal (read_byte_stream_from_file [file] (cM c)) (cM c))) n) k =
  Some (if Nat.ltb k B then Ok (window_est c (zsig (cM c) (stored inj ss)) (k * ds) K2 (Z.of_nat (k * ds) + 1 - Z.of_nat K2))
        else if Nat.eqb k B then Exn StructError else Exn StopIteration).
Proof.
  intros K inj c K2 ds ss ws n k Hwf HK2 Hds HM Hss Hws Hk. cbv zeta. destruct (C03_file_round_trip (cM c) ss ws HM Hss Hws) as [_ E]. rewrite E.
  unfold generator_source. cbn [items sending]. fold (stored inj ss).
  rewrite (C124_iir_other_exception K c K2 ds 0 (stored inj ss) StructError n k Hwf HK2 Hds (stored_width K inj ss _ Hss) ltac:(discriminate) Hk ltac:(auto)).
  now rewrite stored_length.
Qed.
Print Assumptions C124_iir_from_file.

(** With a limit not above the number of stored samples a FIR filter ends normally: the struct.error is never met. *)
Theorem C124_fir_file_with_limit : forall (K : cring) (inj : Z -> K) (c : @coef K) K1 K2 ds offset limit ss ws n k,
  coef_wf c -> (1 <= ds <= K1 + K2)%nat -> (cM c <= 128)%nat -> Forall (fun s => length s = cM c) ss ->
  Forall2 (fun s w => encode (cM c) s = Ok w) ss ws -> (k < n)%nat -> (0 < limit <= Z.of_nat (length ss))%Z ->
  let file := fst (write_byte_stream_to_file (control_signal_2_byte_stream (mkStream ss EndStop) (cM c))) in
  nth_error (fir_results c K1 K2 ds offset limit (generator_source inj (byte_stream_2_control_signal (read_byte_stream_from_file [file] (cM c)) (cM c))) n) k =
  Some (if (Z.of_nat ((k + 1) * ds) <=? limit)%Z then Ok (vadd (window_est c (zsig (cM c) (stored inj ss)) K1 K2 (Z.of_nat ((k + 1) * ds) - Z.of_nat K2)) offset)
        else Exn StopIteration).
Proof.
  intros K inj c K1 K2 ds offset limit ss ws n k Hwf Hds HM Hss Hws Hk Hl. cbv zeta. destruct (C03_file_round_trip (cM c) ss ws HM Hss Hws) as [_ E]. rewrite E.
  unfold generator_source. cbn [items sending]. fold (stored inj ss). assert (HW := stored_width K inj ss _ Hss). assert (HT := stored_length K inj ss).
  unfold fir_results.
  rewrite (same_run (f_next (K1 + K2) (cM c) (cL c) ds (fir_h c K1 K2) offset limit) (fR' StructError limit)) with
    (s' := f_init (K1 + K2) (cM c) (mkSrc (stored inj ss) (SrcObj StopIteration))).
  - fold (fir_results c K1 K2 ds offset limit (mkSrc (stored inj ss) (SrcObj StopIteration)) n). destruct (Z.leb_spec (Z.of_nat ((k + 1) * ds)) limit).
    + apply C23_fir_closed_form; auto. lia.
    + unfold fir_results. destruct (fir_run (K1 + K2) (cM c) (cL c) ds (fir_h c K1 K2) offset limit (stored inj ss) (SrcObj StopIteration) Hds HW ltac:(auto) n k Hk) as [_ HB].
      apply HB. unfold fgood. rewrite <- (Nat.add_1_r k). intros [_ [H1|H1]]; lia.
  - intros s s' HR. exact (f_same StructError (K1 + K2) (cM c) (cL c) ds (fir_h c K1 K2) offset limit s s' ltac:(lia) HR).
  - split; [exists (stored inj ss); split; reflexivity|]. split; [reflexivity|]. cbn [f_init f_iter f_src s_items]. lia.
Qed.
Print Assumptions C124_fir_file_with_limit.

Lemma served_width M (served : list (Z * list (list (list Z)))) (bodies : list (Z * list (list (list Z)))) :
  Forall2 (fun s b => fst b = fst s /\ Forall2 (fun ss ws => Forall2 (fun y w => length y = M /\ encode M y = Ok w) ss ws) (snd s) (snd b)) served bodies ->
  Forall (fun s => length s = M) (concat (concat (map snd served))).
Proof.
  intros H. induction H as [|s b sv bb [_ Hp] H IH]; cbn [map concat]; [constructor|]. rewrite concat_app. apply Forall_app. split; [|exact IH]. clear - Hp.
  induction Hp as [|y w ys wss Hq Hp IH]; cbn [concat]; [constructor|]. apply Forall_app. split; [|exact IH]. clear - Hq. induction Hq as [|a w l ws [Hl _] Hq IH]; constructor; assumption.
Qed.
(** *** From urls: a generator ending in RuntimeError.  One padding sample (all entries 0) is taken before the end is noticed. *)
Theorem C124_batch_from_urls : forall (K : cring) (inj : Z -> K) (c : @coef K) K1 K2 limit served bodies n k,
  coef_wf c -> (1 <= K1)%nat -> (cM c <= 128)%nat ->
  Forall2 (fun s b => fst b = fst s /\ Forall2 (fun ss ws => Forall2 (fun y w => length y = cM c /\ encode (cM c) y = Ok w) ss ws) (snd s) (snd b)) served bodies ->
  (k < n)%nat -> (Z.of_nat (2 * n) <= limit)%Z ->
  let ss := concat (concat (map snd served)) in
  let B := ((length ss + 1 - K2) / K1 * K1)%nat in
  nth_error (batch_results c K1 K2 limit (generator_source inj (byte_stream_2_control_signal
    (read_byte_stream_from_url (map (fun b => Ok (mkResp (fst b) (map (@concat Z) (snd b)) None)) bodies) (cM c)) (cM c))) n) k =
  Some (if Nat.ltb k B then Ok (wiener c (dsig c (stored inj ss)) k (K1 + K2 - k mod K1)) else Exn StopIteration).
Proof.
  intros K inj c K1 K2 limit served bodies n k Hwf HK1 HM H Hk Hl. cbv zeta. rewrite (C121_round_trip (cM c) served bodies HM H).
  assert (Hss := served_width (cM c) served bodies H). set (ss := concat (concat (map snd served))) in *.
  unfold generator_source. cbn [items sending]. fold (stored inj ss). assert (HT := stored_length K inj ss).
  destruct (C29_batch_end_of_stream K c K1 K2 limit (stored inj ss) (SrcGen RuntimeError) n k Hwf HK1 (stored_width K inj ss _ Hss) Hk) with
    (batches := ((length (stored inj ss) + 1 - K2) / K1)%nat) as [H1 H2].
  - assert (k / K1 <= k)%nat by (apply Nat.div_le_upper_bound; nia). lia.
  - right. left. split; reflexivity.
  - rewrite HT in H1, H2. destruct (Nat.ltb_spec k ((length ss + 1 - K2) / K1 * K1)); auto.
Qed.
Print Assumptions C124_batch_from_urls.

(** FIR and IIR filter end normally too; they take no padding sample. *)
Theorem C124_fir_iir_from_urls : forall (K : cring) (inj : Z -> K) (c : @coef K) K1 K2 ds offset served bodies n k,
  coef_wf c -> (1 <= ds <= K1 + K2)%nat -> (1 <= K2)%nat -> (cM c <= 128)%nat ->
  Forall2 (fun s b => fst b = fst s /\ Forall2 (fun ss ws => Forall2 (fun y w => length y = cM c /\ encode (cM c) y = Ok w) ss ws) (snd s) (snd b)) served bodies ->
  (k < n)%nat ->
  let ss := concat (concat (map snd served)) in
  let src := generator_source inj (byte_stream_2_control_signal (read_byte_stream_from_url (map (fun b => Ok (mkResp (fst b) (map (@concat Z) (snd b)) None)) bodies) (cM c)) (cM c)) in
  nth_error (fir_results c K1 K2 ds offset 0 src n) k =
    Some (if Nat.leb ((k + 1) * ds) (length ss) then Ok (vadd (window_est c (zsig (cM c) (stored inj ss)) K1 K2 (Z.of_nat ((k + 1) * ds) - Z.of_nat K2)) offset) else Exn StopIteration) /\
  nth_error (iir_results c K2 ds 0 src n) k =
    Some (if Nat.ltb (k * ds) (length ss) then Ok (window_est c (zsig (cM c) (stored inj ss)) (k * ds) K2 (Z.of_nat (k * ds) + 1 - Z.of_nat K2)) else Exn StopIteration).
Proof.
  intros K inj c K1 K2 ds offset served bodies n k Hwf Hds HK2 HM H Hk. cbv zeta. rewrite (C121_round_trip (cM c) served bodies HM H).
  assert (Hss := served_width (cM c) served bodies H). set (ss := concat (concat (map snd served))) in *.
  unfold generator_source. cbn [items sending]. fold (stored inj ss). assert (HT := stored_length K inj ss). assert (HW := stored_width K inj ss _ Hss). split.
  - destruct (Nat.leb_spec ((k + 1) * ds) (length ss)).
    + apply C23_fir_closed_form; auto. lia.
    + unfold fir_results. destruct (fir_run (K1 + K2) (cM c) (cL c) ds (fir_h c K1 K2) offset 0 (stored inj ss) (SrcGen RuntimeError) Hds HW ltac:(auto) n k Hk) as [_ HB].
      apply HB. unfold fgood. rewrite <- (Nat.add_1_r k). intros [H1 _]. lia.
  - destruct (Nat.ltb_spec (k * ds) (length ss)).
    + apply C24_iir_closed_form; auto; lia.
    + unfold iir_results. destruct (iir_run c K2 ds HK2 ltac:(lia) 0 (stored inj ss) HW (SrcGen RuntimeError) ltac:(auto) n k Hk) as [_ HB].
      apply HB. unfold can_read. intros [H1 _]. lia.
Qed.
Print Assumptions C124_fir_iir_from_urls.

(** A loop over the estimates of a stored file does not end by itself: it is aborted by struct.error, and the same samples
    served from a url give more estimates. *)
Theorem C124_stored_loop_ends_refuted : exists (c : @coef Zring) K1 K2 limit ss ws n k,
  coef_wf c /\ (1 <= K1)%nat /\ Forall2 (fun s w => encode (cM c) s = Ok w) ss ws /\
  let file := fst (write_byte_stream_to_file (control_signal_2_byte_stream (mkStream ss EndStop) (cM c))) in
  let from_file := batch_results c K1 K2 limit (generator_source (fun z => z : Zring) (byte_stream_2_control_signal (read_byte_stream_from_file [file] (cM c)) (cM c))) n in
  let from_url := batch_results c K1 K2 limit (generator_source (fun z => z : Zring) (byte_stream_2_control_signal (read_byte_stream_from_url [Ok (mkResp 200 [concat ws] None)] (cM c)) (cM c))) n in
  nth_error from_file k = Some (Exn StructError) /\ exists u, nth_error from_url k = Some (Ok u).
Proof.
  exists exc, 3%nat, 2%nat, 100%Z, [[1];[0];[0];[1];[1];[0];[1]]%Z, [[1];[0];[0];[1];[1];[0];[1]]%Z, 5%nat, 3%nat.
  split; [exact exc_wf|]. split; [lia|]. split; [repeat constructor|]. cbv zeta. split; [vm_compute; reflexivity|]. eexists. vm_compute. reflexivity.
Qed.
Print Assumptions C124_stored_loop_ends_refuted.

(** Hypotheses are met; the numbers of estimates differ with the way the same seven samples were stored. *)
Example C124_ex :
  let ss := [[1];[0];[0];[1];[1];[0];[1]]%Z in
  let file := fst (write_byte_stream_to_file (control_signal_2_byte_stream (mkStream ss EndStop) 1)) in
  let src := generator_source (fun z => z : Zring) (byte_stream_2_control_signal (read_byte_stream_from_file [file] 1) 1) in
  src = mkSrc exs (SrcGen StructError)
  /\ map is_ok (batch_results exc 3 2 100 src 7) = [true;true;true;false;false;false;false]
  /\ fir_results exc 2 2 2 [10]%Z 0 src 5 = [Ok [9]%Z; Ok [5]%Z; Ok [15]%Z; Exn StructError; Exn StopIteration]
  /\ map is_ok (fir_results exc 2 2 2 [10]%Z 6 src 5) = [true;true;true;false;false]
  /\ nth_error (fir_results exc 2 2 2 [10]%Z 6 src 5) 3 = Some (Exn StopIteration)
  /\ map is_ok (iir_results exc 2 2 0 src 6) = [true;true;true;true;false;false]
  /\ nth_error (iir_results exc 2 2 0 src 6) 4 = Some (Exn StructError).
Proof. vm_compute. repeat split; reflexivity. Qed.
Example C124_ex_urls : Forall2 (fun s b : Z * list (list (list Z)) => fst b = fst s /\ Forall2 (fun ss ws => Forall2 (fun y w => length y = cM exc /\ encode (cM exc) y = Ok w) ss ws) (snd s) (snd b))
    [(200, [[[1];[0];[0]]; [[1];[1]]]); (404, [[[0];[1]]])]%Z [(200, [[[1];[0];[0]]; [[1];[1]]]); (404, [[[0];[1]]])]%Z
  /\ concat (concat (map snd [(200, [[[1];[0];[0]]; [[1];[1]]]); (404, [[[0];[1]]])]))%Z = exs.
Proof. split; [repeat constructor|reflexivity]. Qed.
