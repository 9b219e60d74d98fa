(** Property theorems C01-C07: byte codec, byte-stream files, progress wrapper, csv reader.
    Specification vocabulary (defined in ByteCodecProofs.v, independent of the model's loops):
    [indicator s] = the 0/1 list of the positive entries; [overflows M s] = an entry at or above the sign bit of the chosen
    C type is positive; [binary s] = all entries 0 or 1; [split_spec w xs files] = [files] partitions [xs] in groups of [w]. *)
From Coq Require Import ZArith List Lia Bool Arith.
From Verif Require Import Base ByteCodec ByteCodecProofs.
Import ListNotations.
Open Scope Z_scope.

(** C01: any stream of length-[M] samples through encoder and decoder: the maximal prefix free of overflow is delivered as
    0/1 samples, and the stream then ends as the input did, or with struct.error at the first overflowing sample. *)
Theorem C01_stream_round_trip : forall M (st : stream (list Z)),
  (M <= 128)%nat -> Forall (fun s => length s = M) (items st) ->
  exists pre post, items st = pre ++ post /\ Forall (fun s => ~ overflows M s) pre /\
    byte_stream_2_control_signal (control_signal_2_byte_stream st M) M
    = mkStream (map indicator pre) (match post with [] => sending st | _ => EndExn StructError end)
    /\ (forall s r, post = s :: r -> overflows M s).
Proof. exact stream_round_trip. Qed.
Print Assumptions C01_stream_round_trip.
Example C01_ex1 : byte_stream_2_control_signal (control_signal_2_byte_stream (mkStream [[1;0;1];[0;-1;7]] EndStop) 3) 3
  = mkStream [[1;0;1];[0;0;1]] EndStop.
Proof. reflexivity. Qed.

Theorem C01_failure_domain : forall M s, length s = M ->
  ((M <= 128)%nat -> (encode M s = Exn StructError <-> overflows M s)
                     /\ (~ overflows M s -> exists w, encode M s = Ok w /\ decode M w = Ok (indicator s)))
  /\ ((128 < M)%nat -> encode M s = Exn GenericException /\ forall w, decode M w = Exn GenericException).
Proof.
  intros M s HL. split; [intros HM; split|].
  - now apply encode_exn_iff.
  - intros Hno. destruct (encode_cases M s HL HM) as [[w Hw]|Hx].
    + exists w. split; [assumption|]. eapply codec_round_trip; eauto.
    + exfalso. apply Hno. now apply encode_exn_iff.
  - apply encode_too_large.
Qed.
Print Assumptions C01_failure_domain.
Example C01_ex2 : overflows 16 (repeat 0 15 ++ [1]) /\ encode 16 (repeat 1 15 ++ [0]) = Ok [255; 127].
Proof. split; [left; split; [reflexivity|simpl; lia]|reflexivity]. Qed.

Theorem C01_short_sample : forall M s, (M <= 128)%nat -> (length s < M)%nat -> encode M s = Exn IndexError.
Proof. exact encode_short. Qed.
Print Assumptions C01_short_sample.

(** The advertised round trip for every M is false. *)
Theorem C01_round_trip_every_M_refuted :
  exists s16 s40 s100,
    length s16 = 16%nat /\ length s40 = 40%nat /\ length s100 = 100%nat /\ binary s16 /\ binary s40 /\ binary s100 /\
    encode 16 s16 = Exn StructError /\ encode 40 s40 = Exn StructError /\ encode 100 s100 = Exn StructError.
Proof.
  exists (repeat 1 16), (repeat 1 40), (repeat 1 100). unfold binary.
  repeat split; try (apply Forall_forall; intros x Hx; apply repeat_spec in Hx; auto).
Qed.
Print Assumptions C01_round_trip_every_M_refuted.

(** C02 *)
Theorem C02_word_shape : forall M s w, encode M s = Ok w ->
  exists f, number_of_bytes_selector M = Ok f /\ length w = nbytes f /\ Forall (fun b => 0 <= b < 256) w.
Proof. exact encode_word. Qed.
Print Assumptions C02_word_shape.

Theorem C02_injective : forall M s1 s2 w, length s1 = M -> length s2 = M -> binary s1 -> binary s2 ->
  encode M s1 = Ok w -> encode M s2 = Ok w -> s1 = s2.
Proof. exact encode_injective. Qed.
Print Assumptions C02_injective.
Example C02_ex : binary [1;0;1;1;0;0;0;0;1;0] /\ encode 10 [1;0;1;1;0;0;0;0;1;0] = Ok [13;1].
Proof. split; [repeat (constructor; [lia|]); constructor|reflexivity]. Qed.

Theorem C02_decode_shape : forall M w s, decode M w = Ok s -> length s = M /\ binary s.
Proof. exact decode_binary. Qed.
Print Assumptions C02_decode_shape.

Theorem C02_decode_then_encode : forall M f w s,
  number_of_bytes_selector M = Ok f -> length w = nbytes f -> Forall (fun b => 0 <= b < 256) w ->
  le_value w < 2 ^ Z.of_nat M -> (signed f = true -> le_value w < 2 ^ (bits f - 1)) ->
  decode M w = Ok s -> encode M s = Ok w.
Proof. exact decode_encode. Qed.
Print Assumptions C02_decode_then_encode.
Example C02_ex2 : le_value [13;1] < 2 ^ Z.of_nat 10 /\ decode 10 [13;1] = Ok [1;0;1;1;0;0;0;0;1;0].
Proof. split; [reflexivity|reflexivity]. Qed.

(** C03 *)
Theorem C03_file_round_trip : forall M ss ws, (M <= 128)%nat -> Forall (fun s => length s = M) ss ->
  Forall2 (fun s w => encode M s = Ok w) ss ws ->
  let file := fst (write_byte_stream_to_file (control_signal_2_byte_stream (mkStream ss EndStop) M)) in
  read_byte_stream_from_file [file] M = mkStream (ws ++ [[]]) (EndExn RuntimeError)
  /\ byte_stream_2_control_signal (read_byte_stream_from_file [file] M) M
     = mkStream (map indicator ss) (EndExn StructError).
Proof. exact file_round_trip. Qed.
Print Assumptions C03_file_round_trip.
Example C03_ex : Forall2 (fun s w => encode 9 s = Ok w) [[1;1;1;1;0;0;0;0;1];[0;0;0;0;0;0;0;0;0]] [[15;1];[0;0]].
Proof. repeat constructor. Qed.

(** C04 *)
Theorem C04_read_many : forall M f (wss : list (list (list Z))), number_of_bytes_selector M = Ok f ->
  Forall (Forall (fun w => length w = nbytes f)) wss ->
  read_byte_stream_from_file (map (@concat Z) wss) M
  = mkStream (flat_map (fun ws => ws ++ [[]]) wss) (EndExn RuntimeError).
Proof. exact read_many. Qed.
Print Assumptions C04_read_many.
Example C04_ex : Forall (Forall (fun w => length w = 2%nat)) [[[1;2];[3;4]];[[5;6]]].
Proof. repeat constructor. Qed.

Theorem C04_only_first_file_decoded : forall M ss ws wss, (M <= 128)%nat -> Forall (fun s => length s = M) ss ->
  Forall2 (fun s w => encode M s = Ok w) ss ws ->
  (forall f, number_of_bytes_selector M = Ok f -> Forall (Forall (fun w => length w = nbytes f)) wss) ->
  byte_stream_2_control_signal (read_byte_stream_from_file (map (@concat Z) (ws :: wss)) M) M
  = mkStream (map indicator ss) (EndExn StructError).
Proof. exact many_files_only_first. Qed.
Print Assumptions C04_only_first_file_decoded.

(** C05 *)
Theorem C05_split : forall w st, (1 <= w)%nat ->
  exists fuel files, (forall fuel', (fuel <= fuel')%nat -> wf_run fuel' w (sending st) (wf_init st) = Some (files, sending st))
    /\ split_spec w (items st) files.
Proof. exact split_ok. Qed.
Print Assumptions C05_split.
Example C05_ex : wf_run 20 2 EndStop (wf_init (mkStream [[1];[2];[3];[4];[5]] EndStop)) = Some ([[[1];[2]];[[3];[4]];[[5]]], EndStop).
Proof. reflexivity. Qed.

Theorem C05_zero_words_never_terminates : forall st fuel, wf_run fuel 0 (sending st) (wf_init st) = None.
Proof. exact split_zero_diverges. Qed.
Print Assumptions C05_zero_words_never_terminates.

(** C06 *)
Theorem C06_show_status : forall A (st : stream A) len,
  show_status st len =
    if (length (items st) <=? len)%nat then (st, length (items st))
    else (mkStream (firstn len (items st)) (EndExn RuntimeError), S len).
Proof. exact @show_status_spec. Qed.
Print Assumptions C06_show_status.
Example C06_ex : show_status (mkStream [1;2;3] EndStop) 2 = (mkStream [1;2] (EndExn RuntimeError), 3%nat).
Proof. reflexivity. Qed.

Theorem C06_iterator_to_numpy_array : forall A (st : stream (list A)) size L,
  (size < 1 \/ L < 1 -> iterator_to_numpy_array st size L = Exn GenericException) /\
  (1 <= size -> 1 <= L -> Forall (fun x => Z.of_nat (length x) = L) (items st) ->
     (size <= Z.of_nat (length (items st)) -> iterator_to_numpy_array st size L = Ok (firstn (Z.to_nat size) (items st))) /\
     (Z.of_nat (length (items st)) < size ->
        iterator_to_numpy_array st size L = Exn (match sending st with EndStop => StopIteration | EndExn e => e end))).
Proof.
  intros A st size L. unfold iterator_to_numpy_array. split.
  - intros H. destruct (Z.ltb_spec size 1), (Z.ltb_spec L 1); simpl; auto; lia.
  - intros H1 H2 HF. destruct (Z.ltb_spec size 1), (Z.ltb_spec L 1); try lia. cbn [orb].
    assert (HF' : Forall (fun x : list A => length x = Z.to_nat L) (items st)).
    { eapply Forall_impl; [|exact HF]. intros a; cbv beta; lia. }
    split; intros H3.
    + apply fill_rows_ok; [lia|]. apply Forall_forall. intros x Hx. rewrite Forall_forall in HF'. apply HF'.
      rewrite <- (firstn_skipn (Z.to_nat size) (items st)). apply in_or_app. auto.
    + rewrite fill_rows_short; [destruct (sending st); reflexivity|lia|assumption].
Qed.
Print Assumptions C06_iterator_to_numpy_array.
Example C06_ex2 : iterator_to_numpy_array (mkStream [[1;2];[3;4];[5;6]] EndStop) 2 2 = Ok [[1;2];[3;4]].
Proof. reflexivity. Qed.

(** C07 *)
Theorem C07_csv_first_bad_line : forall M msb good rest bad,
  Forall (fun l => length l = M) good -> length bad <> M ->
  csv_2_control_signal (good ++ bad :: rest) M msb
  = mkStream (map (fun l => if msb then rev l else l) good) (EndExn RuntimeError).
Proof. exact csv_spec. Qed.
Print Assumptions C07_csv_first_bad_line.
Example C07_ex : csv_2_control_signal [[1;0];[0;1;1];[1;1]] 2 true = mkStream [[0;1]] (EndExn RuntimeError).
Proof. reflexivity. Qed.

Theorem C07_csv_reversed_round_trip : forall M rows, Forall (fun l => length l = M) rows ->
  csv_2_control_signal (map (@rev Z) rows) M true = mkStream rows EndStop
  /\ csv_2_control_signal rows M false = mkStream rows EndStop.
Proof.
  intros M rows H. split; [now apply csv_reversed|]. rewrite csv_all_good by assumption.
  f_equal. apply map_id.
Qed.
Print Assumptions C07_csv_reversed_round_trip.
