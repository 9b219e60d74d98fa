(** C121: reading control signals from urls. *)
From Coq Require Import List Arith Bool ZArith Lia.
From Verif Require Import Base ByteCodec ByteCodecProofs UrlReader.
Import ListNotations.
Open Scope Z_scope.

(** [l] bytes in words of [nb]: whole words only *)
Lemma split_words nb : (1 <= nb)%nat -> forall ws fuel, Forall (fun w => length w = nb) ws -> (length (concat ws) < fuel)%nat -> split_piece fuel nb (concat ws) = ws.
Proof.
  intros Hn. induction ws as [|w ws IH]; intros fuel F Hf; (destruct fuel as [|fuel]; [lia|]).
  - cbn. now rewrite firstn_nil.
  - inversion F as [|a b Hw F']; subst. cbn [concat] in *. rewrite app_length in Hf. cbn [split_piece]. rewrite firstn_app, Nat.sub_diag, firstn_all, firstn_O, app_nil_r. destruct w as [|z w]; [cbn in Hn; lia|].
    rewrite skipn_app, Nat.sub_diag, skipn_all. cbn [skipn app]. f_equal. apply IH; [exact F'|cbn [length] in Hf; lia].
Qed.
Lemma content_words nb st wss : (1 <= nb)%nat -> Forall (Forall (fun w => length w = nb)) wss -> iter_content nb (mkResp st (map (@concat Z) wss) None) = mkStream (concat wss) EndStop.
Proof.
  intros Hn F. unfold iter_content. cbn [pieces broken]. f_equal. induction F as [|ws wss Hw F IH]; [reflexivity|]. cbn [map flat_map concat]. rewrite IH, split_words; [reflexivity|exact Hn|exact Hw|lia].
Qed.
Definition good (st : Z) (wss : list (list (list Z))) : result response := Ok (mkResp st (map (@concat Z) wss) None).
Lemma loop_good nb l rest : (1 <= nb)%nat -> Forall (fun p => Forall (Forall (fun w => length w = nb)) (snd p)) l ->
  url_loop nb (map (fun p => good (fst p) (snd p)) l ++ rest) = mkStream (concat (map (fun p => concat (snd p)) l) ++ items (url_loop nb rest)) (sending (url_loop nb rest)).
Proof.
  intros Hn F. induction F as [|[st wss] l Hw F IH]; cbn [map app concat].
  - now destruct (url_loop nb rest).
  - unfold good at 1. cbn [url_loop fst snd]. rewrite content_words by assumption. cbn [sending items]. rewrite IH. cbn [items sending]. now rewrite app_assoc.
Qed.

(** Bodies that consist of whole words in every transfer piece: all samples of all urls, in order, and then a RuntimeError.  (From files only the first is decoded, C04.)
    Each element of [served] is a status with, for each transfer piece, the samples in it. *)
Theorem C121_round_trip : forall M served bodies, (M <= 128)%nat ->
  Forall2 (fun s b => fst b = fst s /\ Forall2 (fun ss ws => Forall2 (fun x w => length x = M /\ encode M x = Ok w) ss ws) (snd s) (snd b)) served bodies ->
  byte_stream_2_control_signal (read_byte_stream_from_url (map (fun b => Ok (mkResp (fst b) (map (@concat Z) (snd b)) None)) bodies) M) M =
  mkStream (map indicator (concat (concat (map snd served)))) (EndExn RuntimeError).
Proof.
  intros M served bodies HM H. destruct (selector_total M HM) as (f & Hf). unfold read_byte_stream_from_url. rewrite Hf. assert (N := selector_nbytes M f Hf).
  assert (W : Forall (fun p => Forall (Forall (fun w => length w = nbytes f)) (snd p)) bodies).
  { clear - H Hf. induction H as [|s b ss bb [_ Hp] H IH]; constructor; [|exact IH]. clear - Hp Hf. induction Hp as [|x ws xs wss Hq Hp IH]; constructor; [|exact IH]. apply (Forall2_length_word M f x ws Hf). eapply Forall2_impl; [|exact Hq]. cbn. tauto. }
  assert (L := loop_good (nbytes f) bodies [] N W). rewrite app_nil_r in L. unfold good in L. rewrite L. cbn [url_loop items sending]. rewrite app_nil_r. unfold byte_stream_2_control_signal. rewrite Hf. cbn [items sending]. apply gen_map_all_ok.
  assert (D : Forall2 (fun w s => decode M w = Ok s) (concat (map (fun p => concat (snd p)) bodies)) (map indicator (concat (concat (map snd served))))).
  { clear - H. induction H as [|s b ss bb [_ Hp] H IH]; cbn [map concat]; [constructor|]. rewrite concat_app, map_app. apply Forall2_app; [|exact IH]. clear - Hp.
    induction Hp as [|x ws xs wss Hq Hp IH]; cbn [map concat]; [constructor|]. rewrite map_app. apply Forall2_app; [|exact IH]. clear - Hq. induction Hq as [|y w ys ws [Hl He] Hq IH]; cbn [map]; constructor; [|exact IH]. now apply codec_round_trip. }
  eapply Forall2_impl; [|exact D]. intros w s. cbv beta. now rewrite (decode_decode1 _ _ _ Hf).
Qed.
Print Assumptions C121_round_trip.
Example C121_ex : byte_stream_2_control_signal (read_byte_stream_from_url [Ok (mkResp 200 [[15; 1; 0; 0]] None); Ok (mkResp 200 [[1; 0]; [2; 1]] None)] 9) 9
  = mkStream [[1;1;1;1;0;0;0;0;1]; [0;0;0;0;0;0;0;0;0]; [1;0;0;0;0;0;0;0;0]; [0;1;0;0;0;0;0;0;1]] (EndExn RuntimeError).
Proof. reflexivity. Qed.

(** The status of a response makes no difference: the page that goes with an error is taken for control signals. *)
Theorem C121_status_ignored : forall M rs rs', Forall2 (fun a b => match a, b with Ok r, Ok r' => pieces r = pieces r' /\ broken r = broken r' | Exn e, Exn e' => e = e' | _, _ => False end) rs rs' ->
  read_byte_stream_from_url rs M = read_byte_stream_from_url rs' M.
Proof.
  intros M rs rs' H. unfold read_byte_stream_from_url. destruct (number_of_bytes_selector M) as [f|e]; [|reflexivity]. induction H as [|[r|e] [r'|e'] rs rs' E H IH]; [reflexivity| |contradiction|contradiction|].
  - destruct E as [E1 E2]. cbn [url_loop]. unfold iter_content. rewrite E1, E2, IH. reflexivity.
  - subst e'. cbn [url_loop]. rewrite IH. reflexivity.
Qed.
Print Assumptions C121_status_ignored.
Theorem C121_error_page_refuted : exists r M ss, status r = 404 /\ byte_stream_2_control_signal (read_byte_stream_from_url [Ok r] M) M = mkStream ss (EndExn RuntimeError) /\ (1 < length ss)%nat.
Proof. exists (mkResp 404 [[78; 111; 116; 32; 102; 111; 117; 110; 100; 33]] None), 8%nat. eexists. split; [reflexivity|]. split; [vm_compute; reflexivity|cbn; lia]. Qed.
Print Assumptions C121_error_page_refuted.

(** A server that breaks off at a url, or a url without server: what came before is delivered, then that exception. *)
Theorem C121_broken : forall M f l r rest e, number_of_bytes_selector M = Ok f -> Forall (fun p => Forall (Forall (fun w => length w = nbytes f)) (snd p)) l -> e <> StopIteration ->
  (r = Exn e -> read_byte_stream_from_url (map (fun p => good (fst p) (snd p)) l ++ r :: rest) M = mkStream (concat (map (fun p => concat (snd p)) l)) (EndExn e)) /\
  (forall st wss, r = Ok (mkResp st (map (@concat Z) wss) (Some e)) -> Forall (Forall (fun w => length w = nbytes f)) wss ->
    read_byte_stream_from_url (map (fun p => good (fst p) (snd p)) l ++ r :: rest) M = mkStream (concat (map (fun p => concat (snd p)) l) ++ concat wss) (EndExn e)).
Proof.
  intros M f l r rest e Hf F He. assert (N := selector_nbytes M f Hf). unfold read_byte_stream_from_url. rewrite Hf, loop_good by assumption. split.
  - intros ->. cbn [url_loop]. destruct e; try contradiction; cbn [items sending]; now rewrite app_nil_r.
  - intros st wss -> W. cbn [url_loop]. assert (C := f_equal items (content_words (nbytes f) st wss N W)).
    assert (C' : iter_content (nbytes f) (mkResp st (map (@concat Z) wss) (Some e)) = mkStream (concat wss) (EndExn e)) by (unfold iter_content in *; cbn [pieces broken items] in *; now rewrite C).
    rewrite C'. destruct e; try contradiction; reflexivity.
Qed.
Print Assumptions C121_broken.
Example C121_broken_ex : read_byte_stream_from_url [good 200 [[[1; 2]; [3; 4]]]; Exn GenericException; good 200 [[[5; 6]]]] 9 = mkStream [[1; 2]; [3; 4]] (EndExn GenericException).
Proof. reflexivity. Qed.

(** The same bytes in other transfer pieces: a piece that ends within a word ends the decoding there, with struct.error. *)
Lemma decode_short M f w : number_of_bytes_selector M = Ok f -> length w <> nbytes f -> decode M w = Exn StructError.
Proof.
  intros Hf Hl. rewrite (decode_decode1 M f w Hf). unfold decode1, unpack. apply Nat.eqb_neq in Hl. now rewrite Hl.
Qed.
Theorem C121_pieces : forall M f ss ws p q rest, number_of_bytes_selector M = Ok f -> Forall2 (fun x w => length x = M /\ encode M x = Ok w) ss ws -> (0 < length p < nbytes f)%nat ->
  byte_stream_2_control_signal (read_byte_stream_from_url (Ok (mkResp 200 ((concat ws ++ p) :: q) None) :: rest) M) M = mkStream (map indicator ss) (EndExn StructError).
Proof.
  intros M f ss ws p q rest Hf H Hp. assert (N := selector_nbytes M f Hf). unfold read_byte_stream_from_url. rewrite Hf. cbn [url_loop].
  assert (SP : forall fuel, (length (concat ws ++ p) < fuel)%nat -> split_piece fuel (nbytes f) (concat ws ++ p) = ws ++ [p]).
  { assert (W : Forall (fun w => length w = nbytes f) ws) by (apply (Forall2_length_word M f ss ws Hf); eapply Forall2_impl; [|exact H]; cbn; tauto). clear - W N Hp. induction W as [|w ws Hw W IH]; intros fuel Hf; (destruct fuel as [|fuel]; [lia|]).
    - cbn [concat app] in *. cbn [split_piece]. rewrite firstn_all2, skipn_all2 by lia. destruct p as [|z p]; [cbn in Hp; lia|]. f_equal. destruct fuel; [cbn in Hf; lia|]. cbn. now rewrite firstn_nil.
    - cbn [concat app] in *. rewrite <- app_assoc in *. rewrite app_length in Hf. cbn [split_piece]. rewrite firstn_app, Hw, Nat.sub_diag, firstn_O, app_nil_r, skipn_app, Hw, Nat.sub_diag, <- Hw, firstn_all, skipn_all. destruct w as [|z w]; [cbn in Hw; lia|]. cbn [skipn app]. f_equal. rewrite Hw. apply IH. cbn [length] in Hf. lia. }
  unfold iter_content. cbn [pieces broken sending items flat_map]. rewrite SP by lia. unfold byte_stream_2_control_signal. rewrite Hf. cbn [items sending]. rewrite <- !app_assoc. cbn [app]. apply gen_map_app_exn.
  - clear SP. induction H as [|y w ys ws' [Hl He] H IH]; cbn [map]; constructor; [|exact IH]. rewrite <- (decode_decode1 _ _ _ Hf). now apply codec_round_trip.
  - rewrite <- (decode_decode1 _ _ _ Hf). apply decode_short with f; [exact Hf|lia].
Qed.
Print Assumptions C121_pieces.
(** the same body, in one piece and in two *)
Theorem C121_body_refuted : exists M p q, let run r := byte_stream_2_control_signal (read_byte_stream_from_url [Ok r] M) M in
  concat p = concat q /\ length (items (run (mkResp 200 p None))) = 3%nat /\ sending (run (mkResp 200 p None)) = EndExn RuntimeError /\ length (items (run (mkResp 200 q None))) = 1%nat /\ sending (run (mkResp 200 q None)) = EndExn StructError.
Proof. exists 9%nat, [[15; 1; 0; 0; 7; 0]], [[15; 1; 0]; [0; 7; 0]]. vm_compute. repeat split; reflexivity. Qed.
Print Assumptions C121_body_refuted.
