(** Model of [cbadc.utilities.read_byte_stream_from_url] (utilities.py 200-233).
    The server is an oracle: for each url either an exception of session.get, or a response.  A response has a status and a body in transfer pieces (a single piece unless the transfer is chunked),
    and may break off with an exception.  request.iter_content(chunk_size) of requests/urllib3 splits each piece into chunks of chunk_size bytes, the last of a piece may be shorter, none is empty. *)
From Coq Require Import List Arith Bool ZArith.
From Verif Require Import Base ByteCodec.
Import ListNotations.
Open Scope Z_scope.

Record response : Type := mkResp { status : Z; pieces : list (list Z); broken : option exn }.
(** one transfer piece in chunks of [nb] bytes; [S (length bytes)] fuel suffices for nb >= 1 *)
Fixpoint split_piece (fuel nb : nat) (bytes : list Z) : list (list Z) :=
  match fuel with
  | O => []
  | S fuel => match firstn nb bytes with [] => [] | c => c :: split_piece fuel nb (skipn nb bytes) end
  end.
Definition iter_content (nb : nat) (r : response) : stream (list Z) :=
  mkStream (flat_map (fun p => split_piece (S (length p)) nb p) (pieces r)) (match broken r with None => EndStop | Some e => EndExn e end).
(** 224-233: the chunks of all urls in turn; the except clause of 231 only takes StopIteration; the [raise StopIteration] of 233 is a RuntimeError for the consumer of the generator.
    The status is not looked at. *)
Fixpoint url_loop (nb : nat) (rs : list (result response)) : stream (list Z) :=
  match rs with
  | [] => mkStream [] (EndExn RuntimeError)
  | Exn StopIteration :: rs => url_loop nb rs
  | Exn e :: _ => mkStream [] (EndExn e)
  | Ok r :: rs =>
      let s := iter_content nb r in
      match sending s with
      | EndStop | EndExn StopIteration => let t := url_loop nb rs in mkStream (items s ++ items t) (sending t)
      | EndExn e => s
      end
  end.
(** 216-223: the session is created, then the number of bytes selected; a single url is a list of one *)
Definition read_byte_stream_from_url (rs : list (result response)) (M : nat) : stream (list Z) :=
  match number_of_bytes_selector M with Exn e => mkStream [] (EndExn e) | Ok f => url_loop (nbytes f) rs end.
