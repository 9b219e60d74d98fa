(** Model of the control-signal byte codec and the byte-stream files of /repo/src/cbadc/utilities.py. *)
From Coq Require Import ZArith List Lia Bool Arith.
From Verif Require Import Base.
Import ListNotations.
Open Scope Z_scope.

(** utilities.py:24-50 [number_of_bytes_selector].  The ctype name is not modelled; the struct format marker is modelled by
    its signedness ("B" unsigned; "h","i","q" signed). *)
Record fmt := mkFmt { nbytes : nat; signed : bool }.

Definition number_of_bytes_selector (M : nat) : result fmt :=
  if (M <? 9)%nat then Ok (mkFmt 1 false)
  else if (M <? 17)%nat then Ok (mkFmt 2 true)
  else if (M <? 65)%nat then Ok (mkFmt 4 true)
  else if (M <? 129)%nat then Ok (mkFmt 8 true)
  else Exn GenericException.

(** Bytes are integers 0..255.  [struct.pack] with a native marker on a little-endian machine (trusted: x86/ARM byte order;
    the code uses the native order in both directions). *)
Fixpoint le_bytes (n : nat) (v : Z) : list Z :=
  match n with O => [] | S n => v mod 256 :: le_bytes n (v / 256) end.

Fixpoint le_value (bs : list Z) : Z :=
  match bs with [] => 0 | b :: r => b + 256 * le_value r end.

Definition bits (f : fmt) : Z := 8 * Z.of_nat (nbytes f).

Definition fmt_lo (f : fmt) : Z := if signed f then - 2 ^ (bits f - 1) else 0.
Definition fmt_hi (f : fmt) : Z := if signed f then 2 ^ (bits f - 1) - 1 else 2 ^ bits f - 1.

(** CPython [struct.pack(marker, v)]: raises struct.error when [v] is out of the C type's range. *)
Definition pack (f : fmt) (v : Z) : result (list Z) :=
  if ((fmt_lo f <=? v) && (v <=? fmt_hi f))%bool then Ok (le_bytes (nbytes f) v) else Exn StructError.

(** CPython [struct.unpack(marker, bs)[0]]: raises struct.error on a wrong buffer size. *)
Definition unpack (f : fmt) (bs : list Z) : result Z :=
  if (length bs =? nbytes f)%nat then
    let u := le_value bs in
    Ok (if (signed f && (2 ^ (bits f - 1) <=? u))%bool then u - 2 ^ bits f else u)
  else Exn StructError.

(** utilities.py:74-78, the inner loop [for m in range(M): if s[m] > 0: sum += 1 << m].  Control entries are integers. *)
Fixpoint sum_loop (ms : list nat) (s : list Z) (acc : Z) : result Z :=
  match ms with
  | [] => Ok acc
  | m :: r =>
      match nth_error s m with
      | None => Exn IndexError
      | Some v => sum_loop r s (if 0 <? v then acc + Z.shiftl 1 (Z.of_nat m) else acc)
      end
  end.

(** utilities.py:71-79: one iteration of the generator body for the sample [s]. *)
Definition encode1 (f : fmt) (M : nat) (s : list Z) : result (list Z) :=
  bind (sum_loop (seq 0 M) s 0) (fun sum => pack f sum).

(** utilities.py:114-122: one iteration of the decoder's generator body. *)
Definition decode1 (f : fmt) (M : nat) (bs : list Z) : result (list Z) :=
  bind (unpack f bs) (fun sum => Ok (map (fun m => Z.land 1 (Z.shiftr sum (Z.of_nat m))) (seq 0 M))).

(** One sample through the public generators (first [next]). *)
Definition encode (M : nat) (s : list Z) : result (list Z) :=
  bind (number_of_bytes_selector M) (fun f => encode1 f M s).
Definition decode (M : nat) (bs : list Z) : result (list Z) :=
  bind (number_of_bytes_selector M) (fun f => decode1 f M bs).

(** A generator that maps a fallible function over an input stream ([for x in it: yield g(x)]): it stops at the first
    exception of [g], and otherwise inherits the way the input ends. *)
Fixpoint gen_map {A B} (g : A -> result B) (xs : list A) (e : ending) : stream B :=
  match xs with
  | [] => mkStream [] e
  | x :: r => match g x with
              | Ok y => scons y (gen_map g r e)
              | Exn ex => mkStream [] (EndExn ex)
              end
  end.

(** utilities.py:53-79. *)
Definition control_signal_2_byte_stream (st : stream (list Z)) (M : nat) : stream (list Z) :=
  match number_of_bytes_selector M with
  | Exn e => mkStream [] (EndExn e)
  | Ok f => gen_map (encode1 f M) (items st) (sending st)
  end.

(** utilities.py:82-122. *)
Definition byte_stream_2_control_signal (st : stream (list Z)) (M : nat) : stream (list Z) :=
  match number_of_bytes_selector M with
  | Exn e => mkStream [] (EndExn e)
  | Ok f => gen_map (decode1 f M) (items st) (sending st)
  end.

(** utilities.py:125-137.  Result: the file content and how the call ends ([EndStop] = returns normally). *)
Definition write_byte_stream_to_file (st : stream (list Z)) : list Z * ending :=
  (concat (items st), sending st).

(** utilities.py:190-194: [while byte: byte = f.read(nb); yield byte].  [f.read] returns at most [nb] bytes and the empty
    string at the end of file, which is yielded as well before the loop condition is tested.  [fuel] bounds the number of reads;
    [S (length bytes)] always suffices when nb>=1 (proved). *)
Fixpoint read_chunks (fuel nb : nat) (bytes : list Z) : list (list Z) :=
  match fuel with
  | O => []
  | S fuel =>
      match firstn nb bytes with
      | [] => [[]]
      | c => c :: read_chunks fuel nb (skipn nb bytes)
      end
  end.

Definition read_one_file (nb : nat) (bytes : list Z) : list (list Z) := read_chunks (S (length bytes)) nb bytes.

(** utilities.py:168-197.  All files are read in turn; the final [raise StopIteration] inside the generator is a
    RuntimeError for the consumer. Opening a file is assumed to succeed. *)
Definition read_byte_stream_from_file (files : list (list Z)) (M : nat) : stream (list Z) :=
  match number_of_bytes_selector M with
  | Exn e => mkStream [] (EndExn e)
  | Ok f => mkStream (flat_map (read_one_file (nbytes f)) files) (EndExn RuntimeError)
  end.

(** utilities.py:155-165 [write_byte_stream_to_files] as a small-step machine: one step = one evaluation of the inner loop
    condition.  [wdone] are the closed files in index order, [wcur] the content of the open one. *)
Record wfiles := mkW { wdone : list (list (list Z)); wcur : list (list Z); wcount : nat; wrest : list (list Z) }.

Definition wf_step (w : nat) (e : ending) (st : wfiles) : wfiles + (list (list (list Z)) * ending) :=
  if (wcount st <? w)%nat then
    match wrest st with
    | [] => inr (wdone st ++ [wcur st], e)   (* next(iterator) raises inside the [with]: the file is closed *)
    | x :: r => inl (mkW (wdone st) (wcur st ++ [x]) (S (wcount st)) r)
    end
  else inl (mkW (wdone st ++ [wcur st]) [] 0 (wrest st)).

Fixpoint wf_run (fuel w : nat) (e : ending) (st : wfiles) : option (list (list (list Z)) * ending) :=
  match fuel with
  | O => None
  | S fuel => match wf_step w e st with
              | inl st' => wf_run fuel w e st'
              | inr r => Some r
              end
  end.

Definition wf_init (st : stream (list Z)) : wfiles := mkW [] [] 0 (items st).

(** utilities.py:522-539 [show_status]: the tqdm wrapper is transparent.  The result also says how many items of the input
    were consumed. *)
Fixpoint show_status_go {A} (length : nat) (iteration : nat) (xs : list A) (e : ending) : stream A * nat :=
  match xs with
  | [] => (mkStream [] e, 0%nat)
  | x :: r =>
      if (iteration <? length)%nat
      then let '(s, c) := show_status_go length (S iteration) r e in (scons x s, S c)
      else (mkStream [] (EndExn RuntimeError), 1%nat)
  end.
Definition show_status {A} (st : stream A) (length : nat) : stream A * nat :=
  show_status_go length 0 (items st) (sending st).

(** utilities.py:606-611 [iterator_to_numpy_array].  Assigning item [x] to row [data[index, :]] is modelled by [row] (Base.v),
    which fails when the item does not broadcast to length [L] (length L, or length 1). *)

Fixpoint fill_rows {A} (n L : nat) (xs : list (list A)) (e : ending) : result (list (list A)) :=
  match n with
  | O => Ok []
  | S n => match xs with
           | [] => match e with EndStop => Exn StopIteration | EndExn ex => Exn ex end
           | x :: r => bind (row L x) (fun y => bind (fill_rows n L r e) (fun ys => Ok (y :: ys)))
           end
  end.

Definition iterator_to_numpy_array {A} (st : stream (list A)) (size L : Z) : result (list (list A)) :=
  if ((size <? 1) || (L <? 1))%bool then Exn GenericException
  else fill_rows (Z.to_nat size) (Z.to_nat L) (items st) (sending st).

(** utilities.py:280-289 [csv_2_control_signal] after tokenisation: [np.fromstring] is abstracted to the list of integers of
    each line. *)
Definition csv_row (M : nat) (msb2lsb : bool) (line : list Z) : result (list Z) :=
  if (length line =? M)%nat then Ok (if msb2lsb then rev line else line) else Exn RuntimeError.
Definition csv_2_control_signal (lines : list (list Z)) (M : nat) (msb2lsb : bool) : stream (list Z) :=
  gen_map (csv_row M msb2lsb) lines EndStop.

(** utilities.py:314-319 [random_control_signal]: [samples] are the successive random draws (oracle). *)
Definition random_control_signal (samples : nat -> list Z) (stop_after : nat) : stream (list Z) :=
  mkStream (map samples (seq 0 stop_after)) (EndExn RuntimeError).
