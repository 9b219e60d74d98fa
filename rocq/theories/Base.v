(** Shared vocabulary: Python exceptions as values, finite streams with an explicit ending, small list helpers. *)
From Coq Require Import ZArith List Lia Bool Arith.
Import ListNotations.

(** Exception kinds that the modelled code can raise (only the class matters). *)
Inductive exn : Type :=
| StructError | RuntimeError | StopIteration | IndexError | ValueError | TypeError
| ArithmeticError | AttributeError | KeyError | NotImplementedError | DeprecationWarning
| ZeroDivisionError | OverflowError | AssertionError | RecursionError | GenericException.

Inductive result (A : Type) : Type :=
| Ok (a : A)
| Exn (e : exn).
Arguments Ok {A} a.
Arguments Exn {A} e.

Definition bind {A B} (r : result A) (f : A -> result B) : result B :=
  match r with Ok a => f a | Exn e => Exn e end.

Definition is_ok {A} (r : result A) : bool := match r with Ok _ => true | Exn _ => false end.

(** A finite iterator: the items [next] delivers in order, then how it ends.  [EndStop] is a plain [StopIteration];
    [EndExn e] is any other exception.  A [raise StopIteration] executed inside a generator body reaches the consumer as
    [RuntimeError] (PEP 479), i.e. as [EndExn RuntimeError]. *)
Inductive ending : Type := EndStop | EndExn (e : exn).

Record stream (A : Type) : Type := mkStream { items : list A; sending : ending }.
Arguments mkStream {A} items sending.
Arguments items {A} s.
Arguments sending {A} s.

Definition scons {A} (a : A) (s : stream A) : stream A := mkStream (a :: items s) (sending s).

Lemma nth_error_some_nth {A} (l : list A) n d : n < length l -> nth_error l n = Some (nth n l d).
Proof.
  revert n; induction l as [|x l IH]; intros n Hn; simpl in *; [lia|].
  destruct n; simpl; [reflexivity|]. apply IH; lia.
Qed.

Lemma map_nth_seq {A} (l : list A) d : map (fun i => nth i l d) (seq 0 (length l)) = l.
Proof.
  induction l as [|x l IH]; simpl; [reflexivity|].
  f_equal. rewrite <- seq_shift, map_map. exact IH.
Qed.

Lemma list_ext {A} (l1 l2 : list A) d :
  length l1 = length l2 -> (forall i, i < length l1 -> nth i l1 d = nth i l2 d) -> l1 = l2.
Proof. intros H1 H2. apply nth_ext with d d; auto. Qed.

(** Replace position [i] of a list (numpy [a[i] = v]); identity if out of range. *)
Fixpoint upd {A} (i : nat) (v : A) (l : list A) : list A :=
  match l, i with
  | [], _ => []
  | _ :: r, 0 => v :: r
  | x :: r, S i => x :: upd i v r
  end.

Lemma upd_length {A} i (v : A) l : length (upd i v l) = length l.
Proof. revert i; induction l; intros [|i]; simpl; auto. Qed.

Lemma nth_upd {A} i j (v d : A) l :
  nth j (upd i v l) d = if (Nat.eqb i j && Nat.ltb j (length l))%bool then v else nth j l d.
Proof.
  revert i j; induction l as [|x l IH]; intros i j; simpl.
  - rewrite andb_comm. simpl. destruct i, j; reflexivity.
  - destruct i, j; simpl; try reflexivity. rewrite IH. destruct (Nat.eqb i j); reflexivity.
Qed.

Lemma Ok_inj {A} (a b : A) : Ok a = Ok b -> a = b.
Proof. now intros [= ->]. Qed.

Lemma Forall2_impl {A B} (P Q : A -> B -> Prop) l1 l2 :
  (forall a b, P a b -> Q a b) -> Forall2 P l1 l2 -> Forall2 Q l1 l2.
Proof. intros H. induction 1; constructor; auto. Qed.

(** numpy assignment [a[i, :] = x] into a row of length [L]: [x] must have length [L], or length 1 (broadcast). *)
Definition row {A} (L : nat) (x : list A) : result (list A) :=
  if (length x =? L)%nat then Ok x
  else match x with [a] => Ok (repeat a L) | _ => Exn ValueError end.


Lemma skipn_skipn {A} a b (l : list A) : skipn a (skipn b l) = skipn (b + a) l.
Proof. revert l; induction b; intros l; simpl; auto. destruct l; simpl; auto. now rewrite skipn_nil. Qed.

Lemma nth_repeat_lt {A} (a d : A) n i : i < n -> nth i (repeat a n) d = a.
Proof. revert i; induction n; intros i H; simpl; [lia|]. destruct i; auto. apply IHn. lia. Qed.
