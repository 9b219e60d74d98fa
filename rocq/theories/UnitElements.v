(** unit_element_set (/repo/src/cbadc/digital_control/utilities.py:51-105).
    Candidates are integers; the costs (quotients of Euclidean norms) are real numbers. *)
From Coq Require Import List Lia Arith Bool ZArith Reals Lra Permutation.
From Flocq Require Import Core.
From Verif Require Import Base.
Import ListNotations.
Open Scope nat_scope.

Notation zvec := (list Z).
(** [itertools.product] of [N] copies of [candidates] *)
Fixpoint product (c : list Z) (N : nat) : list zvec :=
  match N with O => [[]] | S N => flat_map (fun x => map (cons x) (product c N)) c end.
(** [np.sum(np.abs(v))] *)
Fixpoint l1 (v : zvec) : Z := match v with [] => 0%Z | x :: v => (Z.abs x + l1 v)%Z end.
Fixpoint zip (f : Z -> Z -> Z) (u v : zvec) : zvec := match u, v with a :: u, b :: v => f a b :: zip f u v | _, _ => [] end.
(** utilities.py:79-85: equal to a stored vector up to sign *)
Definition is_dup (set : list zvec) (v : zvec) : bool :=
  existsb (fun item => Z.eqb (l1 (zip Z.sub item v)) 0 || Z.eqb (l1 (zip Z.add item v)) 0) set.
(** utilities.py:73-87: the loop; [acc] is [candidate_set] *)
Fixpoint gather (items : list zvec) (acc : list zvec) : list zvec :=
  match items with
  | [] => acc
  | v :: r => if Z.eqb (l1 v) 0 then acc else gather r (if is_dup acc v then acc else acc ++ [v])
  end.
Definition candidate_set (N : nat) (c : list Z) : list zvec := gather (product c N) [].

Definition zdot (u v : zvec) : Z := fold_right Z.add 0%Z (zip Z.mul u v).
Definition sumsq (l : list Z) : R := IZR (fold_right (fun x s => x * x + s)%Z 0%Z l).
(** utilities.py:97-99: the 2-norm of the inner products with the chosen vectors over the norm of the candidate *)
Definition cost (set : list zvec) (v : zvec) : R := (sqrt (sumsq (map (zdot v) set)) / sqrt (sumsq v))%R.
(** [np.argmin]: first index of a smallest element *)
Fixpoint argmin_go (l : list R) (i best : nat) (bv : R) : nat :=
  match l with [] => best | x :: l => if Rlt_bool x bv then argmin_go l (S i) i x else argmin_go l (S i) best bv end.
Definition argmin (l : list R) : nat := match l with [] => 0 | x :: l => argmin_go l 1 0 x end.
(** [np.delete(candidate_set, i, 0)] *)
Definition delete (i : nat) (l : list zvec) : list zvec := firstn i l ++ skipn (S i) l.
(** utilities.py:96-103: the loop [while set.shape[1] < M], [k] columns missing; [np.argmin] of an empty array is a ValueError. *)
Fixpoint pick (k : nat) (set cands : list zvec) : result (list zvec) :=
  match k with
  | O => Ok set
  | S k => match cands with
           | [] => Exn ValueError
           | _ => let i := argmin (map (cost set) cands) in pick k (set ++ [nth i cands []]) (delete i cands)
           end
  end.
(** utilities.py:51-105: the columns of the returned matrix. *)
Definition unit_element_set (N M : nat) (c : list Z) : result (list zvec) :=
  let cs := candidate_set N c in
  if (length cs <? M)%nat then Exn GenericException
  else match cs with
       | [] => Exn IndexError
       | v :: r => pick (M - 1) [v] r
       end.
