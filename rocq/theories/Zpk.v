(** Model of [zpk2abcd], [_sort_by_complex_descending], [_complex_conjugate_pairs] and [sos2abcd]
    ([cbadc.analog_system.topology] 180-369).

    Numbers are exact complex numbers (Coquelicot's [C]); the real matrices of the code appear with zero imaginary parts.
    A division by zero is not an exception in numpy: it warns and leaves inf/nan in the matrices.  The model stops with
    [ArithmeticError] at that point.  [np.argsort] is the parameter [argsort]. *)
From Coq Require Import List Arith Lia Bool Reals.
From Coquelicot Require Import Complex.
From Flocq Require Import Core.
From Verif Require Import Base LinAlg AnalogSystem.
Import ListNotations.

Definition Cring : cring := mkCring C (RtoC 0) (RtoC 1) Cplus Cmult Cminus Copp (F_R C_field_theory).

Open Scope R_scope.

(** a numpy array given by its rows *)
Definition mlist (r c : nat) (l : list (list C)) : nd2 Cring := @mk2 Cring r c (fun i j => nth j (nth i l []) (RtoC 0)).

(** [np.allclose(a, b)] for scalars: rtol = 1e-5, atol = 1e-8 *)
Definition allclose_c (a b : C) : bool := Rle_bool (Cmod (a - b)%C) (/ 100000000 + / 100000 * Cmod b).

(** [np.imag(z) != 0] *)
Definition is_cplx (z : C) : bool := negb (Req_bool (snd z) 0).

(** _complex_conjugate_pairs, 301-307 *)
Fixpoint conj_pairs (l : list C) : bool :=
  match l with
  | a :: b :: r => if negb (allclose_c a (Cconj b)) then false else conj_pairs r
  | _ => true
  end.

Section Sort.
Variable argsort : list R -> list nat.

(** _sort_by_complex_descending, 288-298 *)
Definition sort_cplx (l : list C) : result (list C) :=
  let idx := rev (argsort (map (fun z => Rabs (snd z)) l)) in
  let l := map (fun i => nth i l (RtoC 0)) idx in
  let cs := filter is_cplx l in
  if negb (conj_pairs cs) then Exn GenericException
  else Ok (firstn (length cs) l ++ filter (fun z => negb (is_cplx z)) l).

(** 236-244: the matrix A of a two-pole stage *)
Definition two_pole (p1 p2 : C) : result (C * C * C * C) :=
  if allclose_c p1 (Cconj p2) then Ok (RtoC (fst p1), RtoC (snd p1), RtoC (snd p2), RtoC (fst p2))
  else if is_cplx p1 || is_cplx p2 then Exn GenericException
  else Ok (RtoC (fst p1), RtoC 0, RtoC 1, RtoC (fst p2)).

(** division of a float64 by a float64 *)
Definition np_div (a b : C) : result C := if Req_bool (fst b) 0 then Exn ArithmeticError else Ok (a / b)%C.

(** [np.allclose(np.imag(y), np.zeros(2))] for the two entries of y *)
Definition imag_small (y : C) : bool := Rle_bool (Rabs (snd y)) (/ 100000000).

(** 246-273: output row and direct term of a two-pole stage for the zeros that are left.  [np.linalg.solve] with the lower
    triangular M = [[-1, 0], [-A11, A10]] is forward substitution; it raises LinAlgError when A10 = 0. *)
Definition two_pole_out (k : R) (a00 a01 a10 a11 : C) (z : list C) : result (C * C * C) :=
  match z with
  | z1 :: z2 :: _ =>
      let y0 := (z1 + z2 - a00 - a11)%C in
      let y1 := (z1 * z2 - a00 * a11 + a01 * a10)%C in
      if negb (imag_small y0 && imag_small y1) then Exn GenericException else
      if Req_bool (fst a10) 0 then Exn GenericException else
      let s0 := (- RtoC (fst y0))%C in
      let s1 := ((RtoC (fst y1) + a11 * s0) / a10)%C in
      Ok (s0, s1, RtoC (k * k))
  | [z1] =>
      if is_cplx z1 then Exn GenericException else
      bind (np_div (a11 - RtoC (fst z1))%C a10) (fun c2 => Ok (RtoC 1, c2, RtoC 0))
  | [] => bind (np_div (RtoC 1) a10) (fun g => Ok ((g * RtoC 0)%C, (g * RtoC 1)%C, RtoC 0))
  end.

(** the while loop, 224-291 *)
Fixpoint zpk_stages (k : R) (p z : list C) : result (list (asys Cring)) :=
  match p with
  | [] => Ok []
  | [p1] =>
      if is_cplx p1 then Exn GenericException else
      bind (match z with
            | [] => Ok (RtoC 1, RtoC 0)
            | z1 :: _ => if is_cplx z1 then Exn GenericException else Ok (RtoC (fst p1 - fst z1), RtoC k)
            end) (fun '(c, d) =>
      bind (as_init (D2 (mlist 1 1 [[RtoC (fst p1)]])) (D2 (mlist 1 1 [[RtoC k]])) (D2 (mlist 1 1 [[c]])) None None
              (Some (D2 (mlist 1 1 [[d]]))) None None) (fun s => Ok [s]))
  | p1 :: p2 :: p' =>
      bind (two_pole p1 p2) (fun '(a00, a01, a10, a11) =>
      bind (two_pole_out k a00 a01 a10 a11 z) (fun '(c1, c2, d) =>
      bind (as_init (D2 (mlist 2 2 [[a00; a01]; [a10; a11]])) (D2 (mlist 2 1 [[RtoC (k * k)]; [RtoC 0]]))
              (D2 (mlist 1 2 [[c1; c2]])) None None (Some (D2 (mlist 1 1 [[d]]))) None None) (fun s =>
      bind (zpk_stages k p' (tl (tl z))) (fun r => Ok (s :: r)))))
  end.

(** [np.power(np.abs(k), 1.0 / len(p))], 221 *)
Definition gain_per_pole (k : R) (n : nat) : R := if Req_bool k 0 then 0 else Rpower (Rabs k) (1 / INR n).

Definition zpk2abcd (z p : list C) (k : R) : result (nd2 Cring * nd2 Cring * nd2 Cring * nd2 Cring) :=
  if (length p <? length z)%nat || (length p <? 1)%nat then Exn GenericException else
  bind (sort_cplx p) (fun p' =>
  bind (match z with [] => Ok [] | _ => sort_cplx z end) (fun z' =>
  bind (zpk_stages (gain_per_pole k (length p)) p' z') (fun l =>
  bind (chain l) (fun s => Ok (aA s, aB s, aCT s, aD s))))).
End Sort.

(** sos2abcd, 310-369: a row is (b0, b1, b2, a0, a1, a2) *)
Definition sos_stage (row : R * R * R * R * R * R) : result (asys Cring) :=
  let '(b0, b1, b2, a0, a1, a2) := row in
  bind (if Req_bool a0 1 then Ok (b0, b1, b2, a1, a2)
        else if Req_bool a0 0 then Exn ArithmeticError
        else Ok (b0 / a0, b1 / a0, b2 / a0, a1 / a0, a2 / a0)) (fun '(b0, b1, b2, a1, a2) =>
  as_init (D2 (mlist 2 2 [[RtoC 0; RtoC 1]; [RtoC (- a2); RtoC (- a1)]])) (D2 (mlist 2 1 [[RtoC 0]; [RtoC 1]]))
    (D2 (mlist 1 2 [[RtoC (b2 - b0 * a2); RtoC (b1 - b0 * a1)]])) None None (Some (D2 (mlist 1 1 [[RtoC b0]]))) None None).

Fixpoint sos_stages (rows_ : list (R * R * R * R * R * R)) : result (list (asys Cring)) :=
  match rows_ with
  | [] => Ok []
  | r :: rs => bind (sos_stage r) (fun s => bind (sos_stages rs) (fun l => Ok (s :: l)))
  end.

Definition sos2abcd (rows_ : list (R * R * R * R * R * R)) : result (nd2 Cring * nd2 Cring * nd2 Cring * nd2 Cring) :=
  bind (sos_stages rows_) (fun l => bind (chain l) (fun s => Ok (aA s, aB s, aCT s, aD s))).
