(** Model of AnalogSystem.symbolic_differential_equations (analog_system.py 322-357).
    A symbolic expression is a sum of coefficients times symbols; the symbols are the functions x_1(t), x_2(t), ... of _symbolic_x (273-274) and the given input.
    The matrices of sympy are those of the constructor (166-173), with the entries as real numbers. *)
From Coq Require Import List Arith Bool ZArith Reals.
From Verif Require Import Base LinAlg FirExtras AnalogSystem.
Import ListNotations.
Open Scope R_scope.

Inductive symbol : Type := X (k : nat) | Input.
Definition expr : Type := list (R * symbol).
(** Eq(x_of.diff(t), rhs) *)
Record equation : Type := mkEq { of : nat; rhs : expr }.

(** indexing of a sympy matrix: negative indices count from the end, others raise IndexError *)
Definition sp_col (m : nd2 Rring) (dim : Z) : result nat :=
  let j := (if dim <? 0 then dim + Z.of_nat (cols m) else dim)%Z in
  if ((0 <=? j) && (j <? Z.of_nat (cols m)))%Z then Ok (Z.to_nat j) else Exn IndexError.
(** 351-355: what is added to the sum for row n; with a control but without Gamma nothing *)
Definition drive (s : asys Rring) (input_signal : bool) (dim : Z) (n : nat) : result expr :=
  if input_signal then bind (sp_col (aB s) dim) (fun j => Ok [(ent (aB s) n j, Input)])
  else match aG s with None => Ok [] | Some g => bind (sp_col g dim) (fun j => Ok [(ent g n j, Input)]) end.
(** 348-356, one pass *)
Definition equation_row (s : asys Rring) (input_signal : bool) (dim : Z) (n : nat) : result equation :=
  bind (drive s input_signal dim n) (fun d => Ok (mkEq (n + 1) (map (fun nn => (ent (aA s) n nn, X (nn + 1))) (seq 0 (sN s)) ++ d))).
Fixpoint rows_loop (s : asys Rring) (input_signal : bool) (dim : Z) (ns : list nat) : result (list equation) :=
  match ns with
  | [] => Ok []
  | n :: ns => bind (equation_row s input_signal dim n) (fun e => bind (rows_loop s input_signal dim ns) (fun es => Ok (e :: es)))
  end.
(** 346-357: the equations and the function x_{n+1} of the last n of the loop (UnboundLocalError without states) *)
Definition symbolic_differential_equations (s : asys Rring) (dim : Z) (input_signal : bool) : result (list equation * symbol) :=
  bind (rows_loop s input_signal dim (seq 0 (sN s))) (fun es => match sN s with O => Exn GenericException | S n => Ok (es, X (n + 1)) end).
