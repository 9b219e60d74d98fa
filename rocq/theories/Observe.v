(** Model of [NGSpiceSimulator.parse] (cbadc/circuit/simulator.py).  Reals for doubles; the raw file is the columns [Ltspice.get_data] returns. *)
From Coq Require Import List Arith Bool Reals.
From Flocq Require Import Core.
From Verif Require Import Base.
Import ListNotations.
Open Scope R_scope.

(** 345-351 [_float_to_ternary] *)
Definition ternary (x : R) : R := if Rlt_bool (2 / 3) x then 1 else if Rlt_bool x (1 / 3) then 0 else 1 / 2.
(** the loop variables [trigger_enable], [index] and the array [control_vector] *)
Record pstate : Type := mkP { p_en : bool; p_idx : nat; p_vec : list (list R) }.
(** 206-213, the body for one element [s] of the zip.  [np.vectorize] raises on an empty row. *)
Definition pstep (vcm : R) (st : pstate) (s : R * list R) : result pstate :=
  let '(c, xs) := s in
  if negb (p_en st) && Rle_bool c vcm then
    if Nat.ltb (p_idx st) (length (p_vec st)) then
      match xs with
      | [] => Exn ValueError
      | _ => Ok (mkP true (S (p_idx st)) (upd (p_idx st) (map ternary xs) (p_vec st)))
      end
    else Ok (mkP true (p_idx st) (p_vec st))
  else if p_en st && negb (Rle_bool c vcm) then Ok (mkP false (p_idx st) (p_vec st))
  else Ok st.
Fixpoint ploop (vcm : R) (st : pstate) (l : list (R * list R)) : result pstate :=
  match l with [] => Ok st | s :: l => bind (pstep vcm st s) (fun st => ploop vcm st l) end.
(** [zip(clk, *cols)] *)
Definition zip_rows (clk : list R) (cols : list (list R)) : list (R * list R) :=
  map (fun i => (nth i clk 0, map (fun c => nth i c 0) cols)) (seq 0 (fold_right Nat.min (length clk) (map (@length R) cols))).
(** 179-215.  [hl] are the columns of the terminals highlighted as control signals, [M] the number of columns of [control_vector], [vec] its value before
    the call.  A zero [vcm] makes numpy divide by zero (ArithmeticError here). *)
Definition parse (vcm : R) (M : nat) (vec : list (list R)) (clk : list R) (hl : option (list (list R))) : result (list (list R)) :=
  match hl with
  | None => Exn ValueError
  | Some cols =>
      if Nat.ltb (length cols) M then Exn IndexError
      else if Req_bool (vcm * 2) 0 && negb (Nat.eqb M 0) then Exn ArithmeticError
      else bind (ploop vcm (mkP false 0 vec) (zip_rows clk (map (map (fun x => x / (vcm * 2))) (firstn M cols)))) (fun st => Ok (p_vec st))
  end.
