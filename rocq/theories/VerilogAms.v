(** Verilog-AMS text of the device models: /repo/src/cbadc/circuit/models/summer.py, integrator.py and the templates
    /repo/src/cbadc/circuit/templates/verilog_ams/{summer,integrator}.vams.j2.
    Only the contribution statements are modelled (not module headers and declarations), as token lists; a float is printed as its exact value,
    with a minus sign in front when negative. *)
From Coq Require Import List Arith Bool ZArith Reals String.
From Flocq Require Import Core.
From Verif Require Import Base Netlist.
Import ListNotations.
Open Scope R_scope.

Inductive vtok := VNum (x : R) | VAcc (node : string) (ref : option string) | VPlus | VMinus | VTimes | VLp | VRp | VIdt.
(** str(float) *)
Definition print (x : R) : list vtok := if Rlt_bool x 0 then [VMinus; VNum (- x)] else [VNum x].
(** ['+', '-'][float(x) < 0] *)
Definition sign (x : R) : vtok := if Rlt_bool x 0 then VMinus else VPlus.

(** models/summer.py 9-32: the parameters of the model card *)
Record summer := mkSummer { in_offset : list R; in_gain : list R; out_offset : R; out_gain : R }.
Definition summer_init (input_offset input_gain : list R) (output_offset output_gain : R) : result summer :=
  if Nat.eqb (List.length input_gain) (List.length input_offset) then Ok (mkSummer input_offset input_gain output_offset output_gain) else Exn ValueError.
(** summer.py 55-70 and the loop body of summer.vams.j2; [magnitude] is abs(float(.)) *)
Definition summer_term (i : nat) (g o : R) : list vtok :=
  if Req_bool g 0 then []
  else [sign g; VNum (Rabs g); VTimes; VLp; VAcc (append "in_" (dec i)) (Some "vgnd"%string)] ++ (if Req_bool o 0 then [] else [sign o; VNum (Rabs o)]) ++ [VRp].
Fixpoint summer_terms (i : nat) (l : list (R * R)) : list vtok :=
  match l with [] => [] | (g, o) :: l => summer_term i g o ++ summer_terms (S i) l end.
(** summer.vams.j2, the right-hand side of V(out) <+ *)
Definition summer_vams (s : summer) : list vtok :=
  print (out_gain s) ++ [VTimes; VLp] ++ summer_terms 0 (combine (in_gain s) (in_offset s)) ++ [VRp; VPlus] ++ print (out_offset s).

(** integrator.py 45-64 and integrator.vams.j2; the magnitude of the input offset is float(.) without abs; the limits do not appear in the text *)
Definition integrator_vams (offset gain : R) : list vtok :=
  print gain ++ [VTimes; VIdt; VLp; VAcc "in" None] ++ (if Req_bool offset 0 then [] else sign offset :: print offset) ++ [VRp].
(** integrator.vams.j2, analog_initial_command *)
Definition integrator_ic (ic : R) : list vtok := [sign ic; VNum (Rabs ic)].
