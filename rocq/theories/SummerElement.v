(** The two summer components of /repo/src/cbadc/circuit/components/summer.py and their lines in an ngspice and in a Spectre netlist. *)
From Coq Require Import List Arith Bool ZArith Reals String Ascii.
From Verif Require Import Base Netlist Elements VerilogAms.
Import ListNotations.
Open Scope nat_scope.

(** A component: instance name, differential or not, the argument [number_of_inputs], the device model *)
Record selem := mkSelem { se_name : string; se_diff : bool; se_n : nat; se_model : summer }.

(** summer.py 8-39 [Summer.__init__]: name, terminals, then the model (models/summer.py 9-32) *)
Definition summer_element (name : string) (n : nat) (io ig : list R) (oo og : R) : result selem :=
  bind (element_name false "A"%char name) (fun nm => bind (summer_init io ig oo og) (fun s => Ok (mkSelem nm false n s))).
(** summer.py 73-110 [DifferentialSummer.__init__]; BaseException is [GenericException] *)
Definition diff_summer_element (name : string) (n : nat) (io ig : list R) (oo og : R) : result selem :=
  bind (element_name false "A"%char name) (fun nm =>
    if negb (Nat.eqb (List.length io) (List.length ig)) && negb (Nat.eqb (List.length io) n) then Exn GenericException
    else bind (summer_init io ig oo og) (fun s => Ok (mkSelem nm true n s))).
(** number of terminals: 24-31, 95-97 *)
Definition se_terms (e : selem) : nat := if se_diff e then 2 * se_n e + 1 else se_n e + 2.

(** [nodes]: the result of [_get_terminal_names], one node per terminal (circuit/__init__.py 233-245).
    summer.py 41-48 and 112-125: the differential inputs of the XSPICE line, and the output node *)
Definition ngspice_nodes (e : selem) (nodes : list string) : list (string * string) * string :=
  let k := List.length nodes in
  if se_diff e then (combine (firstn (se_n e) nodes) (firstn (se_n e) (skipn (se_n e) nodes)), nth (k - 1) nodes ""%string)
  else (map (fun nd => (nd, nth (k - 1) nodes ""%string)) (firstn (k - 2) nodes), nth (k - 2) nodes ""%string).
(** summer.py 61-69 and 138-146: the nodes on the Spectre line, in the order of the terminals *)
Definition spectre_nodes (e : selem) (nodes : list string) : list string := nodes.
(** models/summer.py 72-75: the ports of the Verilog-AMS module *)
Definition in_port (i : nat) : string := append "in_" (dec i).
Definition module_ports (s : summer) : list string := map in_port (seq 0 (List.length (in_gain s))) ++ ["out"; "vgnd"]%string.
