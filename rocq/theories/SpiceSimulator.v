(** Model of the class [NGSpiceSimulator] (cbadc/circuit/simulator.py) around [parse] (Observe.v), and of what its copy in cbadc/simulator/simulator.py
    adds.  Writing the netlist file and running ngspice are external: an oracle gives the outcome of each run. *)
From Coq Require Import String List Arith Bool ZArith Reals.
From Flocq Require Import Core.
From Verif Require Import Base Netlist Circuits Observe.
Import ListNotations.
Open Scope R_scope.

(** a raw file: [Ltspice.get_data] by variable name; a missing name gives None, on which numpy raises TypeError *)
Definition raw : Type := string -> option (list R).
Definition column (f : raw) (nm : string) : result (list R) := match f nm with Some c => Ok c | None => Exn TypeError end.
(** what the simulator reads of a test bench: the names highlighted as control signals, the DC value of its source [Vdd], M and N of the analog system, the
    clock period *)
Record bench : Type := mkBench { b_hl : option (list string); b_dc : R; b_M : nat; b_N : nat; b_T : R }.

(** the flags and arrays of the object; [g_pos] is the position of the iterator over [control_vector], which exists once [parse] has run *)
Record ng : Type := mkNg { g_made : bool; g_ran : bool; g_parsed : bool; g_vec : list (list R); g_pos : option nat }.
(** outside: the number of runs of ngspice so far and the raw file on disk *)
Record outside : Type := mkOut { o_runs : nat; o_file : option raw }.

(** circuit/simulator.py 41-112 [__init__].  Python raises on a zero period, numpy on a negative size. *)
Definition ng_init (b : bench) (t_end : R) : result ng :=
  if Req_bool (b_T b) 0 then Exn ZeroDivisionError
  else let size := Zceil (t_end / b_T b) in
  if Z.ltb size 0 then Exn ValueError
  else Ok (mkNg false false false (repeat (repeat 0 (b_M b)) (Z.to_nat size)) None).

Definition vname (nm : string) : string := ("V(" ++ nm ++ ")")%string.
(** 176-202: the columns [parse] works on.  The values are divided by 2 vcm while being collected, which fails after the columns before are found; only the
    kind of the exception depends on that order. *)
Definition columns (b : bench) (f : raw) : result (list (list R)) :=
  match b_hl b with
  | None => Exn ValueError
  | Some names =>
      if Nat.ltb (length names) (b_M b) then Exn IndexError
      else if Req_bool (b_dc b * 2) 0 && negb (Nat.eqb (b_M b) 0) then Exn ArithmeticError
      else all_ok (map (fun nm => column f (vname nm)) (firstn (b_M b) names))
  end.
Definition parse_file (b : bench) (f : raw) (vec : list (list R)) : result (list (list R)) :=
  bind (column f (vname "CLK")) (fun clk => bind (columns b f) (fun cols => parse (b_dc b) (b_M b) vec clk (Some cols))).

Section Object.
Variable b : bench.
(** [make_netlist] renders templates and writes a file *)
Variable render : result unit.
(** the raw file the n-th run of ngspice writes, or the exception of [subprocess.run] *)
Variable prog : nat -> result raw.

(** every method returns its outcome and the state it leaves behind *)
Definition outcome (A : Type) : Type := (result A * ng * outside)%type.
(** 222-242 *)
Definition make_netlist (g : ng) (o : outside) : outcome unit :=
  match render with
  | Ok _ => (Ok tt, mkNg true (g_ran g) (g_parsed g) (g_vec g) (g_pos g), o)
  | Exn e => (Exn e, g, o)
  end.
(** 114-133 *)
Definition run (g : ng) (o : outside) : outcome unit :=
  match prog (o_runs o) with
  | Ok f => (Ok tt, mkNg (g_made g) true (g_parsed g) (g_vec g) (g_pos g), mkOut (S (o_runs o)) (Some f))
  | Exn e => (Exn e, g, mkOut (S (o_runs o)) (o_file o))
  end.
(** 176-215; a missing file is an error of the library.  [parse] of Observe.v raises only before it writes the first row. *)
Definition parse_raw (g : ng) (o : outside) : outcome unit :=
  match o_file o with
  | None => (Exn GenericException, g, o)
  | Some f =>
      match parse_file b f (g_vec g) with
      | Ok v => (Ok tt, mkNg (g_made g) (g_ran g) true v (Some 0%nat), o)
      | Exn e => (Exn e, g, o)
      end
  end.
Definition andthen (r : outcome unit) (k : ng -> outside -> outcome unit) : outcome unit :=
  match r with (Ok _, g, o) => k g o | (Exn e, g, o) => (Exn e, g, o) end.
(** 247-254 *)
Definition lazy_initialize (g : ng) (o : outside) : outcome unit :=
  if g_made g && g_ran g && g_parsed g then (Ok tt, g, o)
  else andthen (andthen (make_netlist g o) run) parse_raw.
(** 256-258; [iter] over an array yields its rows as they are when asked for *)
Definition next (g : ng) (o : outside) : outcome (list R) :=
  match lazy_initialize g o with
  | (Exn e, g, o) => (Exn e, g, o)
  | (Ok _, g, o) =>
      match g_pos g with
      | None => (Exn AttributeError, g, o)
      | Some p =>
          match nth_error (g_vec g) p with
          | Some r => (Ok r, mkNg (g_made g) (g_ran g) (g_parsed g) (g_vec g) (Some (S p)), o)
          | None => (Exn StopIteration, g, o)
          end
      end
  end.
(** [n] calls of [next] *)
Fixpoint nexts (n : nat) (g : ng) (o : outside) : list (result (list R)) * ng * outside :=
  match n with
  | O => ([], g, o)
  | S n => let '(r, g, o) := next g o in let '(rs, g, o) := nexts n g o in (r :: rs, g, o)
  end.
End Object.

(** ** cbadc/simulator/simulator.py: the same loop, which also samples the states *)
Record pstate2 : Type := mkP2 { q_en : bool; q_idx : nat; q_vec : list (list R); q_st : list (list R) }.
(** 226-244 *)
Definition pstep2 (vcm : R) (M N : nat) (st : pstate2) (s : R * list R) : result pstate2 :=
  let '(c, xs) := s in
  if negb (q_en st) && Rle_bool c vcm then
    if Nat.ltb (q_idx st) (length (q_vec st)) then
      match firstn M xs with
      | [] => Exn ValueError
      | cs => Ok (mkP2 true (S (q_idx st)) (upd (q_idx st) (map ternary cs) (q_vec st)) (upd (q_idx st) (firstn N (skipn M xs)) (q_st st)))
      end
    else Ok (mkP2 true (q_idx st) (q_vec st) (q_st st))
  else if q_en st && negb (Rle_bool c vcm) then Ok (mkP2 false (q_idx st) (q_vec st) (q_st st))
  else Ok st.
Fixpoint ploop2 (vcm : R) (M N : nat) (st : pstate2) (l : list (R * list R)) : result pstate2 :=
  match l with [] => Ok st | s :: l => bind (pstep2 vcm M N st s) (fun st => ploop2 vcm M N st l) end.
(** 213-221: the state columns, those of X0_P ... then those of X0_N ... *)
Definition state_names (N : nat) : list string := map (fun n => ("XAF." ++ labname (XX true n))%string) (seq 0 N) ++ map (fun n => ("XAF." ++ labname (XX false n))%string) (seq 0 N).
(** 189-246 *)
Definition parse_states (b : bench) (f : raw) (vec st : list (list R)) : result (list (list R) * list (list R)) :=
  bind (column f (vname "CLK")) (fun clk => bind (columns b f) (fun cols =>
    bind (all_ok (map (fun nm => column f (vname nm)) (state_names (b_N b)))) (fun sts =>
      bind (ploop2 (b_dc b) (b_M b) (b_N b) (mkP2 false 0 vec st) (zip_rows clk (map (map (fun x => x / (b_dc b * 2))) cols ++ sts)))
        (fun p => Ok (q_vec p, q_st p))))).
(** numpy.hstack: arrays of one dimension are joined end to end, others along the second; the numbers of dimensions must agree *)
Inductive arr : Type := A1 (l : list R) | A2 (l : list (list R)).
Definition hstack (x y : arr) : result arr :=
  match x, y with
  | A1 a, A1 b => Ok (A1 (a ++ b))
  | A2 a, A2 b => if Nat.eqb (length a) (length b) then Ok (A2 (map (fun '(r, s) => r ++ s) (combine a b))) else Exn ValueError
  | _, _ => Exn ValueError
  end.
(** 153-158 [get_sampled_state_trajectories], the array; 102-104 the time vector *)
Definition sampled_states (b : bench) (st : list (list R)) : result arr :=
  hstack (A1 (map (fun i => INR i * b_T b) (seq 0 (length st)))) (A2 st).

(** ** The test benches of testbench.py *)
(** 167-177 and 90: what the simulator reads of an emitted test bench; the value of [Vdd] is looked up in the circuit *)
Definition bench_of (kt : ckt) (M N : nat) (T : R) : bench :=
  mkBench (Some (map (fun m => labname (OUT true m)) (seq 0 M) ++ map (fun m => labname (OUT false m)) (seq 0 M)))
    (match find (fun c => match c_id c with CVdd => true | _ => false end) (k_comps kt) with Some (mkComp _ (KV v)) => v | _ => 0 end) M N T.
