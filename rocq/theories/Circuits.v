(** Model of the circuit generators of /repo/src/cbadc/circuit: analog_frontend.py, opamp.py, ota.py, lc_tank.py, testbench.py and the
    components they instantiate.  A generator yields the components of a sub-circuit, in the order in which they are added, and the calls to
    [connect], in order; the emitted lines follow from both through the netlist model (Netlist.v).  Element values are real numbers: the
    decimal text they are printed as is not modelled. *)
From Coq Require Import String List Bool Arith Reals Lia.
From Flocq Require Import Core.
From Verif Require Import Base LinAlg FirExtras Netlist AnalogSystem.
Import ListNotations.
Open Scope R_scope.

(** ** Terminals and components *)
(** Names of terminals.  [true] is the P side.  [P0], [P1] are the two anonymous terminals of a two-terminal component. *)
Inductive lab : Type :=
| VSS | VDD | CLK | VCM | GND | IN (p : bool) (i : nat) | OUT (p : bool) (i : nat) | XX (p : bool) (i : nat) | VGND (p : bool) (i : nat) | SS (p : bool) (i : nat)
| HX | INP | INN | OUTP | OUTN | P0 | P1.
Inductive mat : Type := MA | MB | MG.
(** Components, by what their instance name is built from *)
Inductive cid : Type :=
| CDC | CRes (p : bool) (k : mat) (i j : nat) | CCap (p : bool) (i : nat) | COp (i : nat)
| CGm (i : nat) | COta (k : mat) (i j : nat) | CRdc (p : bool)
| CInd (p : bool) (i : nat) | CTank (i : nat) | CRin (p : bool) | CGmLc (p : bool) (i : nat)
| CGota | CBuf (p : bool) | CRx | CCx
| CVdd | CVss | CVclk | CVin (p : bool) (i : nat) | CObs | CAf.
Inductive term : Type := Own (l : lab) | Pin (c : cid) (l : lab).

Definition lab_dec (a b : lab) : {a = b} + {a <> b}.
Proof. decide equality; try apply Nat.eq_dec; apply Bool.bool_dec. Defined.
Definition cid_dec (a b : cid) : {a = b} + {a <> b}.
Proof. decide equality; try apply Nat.eq_dec; try apply Bool.bool_dec; decide equality. Defined.
Definition term_dec (a b : term) : {a = b} + {a <> b}.
Proof. decide equality; try apply lab_dec; apply cid_dec. Defined.

Definition side (p : bool) : string := if p then "_P" else "_N".
Open Scope string_scope.
(** the f-strings of the constructors [Terminal(...)]: analog_frontend.py 27-45, opamp.py 51-56, ota.py 47-53, components/opamp.py 31-44,
    components/ota.py 28-33, testbench.py 75-84 *)
Definition labname (l : lab) : string :=
  match l with
  | VSS => "VSS" | VDD => "VDD" | CLK => "CLK" | VCM => "VCM" | GND => "0"
  | IN p i => "IN" ++ dec i ++ side p
  | OUT p i => "OUT" ++ dec i ++ side p
  | XX p i => "X" ++ dec i ++ side p
  | VGND p i => "VGND_" ++ dec i ++ side p
  | SS p i => "S" ++ dec i ++ side p
  | HX => "X" | INP => "IN_P" | INN => "IN_N" | OUTP => "OUT_P" | OUTN => "OUT_N"
  | P0 => "" | P1 => ""
  end.
Definition pn (p : bool) : string := if p then "p" else "n".
Definition matname (k : mat) : string := match k with MA => "a" | MB => "b" | MG => "gamma" end.
(** the instance names, with the first letter the constructors prepend and after the lowering of all but the first letter
    (circuit/__init__.py 213) *)
Definition cname (c : cid) : string :=
  match c with
  | CDC => "Xdc"
  | CRes p k i j => "R" ++ pn p ++ "_" ++ matname k ++ "_" ++ dec i ++ "_" ++ dec j
  | CCap p i => "C" ++ pn p ++ "_" ++ dec i
  | COp i => "Xop_" ++ dec i
  | CGm i => "Xgm" ++ dec i
  | COta k i j => "G_" ++ matname k ++ "_" ++ dec i ++ "_" ++ dec j
  | CRdc p => "R" ++ pn p
  | CInd p i => "L" ++ pn p ++ "_" ++ dec i
  | CTank i => "C_" ++ dec i
  | CRin p => "Rin_" ++ pn p
  | CGmLc p i => "Ggm" ++ dec i ++ "_" ++ pn p
  | CGota => "Gota" | CBuf p => "Ebuf_" ++ pn p | CRx => "Rx" | CCx => "Cx"
  | CVdd => "Vdd" | CVss => "Vss" | CVclk => "Vclk" | CVin p i => "Vin_" ++ pn p ++ "_" ++ dec i
  | CObs => "Aobs" | CAf => "Xaf"
  end.
Close Scope string_scope.

(** ** Components and emitted lines *)
Inductive kind : Type :=
| KR (r : R) | KC (c : R) | KL (l : R) | KG (gm : R) | KE (gain : R)
| KV (dc : R) | KSin (offset ampl freq delay theta phase : R) | KPulse (v0 v1 delay rise fall width period : R)
| KX (sub : string) (pins : list lab).
Record comp : Type := mkComp { c_id : cid; c_kind : kind }.
(** a sub-circuit: its name, its terminals in order, its components and its connections *)
Record ckt : Type := mkCkt { k_name : string; k_terms : list lab; k_comps : list comp; k_calls : list (term * term) }.

(** A line of the ngspice netlist: instance name, nodes in the order of the template, value(s).
    [LG name n+ n- c+ c- gm], [LE name n+ n- c+ c- gain] as in SPICE. *)
Inductive line : Type :=
| LR (nm a b : string) (r : R) | LC (nm a b : string) (c : R) | LL (nm a b : string) (l : R)
| LG (nm op on ip im : string) (gm : R) | LE (nm op on ip im : string) (gain : R)
| LV (nm a b : string) (dc : R) | LSin (nm a b : string) (offset ampl freq delay theta phase : R)
| LPulse (nm a b : string) (v0 v1 delay rise fall width period : R)
| LX (nm : string) (nodes : list string) (sub : string).

Section Emit.
(** the names of anonymous terminals (a running number in the code, circuit/__init__.py 58-60) *)
Variable anon : cid -> lab -> string.
Definition tname (t : term) : string :=
  match t with
  | Own l => labname l
  | Pin c l => match l with P0 => anon c P0 | P1 => anon c P1 | _ => labname l end
  end.
(** [_internal_connections] after all calls.  The entry for Ground() made by the constructor (circuit/__init__.py 374) belongs to a Ground
    object that is in no call. *)
Definition nets (k : ckt) : sub term := connect_all term_dec tname sub0 (map (fun c => (c, ""%string)) (k_calls k)).
Definition node (k : ckt) (t : term) : string := net_name term_dec tname (nets k) t.

(** the templates templates/ngspice/{resistor,capacitor,inductor,ota,voltage_buffer,dc_voltage_source,sine_voltage_source,
    pulse_voltage_source,sub_circuit}.cir.j2 and the methods [get_ngspice] that fill them *)
Definition emit (k : ckt) (c : comp) : line :=
  let n l := node k (Pin (c_id c) l) in
  let nm := cname (c_id c) in
  match c_kind c with
  | KR r => LR nm (n P0) (n P1) r
  | KC v => LC nm (n P0) (n P1) v
  | KL v => LL nm (n P0) (n P1) v
  | KG gm => LG nm (n OUTP) (n OUTN) (n INP) (n INN) gm
  | KE g => LE nm (n OUTP) (n OUTN) (n INP) (n INN) g
  | KV v => LV nm (n P0) (n P1) v
  | KSin o a f d th ph => LSin nm (n P0) (n P1) o a f d th ph
  | KPulse v0 v1 d r f w p => LPulse nm (n P0) (n P1) v0 v1 d r f w p
  | KX s pins => LX nm (map n pins) s
  end.
Definition lines (k : ckt) : list line := map (emit k) (k_comps k).
(** sub_circuit_definition.cir.j2: the nodes on the .SUBCKT line *)
Definition formals (k : ckt) : list string := map (fun l => node k (Own l)) (k_terms k).

(** Expansion of one sub-circuit instance, as SPICE does it: nodes on the .SUBCKT line are replaced by the nodes of the instance; the circuits
    expanded here (the Gm cells) have no other nodes, any other would be prefixed by the instance name. *)
Fixpoint assoc (l : list (string * string)) (k : string) : option string :=
  match l with [] => None | (a, b) :: l => if String.eqb k a then Some b else assoc l k end.
Definition rename (inst : string) (fs acts : list string) (n : string) : string :=
  match assoc (combine fs acts) n with Some m => m | None => (inst ++ "." ++ n)%string end.
Definition rename_line (inst : string) (f : string -> string) (l : line) : line :=
  let g nm := (inst ++ "." ++ nm)%string in
  match l with
  | LR nm a b r => LR (g nm) (f a) (f b) r
  | LC nm a b c => LC (g nm) (f a) (f b) c
  | LL nm a b c => LL (g nm) (f a) (f b) c
  | LG nm a b c d x => LG (g nm) (f a) (f b) (f c) (f d) x
  | LE nm a b c d x => LE (g nm) (f a) (f b) (f c) (f d) x
  | LV nm a b x => LV (g nm) (f a) (f b) x
  | LSin nm a b x1 x2 x3 x4 x5 x6 => LSin (g nm) (f a) (f b) x1 x2 x3 x4 x5 x6
  | LPulse nm a b x1 x2 x3 x4 x5 x6 x7 => LPulse (g nm) (f a) (f b) x1 x2 x3 x4 x5 x6 x7
  | LX nm ns s => LX (g nm) (map f ns) s
  end.
Definition expand (defs : list ckt) (l : line) : list line :=
  match l with
  | LX nm ns s =>
      match find (fun d => String.eqb (k_name d) s) defs with
      | Some d => map (rename_line nm (rename nm (formals d) ns)) (lines d)
      | None => [l]
      end
  | _ => [l]
  end.
Definition flatten (defs : list ckt) (k : ckt) : list line := flat_map (expand defs) (lines k).
End Emit.

(** ** analog_frontend.py *)
(** 104-128: the connections of the digital control; its instance.  The contents of the digital control (comparators, flip-flops) are
    modelled in CircuitControl.v. *)
Definition own (l : lab) (c : cid) (m : lab) : term * term := (Own l, Pin c m).
Definition dc_pins (N L M : nat) : list lab :=
  [VSS; VDD; CLK; VCM] ++ map (XX true) (seq 0 N) ++ map (XX false) (seq 0 N) ++ map (IN true) (seq 0 L) ++ map (IN false) (seq 0 L)
  ++ map (SS true) (seq 0 M) ++ map (SS false) (seq 0 M).
Definition dc_comp (N L M : nat) : comp := mkComp CDC (KX "digital_control" (dc_pins N L M)).
Definition dc_calls (N L M : nat) : list (term * term) :=
  [own VSS CDC VSS; own VDD CDC VDD; own CLK CDC CLK; own VCM CDC VCM]
  ++ flat_map (fun n => [own (XX true n) CDC (XX true n); own (XX false n) CDC (XX false n)]) (seq 0 N)
  ++ flat_map (fun l => [own (IN true l) CDC (IN true l); own (IN false l) CDC (IN false l)]) (seq 0 L)
  ++ flat_map (fun m => [own (OUT true m) CDC (SS true m); own (OUT false m) CDC (SS false m)]) (seq 0 M).
(** 29-45: the terminals of the front end *)
Definition fe_terms (L M : nat) : list lab :=
  [VSS; VDD; CLK; VCM] ++ map (IN true) (seq 0 L) ++ map (IN false) (seq 0 L) ++ map (OUT true) (seq 0 M) ++ map (OUT false) (seq 0 M).

(** ** opamp.py *)
(** 136-160 [_generate_resistor_pair]: [src] the P and N terminals driving, row [n] the virtual grounds *)
Record rpair : Type := mkPair { rp_k : mat; rp_n : nat; rp_j : nat; rp_val : R }.
Definition src (k : mat) (p : bool) (j : nat) : lab := match k with MA => XX p j | MB => IN p j | MG => OUT p j end.
Definition pair_comps (C : R) (x : rpair) : list comp :=
  let r := 1 / (1 * C * Rabs (rp_val x)) in
  [mkComp (CRes true (rp_k x) (rp_n x) (rp_j x)) (KR r); mkComp (CRes false (rp_k x) (rp_n x) (rp_j x)) (KR r)].
Definition pair_calls (x : rpair) : list (term * term) :=
  let RP := CRes true (rp_k x) (rp_n x) (rp_j x) in
  let RN := CRes false (rp_k x) (rp_n x) (rp_j x) in
  if Rlt_bool (rp_val x) 0 then
    [own (src (rp_k x) true (rp_j x)) RP P0; own (src (rp_k x) false (rp_j x)) RN P0; own (VGND true (rp_n x)) RP P1; own (VGND false (rp_n x)) RN P1]
  else
    [own (src (rp_k x) true (rp_j x)) RP P0; own (src (rp_k x) false (rp_j x)) RN P0; own (VGND true (rp_n x)) RN P1; own (VGND false (rp_n x)) RP P1].
(** the loops over a matrix, skipping entries equal to 0.0 *)
Definition mat_pairs (k : mat) (N J : nat) (m : nat -> nat -> R) : list rpair :=
  flat_map (fun n => flat_map (fun j => if Req_bool (m n j) 0 then [] else [mkPair k n j (m n j)]) (seq 0 J)) (seq 0 N).
(** 162-203 [_generate_state_resistor_network] *)
Definition net_pairs (N L M : nat) (A B G : nat -> nat -> R) : list rpair :=
  mat_pairs MB N L B ++ mat_pairs MA N N A ++ mat_pairs MG N M G.
(** 76-134 [_generate_integrators] *)
Definition op_pins : list lab := [VDD; VSS; VCM; INP; INN; OUTP; OUTN].
Definition op_comp (n : nat) : comp := mkComp (COp n) (KX "opamp" op_pins).
Definition op_calls (n : nat) : list (term * term) :=
  [own (XX true n) (COp n) OUTP; own (XX false n) (COp n) OUTN; own (VGND true n) (COp n) INP; own (VGND false n) (COp n) INN;
   own VSS (COp n) VSS; own VDD (COp n) VDD; own VCM (COp n) VCM].
Definition cap_calls (n : nat) : list (term * term) :=
  [own (XX true n) (CCap true n) P1; own (VGND true n) (CCap true n) P0; own (XX false n) (CCap false n) P1; own (VGND false n) (CCap false n) P0].
(** 41-74 [OpAmpFrontend.__init__] *)
Definition opamp_frontend (S : asys Rring) (C : R) : result ckt :=
  match aG S with
  | None => Exn GenericException
  | Some G =>
      let N := sN S in let L := sL S in let M := sM S in
      let ps := net_pairs N L M (ent (aA S)) (ent (aB S)) (ent G) in
      Ok (mkCkt "opamp_analog_frontend" (fe_terms L M)
            (dc_comp N L M :: flat_map (pair_comps C) ps ++ map op_comp (seq 0 N)
             ++ map (fun n => mkComp (CCap true n) (KC C)) (seq 0 N) ++ map (fun n => mkComp (CCap false n) (KC C)) (seq 0 N))
            (dc_calls N L M ++ flat_map pair_calls ps ++ flat_map op_calls (seq 0 N) ++ flat_map cap_calls (seq 0 N)))
  end.

(** ** components/opamp.py *)
(** 15-75 [OpAmp.__init__] *)
Definition opamp (GBWP DC_gain C : R) : ckt :=
  let gm := 2 * PI * GBWP * C in
  mkCkt "opamp" op_pins
    [mkComp CGota (KG gm); mkComp (CBuf true) (KE 1); mkComp (CBuf false) (KE 1); mkComp CRx (KR (DC_gain / gm)); mkComp CCx (KC C)]
    [own VDD CGota VDD; own VSS CGota VSS; own VDD (CBuf true) VDD; own VSS (CBuf true) VSS; own VDD (CBuf false) VDD; own VSS (CBuf false) VSS;
     own INP CGota INP; own INN CGota INN; own OUTP (CBuf true) OUTP; own VCM (CBuf true) OUTN; own OUTN (CBuf false) OUTP; own VCM (CBuf false) OUTN;
     own HX (CBuf true) INP; own HX (CBuf false) INN; own HX CGota OUTP; own VCM (CBuf true) INN; own VCM (CBuf false) INP; own VCM CGota OUTN;
     own HX CRx P0; own HX CCx P0; own VCM CRx P1; own VCM CCx P1].

(** ** ota.py *)
(** 100-126 [_generate_ota_coupling] *)
Definition cell_src (k : mat) (p : bool) (j : nat) : lab := match k with MA => XX p j | MB => IN p j | MG => SS p j end.
Definition ota_calls (C : R) (x : rpair) : list (term * term) :=
  let g := COta (rp_k x) (rp_n x) (rp_j x) in
  [own VSS g VSS; own VDD g VDD; own (XX true (rp_n x)) g OUTP; own (XX false (rp_n x)) g OUTN]
  ++ if Rlt_bool (rp_val x * C) 0
     then [own (cell_src (rp_k x) true (rp_j x)) g INP; own (cell_src (rp_k x) false (rp_j x)) g INN]
     else [own (cell_src (rp_k x) false (rp_j x)) g INP; own (cell_src (rp_k x) true (rp_j x)) g INN].
Definition ota_comp (C : R) (x : rpair) : comp := mkComp (COta (rp_k x) (rp_n x) (rp_j x)) (KG (Rabs (rp_val x * C))).
Definition row_pairs (k : mat) (n J : nat) (m : nat -> nat -> R) : list rpair :=
  flat_map (fun j => if Req_bool (m n j) 0 then [] else [mkPair k n j (m n j)]) (seq 0 J).
Definition cell_pins (N L M : nat) : list lab :=
  [VSS; VDD; VCM] ++ map (XX true) (seq 0 N) ++ map (XX false) (seq 0 N) ++ map (IN true) (seq 0 L) ++ map (IN false) (seq 0 L)
  ++ map (SS true) (seq 0 M) ++ map (SS false) (seq 0 M).
Definition cell_name (n : nat) : string := ("multi_input_ota_" ++ dec n)%string.
(** [np.max(np.abs(B))]: 0 for the empty array, on which numpy raises instead *)
Definition max_abs (N L : nat) (B : nat -> nat -> R) : R := fold_right Rmax 0 (flat_map (fun n => map (fun l => Rabs (B n l)) (seq 0 L)) (seq 0 N)).
(** 16-98 [MultiInputOTA.__init__] of row [n]; [None] is np.inf.  A division by 0.0 raises in python. *)
Definition gm_cell (N L M : nat) (A B : nat -> nat -> R) (Go : option (nat -> nat -> R)) (C : R) (gain : option R) (n : nat) : result ckt :=
  match Go with
  | None => Exn ValueError
  | Some G =>
      let ps := row_pairs MA n N A ++ row_pairs MB n L B ++ row_pairs MG n M G in
      bind (match gain with
            | None => Ok ([], [])
            | Some g =>
                let d := max_abs N L B * C in
                if Req_bool d 0 then Exn ZeroDivisionError
                else let r := 2 * (g / d) in
                     Ok ([mkComp (CRdc true) (KR r); mkComp (CRdc false) (KR r)],
                         [own (XX true n) (CRdc true) P0; own (XX false n) (CRdc false) P1; own VCM (CRdc true) P1; own VCM (CRdc false) P0])
            end) (fun '(dcomps, dcalls) =>
      Ok (mkCkt (cell_name n) (cell_pins N L M) (map (ota_comp C) ps ++ dcomps) (flat_map (ota_calls C) ps ++ dcalls)))
  end.
(** 170-219 [GmCFrontend._generate_integrators], the part of row [n] *)
Definition gmc_comps (N L M : nat) (C : R) (n : nat) : list comp :=
  [mkComp (CGm n) (KX (cell_name n) (cell_pins N L M)); mkComp (CCap true n) (KC (2 * C)); mkComp (CCap false n) (KC (2 * C))].
Definition gmc_calls (N L M : nat) (n : nat) : list (term * term) :=
  [own VSS (CGm n) VSS; own VDD (CGm n) VDD; own VCM (CGm n) VCM]
  ++ flat_map (fun j => [own (XX true j) (CGm n) (XX true j); own (XX false j) (CGm n) (XX false j)]) (seq 0 N)
  ++ flat_map (fun l => [own (IN true l) (CGm n) (IN true l); own (IN false l) (CGm n) (IN false l)]) (seq 0 L)
  ++ flat_map (fun m => [own (OUT true m) (CGm n) (SS true m); own (OUT false m) (CGm n) (SS false m)]) (seq 0 M)
  ++ [own (XX true n) (CCap true n) P0; own VCM (CCap true n) P1; own (XX false n) (CCap false n) P1; own VCM (CCap false n) P0].
Fixpoint all_ok {X} (l : list (result X)) : result (list X) :=
  match l with
  | [] => Ok []
  | r :: l => bind r (fun x => bind (all_ok l) (fun xs => Ok (x :: xs)))
  end.
(** 150-168 [GmCFrontend.__init__]: the front end and its cells *)
Definition gmc_frontend (S : asys Rring) (C : R) (gain : option R) : result (ckt * list ckt) :=
  let N := sN S in let L := sL S in let M := sM S in
  bind (all_ok (map (gm_cell N L M (ent (aA S)) (ent (aB S)) (match aG S with Some G => Some (ent G) | None => None end) C gain) (seq 0 N))) (fun cells =>
  Ok (mkCkt "ota_frontend" (fe_terms L M) (dc_comp N L M :: flat_map (gmc_comps N L M C) (seq 0 N))
        (dc_calls N L M ++ flat_map (gmc_calls N L M) (seq 0 N)), cells)).

(** ** lc_tank.py *)
(** 175-190: the matrices A and B of order 2M-1 *)
Definition lc_A (M : nat) (L C Rin : R) (i j : nat) : R :=
  let eye a b : R := if Nat.eqb a b then 1 else 0 in
  if Nat.ltb i M then
    if Nat.ltb j M then (if Nat.eqb i 0 && Nat.eqb j 0 then - 1 / (Rin * C) else 0)
    else (- eye i (j - M)%nat + eye i (S (j - M))) / C
  else if Nat.ltb j M then (eye (i - M)%nat j - eye (S (i - M)) j) / (2 * L) else 0.
Definition lc_B (Rin C : R) (i : nat) : R := if Nat.eqb i 0 then 1 / (Rin * C) else 0.
(** 232-307: the netlist, [G m] being the entry (m,m) of Gamma of the global control *)
Definition lc_comps (M : nat) (L C Rin : R) (G : nat -> R) : list comp :=
  map (fun i => mkComp (CInd true i) (KL L)) (seq 0 (M - 1)) ++ map (fun i => mkComp (CInd false i) (KL L)) (seq 0 (M - 1))
  ++ map (fun i => mkComp (CTank i) (KC C)) (seq 0 M)
  ++ [mkComp (CRin true) (KR Rin); mkComp (CRin false) (KR Rin)]
  ++ map (fun m => mkComp (CGmLc true m) (KG (Rabs (G m * C / 2)))) (seq 0 M)
  ++ map (fun m => mkComp (CGmLc false m) (KG (Rabs (G m * C / 2)))) (seq 0 M).
Definition lc_calls (m : nat) : list (term * term) :=
  let gp := CGmLc true m in let gn := CGmLc false m in
  [own VDD gp VDD; own VSS gp VSS; own VDD gp OUTP; own (XX true m) gp OUTN; own (OUT true m) gp INP; own (OUT false m) gp INN;
   own VDD gn VDD; own VSS gn VSS; own VSS gn OUTN; own (XX false m) gn OUTP; own (OUT true m) gn INP; own (OUT false m) gn INN;
   own (XX true m) (CTank m) P0; own (XX false m) (CTank m) P1]
  ++ match m with
     | O => [own (XX true 0) (CRin true) P1; own (XX false 0) (CRin false) P1; own (IN true 0) (CRin true) P0; own (IN false 0) (CRin false) P0]
     | S i => [own (XX true i) (CInd true i) P0; own (XX true m) (CInd true i) P1; own (XX false i) (CInd false i) P0; own (XX false m) (CInd false i) P1]
     end.
Definition lc_frontend (M : nat) (L C Rin : R) (G : nat -> R) : ckt :=
  mkCkt "lc_frontend" (fe_terms 1 M) (dc_comp M 1 M :: lc_comps M L C Rin G) (dc_calls M 1 M ++ flat_map lc_calls (seq 0 M)).

(** ** components/sources.py and testbench.py *)
(** jinja2 rendering of a template that prints variables: an undefined variable renders as the empty string, here [None] *)
Definition var (ctx : list (string * R)) (x : string) : option R :=
  match find (fun '(y, _) => String.eqb x y) ctx with Some (_, r) => Some r | None => None end.
(** sources.py 72-80: the attributes of [PulseVoltageSource] *)
Record pulse_src : Type := mkPulse { pu_v0 : R; pu_v1 : R; pu_delay : R; pu_rise : R; pu_width : R; pu_fall : R; pu_period : R }.
Definition pulse_init (v0 v1 period rise fall : R) : pulse_src := mkPulse v0 v1 (1 / 2 * period - rise) rise (period * (1 / 2) - fall) fall period.
(** 82-95 the context passed by [get_ngspice]; ngspice/pulse_voltage_source.cir.j2: the arguments of PULSE in order *)
Definition pulse_ng (p : pulse_src) : list (option R) :=
  map (var [("val0"%string, pu_v0 p); ("val1"%string, pu_v1 p); ("delay_time"%string, 0); ("pulse_width"%string, pu_width p); ("period"%string, pu_period p); ("rise_time"%string, pu_rise p); ("fall_time"%string, pu_fall p)])
    ["val0"; "val1"; "delay_time"; "rise_time"; "fall_time"; "pulse_width"; "period"]%string.
(** 97-108 the context passed by [get_spectre]; spectre/pulse_voltage_source.cir.j2: the named parameters of the source *)
Definition pulse_spectre (p : pulse_src) : list (string * option R) :=
  map (fun '(l, x) => (l, var [("val0"%string, pu_v0 p); ("val1"%string, pu_v1 p); ("period"%string, pu_width p); ("rise"%string, pu_rise p); ("fall"%string, pu_fall p)] x))
    [("val0", "val0"); ("val1", "val1"); ("period", "period"); ("delay", "delay_time"); ("rise", "rise_time"); ("fall", "fall_time"); ("width", "pulse_width"); ("phase", "phase")]%string.
(** the component emitted by ngspice *)
Definition pulse (v0 v1 period rise fall : R) : kind :=
  match pulse_ng (pulse_init v0 v1 period rise fall) with
  | [Some a; Some b; Some td; Some tr; Some tf; Some pw; Some per] => KPulse a b td tr tf pw per
  | _ => KPulse 0 0 0 0 0 0 0
  end.
(** a sinusoidal input signal, analog_signal/sinusoidal.py *)
Record sine : Type := mkSine { s_ampl : R; s_freq : R; s_phase : R; s_offset : R }.
(** sinusoidal.py 86-102 [evaluate] *)
Definition sine_eval (s : sine) (t : R) : R := s_ampl s * sin (2 * PI * s_freq s * t + s_phase s) + s_offset s.
(** testbench.py 88-150 [TestBench.__init__]; [tt] is clock.tt *)
Definition vin (s : sine) : kind := KSin (s_offset s) (s_ampl s / 2) (s_freq s) 0 0 (s_phase s).
Definition tb_comps (vdd T tt : R) (sg : list sine) : list comp :=
  [mkComp CVdd (KV (vdd / 2)); mkComp CVss (KV (vdd / 2)); mkComp CVclk (pulse 0 vdd T tt tt)]
  ++ flat_map (fun '(l, s) => [mkComp (CVin true l) (vin s); mkComp (CVin false l) (vin s)]) (combine (seq 0 (length sg)) sg).
Definition tb_calls (L M : nat) : list (term * term) :=
  [own VCM CVdd P1; own VDD CVdd P0; own GND CVss P1; own VCM CVss P0; own CLK CVclk P0; own GND CVclk P1]
  ++ flat_map (fun l => [own (IN true l) (CVin true l) P0; own (IN false l) (CVin false l) P1; own VCM (CVin true l) P1; own VCM (CVin false l) P0]) (seq 0 L)
  ++ [own CLK CObs CLK].
(** 340-367 [OpAmpTestBench.__init__]: the connections of the front end and of the observer, whose terminal 1+m is called [SS true m] here *)
Definition af_calls (L M : nat) : list (term * term) :=
  [own GND CAf VSS; own VDD CAf VDD; own CLK CAf CLK; own VCM CAf VCM]
  ++ flat_map (fun l => [own (IN true l) CAf (IN true l); own (IN false l) CAf (IN false l)]) (seq 0 L)
  ++ flat_map (fun m => [own (OUT true m) CObs (SS true m); own (OUT true m) CAf (OUT true m); own (OUT false m) CAf (OUT false m)]) (seq 0 M).
(** A front end with more inputs than there are signals asks for terminals that do not exist. *)
Definition testbench (vdd T tt : R) (sg : list sine) (L M : nat) (fe : string) : result ckt :=
  if Nat.ltb (length sg) L then Exn ValueError
  else Ok (mkCkt "testbench" [] (tb_comps vdd T tt sg ++ [mkComp CAf (KX fe (fe_terms L M))]) (tb_calls (length sg) M ++ af_calls L M)).
