(** Model of the circuits of the digital controls, /repo/src/cbadc/circuit/digital_control.py, and of the XSPICE components they instantiate,
    components/{comparator,summer,analog_delay,reference_source}.py.  As in Circuits.v a generator yields the components of a sub-circuit in the
    order in which they are added and the calls to [connect] in order, the emitted lines follow through the netlist model (Netlist.v).
    Parameters are real numbers: the decimal text they are printed as is not modelled. *)
From Coq Require Import String List Bool Arith Reals Lia.
From Verif Require Import Base LinAlg FirExtras Netlist AnalogSystem Circuits.
Import ListNotations.
Open Scope R_scope.

(** ** Terminals and components *)
(** Names of terminals: those of Circuits.v and those of the XSPICE components; [LA i] is the anonymous terminal at position [i] *)
Inductive dlab : Type :=
| B (l : lab) | LIn | LOut | LSet | LRes | LFP | LFN | LClkd | LStilde | LCntrl | LClkm (m : nat) | LRs (m : nat) | LSrc (i : nat) | LA (i : nat).
(** Components, by what their instance name is built from *)
Inductive dcid : Type :=
| Mic (m : nat) | Dly (m : nat) | Dc | Sum | Cmp | ClkAdc | InAdc | Dff | Dac | DacS (p : bool) | DffM (m : nat) | DacM (p : bool) (m : nat) | Src.
Inductive dterm : Type := DOwn (l : dlab) | DPin (c : dcid) (l : dlab).
Definition dlab_dec (a b : dlab) : {a = b} + {a <> b}.
Proof. decide equality; try apply Nat.eq_dec; apply lab_dec. Defined.
Definition dcid_dec (a b : dcid) : {a = b} + {a <> b}.
Proof. decide equality; try apply Nat.eq_dec; apply Bool.bool_dec. Defined.
Definition dterm_dec (a b : dterm) : {a = b} + {a <> b}.
Proof. decide equality; try apply dlab_dec; apply dcid_dec. Defined.

Open Scope string_scope.
(** the f-strings of the constructors [Terminal(...)]: digital_control.py 52-58, 159, 351, 530, comparator.py 38-42, 100, 133-140, 190, 288-294, 348,
    analog_delay.py 30-34, reference_source.py 32 *)
Definition dlabname (l : dlab) : string :=
  match l with
  | B l => labname l
  | LIn => "IN" | LOut => "OUT" | LSet => "SET" | LRes => "RES" | LFP => "F_OUT_P" | LFN => "F_OUT_N" | LClkd => "CLKD" | LStilde => "STILDE"
  | LCntrl => "CNTRL" | LClkm m => "CLK_" ++ dec m | LRs m => "RS_" ++ dec m | LSrc i => "S_" ++ dec i | LA _ => ""
  end.
(** the instance names, all but the first letter lowered (circuit/__init__.py 213) *)
Definition dcname (c : dcid) : string :=
  match c with
  | Mic m => "Xmic_" ++ dec m | Dly m => "A_delay_" ++ dec m | Dc => "Xdc" | Sum => "As" | Cmp => "Xcomp" | ClkAdc => "Aclk_adc" | InAdc => "Ain_adc"
  | Dff => "Adffp" | Dac => "Adac" | DacS p => "Adac_" ++ pn p | DffM m => "Adffp_" ++ dec m | DacM p m => "Adac_" ++ pn p ++ "_" ++ dec m | Src => "Ars"
  end.
Close Scope string_scope.

(** Parameters of the device models: models/summer.py, models/comparator.py, models/analog_delay.py, models/reference_source.py.  The reference
    source refers to a file that the constructor writes when no file of that name exists (reference_source.py 46-73); the name contains the hash of
    the object, the file is taken to be written: row [j] holds the time [j * step] and the states of the sources from that time on. *)
Inductive dpar : Type :=
| PSum (offsets gains : list R) (out_offset out_gain : R)
| PAdc (in_low in_high rise_delay fall_delay : R)
| PDff (clk_delay set_delay reset_delay ic rise_delay fall_delay : R)
| PDac (out_low out_high out_undef input_load t_rise t_fall : R)
| PDly (delay : R)
| PSrc (step : R) (table : nat -> nat -> bool).
Notation dmod := (dmodel dpar).

(** the XSPICE components: a summer of [n] differential inputs, ADC bridges with and without reference terminal, flip-flop, DAC bridge, delay,
    sources *)
Inductive leaf : Type := KSum (n : nat) | KAdcRel | KAdcAbs | KDff | KDac | KDly | KSrc (n : nat).
Inductive dckt : Type := Dckt (name : string) (terms : list dlab) (comps : list dcomp) (calls : list (dterm * dterm))
with dcomp : Type := Leaf (id : dcid) (k : leaf) (m : dmod) | Inst (id : dcid) (d : dckt).
Definition d_name (k : dckt) : string := match k with Dckt n _ _ _ => n end.
Definition d_terms (k : dckt) : list dlab := match k with Dckt _ t _ _ => t end.
Definition d_comps (k : dckt) : list dcomp := match k with Dckt _ _ c _ => c end.
Definition d_calls (k : dckt) : list (dterm * dterm) := match k with Dckt _ _ _ c => c end.

(** Lines of the netlist: instance name, nodes as the methods [get_ngspice] order and bracket them (comparator.py 55-72, 76-80, 116-128, 155-166,
    summer.py 113-140, analog_delay.py 47-57, reference_source.py 75-91, circuit/__init__.py 377-388), name of the model or sub-circuit. *)
Inductive dline : Type :=
| DSum (nm : string) (inputs : list (string * string)) (out : string) (md : string)
| DAdc (nm : string) (pos : string) (neg : option string) (out : string) (md : string)
| DDff (nm d clk set res q qn : string) (md : string)
| DDac (nm inp out : string) (md : string)
| DDly (nm inp out cntrl : string) (md : string)
| DSrc (nm : string) (outs : list string) (md : string)
| DX (nm : string) (nodes : list string) (sub : string).

Section Emit.
(** the names of anonymous terminals (a running number in the code, circuit/__init__.py 58-60) *)
Variable anon : dcid -> nat -> string.
Definition dtname (t : dterm) : string :=
  match t with
  | DOwn l => dlabname l
  | DPin c (LA i) => anon c i
  | DPin c l => dlabname l
  end.
Definition dnets (k : dckt) : sub dterm := connect_all dterm_dec dtname sub0 (map (fun c => (c, ""%string)) (d_calls k)).
Definition dnode (k : dckt) (t : dterm) : string := net_name dterm_dec dtname (dnets k) t.

(** summer.py 113-127: [zip(named_nodes[:n], named_nodes[n:2n])] and the last node; templates/ngspice/xspice.cir.j2, sub_circuit.cir.j2 *)
Definition demit (k : dckt) (c : dcomp) : dline :=
  match c with
  | Leaf id lf m =>
      let n l := dnode k (DPin id l) in
      let nm := dcname id in
      let md := m_name m in
      match lf with
      | KSum q =>
          let ns := map (fun i => n (LA i)) (seq 0 (2 * q + 1)) in
          DSum nm (combine (firstn q ns) (firstn q (skipn q ns))) (last ns ""%string) md
      | KAdcRel => DAdc nm (n LIn) (Some (n (B VCM))) (n LOut) md
      | KAdcAbs => DAdc nm (n LIn) None (n LOut) md
      | KDff => DDff nm (n LIn) (n (B CLK)) (n LSet) (n LRes) (n LFP) (n LFN) md
      | KDac => DDac nm (n LIn) (n LOut) md
      | KDly => DDly nm (n LIn) (n LOut) (n LCntrl) md
      | KSrc q => DSrc nm (map (fun i => n (LSrc i)) (seq 0 q)) md
      end
  | Inst id d => DX (dcname id) (map (fun l => dnode k (DPin id l)) (d_terms d)) (d_name d)
  end.
Definition dlines (k : dckt) : list dline := map (demit k) (d_comps k).
(** sub_circuit_definition.cir.j2: the nodes on the .SUBCKT line *)
Definition dformals (k : dckt) : list string := map (fun l => dnode k (DOwn l)) (d_terms k).
End Emit.

(** the hierarchy as an element tree (Netlist.v), of which the model cards are collected (circuit/__init__.py 465-472) *)
Fixpoint dtree (k : dckt) : tree dpar :=
  match k with
  | Dckt nm _ comps _ => Subckt nm [] ""%string (map (fun c => match c with Leaf _ _ m => Comp (Some m) | Inst _ d => dtree d end) comps)
  end.
Definition dcards (k : dckt) : list dmod := model_set (dtree k).
(** all sub-circuits in the order of [get_sub_circuit_definitions] (414-441); equal texts, which the code emits once, are kept *)
Fixpoint ddefs (k : dckt) : list dckt :=
  match k with
  | Dckt _ _ comps _ => k :: flat_map (fun c => match c with Leaf _ _ _ => [] | Inst _ d => ddefs d end) comps
  end.

(** ** components/comparator.py *)
(** 21-53, 83-114, 131-153: components with the models of models/comparator.py; the names of the models are lower case already *)
Definition adc_model (il ih rise fall : R) : dmod := mkDM "adc_bridge" "adc" (PAdc il ih rise fall).
Definition dff_model (clk set res ic rise fall : R) : dmod := mkDM "d_dff" "dflip" (PDff clk set res ic rise fall).
Definition dac_model (ol oh undef load rise fall : R) : dmod := mkDM "dac_bridge" "dac" (PDac ol oh undef load rise fall).
Definition fs : R := / 10 ^ 15.

(** 263-361 [DifferentialOutputClockedComparator]; the parameters clk_offset and t_tolerance are not used *)
Definition diff_comparator (name : string) (il ih ol oh undef load clk trise tfall rdelay fdelay set res : R) : dckt :=
  Dckt name [B CLK; LIn; B OUTP; B OUTN; B VCM]
    [Leaf ClkAdc KAdcRel (adc_model il ih rdelay fdelay); Leaf InAdc KAdcRel (adc_model il ih rdelay fdelay);
     Leaf Dff KDff (dff_model clk set res 1 rdelay fdelay);
     Leaf (DacS true) KDac (dac_model ol oh undef load trise tfall); Leaf (DacS false) KDac (dac_model ol oh undef load trise tfall)]
    [(DOwn (B CLK), DPin ClkAdc LIn); (DOwn (B VCM), DPin ClkAdc (B VCM)); (DOwn LIn, DPin InAdc LIn); (DOwn (B VCM), DPin InAdc (B VCM));
     (DOwn (B OUTP), DPin (DacS true) LOut); (DOwn (B OUTN), DPin (DacS false) LOut); (DOwn LClkd, DPin Dff (B CLK)); (DOwn LClkd, DPin ClkAdc LOut);
     (DPin InAdc LOut, DPin Dff LIn); (DPin Dff LFP, DPin (DacS true) LIn); (DPin Dff LFN, DPin (DacS false) LIn)].
(** 169-260 [ClockedComparator], single ended *)
Definition comparator (name : string) (il ih ol oh undef load clk trise tfall rdelay fdelay set res : R) : dckt :=
  Dckt name [B CLK; B VCM; LIn; LOut]
    [Leaf ClkAdc KAdcRel (adc_model il ih rdelay fdelay); Leaf InAdc KAdcRel (adc_model il ih rdelay fdelay);
     Leaf Dff KDff (dff_model clk set res 1 rdelay fdelay); Leaf Dac KDac (dac_model ol oh undef load trise tfall)]
    [(DOwn (B CLK), DPin ClkAdc LIn); (DOwn (B VCM), DPin ClkAdc (B VCM)); (DOwn LIn, DPin InAdc LIn); (DOwn (B VCM), DPin InAdc (B VCM));
     (DOwn LOut, DPin Dac LOut); (DOwn LClkd, DPin Dff (B CLK)); (DOwn LClkd, DPin ClkAdc LOut);
     (DPin InAdc LOut, DPin Dff LIn); (DPin Dff LFP, DPin Dac LIn)].

(** ** digital_control.py *)
Definition dpins (N L M : nat) : list dlab := map B (dc_pins N L M).
Definition down (l : dlab) (c : dcid) (m : dlab) : dterm * dterm := (DOwn l, DPin c m).
(** 239-290 the connections of the summer: positions of its terminals as the code computes them, [As[-1]] being the last of 2(N+L+M)+1 *)
Definition sum_calls (N L M : nat) : list (dterm * dterm) :=
  down LStilde Sum (LA (2 * (N + L + M)))
  :: flat_map (fun n => [down (B (XX true n)) Sum (LA n); down (B (XX false n)) Sum (LA (N + L + M + n))]) (seq 0 N)
  ++ flat_map (fun l => [down (B (IN true l)) Sum (LA (N + l)); down (B (IN false l)) Sum (LA (2 * N + L + M + l))]) (seq 0 L)
  ++ flat_map (fun m => [down (B (SS true m)) Sum (LA (N + L + m)); down (B (SS false m)) Sum (LA (2 * N + 2 * L + M + m))]) (seq 0 M).
(** 184-218 [_generate_comparators] *)
Definition cmp_calls (m : nat) : list (dterm * dterm) :=
  [down (B CLK) Cmp (B CLK); down LStilde Cmp LIn; down (B (SS true m)) Cmp (B OUTP); down (B (SS false m)) Cmp (B OUTN); down (B VCM) Cmp (B VCM)].
Definition row (m : nd2 Rring) (i : nat) : list R := map (ent m i) (seq 0 (cols m)).
Definition mic_name (m : nat) : string := ("multi_input_comparator_" ++ dec m)%string.
(** 220-237: the model of the summer of row [mt] *)
Definition sum_model (N L M mt : nat) (Gtil Bt At : nd2 Rring) (oh ol : R) : dmod :=
  mkDM "summer" ("sum_" ++ dec mt)%string
    (PSum (repeat 0 (N + L + M)) (row Gtil mt ++ row Bt mt ++ row At mt) ((oh - ol) / 2 + ol) 1).
Definition cmp_ckt (T ih il oh ol : R) : dckt :=
  diff_comparator "clocked_comparator" il ih ol oh ((oh - ol) / 2) (/ 10 ^ 12) 0 (T / 100) (T / 100) (T / 1000) (T / 1000) fs fs.
(** 118-237 [MultiInputComparator] of control [m], row [mt] of the observation matrices.  The rows of B_tilde and A_tilde are as many as those of
    Gamma_tildeT (the constructor of the analog system checks it); [T] is the clock period of the nominal control. *)
Definition mic_ckt (S : asys Rring) (T : R) (m mt : nat) (ih il oh ol : R) : result dckt :=
  match aGt S with
  | None => Exn TypeError
  | Some Gtil =>
      if Nat.ltb mt (rows Gtil) then
        Ok (Dckt (mic_name m) (dpins (sN S) (sL S) (sM S))
              [Leaf Sum (KSum (sN S + sL S + sM S)) (sum_model (sN S) (sL S) (sM S) mt Gtil (aBt S) (aAt S) oh ol); Inst Cmp (cmp_ckt T ih il oh ol)]
              (sum_calls (sN S) (sL S) (sM S) ++ cmp_calls m))
      else Exn IndexError
  end.
(** 97-115: the connections of comparator [m] to the states, the inputs and the control signals *)
Definition bus_calls (N L M : nat) (c : dcid) : list (dterm * dterm) :=
  flat_map (fun n => [down (B (XX true n)) c (B (XX true n)); down (B (XX false n)) c (B (XX false n))]) (seq 0 N)
  ++ flat_map (fun l => [down (B (IN true l)) c (B (IN true l)); down (B (IN false l)) c (B (IN false l))]) (seq 0 L)
  ++ flat_map (fun m => [down (B (SS true m)) c (B (SS true m)); down (B (SS false m)) c (B (SS false m))]) (seq 0 M).
Definition mic_calls (N L M m : nat) : list (dterm * dterm) :=
  [down (B CLK) (Mic m) (B CLK); down (B VSS) (Mic m) (B VSS); down (B VDD) (Mic m) (B VDD); down (B VCM) (Mic m) (B VCM)] ++ bus_calls N L M (Mic m).
(** the comparators [m = off, ..., M-1] *)
Definition mics (S : asys Rring) (T ih il oh ol : R) (off : nat) : result (list dckt) :=
  all_ok (map (fun m => mic_ckt S T m (m - off) ih il oh ol) (seq off (sM S - off))).
Definition mic_insts (off : nat) (l : list dckt) : list dcomp := map (fun '(m, d) => Inst (Mic m) d) (combine (seq off (length l)) l).
(** 14-115 [DigitalControl]: the loop over M_tilde indexes the list of the comparators' names *)
Definition control_ckt (S : asys Rring) (T ih il oh ol : R) (off : nat) : result dckt :=
  bind (mics S T ih il oh ol off) (fun l =>
  if Nat.ltb (length l) (sMt S) then Exn IndexError
  else Ok (Dckt "digital_control" (dpins (sN S) (sL S) (sM S)) (mic_insts off l)
             (flat_map (fun mt => mic_calls (sN S) (sL S) (sM S) (off + mt)) (seq 0 (sMt S))))).

(** 568-690 [MultiPhaseDigitalControl]; [t0] are the attributes t0 of [digital_control._impulse_response] *)
Definition dly_calls (N L M m : nat) : list (dterm * dterm) :=
  [down (B CLK) (Dly m) LIn; down (B VDD) (Dly m) LCntrl; down (LClkm m) (Dly m) LOut; down (LClkm m) (Mic m) (B CLK);
   down (B VSS) (Mic m) (B VSS); down (B VDD) (Mic m) (B VDD); down (B VCM) (Mic m) (B VCM)] ++ bus_calls N L M (Mic m).
Definition dly_model (m : nat) (d : R) : dmod := mkDM "delay" ("analog_delay_" ++ dec m)%string (PDly d).
Definition dlys (t0 : list R) (off M : nat) : result (list dcomp) :=
  all_ok (map (fun m => match nth_error t0 m with Some d => Ok (Leaf (Dly m) KDly (dly_model m d)) | None => Exn IndexError end) (seq off (M - off))).
Definition phase_ckt (S : asys Rring) (T : R) (t0 : list R) (ih il oh ol : R) (off : nat) : result dckt :=
  bind (mics S T ih il oh ol off) (fun l =>
  bind (dlys t0 off (sM S)) (fun ds =>
  if Nat.ltb (length l) (sMt S) then Exn IndexError
  else Ok (Dckt "digital_control" (dpins (sN S) (sL S) (sM S)) (mic_insts off l ++ ds)
             (flat_map (fun mt => dly_calls (sN S) (sL S) (sM S) (off + mt)) (seq 0 (sMt S)))))).

(** 293-565 [DitherControl] *)
(** timing parameters of 346-354 *)
Record timing : Type := mkTiming { t_clk : R; t_rise : R; t_fall : R; t_rdelay : R; t_fdelay : R; t_set : R; t_res : R; t_load : R }.
(** the nominal dither control: number of random controls, clock period, whether the deterministic control is multi-phase (one of its t0 is
    positive) and its t0, and the random sequence *)
Record dither : Type := mkDither { d_K : nat; d_T : R; d_multi : bool; d_t0 : list R; d_seq : nat -> nat -> bool }.
(** 533-565 *)
Definition xdc_calls (N L M : nat) : list (dterm * dterm) :=
  [down (B VSS) Dc (B VSS); down (B VDD) Dc (B VDD); down (B CLK) Dc (B CLK); down (B VCM) Dc (B VCM)] ++ bus_calls N L M Dc.
(** 479-490 *)
Definition rnd_calls (m : nat) : list (dterm * dterm) :=
  [down (LRs m) Src (LSrc m); down (LRs m) (DffM m) LIn; (DPin ClkAdc LOut, DPin (DffM m) (B CLK)); (DPin (DffM m) LFP, DPin (DacM true m) LIn);
   (DPin (DffM m) LFN, DPin (DacM false m) LIn); down (B (SS true m)) (DacM true m) LOut; down (B (SS false m)) (DacM false m) LOut].
Definition src_model (T : R) (sq : nat -> nat -> bool) : dmod := mkDM "d_source" "r_source" (PSrc T sq).
(** A dither control with more random controls than the system has controls asks for terminals S that do not exist. *)
Definition dither_ckt (S : asys Rring) (c : dither) (ih il oh ol : R) (w : timing) : result dckt :=
  let N := sN S in let L := sL S in let M := sM S in let K := d_K c in
  bind (if d_multi c then phase_ckt S (d_T c) (d_t0 c) ih il oh ol K else control_ckt S (d_T c) ih il oh ol K) (fun dc =>
  if Nat.ltb M K then Exn ValueError
  else Ok (Dckt "dither_control" (dpins N L M)
             (Inst Dc dc :: Leaf Src (KSrc K) (src_model (d_T c) (d_seq c)) :: Leaf ClkAdc KAdcAbs (adc_model il ih (t_rdelay w) (t_fdelay w))
              :: map (fun m => Leaf (DffM m) KDff (dff_model (t_clk w) (t_set w) (t_res w) 1 (t_rdelay w) (t_fdelay w))) (seq 0 K)
              ++ map (fun m => Leaf (DacM true m) KDac (dac_model ol oh ((oh + ol) / 2) (t_load w) (t_rise w) (t_fall w))) (seq 0 K)
              ++ map (fun m => Leaf (DacM false m) KDac (dac_model ol oh ((oh + ol) / 2) (t_load w) (t_rise w) (t_fall w))) (seq 0 K))
             (xdc_calls N L M ++ down (B CLK) ClkAdc LIn :: flat_map rnd_calls (seq 0 K)))).
