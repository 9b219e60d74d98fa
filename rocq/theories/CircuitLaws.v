(** Circuit laws, stated on the lines of a netlist independently of how it was generated: the current each element drives into a node, and
    Kirchhoff's current law.  [v] are the node voltages at some instant, [dv] their time derivatives, [il] the inductor currents (from the
    first to the second node of the line). *)
From Coq Require Import String List Bool Reals.
From Flocq Require Import Core.
From Verif Require Import Circuits.
Import ListNotations.
Open Scope R_scope.

Definition at_node (k a : string) (i : R) : R := if String.eqb k a then i else 0.

(** The current into node [k].  A voltage-controlled current source [G n+ n- c+ c- gm] drives gm*(v(c+)-v(c-)) from n+ through itself to n-, as in
    SPICE.  Control inputs draw no current.  Voltage sources and sub-circuit instances are left out: Kirchhoff's law is only used at nodes they do
    not drive. *)
Definition inflow (v dv il : string -> R) (k : string) (l : line) : R :=
  match l with
  | LR _ a b r => at_node k a ((v b - v a) / r) + at_node k b ((v a - v b) / r)
  | LC _ a b c => at_node k a (c * (dv b - dv a)) + at_node k b (c * (dv a - dv b))
  | LL nm a b _ => at_node k a (- il nm) + at_node k b (il nm)
  | LG _ op on ip im g => at_node k op (- (g * (v ip - v im))) + at_node k on (g * (v ip - v im))
  | _ => 0
  end.
Definition total (f : line -> R) (ls : list line) : R := fold_right Rplus 0 (map f ls).
Definition kcl (v dv il : string -> R) (ls : list line) (k : string) : Prop := total (inflow v dv il k) ls = 0.

(** An ideal fully differential operational amplifier, pins VDD VSS VCM IN_P IN_N OUT_P OUT_N: no input current and a virtual short that
    persists. *)
Definition ideal_opamp (v dv il : string -> R) (ls : list line) (l : line) : Prop :=
  match l with
  | LX _ [_; _; _; ip; im; _; _] "opamp" => v ip = v im /\ dv ip = dv im /\ kcl v dv il ls ip /\ kcl v dv il ls im
  | _ => True
  end.
(** An ideal voltage-controlled voltage source [E n+ n- c+ c- gain]. *)
Definition vcvs (v : string -> R) (l : line) : Prop :=
  match l with LE _ op on ip im g => v op - v on = g * (v ip - v im) | _ => True end.
(** An inductor [di] being the derivative of its current *)
Definition inductor (v di : string -> R) (l : line) : Prop :=
  match l with LL nm a b h => h * di nm = v a - v b | _ => True end.
(** Independent voltage sources of ngspice: DC; SIN(VO VA FREQ TD THETA PHASE) for t >= TD, the phase in degrees *)
Definition source (t : R) (v : string -> R) (l : line) : Prop :=
  match l with
  | LV _ a b dc => v a - v b = dc
  | LSin _ a b vo va f td th ph => td <= t -> v a - v b = vo + va * exp (- (t - td) * th) * sin (2 * PI * f * (t - td) + ph * PI / 180)
  | _ => True
  end.
(** The waveform of PULSE(V1 V2 TD TR TF PW PER) in ngspice *)
Definition pulse_phase (td per t : R) : R := (t - td) - per * IZR (Zfloor ((t - td) / per)).
Definition pulse_wave (v1 v2 td tr tf pw per t : R) : R :=
  let x := pulse_phase td per t in
  if Rlt_bool t td then v1
  else if Rlt_bool x tr then v1 + (v2 - v1) * (x / tr)
  else if Rlt_bool x (tr + pw) then v2
  else if Rlt_bool x (tr + pw + tf) then v2 + (v1 - v2) * ((x - tr - pw) / tf)
  else v1.
