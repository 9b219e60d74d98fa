(** What the lines of CircuitControl.v mean: the ideal behaviour of the XSPICE elements (zero delays, rise and fall times).  Waveforms of analog
    nodes are functions of time, digital nodes carry a state at each time. *)
From Coq Require Import String List Bool Arith Reals Lia.
From Verif Require Import Base Netlist Circuits CircuitControl.
Import ListNotations.
Open Scope R_scope.

(** [clk] has a rising edge at [t], whatever its state at that instant *)
Definition rises (clk : R -> bool) (t : R) : Prop := exists e, 0 < e /\ (forall s, t - e < s < t -> clk s = false) /\ (forall s, t < s < t + e -> clk s = true).
(** at time [t1] the last rising edge of [clk] is the one at [t0] *)
Definition latched (clk : R -> bool) (t0 t1 : R) : Prop := t0 < t1 /\ rises clk t0 /\ forall s, t0 < s < t1 -> ~ rises clk s.

Section Laws.
Variable anon : dcid -> nat -> string.
Variable cards : list dmod.
Variable defs : list dckt.
(** ngspice finds a model by its name, a sub-circuit likewise *)
Definition card (nm : string) : option dpar := option_map m_par (find (fun m => String.eqb (m_name m) nm) cards).
Definition sub_def (nm : string) : option dckt := find (fun d => String.eqb (d_name d) nm) defs.

Section Line.
Variable va : string -> R -> R.
Variable vd : string -> R -> bool.
(** a line whose model is missing or of another kind says nothing *)
Definition law (l : dline) : Prop :=
  match l with
  | DSum _ ins out md =>
      match card md with
      | Some (PSum off gain oo og) =>
          forall t, va out t = og * fold_right Rplus 0 (map (fun '(g, o, (p, n)) => g * (va p t - va n t + o)) (combine (combine gain off) ins)) + oo
      | _ => True
      end
  | DAdc _ p n out md =>
      match card md with
      | Some (PAdc lo hi _ _) =>
          forall t, let x := va p t - match n with Some n => va n t | None => 0 end in (x < lo -> vd out t = false) /\ (hi < x -> vd out t = true)
      | _ => True
      end
  | DDff _ d clk _ _ q qn md =>
      match card md with
      | Some (PDff _ _ _ _ _ _) => forall t0 t1, latched (vd clk) t0 t1 -> vd q t1 = vd d t0 /\ vd qn t1 = negb (vd d t0)
      | _ => True
      end
  | DDac _ i o md => match card md with Some (PDac lo hi _ _ _ _) => forall t, va o t = if vd i t then hi else lo | _ => True end
  | DDly _ i o _ md => match card md with Some (PDly d) => forall t, va o t = va i (t - d) | _ => True end
  | DSrc _ outs md =>
      match card md with
      | Some (PSrc T tab) => forall i j t nm, nth_error outs i = Some nm -> INR j * T <= t < (INR j + 1) * T -> vd nm t = tab j i
      | _ => True
      end
  | DX _ _ _ => True
  end.
End Line.

(** The waveforms [va], [vd] of the nodes of circuit [k] obey all lines, and every sub-circuit instance, down to depth [n], has waveforms of its own
    that obey its definition and agree with those of the instance on the nodes of the .SUBCKT line. *)
Fixpoint sat (n : nat) (k : dckt) (va : string -> R -> R) (vd : string -> R -> bool) : Prop :=
  (forall l, In l (dlines anon k) -> law va vd l) /\
  match n with
  | O => True
  | S n => forall nm nodes sub, In (DX nm nodes sub) (dlines anon k) -> exists d va' vd', sub_def sub = Some d /\
             Forall2 (fun f a => forall t, va' f t = va a t /\ vd' f t = vd a t) (dformals anon d) nodes /\ sat n d va' vd'
  end.
End Laws.
(** the waveforms of a circuit with its own cards and definitions *)
Definition solves (anon : dcid -> nat -> string) (k : dckt) (va : string -> R -> R) (vd : string -> R -> bool) : Prop :=
  forall n, sat anon (dcards k) (ddefs k) n k va vd.
