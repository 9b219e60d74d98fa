(** The closed loop: the waveforms of a whole emitted test bench (sources, front end, digital control in it), and the control loop it is meant
    to be.  Nothing in this file depends on how the netlists are generated. *)
From Coq Require Import String List Bool Arith Reals.
From Verif Require Import Base LinAlg FirExtras AnalogSystem IntegratorsProofs Netlist Circuits CircuitLaws CircuitControl XspiceLaws.
Import ListNotations.
Open Scope R_scope.

(** ** The loop of an analog system and its digital control *)
(** [e k] is the k-th decision instant, [x n] state n, [u l] input l, [s (k+1) m] control signal m after the k-th decision, [s 0] that before the
    first.  The control signals are [amp] or [- amp] by the signs of the observation, either one where it is zero. *)
Definition nominal (S : asys Rring) (G : nd2 Rring) (amp : R) (u : nat -> R -> R) (e : nat -> R) (x : nat -> R -> R) (s : nat -> nat -> R) : Prop :=
  (forall n t, (n < sN S)%nat -> e O <= t -> continuity_pt (x n) t) /\
  forall k,
    (forall n t, (n < sN S)%nat -> e k < t < e (Datatypes.S k) ->
       derivable_pt_lim (x n) t (rsum (sN S) (fun j => ent (aA S) n j * x j t) + rsum (sL S) (fun l => ent (aB S) n l * u l t) + rsum (sM S) (fun m => ent G n m * s (Datatypes.S k) m))) /\
    exists o, control_observation S (map (fun n => x n (e k)) (seq 0 (sN S))) (Some (map (fun l => u l (e k)) (seq 0 (sL S)))) (Some (map (s k) (seq 0 (sM S)))) = Ok o /\
      forall m, (m < sM S)%nat -> (s (Datatypes.S k) m = amp \/ s (Datatypes.S k) m = - amp) /\
        (nth m o 0 > 0 -> s (Datatypes.S k) m = amp) /\ (nth m o 0 < 0 -> s (Datatypes.S k) m = - amp).
(** no observation is exactly zero at a decision *)
Definition no_ties (S : asys Rring) (u : nat -> R -> R) (e : nat -> R) (x : nat -> R -> R) (s : nat -> nat -> R) : Prop :=
  forall k o m, control_observation S (map (fun n => x n (e k)) (seq 0 (sN S))) (Some (map (fun l => u l (e k)) (seq 0 (sL S)))) (Some (map (s k) (seq 0 (sM S)))) = Ok o ->
    (m < sM S)%nat -> nth m o 0 <> 0.

(** a system whose states leak at the rate [c] *)
Definition leaky (S : asys Rring) (c : R) : asys Rring :=
  mkAS (K := Rring) (mk2 (K := Rring) (rows (aA S)) (cols (aA S)) (fun i j => ent (aA S) i j - if Nat.eqb i j then c else 0)) (aB S) (aCT S) (aG S) (aGt S) (aD S) (aBt S) (aAt S).

(** ** Waveforms of a test bench *)
(** node voltages of the test bench; those inside the front end, their derivatives and inductor currents; analog and digital nodes inside the control *)
Record waves : Type := mkW { w_tb : string -> R -> R; w_fe : string -> R -> R; w_dfe : string -> R -> R; w_il : string -> R -> R; w_dc : string -> R -> R; w_dd : string -> R -> bool }.
Definition pulse_source (t : R) (v : string -> R) (l : line) : Prop :=
  match l with LPulse _ a b v0 v1 td tr tf pw per => v a - v b = pulse_wave v0 v1 td tr tf pw per t | _ => True end.
(** a sub-circuit instance: the nodes of the .SUBCKT line and those of the instance *)
Definition joined (inner outer : string -> R -> R) (fs nodes : list string) : Prop := Forall2 (fun f a => forall t, inner f t = outer a t) fs nodes.
Section Obeys.
Variable anon : cid -> lab -> string.
Variable danon : dcid -> nat -> string.
(** test bench, front end, digital control *)
Variables (kt kf : ckt) (kd : dckt).
(** the laws the analog part of the front end obeys at an instant: node voltages, derivatives, inductor currents *)
Variable fe_law : (string -> R) -> (string -> R) -> (string -> R) -> Prop.
(** the nodes of the front end that carry the states *)
Variable states : list string.
Record obeys (w : waves) : Prop := mkObeys {
  ob_gnd : forall t, w_tb w "0"%string t = 0;
  ob_src : forall t l, 0 <= t -> In l (lines anon kt) -> source t (fun a => w_tb w a t) l /\ pulse_source t (fun a => w_tb w a t) l;
  ob_fe : forall nm nodes, In (LX nm nodes (k_name kf)) (lines anon kt) -> joined (w_fe w) (w_tb w) (formals anon kf) nodes;
  ob_law : forall t, 0 < t -> fe_law (fun a => w_fe w a t) (fun a => w_dfe w a t) (fun a => w_il w a t);
  (** states are voltages of capacitors: continuous, and differentiable wherever the terminals of the front end other than the clock are continuous *)
  ob_cont : forall a t, In a states -> 0 < t -> continuity_pt (w_fe w a) t;
  ob_diff : forall a t, In a states -> 0 < t -> (forall l, In l (k_terms kf) -> l <> CLK -> continuity_pt (w_fe w (node anon kf (Own l))) t) -> derivable_pt_lim (w_fe w a) t (w_dfe w a t);
  ob_dc : forall nm nodes, In (LX nm nodes (d_name kd)) (lines anon kf) -> joined (w_dc w) (w_fe w) (dformals danon kd) nodes;
  ob_ctl : solves danon kd (w_dc w) (w_dd w)
}.
End Obeys.

(** ** What one sees of a test bench *)
(** the middle of the rising flank of the clock *)
Definition edge (T tt : R) (k : nat) : R := INR k * T + tt / 2.
(** states and control signals: the differential voltages "X<n>" and "OUT<m>" in the front end; [so]: at the edges *)
Definition xw (w : waves) (n : nat) (t : R) : R := w_fe w (labname (XX true n)) t - w_fe w (labname (XX false n)) t.
Definition ow (w : waves) (m : nat) (t : R) : R := w_fe w (labname (OUT true m)) t - w_fe w (labname (OUT false m)) t.
Definition so (T tt : R) (w : waves) (k m : nat) : R := ow w m (edge T tt k).
(** the signals put in, their offset counted twice (C54) *)
Definition uw (sg : list sine) (l : nat) (t : R) : R :=
  match nth_error sg l with Some s => s_ampl s * sin (2 * PI * s_freq s * t + s_phase s * PI / 180) + 2 * s_offset s | None => 0 end.
Definition state_nodes (N : nat) : list string := flat_map (fun n => [labname (XX true n); labname (XX false n)]) (seq 0 N).
