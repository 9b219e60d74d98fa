(** C113: the Verilog-AMS text of the summer and integrator models computes what the corresponding ngspice models compute - except where it does not. *)
From Coq Require Import List Arith Bool ZArith Reals Lra Lia String.
From Flocq Require Import Core.
From Verif Require Import Base Netlist VerilogAms VerilogAmsProofs.
Import ListNotations.
Open Scope R_scope.

(** ngspice manual, XSPICE "summer": every input is offset and multiplied by its gain; the sum is multiplied by out_gain and offset *)
Definition xspice_summer (in_offset in_gain : list R) (out_offset out_gain : R) (inputs : list R) : R :=
  out_gain * fold_right Rplus 0 (map (fun p => fst (fst p) * (snd p + snd (fst p))) (combine (combine in_gain in_offset) inputs)) + out_offset.
(** the voltages of the first n inputs *)
Definition voltages (v : string -> option string -> R -> R) (n : nat) (t : R) : list R := map (fun i => v (append "in_" (dec i)) (Some "vgnd"%string) t) (seq 0 n).

Lemma weighted_spec v t : forall l i, weighted v i l t = fold_right Rplus 0 (map (fun p : R * R * R => fst (fst p) * (snd p + snd (fst p))) (combine l (map (fun i => v (append "in_" (dec i)) (Some "vgnd"%string) t) (seq i (List.length l))))).
Proof. induction l as [|[g o] l IH]; intros i; [reflexivity|]. cbn [weighted List.length seq map combine fold_right fst snd]. now rewrite IH. Qed.

Theorem C113_summer : forall v idt io ig oo og s, summer_init io ig oo og = Ok s -> (exists g, In g ig /\ g <> 0) ->
  exists w, denotes v idt (summer_vams s) w /\ forall t, w t = xspice_summer io ig oo og (voltages v (List.length ig) t).
Proof.
  intros v idt io ig oo og s H (g & Hg & N). unfold summer_init in H. destruct (Nat.eqb_spec (List.length ig) (List.length io)) as [L|]; [|discriminate]. injection H as <-.
  destruct (summer_denotes v idt (mkSummer io ig oo og)) as (w & Dw & Vw).
  { cbn [in_gain in_offset]. destruct (In_nth _ _ 0 Hg) as (i & Hi & <-). exists (nth i ig 0), (nth i io 0). split; [|exact N].
    rewrite <- (combine_nth ig io i 0 0) by exact L. apply nth_In. rewrite combine_length. lia. }
  exists w. split; [exact Dw|]. intros t. rewrite Vw. cbn [in_gain in_offset out_gain out_offset]. unfold xspice_summer, voltages. rewrite weighted_spec.
  replace (List.length (combine ig io)) with (List.length ig) by (rewrite combine_length; lia). reflexivity.
Qed.
Print Assumptions C113_summer.

Theorem C113_summer_lengths : forall io ig oo og, (exists s, summer_init io ig oo og = Ok s) <-> List.length io = List.length ig.
Proof.
  intros. unfold summer_init. destruct (Nat.eqb_spec (List.length ig) (List.length io)) as [E|E]; split.
  - intros _. now symmetry.
  - intros _. eexists. reflexivity.
  - intros (s & H). discriminate.
  - intros H. now symmetry in H.
Qed.
Print Assumptions C113_summer_lengths.

(** a summer without an active input has no value at all in Verilog-AMS: its parentheses are empty *)
Theorem C113_summer_inactive : forall v idt io ig oo og s, summer_init io ig oo og = Ok s -> (forall g, In g ig -> g = 0) -> forall w, ~ denotes v idt (summer_vams s) w.
Proof.
  intros v idt io ig oo og s H Z w (n0 & D). unfold summer_init in H. destruct (Nat.eqb_spec (List.length ig) (List.length io)) as [L|]; [|discriminate]. injection H as <-.
  specialize (D n0 (le_n _)). rewrite summer_empty in D; [discriminate|]. intros g o Hin. apply Z. now apply in_combine_l in Hin.
Qed.
Print Assumptions C113_summer_inactive.
(** naive: the text of every summer that can be built has the value of the ngspice model *)
Theorem C113_summer_refuted : exists io ig oo og s, summer_init io ig oo og = Ok s /\
  forall v idt, ~ exists w, denotes v idt (summer_vams s) w /\ forall t, w t = xspice_summer io ig oo og (voltages v (List.length ig) t).
Proof.
  exists [0], [0], 1, 1. eexists. split; [reflexivity|]. intros v idt (w & D & _). eapply (C113_summer_inactive v idt [0] [0] 1 1); [reflexivity| |exact D]. intros g [<-|[]]. reflexivity.
Qed.
Print Assumptions C113_summer_refuted.

(** the integrator: the offset is added by its magnitude *)
Theorem C113_integrator : forall v idt offset gain, exists w u, denotes v idt (integrator_vams offset gain) w /\ (forall t, w t = gain * idt u t) /\ forall t, u t = v "in"%string None t + Rabs offset.
Proof.
  intros. destruct (integrator_denotes v idt offset gain) as (g & u & D & Vg & Vu). exists (fun t => g t * idt u t), u. split; [exact D|]. split; [intros t; now rewrite Vg|exact Vu].
Qed.
Print Assumptions C113_integrator.
(** the initial value is printed with its sign *)
Theorem C113_integrator_initial : forall v idt ic, exists w, denotes v idt (integrator_ic ic) w /\ forall t, w t = ic.
Proof. exact ic_denotes. Qed.
Print Assumptions C113_integrator_initial.

(** a text has at most one value *)
Theorem C113_unique : forall v idt l w w', denotes v idt l w -> denotes v idt l w' -> w = w'.
Proof. intros v idt l w w' (n & H) (n' & H'). specialize (H (max n n') ltac:(lia)). specialize (H' (max n n') ltac:(lia)). congruence. Qed.
Print Assumptions C113_unique.
(** naive: the text integrates gain (V(in) + offset), like the XSPICE model "int" *)
Theorem C113_offset_refuted : exists v idt offset gain, (forall x y t, (forall s, x s = y s) -> idt x t = idt y t) /\
  ~ exists w, denotes v idt (integrator_vams offset gain) w /\ forall t, w t = gain * idt (fun s => v "in"%string None s + offset) t.
Proof.
  exists (fun _ _ _ => 0), (fun u t => u 0 * t), (-1), 1. split; [intros x y t H; now rewrite H|]. intros (w & D & V).
  destruct (C113_integrator (fun _ _ _ => 0) (fun u t => u 0 * t) (-1) 1) as (w' & u & D' & V' & U). rewrite (C113_unique _ _ _ _ _ D D') in V.
  specialize (V 1). specialize (V' 1). rewrite V' in V. rewrite U in V. rewrite Rabs_left in V by lra. lra.
Qed.
Print Assumptions C113_offset_refuted.

(** non-vacuity: 2 ((V0 + 1/2) - 3 V1) + 1 *)
Example C113_ex : exists s, summer_init [1 / 2; 0; 5] [1; -3; 0] 1 2 = Ok s /\ summer_vams s <> [] /\
  exists w, denotes (fun n _ _ => if String.eqb n "in_0" then 4 else 7) (fun u _ => u 0) (summer_vams s) w /\ forall t, w t = -32.
Proof.
  eexists. split; [reflexivity|]. split.
  - unfold summer_vams, print. cbn [out_gain]. rewrite Rlt_bool_false by lra. discriminate.
  - destruct (C113_summer (fun n _ _ => if String.eqb n "in_0" then 4 else 7) (fun u _ => u 0) [1 / 2; 0; 5] [1; -3; 0] 1 2 _ eq_refl) as (w & D & V).
    + exists 1. split; [left; reflexivity|lra].
    + exists w. split; [exact D|]. intros t. rewrite V. unfold xspice_summer, voltages. cbn. lra.
Qed.
