(** Raw files of a test bench: which samples a run of ngspice has to contain.  Independent of the simulator object. *)
From Coq Require Import String List Arith Reals Sorted.
From Verif Require Import Base Netlist Circuits ClosedLoop.
Import ListNotations.
Open Scope R_scope.

(** the time points of a run: in order, from time 0 on, at least one before the first rising flank of the clock, one in each of the first [n] high phases and
    one in each of the low phases after them ([edge] is the middle of a rising flank, ClosedLoop.v) *)
Definition covers (T tt : R) (n : nat) (ts : list R) : Prop :=
  StronglySorted Rle ts /\ (forall t, In t ts -> 0 <= t) /\ (exists t, In t ts /\ t <= edge T tt 0) /\
  forall k, (k < n)%nat -> (exists t, In t ts /\ edge T tt k < t < edge T tt k + T / 2) /\ (exists t, In t ts /\ edge T tt k + T / 2 <= t <= edge T tt (S k)).
(** the file holds the waveforms [w] at the time points [ts], under the names ngspice gives to nodes *)
Definition holds (w : waves) (ts : list R) (M N : nat) (f : string -> option (list R)) : Prop :=
  f "V(CLK)"%string = Some (map (w_tb w "CLK") ts) /\
  (forall m, (m < M)%nat -> f ("V(OUT" ++ dec m ++ "_P)")%string = Some (map (w_tb w ("OUT" ++ dec m ++ "_P")) ts)) /\
  (forall n, (n < N)%nat -> f ("V(XAF.X" ++ dec n ++ "_P)")%string = Some (map (w_fe w ("X" ++ dec n ++ "_P")) ts) /\
                            f ("V(XAF.X" ++ dec n ++ "_N)")%string = Some (map (w_fe w ("X" ++ dec n ++ "_N")) ts)).
