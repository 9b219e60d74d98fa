(** Sigma-delta ABCD import (C46): theorems. *)
From Coq Require Import List Lia Arith Bool Reals Lra.
From Verif Require Import Base LinAlg FirExtras AnalogSystem Ctsd CtsdProofs.
Import ListNotations.
Open Scope R_scope.

(** an entry of the ABCD matrix counts when its magnitude exceeds 1e-8 *)
Definition significant (v : R) : R := if Rlt_dec (/ 100000000) (Rabs v) then v else 0.

(** For every order up to 10 and every matrix: each coefficient ends up in its place, scaled by 1/T where it belongs to an integrator input;
    diagonal entries of the state part are lost, as is the last entry of the feedback column, and a missing last output coefficient becomes 1. *)
Theorem C46_import : forall (abcd : nd2 Rring) T levels dac_scale (local_control : bool) N,
  rows abcd = (N + 1)%nat -> (N + 2 <= cols abcd)%nat -> (1 <= N <= 10)%nat -> T <> 0 ->
  let M := if local_control then N else 1%nat in
  exists S G Gt, ctsd_abcd2af abcd T levels dac_scale local_control = Ok (S, M, repeat levels M) /\
    sN S = N /\ sL S = 1%nat /\ sM S = M /\ sMt S = M /\ aG S = Some G /\ aGt S = Some Gt /\ aCT S = eye2 N N /\ aD S = zeros N 1 /\ aAt S = zeros M M /\
    (forall i j, (i < N)%nat -> (j < N)%nat -> ent (aA S) i j = if Nat.eqb i j then 0 else significant (ent abcd i j) / T) /\
    (forall i, (i < N)%nat -> ent (aB S) i 0 = significant (ent abcd i N) / T) /\
    (forall i m, (i < N)%nat -> (m < M)%nat -> ent G i m = if local_control && negb (Nat.eqb i m) then 0 else significant (ent abcd i (N + 1)%nat) / T * dac_scale) /\
    (forall m j, (m < M)%nat -> (j < N)%nat -> ent Gt m j =
      if local_control then (if Nat.eqb m j then 1 else 0)
      else if Nat.eqb j (N - 1) then (if Rlt_dec (/ 100000000) (Rabs (ent abcd N j)) then ent abcd N j else 1) else significant (ent abcd N j)) /\
    (forall m, (m < M)%nat -> ent (aBt S) m 0 = if local_control then 0 else significant (ent abcd N N)).
Proof. exact import_ok. Qed.
Print Assumptions C46_import.

(** The diagonal of the state part (a lossy integrator) does not survive the import. *)
Theorem C46_diagonal_refuted : exists (abcd : nd2 Rring), rows abcd = 3%nat /\ cols abcd = 4%nat /\ ent abcd 0 0 = -1 /\
  forall levels dac_scale, exists S, ctsd_abcd2af abcd 1 levels dac_scale false = Ok (S, 1%nat, [levels]) /\ ent (aA S) 0 0 = 0.
Proof.
  exists (mk2 (K := Rring) 3 4 (fun i j => if Nat.eqb i 0 && Nat.eqb j 0 then -1 else 1)). do 3 (split; [reflexivity|]).
  intros levels dac. destruct (import_ok (mk2 (K := Rring) 3 4 (fun i j => if Nat.eqb i 0 && Nat.eqb j 0 then -1 else 1)) 1 levels dac false 2 eq_refl (le_n _) ltac:(lia) R1_neq_R0) as (S & G & Gt & E & _ & _ & _ & _ & _ & _ & _ & _ & _ & HA & _).
  exists S. split; [exact E|]. exact (HA 0%nat 0%nat ltac:(lia) ltac:(lia)).
Qed.
Print Assumptions C46_diagonal_refuted.

(** From order 11 on names such as e{11}{1} and e{1}{11} coincide: a matrix whose only entry is in row 1, column 11 is imported with a second
    coefficient in row 11, column 1. *)
Theorem C46_names_collide : forall N, (11 <= N)%nat ->
  exists abcd : nd2 Rring, rows abcd = (N + 1)%nat /\ cols abcd = (N + 2)%nat /\ (forall i j, (i, j) <> (0, 10)%nat -> ent abcd i j = 0) /\
    forall levels dac_scale, exists S, ctsd_abcd2af abcd 1 levels dac_scale false = Ok (S, 1%nat, [levels]) /\ ent (aA S) 0 10 = 1 /\ ent (aA S) 10 0 = 1.
Proof. exact import_collision. Qed.
Print Assumptions C46_names_collide.

Theorem C46_every_order_refuted : exists (abcd : nd2 Rring) S, rows abcd = 12%nat /\ cols abcd = 13%nat /\
  ctsd_abcd2af abcd 1 2 1 false = Ok (S, 1%nat, [2%nat]) /\ ent abcd 10 0 = 0 /\ ent (aA S) 10 0 = 1.
Proof.
  destruct (import_collision 11 (le_n _)) as (abcd & R & C & Z & H). destruct (H 2%nat 1) as (S & E & _ & V).
  exists abcd, S. split; [exact R|]. split; [exact C|]. split; [exact E|]. split; [|exact V]. apply Z. discriminate.
Qed.
Print Assumptions C46_every_order_refuted.

(** A matrix without feedback column is an IndexError, a zero period a ZeroDivisionError. *)
Theorem C46_errors : forall (abcd : nd2 Rring) T levels dac_scale local_control, (2 <= rows abcd)%nat ->
  ((cols abcd < rows abcd + 1)%nat -> ctsd_abcd2af abcd T levels dac_scale local_control = Exn IndexError) /\
  ((rows abcd + 1 <= cols abcd)%nat -> T = 0 -> ctsd_abcd2af abcd T levels dac_scale local_control = Exn ZeroDivisionError).
Proof. exact import_errors. Qed.
Print Assumptions C46_errors.

(** A second order modulator with resonator, imported with T = 1/2: every coefficient read back. *)
Example C46_import_meets : exists S G Gt,
  ctsd_abcd2af (mk2 (K := Rring) 3 4 (fun i j => nth j (nth i [[0; -1; 1; -1]; [1; 0; 0; -2]; [0; 3; 0; 0]] []) 0)) (1 / 2) 5 1 false = Ok (S, 1%nat, [5%nat]) /\
  aG S = Some G /\ aGt S = Some Gt /\
  ent (aA S) 0 1 = -2 /\ ent (aA S) 1 0 = 2 /\ ent (aB S) 0 0 = 2 /\ ent (aB S) 1 0 = 0 /\ ent G 1 0 = -4 /\ ent Gt 0 0 = 0 /\ ent Gt 0 1 = 3 /\ ent (aBt S) 0 0 = 0.
Proof.
  destruct (C46_import (mk2 (K := Rring) 3 4 (fun i j => nth j (nth i [[0; -1; 1; -1]; [1; 0; 0; -2]; [0; 3; 0; 0]] []) 0)) (1 / 2) 5 1 false 2 eq_refl (le_n _) ltac:(lia) ltac:(lra))
    as (S & G & Gt & E & _ & _ & _ & _ & EG & EGt & _ & _ & _ & HA & HB & HG & HGt & HBt).
  exists S, G, Gt. split; [exact E|]. split; [exact EG|]. split; [exact EGt|].
  assert (K : forall v, 1 <= Rabs v -> significant v = v) by (intros v Hv; unfold significant; destruct (Rlt_dec _ _); [reflexivity|lra]).
  assert (K0 : significant 0 = 0) by (unfold significant; destruct (Rlt_dec _ _); reflexivity).
  repeat split.
  - refine (eq_trans (HA 0%nat 1%nat ltac:(lia) ltac:(lia)) _). cbn. rewrite K; [field|]. rewrite Rabs_left; lra.
  - refine (eq_trans (HA 1%nat 0%nat ltac:(lia) ltac:(lia)) _). cbn. rewrite K; [field|]. rewrite Rabs_R1; lra.
  - refine (eq_trans (HB 0%nat ltac:(lia)) _). cbn. rewrite K; [field|]. rewrite Rabs_R1; lra.
  - refine (eq_trans (HB 1%nat ltac:(lia)) _). cbn. rewrite K0. field.
  - refine (eq_trans (HG 1%nat 0%nat ltac:(lia) ltac:(lia)) _). cbn. rewrite K; [field|]. rewrite Rabs_left; lra.
  - refine (eq_trans (HGt 0%nat 0%nat ltac:(lia) ltac:(lia)) _). cbn. apply K0.
  - refine (eq_trans (HGt 0%nat 1%nat ltac:(lia) ltac:(lia)) _). cbn. destruct (Rlt_dec _ _) as [|H]; [reflexivity|]. rewrite Rabs_pos_eq in H by lra. lra.
  - refine (eq_trans (HBt 0%nat ltac:(lia)) _). cbn. apply K0.
Qed.
