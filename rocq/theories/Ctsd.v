(** Model of /repo/src/cbadc/synthesis/continuous_time_sigma_delta.py over the reals.  The coefficient dictionary maps names to the
    "fixedValue" entries; the clock and the multi-level control are represented by T and the list of level counts. *)
From Coq Require Import List Lia Arith Bool ZArith Reals String Decimal DecimalString.
From Flocq Require Import Core.Raux.
From Verif Require Import Base LinAlg FirExtras AnalogSystem.
Import ListNotations.
Open Scope R_scope.

(** the dictionary: the most recent assignment comes first *)
Definition dict : Type := list (string * R).
Definition dset (d : dict) (k : string) (v : R) : dict := (k, v) :: d.
Fixpoint dget (d : dict) (k : string) : option R :=
  match d with
  | [] => None
  | (k', v) :: d => if String.eqb k k' then Some v else dget d k
  end.
(** [f"{n}"] *)
Definition dec (n : nat) : string := NilEmpty.string_of_uint (Nat.to_uint n).
Definition name1 (c : string) (n : nat) : string := (c ++ dec n)%string.
Definition name2 (c : string) (n m : nat) : string := (c ++ dec n ++ dec m)%string.

(** 98-103 [_get_coeff_value] *)
Definition coeff (d : dict) (k : string) (default : R) : R := match dget d k with Some v => v | None => default end.
Definition has (d : dict) (k : string) : bool := match dget d k with Some _ => true | None => false end.

(** 10-44 [ctsd2abc].  Row n1: c{n1} goes to column n1 - 1 (the last column for n1 = 0), then e and d entries overwrite. *)
Definition ctsd_A (N : nat) (co : dict) (fs : R) : nd2 Rring := mk2 (K := Rring) N N (fun n1 n2 =>
  let d := name2 "d" (n2 + 1) (n1 + 1) in
  let e := name2 "e" (n2 + 1) (n1 + 1) in
  if has co d then coeff co d 0 * fs
  else if has co e then coeff co e 0 * fs
  else if has co (name1 "c" n1) && Nat.eqb n2 (match n1 with O => N - 1 | S n => n end) then coeff co (name1 "c" n1) 0 * fs
  else 0).
Definition ctsd_B (N : nat) (co : dict) (fs : R) : nd2 Rring := mk2 (K := Rring) N 1 (fun n1 _ => coeff co (name1 "b" (n1 + 1)) 0 * fs).

(** 47-95 [ctsd2gamma]: (Gamma, Gamma_tildeT, D_tilde).  [Gamma_tildeT[0, -1]] on an empty row is an IndexError. *)
Definition ctsd2gamma (N : nat) (co : dict) (fs dac_scale : R) (local_control : bool) : result (nd2 Rring * nd2 Rring * nd2 Rring) :=
  if Nat.eqb N 0 then Exn IndexError
  else
    let a n1 := coeff co (name1 "a" (n1 + 1)) 0 * fs * dac_scale in
    if local_control
    then Ok (mk2 (K := Rring) N N (fun n1 m => if Nat.eqb n1 m then a n1 else 0), eye2 N N, zeros N 1)
    else Ok (mk2 (K := Rring) N 1 (fun n1 _ => a n1),
             mk2 (K := Rring) 1 N (fun _ n1 => if Nat.eqb n1 (N - 1) then coeff co (name1 "c" N) 1 else coeff co (name2 "d" (n1 + 1) (N + 1)) 0),
             mk2 (K := Rring) 1 1 (fun _ _ => coeff co (name1 "b" (N + 1)) 0)).

(** 106-139 [ctsd_dict2af]: the analog system, the number of controls and the quantizer levels *)
Definition ctsd_dict2af (N : nat) (co : dict) (T dac_scale : R) (local_control : bool) (levels : nat) : result (asys Rring * nat * list nat) :=
  if Req_bool T 0 then Exn ZeroDivisionError
  else
    let fs := 1 / T in
    bind (ctsd2gamma N co fs dac_scale local_control) (fun '(G, GtT, Dt) =>
    bind (as_init (D2 (ctsd_A N co fs)) (D2 (ctsd_B N co fs)) (D2 (eye2 N N)) (Some (D2 G)) (Some (D2 GtT)) None (Some (D2 Dt)) None) (fun s =>
    Ok (s, cols G, repeat levels (rows GtT)))).

(** 165-216 [_schreier_abcd_to_ulm_dict] *)
Definition min_val : R := / 100000000.
Definition put (d : dict) (k : string) (v : R) : dict := if Rlt_bool min_val (Rabs v) then dset d k v else d.
Definition io_entries (ent : nat -> nat -> R) (N : nat) (d : dict) : dict :=
  fold_left (fun d n => put (put d (name1 "b" (n + 1)) (ent n N)) (name1 "a" (n + 1)) (ent n (N + 1)%nat)) (seq 0 (N + 1)) d.
Definition state_entry (ent : nat -> nat -> R) (d : dict) (m n : nat) : dict :=
  let val := ent m n in
  if Nat.eqb m (n + 1) then put d (name1 "c" (n + 1)) val
  else if Nat.ltb (n + 1) m then put d (name2 "d" (n + 1) (m + 1)) val
  else if Nat.ltb m n then put d (name2 "e" (n + 1) (m + 1)) val
  else d.
Definition state_entries (ent : nat -> nat -> R) (N : nat) (d : dict) : dict :=
  fold_left (fun d m => fold_left (fun d n => state_entry ent d m n) (seq 0 N) d) (seq 0 (N + 1)) d.
Definition abcd_dict (ent : nat -> nat -> R) (N : nat) : dict := state_entries ent N (io_entries ent N []).

(** 142-162 [ctsd_abcd2af]; the order is one less than the number of rows, columns beyond the N + 2 needed are ignored *)
Definition ctsd_abcd2af (abcd : nd2 Rring) (T : R) (qlev : nat) (dac_scale : R) (local_control : bool) : result (asys Rring * nat * list nat) :=
  let N := (rows abcd - 1)%nat in
  if Nat.eqb (rows abcd) 0 || Nat.ltb (cols abcd) (N + 2) then Exn IndexError
  else ctsd_dict2af N (abcd_dict (ent abcd) N) T dac_scale local_control qlev.
