(** Model of [MurmannSurvey] (/repo/src/cbadc/fom.py): the selection of publications, the groups of the scatter plots and the
    envelopes.  The Excel file is an input (the rows of its two sheets); plotting is not modelled beyond which rows go to which group. *)
From Coq Require Import List Bool Reals Lra ZArith String.
From Flocq Require Import Core.
From Verif Require Import Base Fom.
Import ListNotations.
Open Scope R_scope.

(** the columns that are used; [None] is a missing entry (nan).  [r_rest] stands for all other columns. *)
Record row := mkR { r_conf : string; r_year : option Z; r_arch : string; r_fs : option R; r_snr : option R; r_rest : nat }.

(** fom.py:218-219: the column CONFERENCE is set to the name of the sheet *)
Definition set_conf (s : string) (r : row) : row := mkR s (r_year r) (r_arch r) (r_fs r) (r_snr r) (r_rest r).
(** fom.py:217-220: [pd.concat] of the two sheets, in this order *)
Definition read_db (isscc vlsi : list row) : list row := map (set_conf "ISSCC") isscc ++ map (set_conf "VLSI") vlsi.
(** fom.py:221 [pd.unique]: first occurrences, in order of appearance *)
Fixpoint unique_acc (seen l : list string) : list string :=
  match l with
  | [] => []
  | x :: l => if existsb (String.eqb x) seen then unique_acc seen l else x :: unique_acc (x :: seen) l
  end.
Definition architectures (db : list row) : list string := unique_acc [] (map r_arch db).
(** fom.py:222-226: [np.linspace(0, 0.9, len(architectures))], one position of the colour map per architecture *)
Definition colours (db : list row) : list R :=
  let n := List.length (architectures db) in map (fun i => if Nat.eqb n 1 then 0 else INR i * (9 / 10) / INR (n - 1)) (seq 0 n).

(** comparisons of a column with a number: a missing entry compares false *)
Definition ge_col (x : option R) (b : R) : bool := match x with Some x => Rle_bool b x | None => false end.
Definition lt_col (x : option R) (b : R) : bool := match x with Some x => negb (Rle_bool b x) | None => false end.
(** fom.py:402-413 *)
Definition select_bw_and_enob (db : list row) (BW ENOB : R * R) : result (list row) :=
  if negb (Rle_bool (fst BW) (snd BW)) then Exn GenericException
  else if negb (Rle_bool (fst ENOB) (snd ENOB)) then Exn GenericException
  else Ok (filter (fun r => ge_col (r_fs r) (fst BW) && lt_col (r_fs r) (snd BW)
                            && ge_col (r_snr r) (enob_to_snr (fst ENOB)) && lt_col (r_snr r) (enob_to_snr (snd ENOB))) db).

(** fom.py:199 *)
Definition current_year : Z := 2021.
Definition year_is (r : row) : bool := match r_year r with Some y => Z.eqb y current_year | None => false end.
Definition year_before (r : row) : bool := match r_year r with Some y => Z.ltb y current_year | None => false end.
(** fom.py:415-445: the four scatter plots *)
Definition groups (db : list row) : list (list row) :=
  [ filter (fun r => String.eqb (r_conf r) "ISSCC" && year_is r) db; filter (fun r => String.eqb (r_conf r) "VLSI" && year_is r) db;
    filter (fun r => String.eqb (r_conf r) "ISSCC" && year_before r) db; filter (fun r => String.eqb (r_conf r) "VLSI" && year_before r) db ].

(** fom.py:201-204 *)
Definition FoMW_hf_corner : R := 442 * 1000000.
Definition FoMW_hf_overall : R := 67 / 100.
Definition FoMS_hf_corner : R := 319 * 100000.
Definition FoMS_hf_overall : R := 18476 / 100.
(** fom.py:457-458 *)
Definition FoMW_envelope (f : R) : R := FoMW_hf_overall * sqrt (1 + (f / FoMW_hf_corner) ^ 2).
(** fom.py:460-463 *)
Definition FoMS_envelope (f : R) : R := FoMS_hf_overall - 10 * log10 (sqrt (1 + (f / FoMS_hf_corner) ^ 2)).
(** fom.py:286-318: the call sites of the jitter line pass the jitter as [f] and the frequency as [sigma] *)
Definition aperture_line (jitter : R) : result (list (R * R)) :=
  bind (f_sigma_to_jitter_sndr jitter 1000000) (fun a => bind (f_sigma_to_jitter_sndr jitter 100000000000) (fun b =>
    Ok [(a, 1000000); (b, 100000000000)])).
