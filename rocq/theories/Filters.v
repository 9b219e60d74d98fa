(** Model of the standard filters, analog_system/filters.py: ButterWorth (86-95), ChebyshevI (174-184), ChebyshevII (265-274),
    Cauer (359-370), IIRDesign (493-501).

    [scipy.signal.iirfilter] and [scipy.signal.iirdesign] are parameters: zeros, poles and gain in the "zpk" form (what the
    theorems ask of them is stated with the theorems).  [float] is idealised to [R], complex128 to [C].  The attributes Wn, rp,
    rs are copies of the arguments and left out. *)
From Coq Require Import List Arith Bool Reals.
From Coquelicot Require Import Complex.
From Verif Require Import Base LinAlg FirExtras AnalogSystem Zpk Integrators.
Import ListNotations.

Notation rarr := (nd2 Rring).
Definition zpk : Type := list C * list C * R.
Inductive ftype := Butter | Cheby1 | Cheby2 | Ellip.

(** The arrays that [zpk2abcd] returns are float64 arrays; in Zpk.v they are complex with zero imaginary parts. *)
Definition re2 (a : nd2 Cring) : rarr := @mk2 Rring (rows a) (cols a) (fun i j => fst (ent a i j)).

(** [a[-1:, :]]: the last row, no row when there is none *)
Definition last_row (a : rarr) : rarr := @mk2 Rring (Nat.min 1 (rows a)) (cols a) (fun i j => ent a (rows a - 1 + i) j).

Section Filters.
Variable argsort : list R -> list nat.
(** [iirfilter(N, Wn, rp, rs, analog=True, btype="lowpass", ftype=ftype, output="zpk")] *)
Variable iirfilter : ftype -> nat -> R -> option R -> option R -> result zpk.
(** [iirdesign(wp, ws, gpass, gstop, analog=True, ftype=ftype, output="zpk")] *)
Variable iirdesign : ftype -> R -> R -> R -> R -> result zpk.

(** 94-95, 183-184, 273-274, 369-370 *)
Definition of_zpk (t : zpk) : result (asys Rring) :=
  let '(z, p, k) := t in
  bind (zpk2abcd argsort z p k) (fun '(A, B, CT, D) =>
  as_init (D2 (re2 A)) (D2 (re2 B)) (D2 (re2 CT)) None None (Some (D2 (re2 D))) None None).

(** 86-95 *)
Definition ButterWorth (N : nat) (Wn : R) : result (asys Rring) := bind (iirfilter Butter N Wn None None) of_zpk.
(** 174-184 *)
Definition ChebyshevI (N : nat) (Wn rp : R) : result (asys Rring) := bind (iirfilter Cheby1 N Wn (Some rp) None) of_zpk.
(** 265-274 *)
Definition ChebyshevII (N : nat) (Wn rs : R) : result (asys Rring) := bind (iirfilter Cheby2 N Wn None (Some rs)) of_zpk.
(** 359-370 *)
Definition Cauer (N : nat) (Wn rp rs : R) : result (asys Rring) := bind (iirfilter Ellip N Wn (Some rp) (Some rs)) of_zpk.
(** 493-501 *)
Definition IIRDesign (wp ws gpass gstop : R) (ft : ftype) : result (asys Rring) :=
  bind (iirdesign ft wp ws gpass gstop) (fun '(z, p, k) =>
  bind (zpk2abcd argsort z p k) (fun '(A, B, CT, D) =>
  as_init (D2 (re2 A)) (D2 (re2 B)) (D2 (last_row (re2 CT))) None None (Some (D2 (last_row (re2 D)))) None None)).
End Filters.
