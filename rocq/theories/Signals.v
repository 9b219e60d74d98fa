(** Clock and analog signals (/repo/src/cbadc/analog_signal/).  [float] is idealised to [R]. *)
From Coq Require Import List Lia Arith Bool ZArith Reals Lra.
From Flocq Require Import Core.
From Verif Require Import Base.
Import ListNotations.
Open Scope R_scope.

(** Python [a % b] on floats for [b <> 0]: [a - b * floor(a / b)]. *)
Definition pmod (a b : R) : R := a - b * IZR (Zfloor (a / b)).

(** *** clock.py *)
Record clock := mkClock { ck_T : R; ck_tt : R; ck_td : R; ck_d : R; ck_max : R }.

(** clock.py:73-74 *)
Definition max_step (T d : R) : R := T * Rmin d (1 - d).

(** clock.py:44-71 *)
Definition clock_init (T tt td d swing : R) : result clock :=
  if Rlt_bool 1 d || Rle_bool d 0 then Exn GenericException
  else if Rlt_bool (max_step T d) tt then Exn GenericException
  else if Rlt_bool T td then Exn GenericException
  else Ok (mkClock T tt td d (swing / 2)).

(** clock.py:76-82; the divisions raise ZeroDivisionError on a zero divisor. *)
Definition pos_edge (c : clock) (t : R) : result R :=
  if Req_bool (ck_tt c / 2) 0 then Exn ZeroDivisionError
  else
    let tmp := (t - ck_tt c / 2) / (ck_tt c / 2) in
    if Rlt_bool (ck_max c) tmp then (if Req_bool tmp 0 then Exn ZeroDivisionError else Ok (tmp / tmp))
    else if Rlt_bool tmp (- ck_max c) then (if Req_bool tmp 0 then Exn ZeroDivisionError else Ok (- tmp / tmp))
    else Ok tmp.

(** clock.py:84-89 *)
Definition clock_edge (c : clock) (t : R) : result R :=
  if Req_bool (ck_T c) 0 then Exn ZeroDivisionError
  else
    let t_ := pmod (t - ck_td c + ck_tt c / 2) (ck_T c) in
    if Rlt_bool (ck_d c * ck_T c) t_
    then bind (pos_edge c (t_ - ck_d c * ck_T c)) (fun v => Ok (- v))
    else pos_edge c t_.

(** numpy [np.allclose(a, b, atol=atol)] on scalars, default [rtol = 1e-5]. *)
Definition allclose (a b atol : R) : bool := Rle_bool (Rabs (a - b)) (atol + 1 / 100000 * Rabs b).

(** clock.py:91-108; the default [atol] is 1e-8. *)
Definition next_tick (c : clock) (t : R) : result R :=
  if Req_bool (ck_T c) 0 then Exn ZeroDivisionError
  else
    let t_ := pmod (t - ck_td c) (ck_T c) in
    if allclose t_ 0 (1 / 100000000) then Ok t else Ok (t + ck_T c - t_).

(** clock.py:143-167: the duty cycle is not passed on, so the result has the default one. *)
Definition delay_clock_by_duty_cycle (c : clock) (delay : R) : result clock :=
  let d := if Req_bool delay 0 then ck_d c * ck_T c else delay in
  clock_init (ck_T c) (ck_tt c) (ck_td c + d) (1 / 2) (ck_max c * 2).

(** *** ramp.py:36-67 *)
Record ramp := mkRamp { ra_amp : R; ra_period : R; ra_phase : R; ra_offset : R }.
Definition ramp_init (amp period phase offset : R) : ramp := mkRamp amp period phase (offset - amp / 2).
Definition ramp_eval (r : ramp) (t : R) : result R :=
  if Req_bool (ra_period r) 0 then Exn ZeroDivisionError
  else Ok (ra_amp r * pmod (t + ra_phase r) (ra_period r) + ra_offset r).

(** *** zero_order_hold.py:56-82.  The data attribute is an array, or (after [__call__]) whatever was passed, here a float. *)
Inductive zdata := ZArr (data : list R) | ZFloat (x : R).
Definition zoh_eval (data : zdata) (T t : R) : result R :=
  if Req_bool T 0 then Exn ZeroDivisionError
  else match data with
       | ZFloat _ => Exn AttributeError
       | ZArr [] => Exn ZeroDivisionError
       | ZArr l => Ok (nth (Z.to_nat (Ztrunc (t / T) mod Z.of_nat (length l))) l 0)
       end.

(** *** impulse_responses.py: StepResponse 17-44, NonReturnToZeroDAC 61-85, RCImpulseResponse 88-128 *)
Inductive waveform :=
| WStep (t0 amp : R)
| WNRZ (t_start t_end amp : R)
| WRC (tau t0 amp : R).
Definition w_t0 (w : waveform) : R := match w with WStep t0 _ => t0 | WNRZ t0 _ _ => t0 | WRC _ t0 _ => t0 end.
Definition w_eval (w : waveform) (t : R) : result R :=
  match w with
  | WStep t0 amp => Ok (if Rle_bool t0 t then amp else 0)
  | WNRZ t0 t_end amp => Ok (if Rlt_bool t t_end then (if Rle_bool t0 t then amp else 0) else 0)
  | WRC tau t0 amp => if Rlt_bool t t0 then Ok 0
                      else if Req_bool tau 0 then Exn ZeroDivisionError else Ok (amp * exp ((t0 - t) / tau))
  end.

(** *** _analog_signal.py: signal expressions.  [SLeaf f] is any signal whose [__call__] evaluates to [f t];
    [SZoh a] is the ZeroOrderHold object at heap address [a]; [u + v] and [u * v] build [SSup [u; v]], [SMod [u; v]]. *)
Inductive sig := SLeaf (f : R -> R) | SZoh (a : nat) | SSup (l : list sig) | SMod (l : list sig).

(** A called signal delivers a float, or, for ZeroOrderHold, the object itself after replacing its data by the argument. *)
Inductive callres := CVal (x : R) | CObj.

(** _analog_signal.py:83-98, 116-131: [res = init; for signal in signals: res = op(res, signal(t))]; a float combined with a
    ZeroOrderHold object is a TypeError (no reflected operator is defined). *)
Fixpoint scall (s : sig) (h : list zdata) (t : R) {struct s} : result callres * list zdata :=
  let go op := fix go (l : list sig) (res : R) (h : list zdata) {struct l} : result callres * list zdata :=
     match l with
     | [] => (Ok (CVal res), h)
     | s :: l => match scall s h t with
                 | (Ok (CVal x), h) => go l (op res x) h
                 | (Ok CObj, h) => (Exn TypeError, h)
                 | (Exn e, h) => (Exn e, h)
                 end
     end in
  match s with
  | SLeaf f => (Ok (CVal (f t)), h)
  | SZoh a => (Ok CObj, upd a (ZFloat t) h)
  | SSup l => go Rplus l 0 h
  | SMod l => go Rmult l 1 h
  end.
