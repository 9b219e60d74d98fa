(** Model of the estimator objects around [__next__]: [set_iterator], [filter_lag] and [warm_up]
    (/repo/src/cbadc/digital_estimator/batch_estimator.py, inherited by FIRFilter, IIRFilter and ParallelEstimator).
    [NUVEstimator] is not a subclass and has neither [filter_lag] nor [warm_up]. *)
From Coq Require Import List Lia Arith Bool ZArith.
From Verif Require Import Base LinAlg Estimators.
Import ListNotations.

(** The object: is [control_signal] set, [_filter_lag], and the rest of the state. *)
Record obj (St : Type) := mkO { o_set : bool; o_lag : Z; o_st : St }.
Arguments mkO {St}. Arguments o_set {St}. Arguments o_lag {St}. Arguments o_st {St}.

Section Obj.
Context {St A : Type}.
Variable next : St -> result A * St.

(** batch_estimator.py:343-346, fir_estimator.py:217-220, iir_estimator.py:169-172: "No iterator set." *)
Definition o_next (o : obj St) : result A * obj St :=
  if o_set o then let '(r, st) := next (o_st o) in (r, mkO true (o_lag o) st) else (Exn GenericException, o).

(** batch_estimator.py:226-228: [for _ in range(samples): self.__next__()] *)
Fixpoint warm_for (n : nat) (o : obj St) : result unit * obj St :=
  match n with
  | O => (Ok tt, o)
  | S n => match o_next o with (Exn e, o) => (Exn e, o) | (Ok _, o) => warm_for n o end
  end.
(** batch_estimator.py:230-232: [while self._filter_lag > 0: self.__next__(); self._filter_lag -= 1].  The number of rounds is
    bounded by the lag, which is the structural argument. *)
Fixpoint warm_while (n : nat) (o : obj St) : result unit * obj St :=
  match n with
  | O => (Ok tt, o)
  | S n => match o_next o with (Exn e, o) => (Exn e, o) | (Ok _, o) => warm_while n (mkO (o_set o) (o_lag o - 1) (o_st o)) end
  end.
(** batch_estimator.py:214-232 *)
Definition warm_up (samples : Z) (o : obj St) : result unit * obj St :=
  if (0 <? samples)%Z then warm_for (Z.to_nat samples) o else warm_while (Z.to_nat (o_lag o)) o.
(** batch_estimator.py:212, fir_estimator.py:286 *)
Definition filter_lag (o : obj St) : Z := o_lag o.
End Obj.

Section Setters.
Context {K : cring}.
(** batch_estimator.py:234-242: only [control_signal] changes *)
Definition b_set (s : @source K) (o : obj (@bst K)) : obj (@bst K) :=
  let st := o_st o in mkO true (o_lag o) (mkB s (b_iter st) (b_ptr st) (b_stop st) (b_buf st) (b_cnt st) (b_mean st) (b_est st)).
Definition f_set (s : @source K) (o : obj (@fst_ K)) : obj (@fst_ K) :=
  let st := o_st o in mkO true (o_lag o) (mkF s (f_iter st) (f_buf st)).
Definition i_set (s : @source K) (o : obj (@ist K)) : obj (@ist K) :=
  let st := o_st o in mkO true (o_lag o) (mkI s (i_iter st) (i_buf st) (i_mean st)).

Definition no_src : @source K := mkSrc [] (SrcObj StopIteration).
(** batch_estimator.py:140-178: K1, K2, [_filter_lag = -1], no iterator *)
Definition b_new (c : @coef K) (K1 K2 : Z) : result (obj (@bst K)) :=
  if (K1 <? 1)%Z then Exn GenericException else if (K2 <? 0)%Z then Exn GenericException
  else Ok (mkO false (-1) (b_init c (Z.to_nat K1) (Z.to_nat K2) no_src)).
(** fir_estimator.py:128-135 *)
Definition f_new (c : @coef K) (K1 K2 : Z) : result (obj (@fst_ K)) :=
  if (K1 <? 0)%Z then Exn GenericException else if (K2 <? 1)%Z then Exn GenericException
  else Ok (mkO false (K2 - 2) (f_init (Z.to_nat K1 + Z.to_nat K2) (cM c) no_src)).
(** iir_estimator.py:117-120 *)
Definition i_new (c : @coef K) (K2 : Z) : result (obj (@ist K)) :=
  if (K2 <? 0)%Z then Exn GenericException else Ok (mkO false (K2 - 2) (i_init c (Z.to_nat K2) no_src)).
End Setters.
