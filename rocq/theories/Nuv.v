(** The NUV estimator, /repo/src/cbadc/digital_estimator/nuv_estimator.py.  [float] is idealised to [R].  The numerical routines
    (inverse, matrix exponential, differential equation solver) are parameters. *)
From Coq Require Import List Arith Lia Bool Reals Lra ZArith.
From Flocq Require Import Core.
From Verif Require Import Base LinAlg FirExtras AnalogSystem Signals DigitalControl Simulator Zpk FilterCoeff Estimators.
Import ListNotations.
Open Scope R_scope.

Notation rvec := (list R).
Definition rvadd : rvec -> rvec -> rvec := vadd (K := Rring).
Definition rvsub : rvec -> rvec -> rvec := vsub (K := Rring).

(** lines 108-127: what the constructor stores.  [covU], [bound_y], [gamma] are floats, as documented (the docstring also allows a
    matrix for [covU], the annotation does not) *)
Record nuv := mkNuv { nS : asys Rring; nAf : rmat; nBf : rmat; nVu : rmat; n_covU : R; n_bound : R; n_gamma : R; nK1 : nat; nK2 : nat; n_iter : nat; n_over : nat; nTs : R }.
Definition nK3 (c : nuv) : nat := (nK1 c + nK2 c)%nat.

(** the state: iterator, [_estimate_pointer], [_stop_iteration], [_control_signal], [_control_signal_in_buffer], row 0 of
    [_forward_mean], of [_forward_CoVariance], of [_sigma_squared_1] and of [_sigma_squared_2] and [_estimate].  The other rows of these
    arrays are overwritten before they are read.  After an exception in [_compute_batch] the buffer stays full, so that no batch is
    computed any more: the rows 0 of the sigmas at that moment are never read. *)
Record nst := mkN { n_src : option (@source Rring); n_ptr : nat; n_stop : bool; n_buf : list rvec; n_cnt : nat; n_m0 : rvec; n_V0 : rmat; n_s1 : rvec; n_s2 : rvec; n_est : list rvec }.

Section Nuv.
(** [np.linalg.inv] *)
Variable inv : rmat -> result rmat.
Variable ivp : (R -> list R -> result (list R)) -> R -> R -> list R -> result (list R).
(** [scipy.linalg.expm(M * t)] *)
Variable expm : rmat -> R -> result rmat.

(** *** Coefficients, lines 238-297 *)
(** 271-277: the right-hand side does not depend on the state; [flatten] is row-major *)
Definition flatten (m : rmat) : list R := flat_map (fun i => map (fun j => ent m i j) (seq 0 (cols m))) (seq 0 (rows m)).
Definition vu_rhs (S : asys Rring) (BBT : rmat) (Ts : R) (t : R) (_ : list R) : result (list R) :=
  bind (expm (aA S) (Ts - t)) (fun E1 =>
  bind (expm (tr (aA S)) (Ts - t)) (fun E2 =>
  bind (dotm BBT E2) (fun X => bind (dotm E1 X) (fun Y => Ok (flatten Y))))).
Definition reshape (n : nat) (l : list R) : rmat := mk2 (K := Rring) n n (fun i j => nth (i * n + j) l 0).
(** Af, Bf, Vu *)
Definition nuv_coefficients (S : asys Rring) (d : dc) (covU Ts : R) : result (rmat * rmat * rmat) :=
  bind (expm (aA S) Ts) (fun Af =>
  bind (columns (sN S) (sM S) (fun m => ivp (fwd_rhs S d (aA S) m) 0 Ts (repeat 0 (sN S)))) (fun Bf =>
  bind (dotm (aB S) (scalem covU (tr (aB S)))) (fun BBT =>
  bind (ivp (vu_rhs S BBT Ts) 0 Ts (repeat 0 (sN S * sN S)%nat)) (fun v =>
  Ok (Af, Bf, scalem covU (reshape (sN S) v)))))).

(** *** Constructor, lines 83-168.  [oversample] negative is not modelled. *)
Definition nuv_init (S : asys Rring) (d : dc) (covU bound gamma : R) (K1 K2 : Z) (iters : nat) (Ts : option R) (over : nat) : result (nuv * nst) :=
  if (K1 <? 1)%Z then Exn GenericException else
  if (K2 <? 0)%Z then Exn GenericException else
  if Nat.eqb over 0 then Exn ZeroDivisionError else
  let T := match Ts with Some t => if Req_bool t 0 then ck_T (d_clk d) / INR over else t / INR over | None => ck_T (d_clk d) / INR over end in
  bind (nuv_coefficients S d covU T) (fun '(Af, Bf, Vu) =>
  let k1 := Z.to_nat K1 in let k2 := Z.to_nat K2 in
  Ok (mkNuv S Af Bf Vu covU bound gamma k1 k2 iters over T,
      mkN None k1 false (repeat (repeat 0 (sM S)) (k1 + k2)) 0 (repeat 0 (sN S)) (scalem (10 ^ 12) (eye2 (K := Rring) (sN S) (sN S)))
          (repeat 1 (sNt S)) (repeat 1 (sNt S)) (repeat (repeat 0 (sL S)) k1))).

Section Run.
Variable c : nuv.
Let S := nS c.
Let CT := aCT S.

(** *** One pass over the batch *)
(** lines 474-488 [_update_observation_statistics], one time index: y_mean, y_CoVariance *)
Definition diag (s : rvec) : rmat := mk2 (K := Rring) (sNt S) (sNt S) (fun i j => if Nat.eqb i j then nth i s 0 else 0).
Definition row_sums (m : rmat) : rvec := map (fun i => ksum (K := Rring) (cols m) (fun j => ent m i j)) (seq 0 (rows m)).
Definition reciprocals (s : rvec) : result rvec := if existsb (fun x => Req_bool x 0) s then Exn ArithmeticError else Ok (map Rinv s).
Definition observation (s1 s2 : rvec) : result (rvec * rmat) :=
  bind (reciprocals s1) (fun r1 => bind (reciprocals s2) (fun r2 =>
  let W1 := diag r1 in let W2 := diag r2 in
  bind (addm W1 W2) (fun W =>
  let Wm := rvsub (map (Rmult (n_bound c)) (row_sums W1)) (map (Rmult (n_bound c)) (row_sums W2)) in
  bind (inv W) (fun Yc => bind (dotv Yc Wm) (fun y => Ok (y, Yc)))))).

(** one time index of the arrays of the forward pass: G, F, forward mean, forward covariance, y_mean *)
Record node := mkNode { gG : rmat; gF : rmat; g_m : rvec; gV : rmat; g_y : rvec }.
(** lines 333-384 [_MBF], forward pass *)
Definition gains (Yc V : rmat) : result (rmat * rmat) :=
  bind (dotm V (tr CT)) (fun X1 => bind (dotm CT X1) (fun X2 => bind (addm Yc X2) (fun X3 => bind (inv X3) (fun G =>
  bind (dotm G CT) (fun X4 => bind (dotm (tr CT) X4) (fun X5 => bind (dotm V X5) (fun X6 =>
  bind (subm (eye2 (K := Rring) (sN S) (sN S)) X6) (fun F => Ok (G, F))))))))).
Definition next_mean (G F : rmat) (m : rvec) (V : rmat) (y s : rvec) : result rvec :=
  bind (dotv F m) (fun a => bind (dotv G y) (fun x1 => bind (dotv (tr CT) x1) (fun x2 => bind (dotv V x2) (fun x3 =>
  bind (dotv (nAf c) (rvadd a x3)) (fun x4 => bind (dotv (nBf c) s) (fun x5 => Ok (rvadd x4 x5))))))).
Definition next_cov (F V : rmat) : result rmat :=
  bind (dotm F V) (fun X1 => bind (dotm X1 (tr (nAf c))) (fun X2 => bind (dotm (nAf c) X2) (fun X3 => addm X3 (nVu c)))).
(** [obs]: (y_mean, y_CoVariance, control signal) per time index *)
Fixpoint forward (obs : list (rvec * rmat * rvec)) (m : rvec) (V : rmat) : result (list node) :=
  match obs with
  | [] => Ok []
  | (y, Yc, s) :: r =>
      bind (gains Yc V) (fun '(G, F) =>
      match r with
      | [] => Ok [mkNode G F m V y]
      | _ => bind (next_mean G F m V y s) (fun m' => bind (next_cov F V) (fun V' => bind (forward r m' V') (fun l => Ok (mkNode G F m V y :: l))))
      end)
  end.
(** lines 386-430 [_MBF], backward pass; [CT.transpose()] is applied to the forward mean *)
Fixpoint backward (l : list node) : result (list rvec) :=
  match l with
  | [] => Ok []
  | g :: r =>
      bind (backward r) (fun xs =>
      bind (match xs with [] => Ok (repeat 0 (sN S)) | x :: _ => dotv (tr (nAf c)) x end) (fun z =>
      bind (dotv (tr CT) (g_m g)) (fun cm =>
      let temp := rvsub cm (g_y g) in
      bind (dotv (tr (gF g)) z) (fun x1 => bind (dotv (gG g) temp) (fun x2 => bind (dotv (tr CT) x2) (fun x3 =>
      Ok (rvadd x1 x3 :: xs)))))))
  end.
(** 309-310, 313-314: [_update_observation_statistics] and [_MBF] *)
Fixpoint observations (s1 s2 : list rvec) (buf : list rvec) : result (list (rvec * rmat * rvec)) :=
  match s1, s2, buf with
  | a :: s1, b :: s2, s :: buf => bind (observation a b) (fun '(y, Yc) => bind (observations s1 s2 buf) (fun l => Ok ((y, Yc, s) :: l)))
  | _, _, _ => Ok []
  end.
Definition one_pass (m0 : rvec) (V0 : rmat) (buf s1 s2 : list rvec) : result (list node * list rvec) :=
  bind (observations s1 s2 buf) (fun obs => bind (forward obs m0 V0) (fun l => bind (backward l) (fun xs => Ok (l, xs)))).

(** lines 439-472 [_update_observation_bound_variances], one time index *)
Definition min_sigma : R := / 10 ^ 100.
Definition bounds (g : node) (xi : rvec) : result (rvec * rvec) :=
  bind (dotv (gV g) xi) (fun vx => bind (dotv CT (rvsub (g_m g) vx)) (fun p =>
  if Req_bool (n_gamma c) 0 then Exn ArithmeticError else
  Ok (map (fun v => Rmax (Rabs (v - n_bound c) / n_gamma c) min_sigma) p, map (fun v => Rmax (Rabs (v + n_bound c) / n_gamma c) min_sigma) p))).
Fixpoint bounds_all (l : list node) (xs : list rvec) : result (list rvec * list rvec) :=
  match l, xs with
  | g :: l, x :: xs => bind (bounds g x) (fun '(a, b) => bind (bounds_all l xs) (fun '(s1, s2) => Ok (a :: s1, b :: s2)))
  | _, _ => Ok ([], [])
  end.

(** lines 309-314: the variances that were used last are returned with the arrays *)
Fixpoint iterate (n : nat) (m0 : rvec) (V0 : rmat) (buf s1 s2 : list rvec) : result (list node * list rvec * list rvec * list rvec) :=
  bind (one_pass m0 V0 buf s1 s2) (fun '(l, xs) =>
  match n with
  | O => Ok (l, xs, s1, s2)
  | Datatypes.S n => bind (bounds_all l xs) (fun '(s1, s2) => iterate n m0 V0 buf s1 s2)
  end).

(** lines 432-437 [_input_estimation] *)
Definition estimate (xi : rvec) : result rvec := bind (dotv (tr (aB S)) xi) (fun b => Ok (map (fun x => - (n_covU c * x)) b)).

(** 490-496 [_reset_between_batch] and 299-331 [_compute_batch] *)
Definition compute_batch (st : nst) : result nst :=
  let ones := repeat (repeat 1 (sNt S)) (nK3 c - 1) in
  if Nat.ltb (n_cnt st) (nK3 c) then Exn GenericException else
  bind (iterate (n_iter c) (n_m0 st) (n_V0 st) (n_buf st) (n_s1 st :: ones) (n_s2 st :: ones)) (fun '(l, xs, s1, s2) =>
  bind (mapM estimate (firstn (nK1 c) xs)) (fun est =>
  match nth_error l (nK1 c - 1) with
  | None => Exn IndexError
  | Some g => Ok (mkN (n_src st) (n_ptr st) (n_stop st) (roll (nK1 c) (n_buf st)) (n_cnt st - nK1 c) (g_m g) (gV g)
                      (nth (nK1 c - 1) s1 []) (nth (nK1 c - 1) s2 []) est)
  end)).

(** *** Protocol *)
(** 170-182 *)
Definition set_iterator (st : nst) (s : @source Rring) : nst := mkN (Some s) (n_ptr st) (n_stop st) (n_buf st) (n_cnt st) (n_m0 st) (n_V0 st) (n_s1 st) (n_s2 st) (n_est st).

(** 225-236 [_input]; the loop repeats one assignment (not executed at all for M = 0, where the row is empty) *)
Definition n_input (st : nst) (s : rvec) : result (bool * nst) :=
  if Nat.eqb (n_cnt st) (nK3 c) then Exn GenericException else
  bind (if Nat.eqb (sM S) 0 then Ok [] else row (sM S) (pm1 (K := Rring) s)) (fun r =>
  let cnt := Datatypes.S (n_cnt st) in
  Ok (Nat.ltb (nK3 c - 1) cnt, mkN (n_src st) (n_ptr st) (n_stop st) (upd (n_cnt st) r (n_buf st)) cnt (n_m0 st) (n_V0 st) (n_s1 st) (n_s2 st) (n_est st))).
(** 213-214: [oversample] copies of one sample; an exception leaves the copies made so far *)
Fixpoint n_copies (k : nat) (full : bool) (st : nst) (s : rvec) : result bool * nst :=
  match k with
  | O => (Ok full, st)
  | Datatypes.S k => match n_input st s with Exn e => (Exn e, st) | Ok (full, st) => n_copies k full st s end
  end.
(** 202-214; [fuel]: K3 + 1 is enough (proved: RecursionError never shows up) *)
Fixpoint n_fill (fuel : nat) (st : nst) (src : @source Rring) : result unit * nst :=
  match fuel with
  | O => (Exn RecursionError, st)
  | Datatypes.S fuel =>
      let '(r, src) := src_next src in
      let go stop s :=
        match n_copies (n_over c) false (mkN (Some src) (n_ptr st) stop (n_buf st) (n_cnt st) (n_m0 st) (n_V0 st) (n_s1 st) (n_s2 st) (n_est st)) s with
        | (Exn e, st) => (Exn e, st)
        | (Ok full, st) => if full then (Ok tt, st) else n_fill fuel st src
        end in
      match r with
      | Ok s => go (n_stop st) s
      | Exn RuntimeError => go true (repeat 0 (sM S))
      | Exn e => (Exn e, mkN (Some src) (n_ptr st) (n_stop st) (n_buf st) (n_cnt st) (n_m0 st) (n_V0 st) (n_s1 st) (n_s2 st) (n_est st))
      end
  end.
(** 184-223 [__next__]; the recursion is one level deep *)
Fixpoint n_next_fuel (fuel : nat) (st : nst) : result rvec * nst :=
  match fuel with
  | O => (Exn RecursionError, st)
  | Datatypes.S fuel =>
      match n_src st with
      | None => (Exn GenericException, st)
      | Some src =>
          if Nat.ltb (n_ptr st) (nK1 c) then
            (Ok (nth (n_ptr st) (n_est st) []), mkN (n_src st) (Datatypes.S (n_ptr st)) (n_stop st) (n_buf st) (n_cnt st) (n_m0 st) (n_V0 st) (n_s1 st) (n_s2 st) (n_est st))
          else if n_stop st then (Exn StopIteration, st)
          else match n_fill (Datatypes.S (nK3 c)) st src with
               | (Exn e, st) => (Exn e, st)
               | (Ok _, st) =>
                   match compute_batch st with
                   | Exn e => (Exn e, st)
                   | Ok st => n_next_fuel fuel (mkN (n_src st) (n_ptr st - nK1 c) (n_stop st) (n_buf st) (n_cnt st) (n_m0 st) (n_V0 st) (n_s1 st) (n_s2 st) (n_est st))
                   end
               end
      end
  end.
Definition n_next (st : nst) : result rvec * nst := n_next_fuel 2 st.
End Run.
End Nuv.
