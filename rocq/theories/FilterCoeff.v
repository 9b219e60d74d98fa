(** Coefficients of the estimators, /repo/src/cbadc/digital_estimator/_filter_coefficients.py.  [float] is idealised to [R].
    The numerical routines (Riccati solvers, inverse, linear solve, matrix exponential, differential equation solvers) are
    parameters. *)
From Coq Require Import List Arith Lia Bool Reals Lra.
From Flocq Require Import Core.
From Coquelicot Require Import Complex.
From Verif Require Import Base LinAlg FirExtras AnalogSystem Signals DigitalControl Simulator Zpk.
Import ListNotations.
Open Scope R_scope.

Notation rmat := (nd2 Rring).
Definition tr {K : cring} (a : nd2 K) : nd2 K := mk2 (cols a) (rows a) (fun i j => ent a j i).
(** element-wise operations.  numpy would also stretch dimensions of size one; the arguments have equal shapes whenever the routines
    return matrices of the shapes they should *)
Definition zip2 {K : cring} (f : K -> K -> K) (a b : nd2 K) : result (nd2 K) :=
  if Nat.eqb (rows a) (rows b) && Nat.eqb (cols a) (cols b) then Ok (mk2 (rows a) (cols a) (fun i j => f (ent a i j) (ent b i j))) else Exn ValueError.
Definition mapm {K : cring} (f : K -> K) (a : nd2 K) : nd2 K := mk2 (rows a) (cols a) (fun i j => f (ent a i j)).
Definition addm (a b : rmat) : result rmat := zip2 (K := Rring) Rplus a b.
Definition subm (a b : rmat) : result rmat := zip2 (K := Rring) Rminus a b.
Definition oppm (a : rmat) : rmat := mapm (K := Rring) Ropp a.
Definition scalem (c : R) (a : rmat) : rmat := mapm (K := Rring) (Rmult c) a.

(** impulse_responses.py:46-47 (inherited by NonReturnToZeroDAC) and 130-132: [_mpmath]; 58 and 142: the same expressions as symbolic *)
Definition w_mp (w : waveform) (t : R) : result R :=
  match w with
  | WStep _ amp => Ok amp
  | WNRZ _ _ amp => Ok amp
  | WRC tau t0 amp => if Req_bool tau 0 then Exn ZeroDivisionError else Ok (amp * exp ((t0 - t) / tau))
  end.

(** lines 21-24 *)
Inductive backend := BNumpy | BSympy | BMpmath.

Section Coefficients.
(** [_analytical_care], or [_scipy_care], or [bruteForceCare]: lines 31-77, 93-106, 109-122 *)
Variable care_raw : rmat -> rmat -> rmat -> rmat -> result rmat.
(** [np.linalg.inv], [R ** (-1)] *)
Variable inv : rmat -> result rmat.
(** [np.linalg.lstsq(V, B)[0]], [V ** (-1) * B], [mp.qr_solve] column by column *)
Variable solve : rmat -> rmat -> result rmat.
Variable ivp : (R -> list R -> result (list R)) -> R -> R -> list R -> result (list R).
(** [scipy.linalg.expm(M * t)], [mp.expm], the symbolic exponential *)
Variable expm : rmat -> R -> result rmat.

(** lines 80-106: the solution is made symmetric *)
Definition care (A B Q Rm : rmat) : result rmat :=
  bind (care_raw A B Q Rm) (fun V => bind (addm V (tr V)) (fun s => Ok (scalem (/ 2) s))).

(** lines 174-181 *)
Definition riccati (S : asys Rring) (eta2 : R) : result (rmat * rmat * rmat) :=
  let A := tr (aA S) in
  let B := tr (aCT S) in
  bind (dotm (aB S) (tr (aB S))) (fun Q =>
  let Rm := scalem eta2 (eye2 (K := Rring) (sNt S) (sNt S)) in
  bind (care A B Q Rm) (fun Vf =>
  bind (care (oppm A) B Q Rm) (fun Vb => Ok (Rm, Vf, Vb)))).

(** 213-221, 264-272, 331-337: the matrices of the continuous-time filters *)
Definition temp_matrices (S : asys Rring) (Rm Vf Vb : rmat) : result (rmat * rmat) :=
  bind (inv Rm) (fun Ri =>
  bind (dotm Ri (aCT S)) (fun X =>
  bind (dotm (tr (aCT S)) X) (fun CCT =>
  bind (dotm Vf CCT) (fun VfC => bind (subm (aA S) VfC) (fun tAf =>
  bind (dotm Vb CCT) (fun VbC => bind (addm (aA S) VbC) (fun tAb => Ok (tAf, tAb)))))))).

(** 366-369 and 391-394 *)
Definition fwd_rhs (S : asys Rring) (d : dc) (tAf : rmat) (m : nat) (t : R) (x : list R) : result (list R) :=
  bind (dotv tAf x) (fun ax => bind (dc_impulse_response d m t) (fun w =>
  bind (dotv_opt (aG S) w) (fun gw => Ok (vadd (K := Rring) ax gw)))).
Definition bwd_rhs (S : asys Rring) (d : dc) (tAb : rmat) (Ts : R) (m : nat) (t : R) (x : list R) : result (list R) :=
  bind (dotv (oppm tAb) x) (fun ax => bind (dc_impulse_response d m (Ts - t)) (fun w =>
  bind (dotv_opt (aG S) w) (fun gw => Ok (vsub (K := Rring) ax gw)))).

(** [_regular], 349-415.  The events passed to solve_ivp do not end the integration. *)
Definition columns (N M : nat) (col : nat -> result (list R)) : result rmat :=
  bind (mapM col (seq 0 M)) (fun cs => Ok (mk2 (K := Rring) N M (fun i j => nth i (nth j cs []) 0))).
Definition regular (S : asys Rring) (d : dc) (tAf tAb : rmat) : result (rmat * rmat) :=
  let Ts := ck_T (d_clk d) in
  bind (columns (sN S) (sM S) (fun m => ivp (fwd_rhs S d tAf m) 0 Ts (repeat 0 (sN S)))) (fun Bf =>
  bind (columns (sN S) (sM S) (fun m => ivp (bwd_rhs S d tAb Ts m) 0 Ts (repeat 0 (sN S)))) (fun Bb => Ok (Bf, Bb))).

(** [_mid_point], 418-469 *)
Definition mid_point (S : asys Rring) (d : dc) (tAf tAb : rmat) : result (rmat * rmat) :=
  let Ts := ck_T (d_clk d) in
  let I := eye2 (K := Rring) (sN S) (sN S) in
  bind (columns (sN S) (sM S) (fun m => ivp (fwd_rhs S d tAf m) 0 (Ts / 2) (repeat 0 (sN S)))) (fun Bf =>
  bind (columns (sN S) (sM S) (fun m => ivp (bwd_rhs S d tAb Ts m) 0 (Ts / 2) (repeat 0 (sN S)))) (fun Bb =>
  bind (expm tAf (Ts / 2)) (fun X1 => bind (addm I X1) (fun E1 => bind (dotm E1 Bf) (fun Bf =>
  bind (expm tAb (Ts / 2)) (fun X2 => bind (addm I X2) (fun E2 => bind (dotm E2 Bb) (fun Bb => Ok (Bf, Bb))))))))).

(** [_numerical_solver], 323-346 *)
Definition numerical (S : asys Rring) (d : dc) (Rm Vf Vb : rmat) (mid : bool) : result (rmat * rmat * rmat * rmat * rmat) :=
  let Ts := ck_T (d_clk d) in
  bind (temp_matrices S Rm Vf Vb) (fun '(tAf, tAb) =>
  bind (expm tAf Ts) (fun Af =>
  bind (expm (oppm tAb) Ts) (fun Ab =>
  bind (addm Vf Vb) (fun V =>
  bind (solve V (aB S)) (fun W =>
  bind (if mid then mid_point S d tAf tAb else regular S d tAf tAb) (fun '(Bf, Bb) =>
  Ok (Af, Ab, Bf, Bb, tr W))))))).

(** ode_solver/mpmath.py:7-30, one column: [w] is [_mpmath] of the (possibly reversed) signal *)
Definition mp_rhs (A G : rmat) (w : nat -> R -> result R) (m : nat) (t : R) (x : list R) : result (list R) :=
  bind (w m t) (fun v => bind (dotv A x) (fun ax => Ok (vadd (K := Rring) (map (fun i => ent G i m * v) (seq 0 (rows G))) ax))).
Definition sig_mp (d : dc) (m : nat) (t : R) : result R :=
  match nth_error (d_resp d) m with None => Exn IndexError | Some w => w_mp w t end.
(** [_mp_solver], 252-293, with [reverse_signal], 296-320.  [mp.matrix(None)] raises *)
Definition mp_solver (S : asys Rring) (d : dc) (Rm Vf Vb : rmat) : result (rmat * rmat * rmat * rmat * rmat) :=
  let Ts := ck_T (d_clk d) in
  bind (temp_matrices S Rm Vf Vb) (fun '(tAf, tAb) =>
  match aG S with
  | None => Exn TypeError
  | Some G =>
      bind (columns (sN S) (sM S) (fun m => ivp (mp_rhs tAf G (sig_mp d) m) 0 Ts (repeat 0 (sN S)))) (fun Bf =>
      bind (columns (sN S) (sM S) (fun m => ivp (mp_rhs (oppm tAb) (oppm G) (fun m t => sig_mp d m (Ts - t)) m) 0 Ts (repeat 0 (sN S)))) (fun Bb =>
      bind (expm tAf Ts) (fun Af => bind (expm (oppm tAb) Ts) (fun Ab =>
      bind (addm Vf Vb) (fun V => bind (solve V (aB S)) (fun W =>
      Ok (Af, Ab, Bf, Bb, tr W)))))))
  end).

(** [_analytical_solver], 200-249, with ode_solver/sympy.py: every column vanishes at the [t0] of its signal.  The signals of the
    backward filter are not reversed.  [dsolve] is the parameter [ivp]. *)
Definition analytical (S : asys Rring) (d : dc) (Rm Vf Vb : rmat) (mid : bool) : result (rmat * rmat * rmat * rmat * rmat) :=
  if mid then Exn NotImplementedError else
  let Ts := ck_T (d_clk d) in
  bind (temp_matrices S Rm Vf Vb) (fun '(tAf, tAb) =>
  match aG S with
  | None => Exn TypeError
  | Some G =>
      let t0 m := w_t0 (nth m (d_resp d) (WStep 0 0)) in
      bind (columns (sN S) (sM S) (fun m => ivp (mp_rhs tAf G (sig_mp d) m) (t0 m) Ts (repeat 0 (sN S)))) (fun Bf =>
      bind (columns (sN S) (sM S) (fun m => ivp (mp_rhs (oppm tAb) (oppm G) (sig_mp d) m) (t0 m) Ts (repeat 0 (sN S)))) (fun Bb =>
      bind (expm tAf Ts) (fun Af => bind (expm (oppm tAb) Ts) (fun Ab =>
      bind (addm Vf Vb) (fun V => bind (solve V (aB S)) (fun W =>
      Ok (Af, Ab, Bf, Bb, tr W)))))))
  end).

(** [compute_filter_coefficients], 167-197: Af, Ab, Bf, Bb, WT *)
Definition coefficients (S : asys Rring) (d : dc) (eta2 : R) (b : backend) (mid : bool) : result (rmat * rmat * rmat * rmat * rmat) :=
  bind (riccati S eta2) (fun '(Rm, Vf, Vb) =>
  match b with
  | BSympy => analytical S d Rm Vf Vb mid
  | BMpmath => mp_solver S d Rm Vf Vb
  | BNumpy => numerical S d Rm Vf Vb mid
  end).
End Coefficients.
