(** FullSimulator and PreComputedControlSignalsSimulator (/repo/src/cbadc/simulator/numerical_simulator.py,
    _base_simulator.py), without thermal noise (state_noise_covariance_matrix = None).  [float] is idealised to [R].
    The numerical routines scipy.integrate.solve_ivp, scipy.linalg.expm and numpy.linalg.pinv are parameters.
    A call that raises ends the run; the partial effect of such a call is not modelled. *)
From Coq Require Import List Arith Lia Bool Reals Lra.
From Flocq Require Import Core.
From Coquelicot Require Import Complex.
From Verif Require Import Base LinAlg FirExtras AnalogSystem Signals DigitalControl.
Import ListNotations.
Open Scope R_scope.

(** current time, state vector, digital control and its arrays *)
Record sim := mkSim { s_t : R; s_x : list R; s_d : dc; s_h : heap }.

(** _base_simulator.py:59-95 *)
Definition base_init (S : asys Rring) (d : dc) (h : heap) (inputs : nat) (x0 : option (list R)) : result sim :=
  if Nat.ltb 0 inputs && negb (Nat.eqb (sL S) inputs) then Exn GenericException else
  match x0 with
  | None => Ok (mkSim 0 (repeat 0 (sN S)) d h)
  | Some x => if Nat.eqb (length x) (sN S) then Ok (mkSim 0 x d h) else Exn GenericException
  end.

(** _base_simulator.py:97-101; the time is set before [digital_control.reset] may raise *)
Definition sim_reset (S : asys Rring) (t : R) (s : sim) : result unit * sim :=
  match dc_reset (s_d s) t (s_h s) with
  | (Ok _, (d, h)) => (Ok tt, mkSim t (repeat 0 (sN S)) d h)
  | (Exn e, (d, h)) => (Exn e, mkSim t (s_x s) d h)
  end.

(** The first half of a step, 95-116 and 494-508: the inputs are evaluated at the start of the step (the array stays zero when
    there are none), the control observes and is updated; [t_old] is 0 because clock_pulses is [0, T]. *)
Definition observe_update (S : asys Rring) (u : list R) (s : sim) : result heap :=
  bind (control_contribution (s_d s) (s_h s) 0) (fun c =>
  bind (control_observation S (s_x s) (Some u) (Some c)) (fun st =>
  match dc_update (s_d s) 0 st (s_h s) with
  | (Ok _, h) => Ok h
  | (Exn e, _) => Exn e
  end)).

Definition inputs_at (S : asys Rring) (inputs : list (R -> R)) (t : R) : list R :=
  match inputs with [] => repeat 0 (sL S) | _ => map (fun f => f t) inputs end.

(** *** FullSimulator, 85-189.  Input signals are functions of time ([tick] has no effect on them). *)
Section Full.
(** [solve_ivp(f, (a, b), y0)]: the last column of [res.y] *)
Variable ivp : (R -> list R -> result (list R)) -> R -> R -> list R -> result (list R).

(** the right-hand side of lines 120-144 (with inputs) and 146-165 (without: the state is that of the start of the step) *)
Definition full_rhs (S : asys Rring) (inputs : list (R -> R)) (s : sim) (h : heap) (t : R) (y : list R) : result (list R) :=
  match inputs with
  | [] => bind (dotv (aA S) (s_x s)) (fun ax =>
          bind (control_contribution (s_d s) h t) (fun c =>
          bind (dotv_opt (aG S) c) (fun gc => Ok (vadd (K := Rring) ax gc))))
  | _ => bind (control_contribution (s_d s) h t) (fun c => derivative S y (map (fun f => f (t + s_t s)) inputs) c)
  end.

(** [next(simulator)]: the new state, and the array handed out by control_signal *)
Definition full_next (S : asys Rring) (inputs : list (R -> R)) (s : sim) : result (nat * sim) :=
  bind (observe_update S (inputs_at S inputs (0 + s_t s)) s) (fun h =>
  bind (ivp (full_rhs S inputs s h) 0 (ck_T (d_clk (s_d s))) (s_x s)) (fun x =>
  Ok (control_signal (s_d s), mkSim (s_t s + ck_T (d_clk (s_d s))) x (s_d s) h))).
End Full.

(** *** PreComputedControlSignalsSimulator, 202-600 *)
(** sinusoidal.py:55-66, 97-100; the second kind has the attribute piecewise_constant, the third has not *)
Inductive insig := ISin (amp freq phase offset : R) | IPw (f : R -> R) | IOther (f : R -> R).
Definition ang_freq (freq : R) : R := 2 * PI * freq.
Definition sig_eval (i : insig) (t : R) : R :=
  match i with
  | ISin a f p o => a * sin (ang_freq f * t + p) + o
  | IPw f => f t
  | IOther f => f t
  end.

(** [np.angle] *)
Definition angle (z : C) : R :=
  if Req_bool (Cmod z) 0 then 0 else if Rle_bool 0 (snd z) then acos (fst z / Cmod z) else - acos (fst z / Cmod z).

(** the columns computed in 332-481 *)
Record pre := mkPre {
  p_Phi : nd2 Rring;           (* _pre_computed_state_transition_matrices[0] *)
  p_ctrl : nd2 Rring;          (* _pre_computed_control_matrices[0] *)
  p_pw : nd2 Rring;            (* _precomputed_piecewise_constant_transition[0] *)
  p_mag : nat -> nat -> R;     (* _pre_computed_transfer_function[0] *)
  p_ph : nat -> nat -> R;      (* _pre_computed_transfer_function[1] *)
  p_freq : list R;             (* _pre_computed_angular_frequencies *)
  p_pwi : list nat             (* _piecewise_constant_signals_index *)
}.

Fixpoint mapM {A B : Type} (f : A -> result B) (l : list A) : result (list B) :=
  match l with [] => Ok [] | a :: l => bind (f a) (fun b => bind (mapM f l) (fun bs => Ok (b :: bs))) end.

(** indices of the sinusoidal, and of the other piecewise constant, inputs (361-373) *)
Definition is_sin (i : insig) : bool := match i with ISin _ _ _ _ => true | _ => false end.
Definition is_pw (i : insig) : bool := match i with IPw _ => true | _ => false end.
Definition indices (f : insig -> bool) (l : list insig) : list nat :=
  filter (fun i => f (nth i l (IOther (fun _ => 0)))) (seq 0 (length l)).

Section Pre.
Variable ivp : (R -> list R -> result (list R)) -> R -> R -> list R -> result (list R).
(** [scipy.linalg.expm(A * t)] *)
Variable expm : nd2 Rring -> R -> nd2 Rring.
(** [np.linalg.pinv(1j * omega * I - A) @ B], analog_system.py:432-437 *)
Variable atf : asys Rring -> R -> nat -> nat -> C.

(** analog_system.py:507-562, one frequency: D + C^T atf, shape N_tilde x L *)
Definition transfer (S : asys Rring) (w : R) (i l : nat) : C :=
  (RtoC (ent (aD S) i l) + fold_right Cplus (RtoC 0) (map (fun k => (RtoC (ent (aCT S) i k) * atf S w k l)%C) (seq 0 (sN S))))%C.

(** column [m] of the control matrix, 420-456: the response of the analog system to the waveform of control [m] *)
Definition control_rhs (S : asys Rring) (d : dc) (m : nat) (t : R) (x : list R) : result (list R) :=
  bind (dotv (aA S) x) (fun ax =>
  bind (dc_impulse_response d m t) (fun w =>
  bind (dotv_opt (aG S) w) (fun gw => Ok (vadd (K := Rring) ax gw)))).
Definition control_column (S : asys Rring) (d : dc) (T : R) (m : nat) : result (list R) :=
  ivp (control_rhs S d m) 0 T (repeat 0 (sN S)).
(** 458-480 *)
Definition input_rhs (S : asys Rring) (l : nat) (t : R) (x : list R) : result (list R) :=
  bind (dotv (aA S) x) (fun ax => Ok (vadd (K := Rring) ax (map (fun i => ent (aB S) i l) (seq 0 (sN S))))).
Definition input_column (S : asys Rring) (T : R) (l : nat) : result (list R) :=
  ivp (input_rhs S l) 0 T (repeat 0 (sN S)).

Definition of_columns (N : nat) (cs : list (list R)) : nd2 Rring :=
  mk2 (K := Rring) N (length cs) (fun i j => nth i (nth j cs []) 0).

(** 253-294 and 332-481.  The test of pre_computable is not modelled (the attribute is True for every class modelled here).
    [tf[:, l_index, 0]] is assigned to a row of N entries: numpy accepts N_tilde = N, and repeats a single entry. *)
Definition pre_init (S : asys Rring) (d : dc) (h : heap) (inputs : list insig) (x0 : option (list R)) : result (pre * sim) :=
  bind (base_init S d h (length inputs) x0) (fun s =>
  if existsb (fun i => match i with IOther _ => true | _ => false end) inputs then Exn ValueError else
  if Rlt_bool 0 (fold_right Rplus 0 (map w_t0 (d_resp d))) then Exn NotImplementedError else
  let sins := indices is_sin inputs in
  let pws := indices is_pw inputs in
  let T := ck_T (d_clk d) in
  let sin_of l := nth l inputs (ISin 0 0 0 0) in
  let row n := if Nat.eqb (sNt S) 1 then O else n in
  bind (mapM (fun l => match sin_of l with
                       | ISin a f p o => if negb (Nat.eqb (sNt S) (sN S) || Nat.eqb (sNt S) 1) then Exn ValueError
                                         else if negb (Req_bool o 0) then Exn NotImplementedError else Ok tt
                       | _ => Ok tt end) sins) (fun _ =>
  bind (mapM (control_column S d T) (seq 0 (sM S))) (fun ctrl =>
  bind (mapM (input_column S T) pws) (fun pwc =>
  Ok (mkPre (expm (aA S) T) (of_columns (sN S) ctrl) (of_columns (sN S) pwc)
        (fun n l => let li := nth l sins O in
                    match sin_of li with ISin a f _ _ => Cmod (transfer S (ang_freq f) (row n) li) * a | _ => 0 end)
        (fun n l => let li := nth l sins O in
                    match sin_of li with ISin _ f p _ => angle (transfer S (ang_freq f) (row n) li) + p | _ => 0 end)
        (map (fun l => match sin_of l with ISin _ f _ _ => ang_freq f | _ => 0 end) sins)
        pws, s))))).

(** 516-536, the sum of sinusoids at time [t].  The frequencies are an array of shape (n, 1) for n sinusoids and the phases one
    of shape (N, n); their broadcast sum fails unless n is 1 or N (or N = 1, where the result then has the wrong shape for the
    matrix product), and pairs row i with frequency i. *)
Definition sine_sum (N : nat) (p : pre) (t : R) : result (list R) :=
  let n := length (p_freq p) in
  if negb (Nat.eqb n 1 || Nat.eqb n N) then Exn ValueError else
  Ok (map (fun i => fold_right Rplus 0 (map (fun l =>
        p_mag p i l * sin (nth (if Nat.eqb n 1 then O else i) (p_freq p) 0 * t + p_ph p i l)) (seq 0 n))) (seq 0 N)).

(** [next(simulator)], 483-600 *)
Definition pre_next (S : asys Rring) (inputs : list insig) (p : pre) (s : sim) : result (nat * sim) :=
  let T := ck_T (d_clk (s_d s)) in
  bind (observe_update S (inputs_at S (map sig_eval inputs) (s_t s + 0)) s) (fun h =>
  bind (dotv (p_Phi p) (s_x s)) (fun x1 =>
  bind (match p_freq p with
        | [] => Ok x1
        | _ => bind (sine_sum (sN S) p (s_t s + T)) (fun after =>
               bind (sine_sum (sN S) p (s_t s + 0)) (fun before =>
               bind (dotv (p_Phi p) before) (fun pb => Ok (vadd (K := Rring) x1 (vsub (K := Rring) after pb)))))
        end) (fun x2 =>
  bind (match p_pwi p with
        | [] => Ok x2
        | _ => bind (dotv (p_pw p) (map (fun l => sig_eval (nth l inputs (IOther (fun _ => 0))) (s_t s + T)) (p_pwi p))) (fun pc =>
               Ok (vadd (K := Rring) x2 pc))
        end) (fun x3 =>
  bind (dotv (p_ctrl p) (map (fun v => 2 * v - 1) (rd_arr h (d_s (s_d s))))) (fun cc =>
  Ok (control_signal (s_d s), mkSim (s_t s + T) (vadd (K := Rring) x3 cc) (s_d s) h)))))).
End Pre.
