(** Model of analog_signal/quadrature.py, sinc_pulse.py, random.py, digital_estimator/decimation_and_demodulation.py ([demodulate]),
    simulator/numpy_simulator.py.  [float] is idealised to [R], complex128 to [C]. *)
From Coq Require Import List Arith Bool ZArith Reals Lra.
From Flocq Require Import Core.
From Coquelicot Require Import Complex.
From Verif Require Import Base.
Import ListNotations.
Open Scope R_scope.

(** ** quadrature.py *)
(** a signal: its method [evaluate] *)
Definition signal : Type := R -> result R.
(** [np.dot] of vectors of two entries, of a 2 x 2 matrix with a vector *)
Definition dot2 (a b : R * R) : R := fst a * fst b + snd a * snd b.
Definition mat2 : Type := (R * R) * (R * R).
Definition dotm2 (m : mat2) (v : R * R) : R * R := (dot2 (fst m) v, dot2 (snd m) v).
(** 10-23 *)
Definition rotation_matrix (angle : R) : mat2 := ((cos angle, - sin angle), (sin angle, cos angle)).
(** 120-133: amplitude, angular frequency, phase vector and the two signals *)
Record qsig : Type := mkQ { q_amp : R; q_w : R; q_phase : R * R; q_i : signal; q_q : signal }.
Definition quadrature_init (amp w : R) (in_phase : bool) (iq : list signal) : result qsig :=
  match iq with
  | [i; q] => Ok (mkQ amp w (if in_phase then (1, 0) else (0, 1)) i q)
  | _ => Exn ValueError
  end.
(** 135-151 *)
Definition quadrature_eval (s : qsig) : signal := fun t =>
  bind (q_i s t) (fun i => bind (q_q s t) (fun q =>
  Ok (q_amp s * dot2 (q_phase s) (dotm2 (rotation_matrix (q_w s * t)) (i, q))))).
(** 26-59; the parameters phase and offset are not used *)
Definition get_quadrature_signal_pair (amp w : R) (i q : signal) (phase offset : R) : result (list qsig) :=
  bind (quadrature_init amp w true [i; q]) (fun a => bind (quadrature_init amp w false [i; q]) (fun b => Ok [a; b])).
(** 62-91 [SineWaveModulator] *)
Definition sine_modulator_eval (i q : signal) (carrier : R) : signal := fun t =>
  let w := 2 * PI * carrier in
  bind (i t) (fun i => bind (q t) (fun q => Ok (1 / sqrt 2 * (cos (w * t) * i + sin (w * t) * q)))).

(** ** sinc_pulse.py *)
Record sinc_pulse : Type := mkSinc { sp_amp : R; sp_bw : R; sp_t0 : R; sp_off : R }.
(** [np.sinc] *)
Definition np_sinc (x : R) : R := if Req_bool x 0 then 1 else sin (PI * x) / (PI * x).
(** 69-84 *)
Definition sinc_eval (s : sinc_pulse) : signal := fun t => Ok (sp_amp s * np_sinc (2 * sp_bw s * (t - sp_t0 s)) + sp_off s).
(** 86-94 [_mpmath]: the division by an mpf zero raises *)
Definition sinc_mpmath (s : sinc_pulse) : signal := fun t =>
  let x := 2 * PI * sp_bw s * (t - sp_t0 s) in
  if Req_bool x 0 then Exn ZeroDivisionError else Ok (sp_amp s * sin x / x).
(** 96-107 [symbolic], the value of the expression at [t]; [sympy.sinc(x)] is sin(x)/x, 1 at 0 *)
Definition sympy_sinc (x : R) : R := if Req_bool x 0 then 1 else sin x / x.
Definition sinc_symbolic (s : sinc_pulse) : signal := fun t => Ok (sp_amp s * sympy_sinc (2 * sp_bw s * (t - sp_t0 s)) + sp_off s).

(** ** random.py *)
Definition bufsize : nat := Nat.pow 2 10.
Section Random.
(** the arrays an object draws: entry [i] of the [b]-th one *)
Variable draw : nat -> nat -> R.
(** attributes _t, _buffer_index, and the number of arrays drawn before the present one *)
Record rst : Type := mkR { r_t : R; r_idx : nat; r_batch : nat }.
Definition rst0 : rst := mkR 0 0 0.
Definition advance (s : rst) (t : R) : rst :=
  let i := S (r_idx s) in if Nat.eqb i bufsize then mkR t 0 (S (r_batch s)) else mkR t i (r_batch s).
(** 21-29 and 112-133 *)
Definition held_eval (T : R) (s : rst) (t : R) : rst * R :=
  let s := if Rle_bool T (t - r_t s) then advance s t else s in (s, draw (r_batch s) (r_idx s)).
(** 180-204 *)
Definition uniform_eval (T : R) (s : rst) (t : R) : rst * R :=
  let s := if Rlt_bool T (t - r_t s) then advance s (r_t s + T) else s in (s, draw (r_batch s) (r_idx s)).
(** 206-207 *)
Definition uniform_tick (T : R) (s : rst) : rst := fst (uniform_eval T s (T + r_t s + 1 / 10)).
(** a sequence of calls *)
Fixpoint calls (ev : rst -> R -> rst * R) (s : rst) (ts : list R) : list R :=
  match ts with
  | [] => []
  | t :: ts => let '(s, x) := ev s t in x :: calls ev s ts
  end.
Fixpoint after (ev : rst -> R -> rst * R) (s : rst) (ts : list R) : rst :=
  match ts with
  | [] => s
  | t :: ts => after ev (fst (ev s t)) ts
  end.
End Random.
(** 50-52, 75-77: the possible values handed to np.random.choice *)
Definition binary_set (amp off : R) : list R := [- amp + off; amp + off].
Definition ternary_set (amp off : R) : list R := [- amp + off; off; amp + off].
(** The attribute piecewise_constant (16, 175; the constructor (100-107) of GaussianReferenceSignal does not call that of the base class and sets none) *)
Inductive rkind := Binary | Ternary | Gaussian | Uniform.
Definition piecewise_attr (k : rkind) : option bool := match k with Gaussian => None | _ => Some true end.
(** _analog_signal.py 73-79, 108-114: the constructors of ModulatedSignal and SuperpositionSignal, given that attribute of their parts *)
Fixpoint combined_piecewise (l : list (option bool)) : result bool :=
  match l with
  | [] => Ok true
  | None :: _ => Exn AttributeError
  | Some b :: l => bind (combined_piecewise l) (fun r => Ok (b && r))
  end.

(** ** decimation_and_demodulation.py *)
(** arrays of one and of two dimensions *)
Inductive carr : Type := A1 (n : nat) (x : nat -> C) | A2 (r c : nat) (x : nat -> nat -> C).
(** [signal.shape[axis]] *)
Definition shape_at (a : carr) (axis : Z) : result nat :=
  match a with
  | A1 n _ => if Z.eqb axis 0 || Z.eqb axis (-1) then Ok n else Exn IndexError
  | A2 r c _ => if Z.eqb axis 0 || Z.eqb axis (-2) then Ok r else if Z.eqb axis 1 || Z.eqb axis (-1) then Ok c else Exn IndexError
  end.
(** [signal * v] for a vector of length [k]: broadcasting along the last axis *)
Definition times_row (a : carr) (k : nat) (v : nat -> C) : result carr :=
  match a with
  | A1 n x => if Nat.eqb n k then Ok (A1 n (fun i => x i * v i)%C)
              else if Nat.eqb k 1 then Ok (A1 n (fun i => x i * v O)%C)
              else if Nat.eqb n 1 then Ok (A1 k (fun i => x O * v i)%C) else Exn ValueError
  | A2 r c x => if Nat.eqb c k then Ok (A2 r c (fun i j => x i j * v j)%C)
                else if Nat.eqb k 1 then Ok (A2 r c (fun i j => x i j * v O)%C)
                else if Nat.eqb c 1 then Ok (A2 r k (fun i j => x i O * v j)%C) else Exn ValueError
  end.
(** exp(-1j * Omega * n) *)
Definition cis (a : R) : C := (cos a, sin a).
(** 22-39 *)
Definition demodulate (a : carr) (Omega : R) (axis : Z) : result carr :=
  bind (shape_at a axis) (fun k => times_row a k (fun n => cis (- (Omega * INR n)))).

(** ** numpy_simulator.py: the rows and the iterator's position; [reset] makes a new iterator.  [load] is what np.load yields for the file name. *)
Section NumpySim.
Context {X : Type}.
Record nsim : Type := mkNS { ns_rows : list X; ns_file : bool; ns_pos : list X }.
Variable load : result (list X).
(** 30-34 *)
Definition ns_reset (s : nsim) : result nsim :=
  if ns_file s then bind load (fun l => Ok (mkNS (ns_rows s) true l)) else Ok (mkNS (ns_rows s) false (ns_rows s)).
(** 18-25 *)
Definition ns_init (array : option (list X)) : result nsim :=
  match array with None => ns_reset (mkNS [] true []) | Some l => ns_reset (mkNS l false []) end.
(** 27-28 *)
Definition ns_next (s : nsim) : result (X * nsim) :=
  match ns_pos s with [] => Exn StopIteration | x :: r => Ok (x, mkNS (ns_rows s) (ns_file s) r) end.
(** [iter(s)]: special methods are looked up on the class, which has none of that name *)
Definition ns_iter (s : nsim) : result nsim := Exn TypeError.
Inductive nsop := Next | Reset.
(** a history of calls; a call that raises leaves the object as it was *)
Fixpoint ns_run (s : nsim) (ops : list nsop) : list (result (option X)) * nsim :=
  match ops with
  | [] => ([], s)
  | Next :: ops => match ns_next s with
                   | Ok (x, s') => let '(r, e) := ns_run s' ops in (Ok (Some x) :: r, e)
                   | Exn e => let '(r, e') := ns_run s ops in (Exn e :: r, e')
                   end
  | Reset :: ops => match ns_reset s with
                    | Ok s' => let '(r, e) := ns_run s' ops in (Ok None :: r, e)
                    | Exn e => let '(r, e') := ns_run s ops in (Exn e :: r, e')
                    end
  end.
End NumpySim.
