(** ChainOfIntegrators and LeapFrog (/repo/src/cbadc/analog_system/) and the functions that parametrise them
    (/repo/src/cbadc/synthesis/chain_of_integrators.py, leap_frog.py).  [float] is idealised to [R]; numpy's inf and nan are the
    error value [ArithmeticError]. *)
From Coq Require Import List Arith Lia Bool Reals Lra.
From Flocq Require Import Core.
From Verif Require Import Base LinAlg FirExtras AnalogSystem Signals DigitalControl Fom.
Import ListNotations.
Open Scope R_scope.

(** [np.diag(v)], [np.diag(v, k=-1)], [np.diag(v, k=1)] of a one-dimensional array *)
Definition diag0 (v : list R) : nd2 Rring :=
  mk2 (K := Rring) (length v) (length v) (fun i j => if Nat.eqb i j then nth i v 0 else 0).
Definition diagm1 (v : list R) : nd2 Rring :=
  mk2 (K := Rring) (S (length v)) (S (length v)) (fun i j => if Nat.eqb i (S j) then nth j v 0 else 0).
Definition diagp1 (v : list R) : nd2 Rring :=
  mk2 (K := Rring) (S (length v)) (S (length v)) (fun i j => if Nat.eqb (S i) j then nth i v 0 else 0).

(** numpy broadcasting of one dimension: equal, or one of them is 1 *)
Definition bdim (a b : nat) : result nat :=
  if Nat.eqb a b then Ok a else if Nat.eqb a 1 then Ok b else if Nat.eqb b 1 then Ok a else Exn ValueError.
Definition bidx (d i : nat) : nat := if Nat.eqb d 1 then O else i.
(** [a + b] on two-dimensional arrays *)
Definition bcast_add (a b : nd2 Rring) : result (nd2 Rring) :=
  bind (bdim (rows a) (rows b)) (fun r =>
  bind (bdim (cols a) (cols b)) (fun c =>
  Ok (mk2 (K := Rring) r c (fun i j =>
        ent a (bidx (rows a) i) (bidx (cols a) j) + ent b (bidx (rows b) i) (bidx (cols b) j))))).

(** [np.linalg.norm] of row [i] *)
Definition rownorm (m : nd2 Rring) (i : nat) : R := sqrt (ksum (K := Rring) (cols m) (fun k => ent m i k * ent m i k)).

(** chain_of_integrators.py:122-126, leap_frog.py:122-126: minus the transpose, each row divided by its norm; a zero row
    becomes nan *)
Definition gamma_tilde (G : nd2 Rring) : result (nd2 Rring) :=
  let m := mk2 (K := Rring) (cols G) (rows G) (fun i j => - ent G j i) in
  if negb (Nat.eqb (cols m) 0) && existsb (fun i => Req_bool (rownorm m i) 0) (seq 0 (rows m)) then Exn ArithmeticError
  else Ok (mk2 (K := Rring) (rows m) (cols m) (fun i j => ent m i j / rownorm m i)).

(** chain_of_integrators.py:117-120, leap_frog.py:117-120 *)
Definition gamma_of (kappa : ndarr Rring) : result (nd2 Rring) :=
  bind (shape1 kappa) (fun c =>
  match kappa with
  | D1 _ => Exn IndexError
  | D2 m => if Nat.eqb c 1 then Ok (diag0 (map (fun i => ent m i 0%nat) (seq 0 (rows m)))) else Ok m
  end).

(** chain_of_integrators.py:110-111: [B = np.zeros((N, 1)); B[0] = beta[0]] *)
Definition first_input (beta : list R) : result (nd2 Rring) :=
  match beta with
  | [] => Exn IndexError
  | b :: _ => Ok (mk2 (K := Rring) (length beta) 1 (fun i _ => if Nat.eqb i 0 then b else 0))
  end.

(** the common end of both constructors, chain_of_integrators.py:110-129, leap_frog.py:110-129 *)
Definition finish_init (A : nd2 Rring) (beta : list R) (kappa : ndarr Rring) : result (asys Rring) :=
  bind (first_input beta) (fun B =>
  bind (gamma_of kappa) (fun G =>
  bind (gamma_tilde G) (fun Gt =>
  as_init (D2 A) (D2 B) (D2 (eye2 (length beta) (length beta))) (Some (D2 G)) (Some (D2 Gt)) None None None))).

(** chain_of_integrators.py:89-129, for one-dimensional [beta] and [rho].  The tests of lines 91-103 construct an
    InvalidAnalogSystemError without raising it; what remains of them is the expression [kappa[:, 0]] of line 100, evaluated
    when the sizes of beta and rho differ. *)
Definition coi_init (beta rho : list R) (kappa : ndarr Rring) : result (asys Rring) :=
  bind (if Nat.eqb (length beta) (length rho) then Ok tt
        else match kappa with
             | D1 _ => Exn IndexError
             | D2 m => if Nat.eqb (cols m) 0 then Exn IndexError else Ok tt
             end) (fun _ =>
  bind (bcast_add (diag0 rho) (diagm1 (tl beta))) (fun A => finish_init A beta kappa)).

(** leap_frog.py:88-129, for one-dimensional [beta], [alpha] and [rho]; the tests of lines 92-103 have no effect. *)
Definition lf_init (beta alpha rho : list R) (kappa : ndarr Rring) : result (asys Rring) :=
  bind (bcast_add (diagp1 alpha) (diagm1 (tl beta))) (fun A1 =>
  bind (bcast_add A1 (diag0 rho)) (fun A => finish_init A beta kappa)).

(** *** Keyword arguments of the synthesis functions; [None] is an absent argument.  [k_local] means that local_feedback is
    present and [True], [k_swcap] that digital_control is "switch_cap", [k_fg] that finite_gain is present and true. *)
Record kwargs := mkKw {
  k_ENOB : option R; k_SNR : option R; k_OSR : option R; k_N : option nat; k_BW : option R; k_T : option R;
  k_xi : option R; k_delta : option R; k_rho : option R; k_local : bool; k_excess : option R; k_swcap : bool; k_fg : bool
}.
Definition dflt (o : option R) (v : R) : R := match o with Some x => x | None => v end.

(** [kappa * np.eye(N)] *)
Definition kappa_eye (kappa : R) (N : nat) : ndarr Rring :=
  D2 (mk2 (K := Rring) N N (fun i j => if Nat.eqb i j then kappa else 0)).

(** [Clock(T)]: tt = 1e-14, td = 0, duty_cycle = 0.5, max_swing = 2 (clock.py:44-51) *)
Definition default_clock (T : R) : result clock := clock_init T (1 / 100000000000000) 0 (1 / 2) 2.

(** synthesis/chain_of_integrators.py:11-23 *)
Definition coi_gi (N : nat) : R := 2 * INR N + 1.

(** An AnalogFrontend: analog system and digital control; the heap holds the arrays of the control. *)
Definition frontend : Type := (asys Rring * dc * heap)%type.

(** The branch of lines 61-104.  A non-positive argument of the root, or BW = 0, yields inf or nan. *)
Definition coi_enob (k : kwargs) (ENOB : R) (N : nat) (BW : R) (h : heap) : result frontend :=
  let snr := snr_from_dB (enob_to_snr ENOB) in
  let omega := 2 * PI * BW in
  let xi := dflt (k_xi k) (23 / 10000) in
  if Nat.eqb N 0 then Exn ZeroDivisionError else
  if Rle_bool (xi / coi_gi N * snr) 0 then Exn ArithmeticError else
  let gamma := ppow (xi / coi_gi N * snr) (1 / (2 * INR N)) in
  let beta := - gamma * omega in
  let rho := if k_local k then - omega / gamma else dflt (k_rho k) 0 in
  let kappa := beta in
  if Req_bool (Rabs (2 * beta)) 0 then Exn ArithmeticError else
  let T := 1 / Rabs (2 * beta) in
  bind (coi_init (repeat beta N) (repeat rho N) (kappa_eye kappa N)) (fun _ =>
  let t0 := T * dflt (k_excess k) 0 in
  bind (if k_swcap k then
          let scale := 50 in
          let tau := 1 / (Rabs beta * scale) in
          let v_cap := 1 / 2 in
          let kappa := v_cap * beta * scale in
          bind (default_clock T) (fun clk =>
          bind (dc_init h clk N (Some (repeat (WRC tau t0 1) N)) 0 None) (fun '(d, h) => Ok (kappa, d, h)))
        else
          bind (default_clock T) (fun clk =>
          bind (dc_init h clk N (Some (repeat (WStep t0 1) N)) 0 None) (fun '(_, h) =>
          bind (default_clock T) (fun clk =>
          bind (dc_init h clk N None 0 None) (fun '(d, h) => Ok (kappa, d, h)))))) (fun '(kappa, d, h) =>
  bind (coi_init (repeat beta N) (repeat rho N) (kappa_eye kappa N)) (fun S =>
  let S' := if k_fg k
            then mkAS (mk2 (K := Rring) (rows (aA S)) (cols (aA S)) (fun i j =>
                         ent (aA S) i j + (if Nat.eqb i j then - omega / gamma ^ (2 * N) else 0)))
                      (aB S) (aCT S) (aG S) (aGt S) (aD S) (aBt S) (aAt S)
            else S in
  Ok (S', d, h)))).

(** The branch of lines 107-121 *)
Definition coi_osr (OSR : R) (N : nat) (BW rho : R) (h : heap) : result frontend :=
  if Req_bool (2 * BW * OSR) 0 then Exn ZeroDivisionError else
  let T := 1 / (2 * BW * OSR) in
  let beta := 1 / (2 * T) in
  let kappa := beta in
  bind (coi_init (repeat beta N) (repeat rho N) (kappa_eye kappa N)) (fun S =>
  bind (default_clock T) (fun clk =>
  bind (dc_init h clk N None 0 None) (fun '(d, h) => Ok (S, d, h)))).

(** get_chain_of_integrator, lines 26-145.  The branch of 105-106 calls itself with ENOB set and all other arguments, and ends
    in the first branch; that of 122-128 calls itself with N, OSR, BW and rho only. *)
Definition get_coi (k : kwargs) (h : heap) : result frontend :=
  match k_N k with
  | None => Exn NotImplementedError
  | Some N =>
      match k_BW k with
      | Some BW =>
          match k_ENOB k, k_SNR k, k_OSR k with
          | Some e, _, _ => coi_enob k e N BW h
          | None, Some s, _ => coi_enob k (snr_to_enob s) N BW h
          | None, None, Some o => coi_osr o N BW (dflt (k_rho k) 0) h
          | None, None, None => Exn NotImplementedError
          end
      | None =>
          match k_OSR k, k_T k with
          | Some o, Some T =>
              if Req_bool (2 * T * o) 0 then Exn ZeroDivisionError
              else coi_osr o N (1 / (2 * T * o)) (dflt (k_rho k) 0) h
          | _, _ => Exn NotImplementedError
          end
      end
  end.

(** *** synthesis/leap_frog.py *)
(** lines 111-117; [np.ones(N - 1)] raises ValueError for N = 0 *)
Definition lf_build (N : nat) (beta alpha rho kappa delta T : R) (h : heap) : result frontend :=
  if Nat.eqb N 0 then Exn ValueError else
  bind (lf_init (repeat beta N) (repeat alpha (N - 1)) (repeat rho N)
          (D2 (diag0 (map (fun n => kappa * delta ^ n) (seq 0 N))))) (fun S =>
  bind (default_clock T) (fun clk =>
  bind (dc_init h clk N None 0 None) (fun '(d, h) => Ok (S, d, h)))).

Section Lf.
(** g_i(N), lines 17-39: a sympy integral, here a parameter *)
Variable gi : nat -> R.

(** lines 74-89 *)
Definition lf_enob (k : kwargs) (ENOB : R) (N : nat) (BW : R) (h : heap) : result frontend :=
  let snr := snr_from_dB (enob_to_snr ENOB) in
  let omega_BW := 2 * PI * BW in
  let xi := dflt (k_xi k) (4 / 1000) in
  let delta := dflt (k_delta k) 1 in
  if Nat.eqb N 0 then Exn ZeroDivisionError else
  if Req_bool (gi N) 0 then Exn ArithmeticError else
  if Rle_bool (xi / gi N * snr) 0 then Exn ArithmeticError else
  let gamma_over_delta := ppow (xi / gi N * snr) (1 / (2 * INR N)) in
  let gamma := gamma_over_delta * delta in
  let omega_p := omega_BW / 2 in
  let beta := - omega_p * (2 * gamma) in
  if Req_bool (2 * gamma) 0 then Exn ArithmeticError else
  let alpha := omega_p / (2 * gamma) in
  if Req_bool delta 0 || Req_bool (Rabs (2 * omega_BW * gamma / delta)) 0 then Exn ArithmeticError else
  let T := 1 / Rabs (2 * omega_BW * gamma / delta) in
  lf_build N beta alpha 0 beta delta T h.

(** lines 90-101 *)
Definition lf_osr (k : kwargs) (OSR : R) (N : nat) (BW : R) (h : heap) : result frontend :=
  if Req_bool (2 * OSR * BW) 0 then Exn ZeroDivisionError else
  let T := 1 / (2 * OSR * BW) in
  let omega_BW := 2 * PI * BW in
  let delta := dflt (k_delta k) 1 in
  let gamma := delta * OSR / (2 * PI) in
  let beta := gamma * omega_BW in
  if Req_bool beta 0 then Exn ZeroDivisionError else
  let alpha := - (omega_BW / 2) ^ 2 / beta in
  lf_build N beta alpha 0 beta delta T h.

(** get_leap_frog, lines 42-117.  The branch of 104-107 removes T, adds BW and keeps all other arguments. *)
Definition get_lf (k : kwargs) (h : heap) : result frontend :=
  match k_N k with
  | None => Exn NotImplementedError
  | Some N =>
      match k_BW k with
      | Some BW =>
          match k_ENOB k, k_OSR k, k_SNR k with
          | Some e, _, _ => lf_enob k e N BW h
          | None, Some o, _ => lf_osr k o N BW h
          | None, None, Some s => lf_enob k (snr_to_enob s) N BW h
          | None, None, None => Exn NotImplementedError
          end
      | None =>
          match k_OSR k, k_T k with
          | Some o, Some T =>
              if Req_bool (2 * o * T) 0 then Exn ZeroDivisionError
              else let BW := 1 / (2 * o * T) in
                   match k_ENOB k with Some e => lf_enob k e N BW h | None => lf_osr k o N BW h end
          | _, _ => Exn NotImplementedError
          end
      end
  end.
End Lf.
