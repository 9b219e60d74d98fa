(** Model of /repo/src/cbadc/synthesis/quadrature.py: get_bandpass, get_chain_of_oscillators, get_parallel_leapfrog.
    [float] is idealised to [R]; numpy's inf and nan are the error value [ArithmeticError]. *)
From Coq Require Import List Arith Lia Bool Reals Lra.
From Flocq Require Import Core.
From Verif Require Import Base LinAlg FirExtras AnalogSystem Signals DigitalControl Fom Integrators.
Import ListNotations.
Open Scope R_scope.

(** [c * np.eye(n)] *)
Definition ceye (c : R) (n : nat) : nd2 Rring := mk2 (K := Rring) n n (fun i j => if Nat.eqb i j then c else 0).
Definition set_A (S : asys Rring) (A : nd2 Rring) : asys Rring := mkAS A (aB S) (aCT S) (aG S) (aGt S) (aD S) (aBt S) (aAt S).

(** *** get_bandpass, lines 36-102 *)
(** keyword arguments: the front end is an analog system and a digital control; [b_modulate], [b_scalar]: the key is present,
    whatever its value *)
Record bpkw := mkBp { b_front : option (asys Rring * dc); b_fc : option R; b_modulate : bool; b_phi : option R; b_delta : option R; b_scalar : bool }.

(** [G = np.zeros((2n, 2n))] followed by lines 63-66 (or 68-71): the blocks k, -kb, kb, k times the identity *)
Definition quad_blocks (n : nat) (k kb : R) : nd2 Rring :=
  let G := zeros (K := Rring) (2 * n) (2 * n) in
  let G := setblk G 0 n 0 n (ceye k n) in
  let G := setblk G n (2 * n) n (2 * n) (ceye k n) in
  let G := setblk G 0 n n (2 * n) (ceye (- kb) n) in
  setblk G n (2 * n) 0 n (ceye kb n).

(** [analog_system_baseband.Gamma[0, 0]], line 43: a TypeError on None, an IndexError on an empty array *)
Definition gamma00 (S : asys Rring) : result R :=
  match aG S with
  | None => Exn TypeError
  | Some g => if Nat.eqb (rows g) 0 || Nat.eqb (cols g) 0 then Exn IndexError else Ok (ent g 0%nat 0%nat)
  end.

(** lines 52-74: the pair Gamma, Gamma_tildeT *)
Definition bp_gammas (n : nat) (beta T w phi delta : R) : result (nd2 Rring * nd2 Rring) :=
  if Req_bool (2 * sin (w * T / 2)) 0 || Req_bool (beta * T) 0 then Exn ArithmeticError else
  let k := beta * T * w / (2 * sin (w * T / 2)) * cos phi in
  let kb := beta * T * w / (2 * sin (w * T / 2)) * sin phi in
  let kt := -1 / (beta * T) * cos (w * (T / 2 + delta) - phi) in
  let kbt := -1 / (beta * T) * sin (w * (T / 2 + delta) - phi) in
  Ok (quad_blocks n k kb, quad_blocks n kt kbt).

(** lines 81-89: the pair B, B_tilde *)
Definition bp_scalar (S : asys Rring) : result (nd2 Rring * nd2 Rring) :=
  let B := aB S in
  if Nat.ltb (cols B) 2 || Nat.ltb (cols (aBt S)) 2 then Exn IndexError else
  let half := Nat.div2 (sN S) in
  Ok (mk2 (K := Rring) (sN S) 1 (fun i _ => if Nat.leb half i then - ent B i 1%nat else ent B i 0%nat),
      mk2 (K := Rring) (rows (aBt S)) 1 (fun i _ => ent (aBt S) i 0%nat - ent (aBt S) i 1%nat)).

Definition get_bandpass (k : bpkw) (h : heap) : result frontend :=
  match b_front k, b_fc k with
  | Some (S0, d0), Some fc =>
      let n := sN S0 in
      bind (gamma00 S0) (fun beta =>
      let T := ck_T (d_clk d0) in
      let w := 2 * PI * fc in
      bind (stack [S0; S0]) (fun S =>
      let A := setblk (aA S) 0 n n (sN S) (ceye (- w) n) in
      let A := setblk A n (sN S) 0 n (ceye w n) in
      bind (if b_modulate k then Ok (aG S, aGt S)
            else bind (bp_gammas n beta T w (dflt (b_phi k) 0) (dflt (b_delta k) 0)) (fun '(g, gt) => Ok (Some g, Some gt))) (fun '(g, gt) =>
      bind (dc_init h (d_clk d0) (2 * d_M d0) None 0 None) (fun '(d, h) =>
      bind (if b_scalar k then bp_scalar S else Ok (aB S, aBt S)) (fun '(B, Bt) =>
      bind (as_init (D2 A) (D2 B) (D2 (aCT S)) (option_map (@D2 Rring) g) (option_map (@D2 Rring) gt) None (Some (D2 Bt)) (Some (D2 (aAt S)))) (fun S' =>
      Ok (S', d, h)))))))
  | _, _ => Exn NotImplementedError
  end.

(** *** get_chain_of_oscillators *)
(** [np.sign] *)
Definition sgn (x : R) : R := if Rlt_bool 0 x then 1 else if Rlt_bool x 0 then -1 else 0.
(** the two-by-two block of line 24-26 *)
Definition osc_block (rho w : R) : nd2 Rring :=
  mk2 (K := Rring) 2 2 (fun i j => if Nat.eqb i j then rho else if Nat.eqb i 0 then - w else w).
(** _analog_system_factory, lines 17-33: the turn [i] of the loop *)
Definition osc_step (n : nat) (beta rho gamma w : R) (AB : nd2 Rring * nd2 Rring) (i : nat) : nd2 Rring * nd2 Rring :=
  let '(A, B) := AB in
  let A := setblk A (2 * i) (2 * i + 2) (2 * i) (2 * i + 2) (osc_block rho w) in
  let A := if Nat.ltb i (n - 1) then
      let A := setblk A (2 * i) (2 * i + 2) (2 * (i + 1)) (2 * (i + 1) + 2) (ceye gamma 2) in
      setblk A (2 * (i + 1)) (2 * (i + 1) + 2) (2 * i) (2 * i + 2) (ceye beta 2)
    else A in
  (A, setblk B 0 2 0 2 (ceye beta 2)).
Definition osc_factory (n : nat) (beta rho kappa gamma w : R) : result (asys Rring) :=
  let '(A, B) := fold_left (osc_step n beta rho gamma w) (seq 0 n) (zeros (2 * n) (2 * n), zeros (2 * n) 2) in
  as_init (D2 A) (D2 B) (D2 (eye2 (2 * n) (2 * n))) (Some (D2 (ceye kappa (2 * n)))) (Some (D2 (ceye (- sgn kappa) (2 * n)))) None None None.

(** The keyword arguments are those of [kwargs] and fp. *)
Section Osc.
(** g_i(N) of leap_frog.py: a sympy integral, here a parameter *)
Variable gi : nat -> R.

(** lines 141-174.  [impulse_response] (line 165) is one StepResponse and not a list: [len] of it in the constructor of
    DigitalControl (digital_control.py:98) is a TypeError, after Clock(T) has been built.  Lines 170-174 are never reached. *)
Definition osc_enob (k : kwargs) (ENOB : R) (n : nat) (BW fp : R) (h : heap) : result frontend :=
  let snr := snr_from_dB (enob_to_snr ENOB) in
  let omega := 2 * PI * BW in
  let xi := dflt (k_xi k) (4 / 1000) in
  if Req_bool (gi n) 0 then Exn ArithmeticError else
  if Nat.eqb n 0 then Exn ZeroDivisionError else
  if Rle_bool (xi / gi n * snr) 0 then Exn ArithmeticError else
  let gamma := ppow (xi / gi n * snr) (1 / (2 * INR n)) in
  let omega := omega / 2 in
  let beta := - omega * (2 * gamma) in
  let alpha := omega / (2 * gamma) in
  let rho := if k_local k then - (omega / 2) / gamma * (1 / 100) * 0 else 0 in
  if Req_bool (Rabs (2 * beta * 10)) 0 then Exn ArithmeticError else
  let T := 1 / Rabs (2 * beta * 10) in
  let kappa := beta in
  let omega_p := 2 * PI * fp in
  bind (osc_factory n beta rho kappa alpha omega_p) (fun _ =>
  if k_swcap k then Exn NotImplementedError else
  bind (default_clock T) (fun _ => Exn TypeError)).

(** lines 178-192 *)
Definition osc_osr (OSR : R) (n : nat) (BW rho fp : R) (h : heap) : result frontend :=
  if Req_bool (2 * BW * OSR) 0 then Exn ZeroDivisionError else
  let T := 1 / (2 * BW * OSR) in
  let beta := 1 / (2 * T) in
  let kappa := beta in
  let omega_BW := 2 * PI * BW in
  let alpha := - (omega_BW / 2) ^ 2 / beta in
  let omega_p := 2 * PI * fp in
  bind (osc_factory n beta rho kappa alpha omega_p) (fun S =>
  bind (default_clock T) (fun clk =>
  bind (dc_init h clk n None 0 None) (fun '(d, h) => Ok (S, d, h)))).

(** lines 105-201 *)
Definition get_osc (k : kwargs) (fp : option R) (h : heap) : result frontend :=
  match k_N k, fp with
  | Some n, Some fp =>
      match k_BW k with
      | Some BW =>
          match k_ENOB k, k_SNR k, k_OSR k with
          | Some e, _, _ => osc_enob k e n BW fp h
          | None, Some s, _ => osc_enob k (snr_to_enob s) n BW fp h
          | None, None, Some o => osc_osr o n BW (dflt (k_rho k) 0) fp h
          | None, None, None => Exn NotImplementedError
          end
      | None =>
          match k_OSR k, k_T k with
          | Some o, Some T =>
              if Req_bool (2 * T * o) 0 then Exn ZeroDivisionError
              else osc_osr o n (1 / (2 * T * o)) (dflt (k_rho k) 0) fp h
          | _, _ => Exn NotImplementedError
          end
      end
  | _, _ => Exn NotImplementedError
  end.

(** *** get_parallel_leapfrog, lines 204-352 *)
Record plfkw := mkPlf { p_ENOB : option R; p_N : option nat; p_M : option nat; p_BW : option R; p_fp : option R; p_fps : option (list R) }.

(** [poles[i]], [poles[-i]] *)
Definition pole (p : list R) (i : nat) : result R := match nth_error p i with Some x => Ok x | None => Exn IndexError end.
Definition pole_neg (p : list R) (i : nat) : result R := if Nat.eqb i 0 then pole p 0 else if Nat.leb i (length p) then pole p (length p - i) else Exn IndexError.

(** [A[r n : (r+1) n, c n : (c+1) n] = v * np.eye(n)] *)
Definition set_block (n : nat) (A : nd2 Rring) (r c : nat) (v : R) : nd2 Rring :=
  setblk A (r * n) ((r + 1) * n) (c * n) ((c + 1) * n) (ceye v n).

(** the couplings of lines 270-304: poles[k] below, minus it above the diagonal *)
Fixpoint couple (n : nat) (poles : list R) (l : list (nat * nat * nat)) (A : nd2 Rring) : result (nd2 Rring) :=
  match l with
  | [] => Ok A
  | (k, r, c) :: l => bind (pole poles k) (fun p => couple n poles l (set_block n (set_block n A r c p) c r (- p)))
  end.
(** lines 305-317 *)
Definition couple_gen (n M : nat) (poles : list R) (A : nd2 Rring) : result (nd2 Rring) :=
  fold_left (fun A ij => let '(i, j) := ij in
      bind A (fun A =>
      bind (pole poles (i + j * M)) (fun p =>
      let A := set_block n A i j p in
      bind (pole_neg poles (i + j * M)) (fun p => Ok (set_block n A (M - i - 1) (M - 1 - j) (- p))))))
    (flat_map (fun i => map (fun j => (i, j)) (seq 0 i)) (seq 1 (M - 1))) (Ok A).

(** [stack([get_leap_frog(ENOB=ENOB, N=N, BW=BW).analog_system for _ in range(M)])], lines 266-268 *)
Fixpoint leap_frogs (k : kwargs) (M : nat) (h : heap) : result (list (asys Rring) * heap) :=
  match M with
  | O => Ok ([], h)
  | S M => bind (get_lf gi k h) (fun '(S0, _, h) => bind (leap_frogs k M h) (fun '(l, h) => Ok (S0 :: l, h)))
  end.

(** [np.sum(m, axis=1).reshape((rows, 1))] *)
Definition row_sums (m : nd2 Rring) : nd2 Rring := mk2 (K := Rring) (rows m) 1 (fun i _ => ksum (K := Rring) (cols m) (fun j => ent m i j)).

(** The number of poles, line 250: [np.sum] of an empty list is the float 0.0, and [np.ones(0.0)] a TypeError. *)
Definition get_plf (k : plfkw) (h : heap) : result (asys Rring * heap) :=
  match p_ENOB k, p_N k, p_M k, p_BW k, p_fp k with
  | Some e, Some n, Some M, Some BW, Some fp =>
      let omega_p := 2 * PI * fp in
      if Nat.leb M 1 then Exn TypeError else
      let tot := list_sum (seq 1 (M - 1)) in
      let poles := match p_fps k with Some l => l | None => repeat (1 * omega_p) tot end in
      bind (leap_frogs (mkKw (Some e) None None (Some n) (Some BW) None None None None false None false false) M h) (fun '(l, h) =>
      bind (stack l) (fun S =>
      bind (if Nat.eqb M 3 then couple n poles [(0, 1, 0); (1, 2, 0); (2, 2, 1)]%nat (aA S)
            else if Nat.eqb M 4 then couple n poles [(0, 1, 0); (1, 2, 0); (2, 2, 1); (3, 3, 0); (4, 3, 1); (5, 3, 2)]%nat (aA S)
            else couple_gen n M poles (aA S)) (fun A =>
      bind (as_init (D2 A) (D2 (row_sums (aB S))) (D2 (aCT S)) (option_map (@D2 Rring) (aG S)) (option_map (@D2 Rring) (aGt S)) None None None) (fun S' =>
      Ok (S', h)))))
  | _, _, _, _, _ => Exn NotImplementedError
  end.
End Osc.
