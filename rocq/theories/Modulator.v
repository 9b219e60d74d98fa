(** Model of [cbadc.analog_system.modulator.SineWaveModulator].  Reals for doubles.  The analog system handed to the constructor is taken as one that
    [AnalogSystem.__init__] accepts (34-43 builds it again from its own attributes). *)
From Coq Require Import List Arith Bool Reals.
From Verif Require Import Base LinAlg FirExtras AnalogSystem.
Import ListNotations.
Open Scope R_scope.

(** [shuffler[::2] = arange(n)[:h]; shuffler[1::2] = arange(n)[h:]] (49-52, 57-60) for n = 2 h *)
Definition shuffler (h : nat) : list nat := map (fun i => if Nat.even i then Nat.div2 i else (h + Nat.div2 i)%nat) (seq 0 (2 * h)).
(** [de = zeros_like(shuffler); de[shuffler] = arange(n)] (53-54, 61-62) *)
Definition de_shuffler (h : nat) : list nat :=
  fold_left (fun de i => upd (nth i (shuffler h) 0%nat) i de) (seq 0 (2 * h)) (repeat 0%nat (2 * h)).
(** [x[idx]] *)
Definition gather {X} (x : list X) (idx : list nat) : result (list X) :=
  fold_right (fun i r => bind r (fun r => match nth_error x i with Some v => Ok (v :: r) | None => Exn IndexError end)) (Ok []) idx.

(** the object; [m_buf] is [_rotation_matrix_data], the array every call of [modulate] and [demodulate] returns *)
Record smod : Type := mkMod { m_sys : asys Rring; m_w : R; m_buf : nd2 Rring }.
(** 29-64.  An odd size is a ValueError: explicitly for N; for M the assignment to a slice of another length. *)
Definition mod_init (S : asys Rring) (f : R) : result smod :=
  if Nat.odd (sN S) then Exn ValueError
  else if Nat.odd (sM S) then Exn ValueError
  else Ok (mkMod S (2 * PI * f) (eye2 (K := Rring) (sN S) (sN S))).
Definition scale_eye (n : nat) (c : R) : nd2 Rring := mk2 (K := Rring) n n (fun i j => (if Nat.eqb i j then 1 else 0) * c).
(** 151-159 [_rotation_matrix]: writes the buffer and returns it *)
Definition rotation_matrix (m : smod) (phi : R) : smod :=
  let N := sN (m_sys m) in let h := Nat.div2 N in
  let b1 := setblk (m_buf m) 0 N 0 N (scale_eye N (cos phi)) in
  let b2 := setblk b1 0 h h N (scale_eye h (- sin phi)) in
  let b3 := setblk b2 h N 0 h (scale_eye h (sin phi)) in
  mkMod (m_sys m) (m_w m) b3.
(** 143-149 *)
Definition modulate (m : smod) (t : R) : smod := rotation_matrix m (m_w m * t).
Definition demodulate (m : smod) (t : R) : smod := rotation_matrix m (- m_w m * t).
(** [a[:k, :k]] *)
Definition block (a : nd2 Rring) (k : nat) : nd2 Rring := mk2 (K := Rring) (Nat.min k (rows a)) (Nat.min k (cols a)) (ent a).
(** 66-104 [derivative] *)
Definition mod_derivative (m : smod) (x : list R) (t : R) (u s : list R) : result (list R * smod) :=
  let S := m_sys m in
  bind (dotv (K := Rring) (aA S) x) (fun ax =>
  bind (dotv (K := Rring) (aB S) u) (fun bu =>
  let m' := modulate m t in
  bind (gather s (shuffler (Nat.div2 (sM S)))) (fun y =>
  bind (dotv (K := Rring) (block (m_buf m') (sM S)) y) (fun z =>
  bind (gather z (de_shuffler (Nat.div2 (sM S)))) (fun w =>
  bind (dotv_opt (K := Rring) (aG S) w) (fun gw =>
  Ok (vadd (K := Rring) (vadd (K := Rring) ax bu) gw, m'))))))).
(** 106-141 [control_observation]: after 130-132 the code is that of [AnalogSystem.control_observation] *)
Definition mod_observation (m : smod) (t : R) (x : list R) (u s : option (list R)) : result (list R * smod) :=
  let S := m_sys m in let h := Nat.div2 (sN S) in
  let m' := demodulate m t in
  bind (gather x (shuffler h)) (fun y =>
  bind (dotv (K := Rring) (m_buf m') y) (fun z =>
  bind (gather z (de_shuffler h)) (fun w =>
  bind (control_observation (K := Rring) S w u s) (fun r => Ok (r, m'))))).
