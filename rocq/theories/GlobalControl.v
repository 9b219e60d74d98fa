(** Global control, /repo/src/cbadc/analog_frontend.py.  [float] is idealised to [R]; the differential equation solver and the matrix
    exponential are parameters.  Events and tolerances of the solver are not modelled (the events do not end the integration). *)
From Coq Require Import List Arith Lia Bool Reals Lra.
From Flocq Require Import Core.
From Verif Require Import Base LinAlg FirExtras AnalogSystem Signals DigitalControl Simulator FilterCoeff Nuv.
Import ListNotations.
Open Scope R_scope.

(** [x[i * N : (1 + i) * N]] *)
Definition block (N : nat) (x : list R) (i : nat) : list R := firstn N (skipn (i * N) x).
(** [np.inner] of two vectors *)
Definition inner (a b : list R) : result R :=
  if Nat.eqb (length a) (length b) then Ok (fold_right Rplus 0 (map2 Rmult a b)) else Exn ValueError.

Section Global.
Variable ivp : (R -> list R -> result (list R)) -> R -> R -> list R -> result (list R).
Variable expm : rmat -> R -> result rmat.

(** lines 68-72 *)
Definition zero_order_hold (S : asys Rring) (T : R) (l : nat) (t : R) : list R :=
  if Rle_bool 0 t && Rlt_bool t T then upd l 1 (repeat 0 (sL S)) else repeat 0 (sL S).

(** lines 87-162, [derivative_m].  The slices of [res] are laid out one after the other. *)
Definition global_rhs (S : asys Rring) (d : dc) (phi : R) (mt : nat) (t : R) (x : list R) : result (list R) :=
  let N := sN S in
  let T := ck_T (d_clk d) in
  let own := (mt + (sM S - sMt S))%nat in
  bind (dotv (aCT S) (block N x (own + sL S))) (fun psi =>
  bind (mapM (fun l => bind (dotv (aA S) (block N x l)) (fun a => bind (dotv (aB S) (zero_order_hold S T l (t - phi))) (fun b => Ok (rvadd a b)))) (seq 0 (sL S))) (fun us =>
  bind (mapM (fun m => bind (dc_impulse_response d m (if Nat.ltb own m then t + T else t)) (fun w =>
    bind (dotv (aA S) (block N x (m + sL S))) (fun a => bind (dotv_opt (aG S) w) (fun b => Ok (rvadd a b))))) (seq 0 (sM S))) (fun ss =>
  bind (expm (aA S) (t - phi)) (fun E => bind (dotm (aCT S) E) (fun CE => bind (dotv (tr CE) psi) (fun h =>
  bind (mapM (fun l => bind (dotv (aCT S) (block N x l)) (fun y => inner psi y)) (seq 0 (sL S))) (fun iu =>
  bind (mapM (fun m => bind (dotv (aCT S) (block N x (m + sL S))) (fun y => inner psi y)) (seq 0 (sM S))) (fun is =>
  Ok (concat us ++ concat ss ++ h ++ iu ++ is))))))))).

(** lines 80-84, 164-206: one row of Gamma_tildeT, B_tilde, A_tilde.  [-1 / Q] with Q = 0 would be infinite. *)
Definition global_row (S : asys Rring) (d : dc) (phi : list R) (mt : nat) : result (list R * list R * list R) :=
  match nth_error phi mt with
  | None => Exn IndexError
  | Some p =>
      let own := (mt + (sM S - sMt S))%nat in
      let off := ((sM S + sL S) * sN S)%nat in
      bind (ivp (global_rhs S d p mt) p (p + ck_T (d_clk d)) (repeat 0 (off + sN S + sL S + sM S))) (fun y =>
      let Q := nth (off + sN S + (own + sL S)) y 0 in
      if Req_bool Q 0 then Exn ArithmeticError else
      Ok (map (fun n => -1 / Q * nth (off + n) y 0) (seq 0 (sN S)),
          map (fun l => -1 / Q * nth (off + sN S + l) y 0) (seq 0 (sL S)),
          map (fun m => if Nat.eqb m own then 0 else -1 / Q * nth (off + sN S + sL S + m) y 0) (seq 0 (sM S))))
  end.

(** [get_global_control], lines 41-218.  More control observations than controls, where the indices of the code no longer mean
    controls, are not modelled ([NotImplementedError] here); neither are systems without Gamma_tildeT. *)
Definition table (c : nat) (rowsl : list (list R)) : rmat := mk2 (K := Rring) (length rowsl) c (fun i j => nth j (nth i rowsl []) 0).
Definition get_global_control (S : asys Rring) (d : dc) (phi : list R) : result (asys Rring * dc) :=
  if Nat.ltb (sM S) (sMt S) || Nat.eqb (sMt S) 0 then Exn NotImplementedError else
  (* the events read phi_delay[M_tilde - 1] *)
  if Nat.ltb (length phi) (sMt S) then Exn IndexError else
  bind (mapM (global_row S d phi) (seq 0 (sMt S))) (fun rs =>
  bind (as_init (D2 (aA S)) (D2 (aB S)) (D2 (aCT S)) (option_map D2 (aG S)) (Some (D2 (table (sN S) (map (fun r => fst (fst r)) rs)))) None
    (Some (D2 (table (sL S) (map (fun r => snd (fst r)) rs)))) (Some (D2 (table (sM S) (map snd rs))))) (fun S' =>
  Ok (S', d))).

(** [inverse_state_trajectory], lines 221-230 *)
Definition inverse_state_trajectory (inv : rmat -> result rmat) (A : rmat) (T : R) : result (rmat * rmat) :=
  bind (ivp (fun t _ => bind (expm A t) (fun E => Ok (flatten E))) 0 T (repeat 0 (rows A * cols A))) (fun y =>
  let res := mk2 (K := Rring) (rows A) (cols A) (fun i j => nth (i * cols A + j) y 0) in
  bind (inv res) (fun X => Ok (res, X))).
End Global.
