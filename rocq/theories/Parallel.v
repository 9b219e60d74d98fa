(** ParallelEstimator (/repo/src/cbadc/digital_estimator/parallel_digital_estimator.py) over [R], with complex filter
    coefficients in [C].  numpy.linalg.eig and numpy.linalg.pinv are parameters. *)
From Coq Require Import List Lia Arith Bool ZArith Reals.
From Flocq Require Import Core.
From Coquelicot Require Import Complex.
From Verif Require Import Base LinAlg FirExtras Estimators Zpk.
Import ListNotations.
Open Scope R_scope.

Definition cv (x : list R) : list C := map RtoC x.
Definition cmat (A : list (list R)) : list (list C) := map cv A.

Record pcoef := mkPC {
  pfa : list C; pba : list C;             (* forward_a, backward_a *)
  pfb : list (list C); pbb : list (list C);   (* forward_b, backward_b, N x M *)
  pfw : list (list C); pbw : list (list C)    (* forward_w, backward_w, L x N *)
}.

(** parallel_digital_estimator.py:180-202.  [eig A]: eigenvalues and the matrix of eigenvectors. *)
Definition p_coef (eig : list (list R) -> list C * list (list C)) (pinv : list (list C) -> list (list C)) (c : @coef Rring) : pcoef :=
  let '(fa, Qf) := eig (cAf c) in
  let '(ba, Qb) := eig (cAb c) in
  mkPC fa ba (mm (K := Cring) (cM c) (pinv Qf) (cmat (cBf c))) (mm (K := Cring) (cM c) (pinv Qb) (cmat (cBb c)))
    (mopp (K := Cring) (mm (K := Cring) (cN c) (cmat (cWT c)) Qf)) (mm (K := Cring) (cN c) (cmat (cWT c)) Qb).

Record pst := mkP {
  p_src : @source Rring; p_iter : Z; p_ptr : nat; p_stop : bool;
  p_buf : list (list R); p_cnt : nat; p_mean : list C; p_est : list (list R) }.

Section Parallel.
Variables (N M L : nat) (q : pcoef).
Variables K1 K2 : nat.
Variable limit : Z.
Let K3 := (K1 + K2)%nat.

(** 142-178, 204-209 *)
Definition p_init (s : @source Rring) : pst :=
  mkP s 0 K1 false (repeat (repeat 0 M) K3) 0 (repeat (RtoC 0) N) (repeat (repeat 0 L) K1).

(** 246-253 [_input]: the sample is stored as it is. *)
Definition p_input (st : pst) (s : list R) : result (bool * pst) :=
  if Nat.eqb (p_cnt st) K3 then Exn GenericException
  else bind (row M s) (fun r =>
    let cnt := S (p_cnt st) in
    Ok (Nat.ltb (K3 - 1) cnt,
        mkP (p_src st) (p_iter st) (p_ptr st) (p_stop st) (upd (p_cnt st) r (p_buf st)) cnt (p_mean st) (p_est st))).

(** 226-230 and 235-239: the loop over [m]; a sample counts as +1 unless it is zero *)
Definition feed (b : list C) (s : list R) (mean : C) : C :=
  fold_left (fun mean m => if Req_bool (nth m s 0) 0 then (mean - nth m b (RtoC 0))%C else (mean + nth m b (RtoC 0))%C) (seq 0 M) mean.

(** 223-224 and 241-242: the loop over [l] *)
Definition add_row (w : list (list C)) (n k : nat) (mean : C) (est : list (list R)) : list (list R) :=
  upd k (map (fun l => nth l (nth k est []) 0 + fst (nth n (nth l w []) (RtoC 0) * mean)%C) (seq 0 L)) est.

(** 220-231 *)
Definition p_forward (buf : list (list R)) (n : nat) (est : list (list R)) (mean : C) : list (list R) * C :=
  fold_left (fun '(est, mean) k1 =>
      (add_row (pfw q) n k1 mean est, feed (nth n (pfb q) []) (nth k1 buf []) (nth n (pfa q) (RtoC 0) * mean)%C))
    (seq 0 K1) (est, mean).

(** 232-242 *)
Definition p_backward (buf : list (list R)) (n : nat) (est : list (list R)) : list (list R) * C :=
  fold_left (fun '(est, mean) k3 =>
      let mean := feed (nth n (pbb q) []) (nth k3 buf []) (nth n (pba q) (RtoC 0) * mean)%C in
      (if Nat.ltb k3 K1 then add_row (pbw q) n k3 mean est else est, mean))
    (rev (seq 0 K3)) (est, RtoC 0).

(** 211-244 [_compute_batch] *)
Definition p_loop (buf : list (list R)) (mean : list C) : list (list R) * list C :=
  fold_left (fun '(est, mean) n =>
      let '(est, m) := p_forward buf n est (nth n mean (RtoC 0)) in
      (fst (p_backward buf n est), upd n m mean))
    (seq 0 N) (repeat (repeat 0 L) K1, mean).
Definition p_compute (st : pst) : result pst :=
  if Nat.ltb (p_cnt st) K3 then Exn GenericException
  else
    let '(est, mean) := p_loop (p_buf st) (p_mean st) in
    Ok (mkP (p_src st) (p_iter st) (p_ptr st) (p_stop st) (roll K1 (p_buf st)) (p_cnt st - K1) mean est).

(** 283-296: fill the buffer; [S K3] is enough fuel (proved through the correspondence with BatchEstimator). *)
Fixpoint p_fill (fuel : nat) (st : pst) : result unit * pst :=
  match fuel with
  | O => (Exn RecursionError, st)
  | S fuel =>
      let '(r, src) := src_next (p_src st) in
      let go stop s :=
        let st' := mkP src (p_iter st) (p_ptr st) stop (p_buf st) (p_cnt st) (p_mean st) (p_est st) in
        match p_input st' s with
        | Exn e => (Exn e, st')
        | Ok (full, st'') => if full then (Ok tt, st'') else p_fill fuel st''
        end in
      match r with
      | Ok s => go (p_stop st) s
      | Exn RuntimeError => go true (repeat 0 M)
      | Exn e => (Exn e, mkP src (p_iter st) (p_ptr st) (p_stop st) (p_buf st) (p_cnt st) (p_mean st) (p_est st))
      end
  end.

(** 258-305 [__next__] *)
Fixpoint p_next_fuel (fuel : nat) (st : pst) : result (list R) * pst :=
  match fuel with
  | O => (Exn RecursionError, st)
  | S fuel =>
      if (limit <? p_iter st)%Z then (Exn StopIteration, st)
      else
        let st := mkP (p_src st) (p_iter st + 1) (p_ptr st) (p_stop st) (p_buf st) (p_cnt st) (p_mean st) (p_est st) in
        if Nat.ltb (p_ptr st) K1 then
          (Ok (nth (p_ptr st) (p_est st) []),
           mkP (p_src st) (p_iter st) (S (p_ptr st)) (p_stop st) (p_buf st) (p_cnt st) (p_mean st) (p_est st))
        else if p_stop st then (Exn StopIteration, st)
        else match p_fill (S K3) st with
             | (Exn e, st) => (Exn e, st)
             | (Ok _, st) =>
                 match p_compute st with
                 | Exn e => (Exn e, st)
                 | Ok st => p_next_fuel fuel
                     (mkP (p_src st) (p_iter st) (p_ptr st - K1) (p_stop st) (p_buf st) (p_cnt st) (p_mean st) (p_est st))
                 end
             end
  end.
Definition p_next (st : pst) : result (list R) * pst := p_next_fuel 2 st.
End Parallel.
