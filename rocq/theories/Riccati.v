(** Model of the solvers of the algebraic Riccati equation, /repo/src/cbadc/digital_estimator/_filter_coefficients.py 27-140.  [float] is idealised to [R] and
    complex floats to [C].  Inverses, pseudo-inverses and eigenvectors come from numpy, scipy and sympy: parameters. *)
From Coq Require Import List Arith Lia Bool Reals Lra.
From Flocq Require Import Core.
From Coquelicot Require Import Complex.
From Verif Require Import Base LinAlg FirExtras AnalogSystem Signals DigitalControl Simulator Zpk FilterCoeff.
Import ListNotations.
Open Scope R_scope.

Notation cmat := (nd2 Cring).
(** real matrices as complex ones; [np.real], [sp.re] *)
Definition cof (a : rmat) : cmat := mk2 (K := Cring) (rows a) (cols a) (fun i j => RtoC (ent a i j)).
Definition rpart (a : cmat) : rmat := mk2 (K := Rring) (rows a) (cols a) (fun i j => fst (ent a i j)).
(** [a[r0:r1, c0:c1]] for bounds within the array *)
Definition slice {K : cring} (a : nd2 K) (r0 r1 c0 c1 : nat) : nd2 K := mk2 (r1 - r0) (c1 - c0) (fun i j => ent a (r0 + i) (c0 + j)).
(** [[a, b], [c, d]] of [sp.Matrix], [np.vstack] of [np.hstack] *)
Definition blocks (a b c d : rmat) : result rmat :=
  if Nat.eqb (rows a) (rows b) && Nat.eqb (rows c) (rows d) && Nat.eqb (cols a) (cols c) && Nat.eqb (cols b) (cols d)
  then Ok (mk2 (K := Rring) (rows a + rows c) (cols a + cols b) (fun i j =>
    if Nat.ltb i (rows a) then (if Nat.ltb j (cols a) then ent a i j else ent b i (j - cols a))
    else (if Nat.ltb j (cols a) then ent c (i - rows a) j else ent d (i - rows a) (j - cols a))))
  else Exn ValueError.

Section Solvers.
(** [R.inv()], [np.linalg.inv(R)] *)
Variable rinv : rmat -> result rmat.

(** 117, 126-131: the Hamiltonian matrix *)
Definition hamiltonian (A B Q Rm : rmat) : result rmat :=
  bind (rinv Rm) (fun Ri => bind (dotm B Ri) (fun t => bind (dotm t (tr B)) (fun G => blocks A (oppm G) (oppm Q) (oppm (tr A))))).

(** [P[n:, :k] * inverse(P[:n, :k])] *)
Definition graph_of (inverse : cmat -> result cmat) (P : cmat) (n k : nat) : result cmat :=
  bind (inverse (slice P 0 n 0 k)) (fun X => dotm (slice P n (rows P) 0 k) X).
Definition sym (V : rmat) : result rmat := bind (addm V (tr V)) (fun s => Ok (scalem (/ 2) s)).

(** [Matrix.diagonalize(reals_only=False, sort=True)] and [Matrix.inv()] of sympy, on complex matrices *)
Variable diagonalize : cmat -> result (cmat * cmat).
Variable cinv : cmat -> result cmat.
(** 109-122 *)
Definition analytical_care (A B Q Rm : rmat) : result rmat :=
  bind (hamiltonian A B Q Rm) (fun Z => bind (diagonalize (cof Z)) (fun '(P, _) => bind (graph_of cinv P (rows A) (cols A)) (fun sol => sym (rpart sol)))).

(** [np.linalg.eig], [np.linalg.pinv] *)
Variable eig : rmat -> result (list C * cmat).
Variable pinv : cmat -> result cmat.
(** numpy orders complex numbers by the real, then by the imaginary part *)
Definition cle (a b : C) : bool := Rlt_bool (fst a) (fst b) || (Req_bool (fst a) (fst b) && Rle_bool (snd a) (snd b)).
Fixpoint insert (W : list C) (i : nat) (l : list nat) : list nat :=
  match l with
  | [] => [i]
  | j :: r => if cle (nth i W (RtoC 0)) (nth j W (RtoC 0)) then i :: l else j :: insert W i r
  end.
(** [W.argsort()]; where several eigenvalues are equal their order is not specified *)
Definition argsort (W : list C) : list nat := fold_right (insert W) [] (seq 0 (length W)).
(** 125-140 *)
Definition numpy_care (A B Q Rm : rmat) : result rmat :=
  bind (hamiltonian A B Q Rm) (fun Z => bind (eig Z) (fun '(W, V) =>
    let idx := argsort W in
    bind (graph_of pinv (mk2 (K := Cring) (rows V) (cols V) (fun i j => ent V i (nth j idx O))) (rows A) (cols Q)) (fun sol => Ok (rpart sol)))).

(** [np.allclose] of equally shaped arrays *)
Definition allclosem (rtol atol : R) (a b : rmat) : bool :=
  forallb (fun i => forallb (fun j => Rle_bool (Rabs (ent a i j - ent b i j)) (atol + rtol * Rabs (ent b i j))) (seq 0 (cols a))) (seq 0 (rows a)).
(** 57-66: one step *)
Definition brute_step (tau : R) (A B Q Ri V : rmat) : result rmat :=
  bind (dotm (tr A) V) (fun t1 => bind (dotm (tr V) A) (fun t2 => bind (addm t1 t2) (fun t3 => bind (addm t3 Q) (fun t4 =>
  bind (dotm (tr B) (tr V)) (fun s1 => bind (dotm Ri s1) (fun s2 => bind (dotm B s2) (fun s3 => bind (dotm V s3) (fun s4 =>
  bind (subm t4 s4) (fun r => bind (addm V (scalem tau r)) (fun V1 => bind (addm V1 (tr V1)) (fun s => Ok (scalem (/ 2) s)))))))))))).
(** 52-71: the loop; [late k] tells whether the time limit has passed when the k-th step is about to be made, [fuel] bounds the number of steps looked at *)
Fixpoint brute_loop (fuel : nat) (late : nat -> bool) (k : nat) (tau rtol atol : R) (A B Q Ri V Vt : rmat) : option (result rmat) :=
  if allclosem rtol atol V Vt then Some (Ok V)
  else match fuel with
       | O => None
       | S fuel =>
           if late k then Some (Exn GenericException)
           else match brute_step tau A B Q Ri V with
                | Exn e => Some (Exn e)
                | Ok V' => brute_loop fuel late (S k) (tau * (99 / 100)) rtol atol A B Q Ri V' V
                end
       end.
Definition full (r c : nat) (x : R) : rmat := mk2 (K := Rring) r c (fun _ _ => x).
(** 31-71; the constants tau, rtol, atol, 1e300 and the factor 1 - 1e-2 are those of the source *)
Definition brute_care (fuel : nat) (late : nat -> bool) (tau rtol atol : R) (A B Q Rm : rmat) : option (result rmat) :=
  match numpy_care A B Q Rm with
  | Exn e => Some (Exn e)
  | Ok V => match rinv Rm with
            | Exn e => Some (Exn e)
            | Ok Ri => brute_loop fuel late 0 tau rtol atol A B Q Ri V (full (rows V) (cols V) (10 ^ 300))
            end
  end.

(** [scipy.linalg.solve_continuous_are] *)
Variable scipy_care : rmat -> rmat -> rmat -> rmat -> result rmat.
(** 80-106 without the final [(V + V.transpose()) / 2], which is [care] of FilterCoeff.v.  [sp.PrecisionExhausted] is an ArithmeticError; LinAlgError and the
    other exceptions of sympy are GenericException.  An answer of None: the loop is still running after [fuel] steps. *)
Definition care_choice (fuel : nat) (late : nat -> bool) (tau rtol atol : R) (A B Q Rm : rmat) : option (result rmat) :=
  match analytical_care A B Q Rm with
  | Exn ArithmeticError | Exn TypeError =>
      match scipy_care A B Q Rm with
      | Exn GenericException => brute_care fuel late tau rtol atol A B Q Rm
      | r => Some r
      end
  | r => Some r
  end.
End Solvers.
