(** Evaluation of transfer functions: analog_system.py 433-595 (the numerical branches) and digital_estimator/batch_estimator.py
    412-668 (transfer functions, noise budgets).
    [float] is idealised to [R], complex128 to [C].  [np.linalg.pinv] and [np.linalg.inv] are parameters; the cut-off of [pinv]
    (singular values below rcond times the largest are taken for zero) is part of that parameter.  An array over K frequencies
    is the list of its K slices along the last axis.  The symbolic branches (sympy) are not modelled. *)
From Coq Require Import List Arith Lia Bool Reals Lra ZArith.
From Flocq Require Import Core.
From Coquelicot Require Import Complex.
From Verif Require Import Base LinAlg FirExtras AnalogSystem Zpk FilterCoeff Integrators Fom LinearOde.
Import ListNotations.
Open Scope R_scope.

Notation cmat := (nd2 Cring).
(** a real array in an expression with complex ones *)
Definition emb (a : rmat) : cmat := @mk2 Cring (rows a) (cols a) (fun i j => RtoC (ent a i j)).
(** [a.transpose().conjugate()] *)
Definition ctr (a : cmat) : cmat := @mk2 Cring (cols a) (rows a) (fun i j => Cconj (ent a j i)).
(** [np.abs(a)], stored in a complex array *)
Definition absm (a : cmat) : cmat := mapm (K := Cring) (fun z => RtoC (Cmod z)) a.

Section Tf.
Variable pinv : cmat -> cmat.
Variable inv : cmat -> result cmat.

(** analog_system.py:435, 446, 466: [complex(0, omega) * np.eye(N) - A] *)
Definition resolvent (S : asys Rring) (w : R) : result cmat :=
  zip2 (K := Cring) Cminus (mapm (K := Cring) (Cmult (0, w)) (eye2 (K := Cring) (sN S) (sN S))) (emb (aA S)).

(** 433-438 *)
Definition atf (S : asys Rring) (w : R) : result cmat := bind (resolvent S w) (fun M => dotm (pinv M) (emb (aB S))).
(** 445-447 *)
Definition general_atf (S : asys Rring) (w : R) : result cmat := bind (resolvent S w) (fun M => Ok (pinv M)).
(** 462-467.  With Gamma = None [np.dot] multiplies by [None]: TypeError *)
Definition ctf (S : asys Rring) (w : R) : result cmat :=
  bind (resolvent S w) (fun M => match aG S with Some g => dotm (pinv M) (emb g) | None => Exn TypeError end).

(** 476-504: control_signal_transfer_function_matrix; no multiplication with CT *)
Definition control_matrix (S : asys Rring) (w : R) : result cmat := ctf S w.

(** 507-562: transfer_function_matrix, [symbolic=False], one frequency *)
Definition tfm (S : asys Rring) (general : bool) (w : R) : result cmat :=
  if general then bind (general_atf S w) (fun X => dotm (emb (aCT S)) X)
  else bind (atf S w) (fun X => bind (dotm (emb (aCT S)) X) (fun Y => zip2 (K := Cring) Cplus (emb (aD S)) Y)).
Definition transfer_function_matrix (S : asys Rring) (general : bool) (omega : list R) : result (list cmat) := mapM (tfm S general) omega.

(** 579-595: eta2; the Frobenius norm squared *)
Definition eta2_of (S : asys Rring) (BW : R) : result R :=
  bind (tfm S false (2 * PI * BW)) (fun G => Ok (Rsqr (sqrt (ksum (K := Rring) (rows G) (fun i => ksum (K := Rring) (cols G) (fun j => Rsqr (Cmod (ent G i j)))))))).

(** batch_estimator.py 442-449: [GGH + self.eta2Matrix] (175: eta2 times the identity) and GH *)
Definition gram (S : asys Rring) (eta2 w : R) : result (cmat * cmat * cmat) :=
  bind (tfm S false w) (fun G =>
  let GH := ctr G in
  bind (dotm G GH) (fun GGH =>
  bind (zip2 (K := Cring) Cplus GGH (mapm (K := Cring) (Cmult (RtoC eta2)) (eye2 (K := Cring) (sNt S) (sNt S)))) (fun Mt => Ok (G, GH, Mt)))).

(** 412-451: noise_transfer_function *)
Definition ntf (S : asys Rring) (eta2 w : R) : result cmat :=
  bind (gram S eta2 w) (fun '(_, GH, Mt) => bind (dotm GH (pinv Mt)) (fun X => Ok (absm X))).
Definition noise_transfer_function (S : asys Rring) (eta2 : R) (omega : list R) : result (list cmat) := mapM (ntf S eta2) omega.

(** 462-501: signal_transfer_function; row l of GH times column l of STF_temp *)
Definition stf (S : asys Rring) (eta2 w : R) : result (list R) :=
  bind (gram S eta2 w) (fun '(G, GH, Mt) => bind (dotm (pinv Mt) G) (fun Tm =>
  Ok (map (fun l => Cmod (ksum (K := Cring) (cols GH) (fun r => Cmult (ent GH l r) (ent Tm r l)))) (seq 0 (sL S))))).
Definition signal_transfer_function (S : asys Rring) (eta2 : R) (omega : list R) : result (list (list R)) := mapM (stf S eta2) omega.

(** [X.reshape((r, c))] of a two-dimensional array in C order *)
Definition reshape2 (r c : nat) (a : cmat) : result cmat :=
  if Nat.eqb (r * c) (rows a * cols a)
  then Ok (@mk2 Cring r c (fun i j => ent a ((i * c + j) / cols a) ((i * c + j) mod cols a)))
  else Exn ValueError.

(** 503-540: control_signal_transfer_function *)
Definition cstf (S : asys Rring) (eta2 w : R) : result cmat :=
  bind (tfm S false w) (fun _ =>
  bind (control_matrix S w) (fun Gb0 => bind (reshape2 (sNt S) (sM S) Gb0) (fun Gb =>
  bind (gram S eta2 w) (fun '(_, GH, Mt) =>
  bind (inv Mt) (fun X => bind (dotm X Gb) (fun Y => bind (dotm GH Y) (fun Z => Ok (absm Z)))))))).
Definition control_signal_transfer_function (S : asys Rring) (eta2 : R) (omega : list R) : result (list cmat) := mapM (cstf S eta2) omega.

(** 542-561: general_transfer_function *)
Definition gtf (S : asys Rring) (eta2 w : R) : result cmat :=
  bind (tfm S true w) (fun T => bind (ntf S eta2 w) (fun X => dotm X T)).
Definition general_transfer_function (S : asys Rring) (eta2 : R) (omega : list R) : result (list cmat) := mapM (gtf S eta2) omega.

(** [np.geomspace(a, b, n)] for positive a, b and n > 1 *)
Definition geomspace (a b : R) (n : nat) : list R := map (fun k => a * Rpower (b / a) (INR k / INR (n - 1))) (seq 0 n).
(** [np.logspace(a, b, n)] for n > 1 *)
Definition logspace (a b : R) (n : nat) : list R := map (fun k => Rpower 10 (a + (b - a) * (INR k / INR (n - 1)))) (seq 0 n).
Definition grid_size : nat := Z.to_nat 1000.

Definition rmax (l : list R) : R := match l with [] => 0 | a :: l => fold_left Rmax l a end.
(** [np.max(f(tfs), axis=2)] *)
Definition peak (f : C -> R) (S : asys Rring) (tfs : list cmat) : rmat :=
  @mk2 Rring (sL S) (sN S) (fun l n => rmax (map (fun X : cmat => f (ent X l n)) tfs)).

(** 563-567: max_transfer_function_peak; also 586-589 of white_noise_balance with [max=True] *)
Definition max_transfer_function_peak (S : asys Rring) (eta2 : R) (bw : R * R) : result rmat :=
  bind (general_transfer_function S eta2 (geomspace (fst bw) (snd bw) grid_size)) (fun tfs => Ok (peak (fun z => Rsqr (Cmod z)) S tfs)).

(** 609: [np.max(res, axis=1) / res / N].  The vector of the row maxima has shape (L,) and is stretched along the rows of the
    L x N array: entry (l, n) divides the maximum of row n (L = N), of row 0 (L = 1); for N = 1 the result is L x L.
    A division by zero gives inf or nan with a warning; the model stops with ArithmeticError. *)
Definition balance_of (res : rmat) : result rmat :=
  let L := rows res in let N := cols res in
  let mx i := rmax (map (fun n => ent res i n) (seq 0 N)) in
  let z := existsb (fun i => existsb (fun j => Req_bool (ent res i j) 0) (seq 0 N)) (seq 0 L) in
  let go r c f := if z then Exn ArithmeticError else Ok (@mk2 Rring r c f) in
  if Nat.eqb N 0 then Exn ValueError
  else if Nat.eqb L 1 then go 1%nat N (fun _ n => mx 0%nat / ent res 0 n / INR N)
  else if Nat.eqb L N then go L N (fun l n => mx n / ent res l n / INR N)
  else if Nat.eqb N 1 then go L L (fun l n => mx n / ent res l 0 / INR N)
  else Exn ValueError.
(** 569-609: white_noise_balance with [max=True]; the squared integral ([max=False]) is not modelled *)
Definition white_noise_balance (S : asys Rring) (eta2 : R) (bw : R * R) : result rmat :=
  bind (max_transfer_function_peak S eta2 bw) balance_of.

(** 611-651: white_noise_sensitivities; [balances[l, n]] for l < L, n < N *)
Definition white_noise_sensitivities (S : asys Rring) (eta2 : R) (bw : R * R) (target_snr input_power : R) (spectrum : bool) : result rmat :=
  if Req_bool target_snr 0 then Exn ArithmeticError else
  bind (white_noise_balance S eta2 bw) (fun b =>
  if spectrum && Req_bool (snd bw - fst bw) 0 then Exn ArithmeticError else
  Ok (@mk2 Rring (sL S) (sN S) (fun l n =>
    let v := 1 * input_power / target_snr * ent b l n in if spectrum then v / (snd bw - fst bw) else v))).

(** [np.linalg.norm(a, ord=1)] of a two-dimensional array: the largest column sum of absolute values *)
Definition norm1 (a : rmat) : R := rmax (map (fun j => ksum (K := Rring) (rows a) (fun i => Rabs (ent a i j))) (seq 0 (cols a))).
(** 653-668: max_harmonic_estimate; a division by zero as above *)
Definition max_harmonic_estimate (S : asys Rring) (eta2 : R) (bw : R * R) (SFDR : R) : result rmat :=
  let sfdr := snr_from_dB SFDR in
  bind (general_transfer_function S eta2 (logspace (ln (fst bw)) (ln (snd bw)) grid_size)) (fun tfs =>
  if Nat.eqb (sL S * sN S) 0 then Exn ValueError else
  let mag := peak Cmod S tfs in
  let max_input := rmax (concat (map (fun l => map (fun n => ent mag l n) (seq 0 (sN S))) (seq 0 (sL S)))) in
  if existsb (fun l => existsb (fun n => Req_bool (ent mag l n) 0) (seq 0 (sN S))) (seq 0 (sL S)) then Exn ArithmeticError else
  let temp := mapm (K := Rring) (fun x => x / max_input) mag in
  let lh := mapm (K := Rring) (fun x => 1 / x) temp in
  let nrm := norm1 lh in
  Ok (mapm (K := Rring) (fun x => x / nrm / sfdr) lh)).
End Tf.
