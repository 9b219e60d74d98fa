(** Model of /repo/src/cbadc/digital_estimator/adaptive_filter.py: [batch], AdaptiveFIRFilter and the prediction and data
    reshaping of AdaptiveIIRFilter, over a field with conjugation ([Rfield]: float64 data, [Cfield]: complex128 data; both
    idealised to exact arithmetic).  Logging, plotting and transfer functions are not modelled. *)
From Coq Require Import List Lia Arith Bool ZArith Reals.
From Coquelicot Require Import Complex.
From Verif Require Import Base LinAlg FirExtras Zpk.
Import ListNotations.
Open Scope nat_scope.

(** A ring with division and conjugation ([np.conj]; the identity on real data). *)
Record sfield := mkSF { sf :> cring; sconj : sf -> sf; sdiv : sf -> sf -> sf }.
Definition Rfield : sfield := mkSF Rring (fun x => x) Rdiv.
Definition Cfield : sfield := mkSF Cring Cconj Cdiv.

(** [self._offset]: shape (L, 1) as constructed, shape (L,) after [lstsq]. *)
Inductive offset (A : Type) := Off2 (o : list A) | Off1 (o : list A).
Arguments Off2 {A} o.
Arguments Off1 {A} o.

Section Adaptive.
Context {F : sfield}.
Notation vec := (list F).
Notation mat := (list (list F)).

(** the number [n] as an element of the field *)
Fixpoint ofnat (n : nat) : F := match n with O => r0 F | S n => radd F (ofnat n) (r1 F) end.

(** adaptive_filter.py:14-54 [batch], for a signal of shape (n, M), axis 0.  A slice has shape (K, M) and its slot shape (M, K): the
    assignment fails and the transposed slice is stored, unless K = M.  [np.zeros] with a negative dimension is a ValueError. *)
Definition slice (K : nat) (sig : mat) (i : nat) : mat := firstn K (skipn i sig).
Definition transp (n : nat) (A : mat) : mat := map (fun j => map (fun r => nth j r (r0 F)) A) (seq 0 n).
Definition window (M K : nat) (sig : mat) (i : nat) : mat :=
  if Nat.eqb K M then slice K sig i else transp M (slice K sig i).
Definition batch (M K : nat) (sig : mat) : result (list mat) :=
  if Nat.ltb (length sig) K then Exn ValueError
  else Ok (map (window M K sig) (seq 0 (length sig - K))).

Record afst := mkAF {
  a_h : list mat; a_hm : list mat;        (* _h, _h_m: (L, M, K) *)
  a_off : offset F; a_offm : vec;         (* _offset, _offset_m *)
  a_V : option mat }.                     (* V, once created *)

Section Filter.
Variables M K L : nat.

(** 88-94 *)
Definition af_init : afst :=
  mkAF (repeat (repeat (vzero K) M) L) (repeat (repeat (vzero K) M) L) (Off2 (vzero L)) (vzero L) None.

(** one entry of [np.tensordot(h.conj(), x, axes=([1, 2], [1, 2]))] *)
Definition tdot (h x : mat) : F := dot (map (sconj F) (concat h)) (concat x).

(** 384-399 [call]: shape (batch, L) + offset, then transposed; with an (L, 1) offset the sum broadcasts along the wrong axis. *)
Definition call (st : afst) (x : list mat) : result mat :=
  let t b l := tdot (nth l (a_h st) []) (nth b x []) in
  let B := length x in
  let grid n f := map (fun l => map (fun b => f b l) (seq 0 n)) (seq 0 L) in
  match a_off st with
  | Off1 o => Ok (grid B (fun b l => radd F (t b l) (sconj F (nth l o (r0 F)))))
  | Off2 o =>
      if Nat.eqb L 1 then Ok (grid B (fun b l => radd F (t b l) (sconj F (nth 0 o (r0 F)))))
      else if Nat.eqb B L then Ok (grid B (fun b l => radd F (t b l) (sconj F (nth b o (r0 F)))))
      else if Nat.eqb B 1 then Ok (grid L (fun i l => radd F (t 0 l) (sconj F (nth i o (r0 F)))))
      else Exn ValueError
  end.

(** [y - self.call(x)]; a one-column [y] is broadcast *)
Definition resid (st : afst) (x : list mat) (y : mat) : result mat :=
  bind (call st x) (fun c =>
    Ok (map2 (fun yr cr => match yr with [y0] => map (fun v => rsub F y0 v) cr | _ => vsub yr cr end) y c)).

(** 96-112 [loss]; the squared 2-norm of a row is the sum of the squared moduli.  Zero windows give nan. *)
Definition loss (st : afst) (x : list mat) (y : mat) : result vec :=
  bind (resid st x y) (fun e =>
    if Nat.eqb (length x) 0 then Exn ArithmeticError
    else Ok (map (fun r => sdiv F (dot r (map (sconj F) r)) (ofnat (length x))) e)).

(** 114-141 [gradient]; only called on non-empty batches.  [tensordot] of shapes (L, c) and (B, M, K) fails if c <> B. *)
Definition wsum (ws : vec) (x : list mat) : mat :=
  fold_right (fun '(w, m) acc => map2 vadd (map (vscale w) m) acc) (repeat (vzero K) M) (combine ws x).
Definition gradient (st : afst) (x : list mat) (y : mat) : result (list mat * vec) :=
  bind (resid st x y) (fun e =>
    let e := map (map (sconj F)) e in
    let B := ofnat (length x) in
    if negb (forallb (fun r => Nat.eqb (length r) (length x)) e) then Exn ValueError
    else Ok (map (fun r => mopp (wsum (map (fun v => sdiv F v B) r) x)) e,
             map (fun r => ropp F (sdiv F (fold_right (radd F) (r0 F) r) B)) e)).

(** 194-215: one batch of [lms] *)
Definition mat_axpy (f : F -> F -> F) : list mat -> list mat -> list mat := map2 (map2 (map2 f)).
Definition lms_step (lr momentum : F) (st : afst) (x : list mat) (y : mat) : result afst :=
  bind (gradient st x y) (fun '(g0, g1) =>
    let hm := mat_axpy (fun m g => radd F (rmul F m momentum) (rmul F lr g)) (a_hm st) g0 in
    let om := map2 (fun m g => radd F (rmul F m momentum) (rmul F lr g)) (a_offm st) g1 in
    match a_off st with
    | Off2 o => Ok (mkAF (mat_axpy (rsub F) (a_h st) hm) hm (Off2 (vsub o om)) om (a_V st))
    | Off1 _ => Exn IndexError
    end).

Fixpoint lms_batches (fuel : nat) (lr momentum : F) (bs : nat) (st : afst) (x : list mat) (y : mat) : result afst :=
  match fuel, x with
  | _, [] => Ok st
  | O, _ => Exn RecursionError
  | S fuel, _ => bind (lms_step lr momentum st (firstn bs x) (map (firstn bs) y))
                   (fun st => lms_batches fuel lr momentum bs st (skipn bs x) (map (skipn bs) y))
  end.

(** 225-251 [_batch] *)
Definition _batch (x : mat) (y : mat) (delay : Z) : result (list mat * mat) :=
  if (delay <? 0)%Z then Exn ValueError
  else bind (batch M K (skipn (Z.to_nat delay) x)) (fun xs =>
    let n := min (length xs) (length (nth 0 y [])) in
    Ok (firstn n xs, map (firstn n) y)).

(** [x[permutation, :, :]] and [y[:, permutation]] *)
Definition perm_x (p : list nat) (x : list mat) : list mat := map (fun i => nth i x []) p.
Definition perm_y (p : list nat) (y : mat) : mat := map (fun r => map (fun i => nth i r (r0 F)) p) y.

(** 143-223 [lms]; one entry of [perms] per epoch: the permutation drawn when shuffling, [None] otherwise. *)
Fixpoint lms_epochs (perms : list (option (list nat))) (lr momentum : F) (bs : nat) (st : afst) (x : list mat) (y : mat) : result (afst * list mat * mat) :=
  match perms with
  | [] => Ok (st, x, y)
  | p :: perms =>
      let x := match p with Some p => perm_x p x | None => x end in
      let y := match p with Some p => perm_y p y | None => y end in
      if Nat.eqb bs 0 then Exn ValueError
      else bind (lms_batches (length x) lr momentum bs st x y) (fun st => lms_epochs perms lr momentum bs st x y)
  end.
Definition lms (perms : list (option (list nat))) (lr momentum : F) (bs : nat) (delay : Z) (st : afst) (x y : mat) : result (afst * vec) :=
  bind (_batch x y delay) (fun '(x, y) =>
    bind (lms_epochs perms lr momentum bs st x y) (fun '(st, x, y) =>
      bind (loss st x y) (fun l => Ok (st, l)))).

(** [v.reshape((-1, K))] *)
Definition reshape (v : vec) : mat := map (fun m => firstn K (skipn (m * K) v)) (seq 0 M).

(** 318-336: one sample of [rls].  With an (L, 1) offset and L >= 2 the error has shape (L, L) and cannot be stored in one entry. *)
Definition rls_step (lambda : F) (st : afst) (V : mat) (x : mat) (y : vec) : result (afst * mat) :=
  let xf := concat x ++ [r1 F] in
  bind (resid st [x] (map (fun v => [v]) y)) (fun e =>
    let e := map (map (sconj F)) e in
    let alpha := mv V xf in
    let den := radd F lambda (dot (map (sconj F) xf) alpha) in
    let g := map (fun a => sdiv F a den) alpha in
    let V := map2 (fun gi r => map2 (fun v aj => sdiv F (rsub F v (rmul F gi (sconj F aj))) lambda) r alpha) g V in
    match a_off st with
    | Off1 _ => if Nat.eqb L 0 then Ok (st, V) else Exn IndexError
    | Off2 o =>
        if Nat.leb 2 L then Exn ValueError
        else Ok (mkAF (map2 (fun h r => map2 (map2 (fun a b => radd F a (rmul F b (nth 0 r (r0 F))))) h (reshape (removelast g))) (a_h st) e)
                   (a_hm st) (Off2 (map2 (fun oo r => radd F oo (rmul F (last g (r0 F)) (nth 0 r (r0 F)))) o e)) (a_offm st) (a_V st), V)
    end).
Fixpoint rls_run (lambda : F) (st : afst) (V : mat) (x : list mat) (y : list vec) : result (afst * mat) :=
  match x, y with
  | x :: xs, y :: ys => bind (rls_step lambda st V x y) (fun '(st, V) => rls_run lambda st V xs ys)
  | _, _ => Ok (st, V)
  end.
(** columns of [y] *)
Definition columns (n : nat) (y : mat) : list vec := map (fun b => map (fun r => nth b r (r0 F)) y) (seq 0 n).
Fixpoint rls_epochs (perms : list (option (list nat))) (lambda : F) (st : afst) (V : mat) (x : list mat) (y : mat) : result (afst * mat * list mat * mat) :=
  match perms with
  | [] => Ok (st, V, x, y)
  | p :: perms =>
      let x := match p with Some p => perm_x p x | None => x end in
      let y := match p with Some p => perm_y p y | None => y end in
      bind (rls_run lambda st V x (columns (length x) y)) (fun '(st, V) => rls_epochs perms lambda st V x y)
  end.
(** 253-341 [rls] *)
Definition rls (perms : list (option (list nat))) (delta lambda : F) (delay : Z) (st : afst) (x y : mat) : result (afst * vec) :=
  bind (_batch x y delay) (fun '(x, y) =>
    let V := match a_V st with
             | Some V => V
             | None => map (map (fun v => sdiv F v delta)) (eye (M * K + 1))
             end in
    bind (rls_epochs perms lambda st V x y) (fun '(st, V, x, y) =>
      let st := mkAF (a_h st) (a_hm st) (a_off st) (a_offm st) (Some V) in
      bind (loss st x y) (fun l => Ok (st, l)))).

(** 343-382 [lstsq]; [solve A b]: the solution [np.linalg.lstsq] returns for one right-hand side.  The returned residuals are not modelled.
    Zero windows: [reshape((0, -1))] is a ValueError. *)
Definition lstsq (solve : mat -> vec -> vec) (delay : Z) (st : afst) (x y : mat) : result afst :=
  bind (_batch x y delay) (fun '(x, y) =>
    if Nat.eqb (length x) 0 then Exn ValueError
    else
      let A := map (fun w => map (sconj F) (concat w ++ [r1 F])) x in
      let sol := map (solve A) y in
      Ok (mkAF (map (fun s => reshape (removelast s)) sol) (a_hm st) (Off1 (map (fun s => last s (r0 F)) sol)) (a_offm st) (a_V st))).

(** 401-413 [predict] *)
Definition predict (st : afst) (x : mat) : result mat := bind (batch M K x) (call st).

(** 442-451 [get_offset] *)
Definition get_offset (st : afst) : result vec := match a_off st with Off2 o => Ok o | Off1 _ => Exn IndexError end.
End Filter.

(** AdaptiveIIRFilter.predict, 651-684, for one reference (L = 1): [h] has M + 1 rows, the last one being the feedback. *)
Fixpoint iir_loop (den : vec) (fir : vec) (past : vec) : vec :=
  match fir with
  | [] => []
  | f :: fir => let r := radd F f (dot den past) in r :: iir_loop den fir (tl past ++ [r])
  end.
Definition iir_predict (M K : nat) (st : afst) (x : mat) : result vec :=
  bind (batch M K x) (fun xs =>
    let h := nth 0 (a_h st) [] in
    let o := match a_off st with Off2 o | Off1 o => nth 0 o (r0 F) end in
    Ok (iir_loop (last h []) (map (fun w => radd F (dot (concat (removelast h)) (concat w)) (sconj F o)) xs) (vzero K))).

(** AdaptiveIIRFilter._reshape_data_for_FIR_filter_training, 723-748, for one reference: rows of [x] extended with the reference. *)
Definition iir_reshape (K : nat) (delay : nat) (x : mat) (y : vec) : result (mat * vec) :=
  let x := skipn (K + delay) x in
  let n := min (length x) (length y - K) in
  Ok (map2 (fun r v => r ++ [v]) (firstn n x) (firstn n y), firstn n (skipn K y)).
End Adaptive.
