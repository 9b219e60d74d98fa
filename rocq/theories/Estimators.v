(** Models of the digital estimators BatchEstimator, FIRFilter and IIRFilter
    (/repo/src/cbadc/digital_estimator/{batch,fir,iir}_estimator.py) as state machines over an arbitrary commutative ring.
    The filter coefficient matrices (computed by scipy/mpmath solvers) are arbitrary parameters. *)
From Coq Require Import List Lia Arith Ring Bool ZArith.
From Verif Require Import Base LinAlg.
Import ListNotations.

Section Est.
Context {K : cring}.
Add Ring Kring : (rth K).
Notation vec := (list K).
Notation mat := (list (list K)).

(** The control-signal iterator.  [SrcGen e]: a generator that raises [e] once and [StopIteration] on every later [next]
    (CPython: a finished generator); [SrcObj e]: an iterator object whose [__next__] keeps raising [e] (a cleanly finished
    iterator is [SrcObj StopIteration]). *)
Inductive src_end := SrcGen (e : exn) | SrcObj (e : exn).
Record source := mkSrc { s_items : list vec; s_end : src_end }.

Definition src_next (s : source) : result vec * source :=
  match s_items s with
  | x :: r => (Ok x, mkSrc r (s_end s))
  | [] => match s_end s with
          | SrcGen e => (Exn e, mkSrc [] (SrcObj StopIteration))
          | SrcObj e => (Exn e, s)
          end
  end.

(** [2 * s - 1] on a control sample. *)
Definition pm1 (s : vec) : vec := map (fun x => rsub K (rmul K (radd K (r1 K) (r1 K)) x) (r1 K)) s.

(** [np.roll(a, -n, axis=0)] *)
Definition roll {A} (n : nat) (l : list A) : list A :=
  let m := n mod (length l) in skipn m l ++ firstn m l.

(** Coefficients and sizes shared by the estimators. *)
Record coef := mkCoef { cAf : mat; cAb : mat; cBf : mat; cBb : mat; cWT : mat; cN : nat; cM : nat; cL : nat }.

(** *** BatchEstimator, batch_estimator.py *)

Record bst := mkB {
  b_src : source; b_iter : Z; b_ptr : nat; b_stop : bool;
  b_buf : list vec; b_cnt : nat; b_mean : list vec; b_est : list vec }.

Section Batch.
Variable c : coef.
Variables K1 K2 : nat.
Variable limit : Z.
Let K3 := (K1 + K2)%nat.

(** batch_estimator.py:156-178, 277-282: initial state with the iterator already set ("No iterator set" is not modelled). *)
Definition b_init (s : source) : bst :=
  mkB s 0 K1 false (repeat (vzero (cM c)) K3) 0 (repeat (vzero (cN c)) (K1 + 1)) (repeat (vzero (cL c)) K1).

(** batch_estimator.py:324-335 [_input].  The loop over [m] repeats one idempotent assignment and is modelled once. *)
Definition b_input (st : bst) (s : vec) : result (bool * bst) :=
  if Nat.eqb (b_cnt st) K3 then Exn GenericException
  else bind (row (cM c) (pm1 s)) (fun r =>
    let cnt := S (b_cnt st) in
    Ok (Nat.ltb (K3 - 1) cnt,
        mkB (b_src st) (b_iter st) (b_ptr st) (b_stop st) (upd (b_cnt st) r (b_buf st)) cnt (b_mean st) (b_est st))).

(** batch_estimator.py:289-295: the lookahead loop. *)
Definition b_lookahead (buf mean : list vec) : list vec :=
  fold_left (fun mean k1 => upd K1 (vadd (mv (cAb c) (nth K1 mean [])) (mv (cBb c) (nth k1 buf []))) mean)
            (rev (seq K1 K2)) mean.

(** batch_estimator.py:297-306: the forward recursion; second component is [temp_forward_mean]. *)
Definition b_forward (buf mean : list vec) : list vec * vec :=
  fold_left (fun '(mean, tf) k2 =>
      let temp := vadd (mv (cAf c) (nth k2 mean [])) (mv (cBf c) (nth k2 buf [])) in
      if Nat.ltb k2 (K1 - 1) then (upd (k2 + 1) temp mean, tf) else (mean, temp))
    (seq 0 K1) (mean, vzero (cN c)).

(** batch_estimator.py:308-314: the backward recursion and the estimates. *)
Definition b_backward (buf mean est : list vec) : list vec * list vec :=
  fold_left (fun '(mean, est) k3 =>
      let temp := vadd (mv (cAb c) (nth (k3 + 1) mean [])) (mv (cBb c) (nth k3 buf [])) in
      (upd k3 temp mean, upd k3 (mv (cWT c) (vsub temp (nth k3 mean []))) est))
    (rev (seq 0 K1)) (mean, est).

(** batch_estimator.py:284-322 [_compute_batch]. *)
Definition b_compute (st : bst) : result bst :=
  if Nat.ltb (b_cnt st) K3 then Exn GenericException
  else
    let mean1 := b_lookahead (b_buf st) (b_mean st) in
    let '(mean2, tf) := b_forward (b_buf st) mean1 in
    let '(mean3, est) := b_backward (b_buf st) mean2 (b_est st) in
    let mean4 := upd K1 (vzero (cN c)) (upd 0 tf mean3) in
    Ok (mkB (b_src st) (b_iter st) (b_ptr st) (b_stop st) (roll K1 (b_buf st)) (b_cnt st - K1) mean4 est).

(** batch_estimator.py:365-376: fill the buffer.  [fuel] bounds the loop; [S K3] is enough (proved: RecursionError never
    shows up). *)
Fixpoint b_fill (fuel : nat) (st : bst) : result unit * bst :=
  match fuel with
  | O => (Exn RecursionError, st)
  | S fuel =>
      let '(r, src) := src_next (b_src st) in
      let go stop s :=
        let st' := mkB src (b_iter st) (b_ptr st) stop (b_buf st) (b_cnt st) (b_mean st) (b_est st) in
        match b_input st' s with
        | Exn e => (Exn e, st')
        | Ok (full, st'') => if full then (Ok tt, st'') else b_fill fuel st''
        end in
      match r with
      | Ok s => go (b_stop st) s
      | Exn RuntimeError => go true (vzero (cM c))
      | Exn e => (Exn e, mkB src (b_iter st) (b_ptr st) (b_stop st) (b_buf st) (b_cnt st) (b_mean st) (b_est st))
      end
  end.

(** batch_estimator.py:343-384 [__next__].  The recursion is at most one level deep (proved). *)
Fixpoint b_next_fuel (fuel : nat) (st : bst) : result vec * bst :=
  match fuel with
  | O => (Exn RecursionError, st)
  | S fuel =>
      if (limit <? b_iter st)%Z then (Exn StopIteration, st)
      else
        let st := mkB (b_src st) (b_iter st + 1) (b_ptr st) (b_stop st) (b_buf st) (b_cnt st) (b_mean st) (b_est st) in
        if Nat.ltb (b_ptr st) K1 then
          (Ok (nth (b_ptr st) (b_est st) []),
           mkB (b_src st) (b_iter st) (S (b_ptr st)) (b_stop st) (b_buf st) (b_cnt st) (b_mean st) (b_est st))
        else if b_stop st then (Exn StopIteration, st)
        else match b_fill (S K3) st with
             | (Exn e, st) => (Exn e, st)
             | (Ok _, st) =>
                 match b_compute st with
                 | Exn e => (Exn e, st)
                 | Ok st => b_next_fuel fuel
                     (mkB (b_src st) (b_iter st) (b_ptr st - K1) (b_stop st) (b_buf st) (b_cnt st) (b_mean st) (b_est st))
                 end
             end
  end.
Definition b_next (st : bst) : result vec * bst := b_next_fuel 2 st.
End Batch.

(** The results of the first [n] calls of a [next]-like function, and the final state. *)
Fixpoint calls {S R} (next : S -> R * S) (n : nat) (st : S) : list R * S :=
  match n with
  | O => ([], st)
  | S n => let '(r, st) := next st in let '(rs, st) := calls next n st in (r :: rs, st)
  end.

(** *** FIRFilter, fir_estimator.py *)

(** [np.tensordot(h, buf, axes=((1,2),(0,1)))]; [h] is stored as the list over [k] of the L x M matrices [h[:, k, :]]. *)
Definition tensordot (L : nat) (h : list mat) (buf : list vec) : vec :=
  fold_right vadd (vzero L) (map2 mv h buf).

Section FIR.
Variable c : coef.
Variables K1 K2 : nat.

(** fir_estimator.py:182-203 (floating point branch): lookback and lookahead coefficient loops. *)
Definition fir_h : list mat :=
  let K3 := (K1 + K2)%nat in
  let h0 := repeat (repeat (vzero (cM c)) (cL c)) K3 in
  let '(h1, _) := fold_left (fun '(h, temp1) k1 => (upd k1 (mopp (mm (cM c) (cWT c) temp1)) h, mm (cM c) (cAf c) temp1))
                            (rev (seq 0 K1)) (h0, cBf c) in
  let '(h2, _) := fold_left (fun '(h, temp2) k2 => (upd k2 (mm (cM c) (cWT c) temp2) h, mm (cM c) (cAb c) temp2))
                            (seq K1 K2) (h1, cBb c) in
  h2.
End FIR.

Record fst_ := mkF { f_src : source; f_iter : Z; f_buf : list vec }.

Section FIRrun.
Variables (K3 M L ds : nat).
Variable h : list mat.
Variable offset : vec.
Variable limit : Z.

Definition f_init (s : source) : fst_ := mkF s 0 (repeat (vzero M) K3).

(** fir_estimator.py:232-234: read [n] samples into [_temp_controls]. *)
Fixpoint f_read (n : nat) (s : source) : result (list vec) * source :=
  match n with
  | O => (Ok [], s)
  | S n => match src_next s with
           | (Exn e, s) => (Exn e, s)
           | (Ok x, s) =>
               match row M (pm1 x) with
               | Exn e => (Exn e, s)
               | Ok r => match f_read n s with
                         | (Ok rs, s) => (Ok (r :: rs), s)
                         | (Exn e, s) => (Exn e, s)
                         end
               end
           end
  end.

(** fir_estimator.py:217-254 [__next__], floating point branch. *)
Definition f_next (st : fst_) : result vec * fst_ :=
  let iter := (f_iter st + Z.of_nat ds)%Z in
  if (negb (limit =? 0) && (limit <? iter))%Z%bool then (Exn StopIteration, mkF (f_src st) iter (f_buf st))
  else
    let buf := roll ds (f_buf st) in
    match f_read ds (f_src st) with
    | (Exn RuntimeError, s) => (Exn StopIteration, mkF s iter buf)
    | (Exn e, s) => (Exn e, mkF s iter buf)
    | (Ok temp, s) =>
        if Nat.ltb K3 ds then (Exn ValueError, mkF s iter buf)
        else
          let buf := firstn (K3 - ds) buf ++ temp in
          (Ok (vadd (tensordot L h buf) offset), mkF s iter buf)
    end.
End FIRrun.

(** *** IIRFilter, iir_estimator.py *)
Section IIR.
Variable c : coef.
Variable K2 ds : nat.
Variable limit : Z.

(** iir_estimator.py:147-155 *)
Definition iir_h : list mat :=
  let h0 := repeat (repeat (vzero (cM c)) (cL c)) K2 in
  fst (fold_left (fun '(h, temp2) k2 => (upd k2 (mm (cM c) (cWT c) temp2) h, mm (cM c) (cAb c) temp2))
                 (seq 0 K2) (h0, cBb c)).

Record ist := mkI { i_src : source; i_iter : Z; i_buf : list vec; i_mean : vec }.
Definition i_init (s : source) : ist := mkI s 0 (repeat (vzero (cM c)) K2) (vzero (cN c)).

(** iir_estimator.py:168-204 [__next__]; the recursion skips [ds - 1] samples, so [fuel = S ds] is enough (proved). *)
Fixpoint i_next_fuel (fuel : nat) (st : ist) : result vec * ist :=
  match fuel with
  | O => (Exn RecursionError, st)
  | S fuel =>
      let iter := (i_iter st + 1)%Z in
      if (negb (limit =? 0) && (limit <? iter))%Z%bool then (Exn StopIteration, mkI (i_src st) iter (i_buf st) (i_mean st))
      else
        let buf := roll 1 (i_buf st) in
        match src_next (i_src st) with
        | (Exn RuntimeError, s) => (Exn StopIteration, mkI s iter buf (i_mean st))
        | (Exn e, s) => (Exn e, mkI s iter buf (i_mean st))
        | (Ok x, s) =>
            match length buf with
            | O => (Exn IndexError, mkI s iter buf (i_mean st))
            | S last =>
                match row (cM c) (pm1 x) with
                | Exn e => (Exn e, mkI s iter buf (i_mean st))
                | Ok r =>
                    let buf := upd last r buf in
                    let result := vopp (mv (cWT c) (i_mean st)) in
                    let mean := vadd (mv (cAf c) (i_mean st)) (mv (cBf c) (nth 0 buf [])) in
                    let st' := mkI s iter buf mean in
                    if Nat.eqb ds 0 then (Exn ZeroDivisionError, st')
                    else if ((iter - 1) mod Z.of_nat ds =? 0)%Z
                         then (Ok (vadd (tensordot (cL c) iir_h buf) result), st')
                         else i_next_fuel fuel st'
                end
            end
        end
  end.
Definition i_next (st : ist) : result vec * ist := i_next_fuel (S ds) st.
End IIR.
End Est.
