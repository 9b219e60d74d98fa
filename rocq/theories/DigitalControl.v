(** DigitalControl, MultiLevelDigitalControl and DitherControl (/repo/src/cbadc/digital_control/).
    numpy arrays live in a heap because [control_signal] hands out views and [copy] shares arrays.  [float] is idealised to [R].
    An int8 array (allocated by [reset]) truncates what is stored in it; the wrap-around outside -128..127 is not modelled, the
    values stored by this code lie in [0, 1]. *)
From Coq Require Import List Lia Arith Bool ZArith Reals Lra.
From Flocq Require Import Core.
From Verif Require Import Base Signals.
Import ListNotations.
Open Scope R_scope.

Record arr := mkArr { a_int8 : bool; a_vals : list R }.
Definition heap := list arr.
Definition rd_arr (h : heap) (a : nat) : list R := a_vals (nth a h (mkArr false [])).
Definition rd (h : heap) (a m : nat) : R := nth m (rd_arr h a) 0.
Definition cast (i8 : bool) (v : R) : R := if i8 then IZR (Ztrunc v) else v.
(** [array[m] = v] *)
Definition store (h : heap) (a m : nat) (v : R) : heap :=
  let x := nth a h (mkArr false []) in upd a (mkArr (a_int8 x) (upd m (cast (a_int8 x) v) (a_vals x))) h.

(** [for m in ms: f(m)] with an explicit state; stops at the first exception. *)
Fixpoint loopM {S : Type} (f : nat -> S -> result unit * S) (ms : list nat) (s : S) : result unit * S :=
  match ms with
  | [] => (Ok tt, s)
  | m :: r => match f m s with (Ok _, s) => loopM f r s | (Exn e, s) => (Exn e, s) end
  end.

(** Which class: the comparator control, or the multi-level one with its numbers of levels. *)
Inductive kind := KBin | KMulti (levels : list nat).
Record dc := mkDC { d_clk : clock; d_M : nat; d_resp : list waveform; d_tdelay : R; d_offsets : list R; d_kind : kind;
                    d_s : nat; d_dec : nat; d_old : nat }.

Fixpoint nondecr (l : list R) : bool :=
  match l with a :: ((b :: _) as r) => Rle_bool a b && nondecr r | _ => true end.
(** digital_control.py:96-111 *)
Definition init_resp (clk : clock) (M : nat) (resp : option (list waveform)) : result (list waveform) :=
  match resp with
  | None => Ok (repeat (WStep 0 1) M)
  | Some l =>
      if negb (length l =? M)%nat then Exn GenericException
      else if forallb (fun w => Rle_bool 0 (w_t0 w) && Rle_bool (w_t0 w) (ck_T clk)) l && nondecr (map w_t0 l) then Ok l
      else Exn GenericException
  end.

(** digital_control.py:56-85; the clock type check is not modelled.  Three fresh arrays are allocated. *)
Definition dc_init (h : heap) (clk : clock) (M : nat) (resp : option (list waveform)) (tdelay : R) (offsets : option (list R))
  : result (dc * heap) :=
  if Rlt_bool tdelay 0 then Exn GenericException
  else bind (init_resp clk M resp) (fun l =>
    let n := length h in
    let mk off := Ok (mkDC clk M l tdelay off KBin n (n + 1) (n + 2), h ++ repeat (mkArr false (repeat 0 M)) 3) in
    match offsets with
    | None => mk (repeat 0 M)
    | Some off => if (length off =? M)%nat then mk off else Exn GenericException
    end).

(** multi_level_digital_control.py:44-72.  [self.offsets] is set and then overwritten by [super().__init__]; [self._s] is
    allocated a second time. *)
Definition ml_init (h : heap) (clk : clock) (M : nat) (levels : list nat) (resp : option (list waveform)) (offsets : list R)
  : result (dc * heap) :=
  if negb (match offsets with [] => true | _ => (length offsets =? M)%nat end) then Exn GenericException
  else if negb (length levels =? M)%nat then Exn GenericException
  else if existsb (fun n => (n =? 0)%nat) levels then Exn ZeroDivisionError
  else bind (dc_init h clk M resp 0 None) (fun '(d, h) =>
    Ok (mkDC (d_clk d) (d_M d) (d_resp d) (d_tdelay d) (d_offsets d) (KMulti levels) (length h) (d_dec d) (d_old d),
        h ++ [mkArr false (repeat 0 M)])).

(** [np.linspace(a, b, n)[i]] *)
Definition linspace (a b : R) (n i : nat) : R := if (n =? 1)%nat then a else a + INR i * ((b - a) / INR (n - 1)).
(** multi_level_digital_control.py:64-69: thresholds and reference values. *)
Definition ml_level (n i : nat) : R := linspace (-1 + 1 / INR n) (1 - 1 / INR n) n i.
Definition ml_ref (n j : nat) : R := linspace 0 1 (n + 1) j.
(** multi_level_digital_control.py:96-116: the loop over [level in range(n)], [k] iterations left. *)
Fixpoint quantize_go (n : nat) (x : R) (level k : nat) : R :=
  match k with
  | O => 0 (* only reached for n = 0, excluded by the constructor *)
  | S k => if negb (Rle_bool (ml_level n level) x) then ml_ref n level
           else if (level =? n - 1)%nat then ml_ref n n
           else quantize_go n x (S level) k
  end.
Definition quantize (n : nat) (x : R) : R := quantize_go n x 0 n.

(** [np.allclose(t, self._impulse_response[m].t0, atol=self.clock._tt_2)] *)
Definition on_phase (clk : clock) (resp : list waveform) (m : nat) (t : R) : bool :=
  allclose t (w_t0 (nth m resp (WStep 0 0))) (ck_tt clk / 2).

(** digital_control.py:137-144 and multi_level_digital_control.py:84-94, loop bodies. *)
Definition dc_update1 (d : dc) (t : R) (st : list R) (m : nat) (h : heap) : result unit * heap :=
  if on_phase (d_clk d) (d_resp d) m t then
    match nth_error st m with
    | None => (Exn IndexError, h)
    | Some x =>
        match d_kind d with
        | KBin =>
            let h := store h (d_s d) m (if Rle_bool (nth m (d_offsets d) 0) x then 1 else 0) in
            let h := store h (d_old d) m (rd h (d_dec d) m) in
            (Ok tt, store h (d_dec d) m (2 * rd h (d_s d) m - 1))
        | KMulti levels =>
            let h := store h (d_s d) m (quantize (nth m levels 0%nat) x) in
            (Ok tt, store h (d_dec d) m (2 * rd h (d_s d) m - 1 + nth m (d_offsets d) 0))
        end
    end
  else (Ok tt, h).
Definition dc_update (d : dc) (t : R) (st : list R) (h : heap) : result unit * heap :=
  loopM (dc_update1 d t st) (seq 0 (d_M d)) h.

(** digital_control.py:113-124: new arrays, the signal one with dtype int8; the old decisions are kept. *)
Definition dc_reset (d : dc) (t0 : R) (h : heap) : result unit * (dc * heap) :=
  if negb (Req_bool t0 0) then (Exn DeprecationWarning, (d, h))
  else let n := length h in
       (Ok tt, (mkDC (d_clk d) (d_M d) (d_resp d) (d_tdelay d) (d_offsets d) (d_kind d) n (n + 1) (d_old d),
                h ++ [mkArr true (repeat 0 (d_M d)); mkArr false (repeat 0 (d_M d))])).

(** digital_control.py:146-167: [self._s[:]] is a view, i.e. the address. *)
Definition control_signal (d : dc) : nat := d_s d.

(** digital_control.py:169-197; [old] is [None] when the attribute does not exist (DitherControl). *)
Fixpoint contrib_go (clk : clock) (resp : list waveform) (tdelay : R) (dec : list R) (old : option (list R)) (t : R) (ms : list nat)
  : result (list R) :=
  match ms with
  | [] => Ok []
  | m :: r =>
      let w := nth m resp (WStep 0 0) in
      bind (w_eval w (if Rlt_bool t (w_t0 w) then t + ck_T clk else t)) (fun x =>
      bind (if Rlt_bool t tdelay then match old with Some o => Ok (x * nth m o 0) | None => Exn AttributeError end
            else Ok (x * nth m dec 0)) (fun y =>
      bind (contrib_go clk resp tdelay dec old t r) (fun ys => Ok (y :: ys))))
  end.
Definition control_contribution (d : dc) (h : heap) (t : R) : result (list R) :=
  contrib_go (d_clk d) (d_resp d) (d_tdelay d) (rd_arr h (d_dec d)) (Some (rd_arr h (d_old d))) t (seq 0 (d_M d)).

(** digital_control.py:199-219; [m] beyond the range is an IndexError when the waveform is looked up. *)
Definition dc_impulse_response (d : dc) (m : nat) (t : R) : result (list R) :=
  if Rle_bool 0 t && Rle_bool t (ck_T (d_clk d)) then
    match nth_error (d_resp d) m with
    | None => Exn IndexError
    | Some w => bind (w_eval w t) (fun x => Ok (upd m x (repeat 0 (d_M d))))
    end
  else Ok (repeat 0 (d_M d)).

(** Histories of calls on one control; a call that raises ends the history. *)
Inductive op := OUpd (t : R) (st : list R) | OReset.
Definition dc_step (o : op) (s : dc * heap) : result unit * (dc * heap) :=
  match o with
  | OUpd t st => let '(r, h) := dc_update (fst s) t st (snd s) in (r, (fst s, h))
  | OReset => dc_reset (fst s) 0 (snd s)
  end.
Fixpoint run_ops {S O : Type} (step : O -> S -> result unit * S) (ops : list O) (s : S) : result unit * S :=
  match ops with
  | [] => (Ok tt, s)
  | o :: r => match step o s with (Ok _, s) => run_ops step r s | (Exn e, s) => (Exn e, s) end
  end.

(** *** DitherControl, dither_control.py *)
Record dither := mkDi { di_inner : dc; di_R : nat; di_clk : clock; di_resp : list waveform; di_tdelay : R;
                        di_s : nat; di_dec : nat; di_on : bool; di_table : list (list R); di_idx : nat }.
Definition di_M (d : dither) : nat := (di_R d + d_M (di_inner d))%nat.

(** dither_control.py:30-66, 74-107.  [copy(digital_control)] is shallow: the copy has the same array addresses.  [table] is the
    pseudo random sequence (oracle), one row per index. *)
Definition di_init (h : heap) (R : nat) (inner : dc) (resp : option (list waveform)) (on : bool) (table : list (list Rdefinitions.R)) (tdelay : Rdefinitions.R)
  : result (dither * heap) :=
  if Rlt_bool tdelay 0 then Exn GenericException
  else bind (init_resp (d_clk inner) R resp) (fun l =>
    let n := length h in let M := (R + d_M inner)%nat in
    Ok (mkDi inner R (d_clk inner) (l ++ d_resp inner) tdelay n (n + 1) on table 0, h ++ repeat (mkArr false (repeat 0 M)) 2)).

(** dither_control.py:120-124: copying one deterministic control. *)
Definition di_copy1 (d : dither) (i : nat) (h : heap) : result unit * heap :=
  let m := (i + di_R d)%nat in
  let h := store h (di_s d) m (rd h (d_s (di_inner d)) i) in
  (Ok tt, store h (di_dec d) m (2 * rd h (di_s d) m - 1)).

(** dither_control.py:127-139: one random control; the state is the index and the heap. *)
Definition di_random1 (d : dither) (t : R) (m : nat) (s : nat * heap) : result unit * (nat * heap) :=
  let '(idx, h) := s in
  if on_phase (di_clk d) (di_resp d) m t then
    if di_on d then
      match nth_error (di_table d) idx with
      | None => (Exn IndexError, (idx, h))
      | Some r => match nth_error r m with
                  | None => (Exn IndexError, (idx, h))
                  | Some v =>
                      let h := store h (di_s d) m v in
                      (Ok tt, ((idx + 1) mod length (di_table d), store h (di_dec d) m (2 * rd h (di_s d) m - 1))%nat)
                  end
      end
    else
      let h := store h (di_s d) m (1 / 2) in
      (Ok tt, (idx, store h (di_dec d) m (2 * rd h (di_s d) m - 1)))
  else (Ok tt, (idx, h)).

Definition di_set_idx (d : dither) (i : nat) : dither :=
  mkDi (di_inner d) (di_R d) (di_clk d) (di_resp d) (di_tdelay d) (di_s d) (di_dec d) (di_on d) (di_table d) i.
(** dither_control.py:109-139 *)
Definition di_update (d : dither) (t : R) (st : list R) (h : heap) : result unit * (dither * heap) :=
  match dc_update (di_inner d) t st h with
  | (Exn e, h) => (Exn e, (d, h))
  | (Ok _, h) =>
      match loopM (di_copy1 d) (seq 0 (d_M (di_inner d))) h with
      | (Exn e, h) => (Exn e, (d, h))
      | (Ok _, h) => let '(r, (i, h)) := loopM (di_random1 d t) (seq 0 (di_R d)) (di_idx d, h) in (r, (di_set_idx d i, h))
      end
  end.
(** dither_control.py:68-72 *)
Definition di_set_on (d : dither) (b : bool) : dither :=
  mkDi (di_inner d) (di_R d) (di_clk d) (di_resp d) (di_tdelay d) (di_s d) (di_dec d) b (di_table d) (di_idx d).
(** digital_control.py:113-124, inherited: only the arrays of the dither object itself are replaced. *)
Definition di_reset (d : dither) (h : heap) : dither * heap :=
  let n := length h in
  (mkDi (di_inner d) (di_R d) (di_clk d) (di_resp d) (di_tdelay d) n (n + 1) (di_on d) (di_table d) (di_idx d),
   h ++ [mkArr true (repeat 0 (di_M d)); mkArr false (repeat 0 (di_M d))]).
(** digital_control.py:169-197, inherited; the constructor never creates [_old_control_decisions]. *)
Definition di_contribution (d : dither) (h : heap) (t : R) : result (list R) :=
  contrib_go (di_clk d) (di_resp d) (di_tdelay d) (rd_arr h (di_dec d)) None t (seq 0 (di_M d)).
(** dither_control.py:141-160: no time window. *)
Definition di_impulse_response (d : dither) (m : nat) (t : R) : result (list R) :=
  match nth_error (di_resp d) m with
  | None => Exn IndexError
  | Some w => bind (w_eval w t) (fun x => Ok (upd m x (repeat 0 (di_M d))))
  end.
