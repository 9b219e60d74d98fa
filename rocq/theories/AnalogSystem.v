(** Model of [cbadc.analog_system.analog_system.AnalogSystem] and of the functions in
    [cbadc.analog_system.topology] that build one analog system out of others.

    Numbers are elements of an arbitrary commutative ring [K]: numpy's double rounding is not modelled.  A numpy array of
    dimension 2 is its shape and its entries; entries outside the shape carry no meaning.  Arrays of dimension 0 or > 2 are
    not modelled. *)
From Coq Require Import List Arith Lia Bool.
From Verif Require Import Base LinAlg.
Import ListNotations.

Section AnalogSystem.
Context {K : cring}.
Local Notation "0" := (r0 K).
Local Notation "1" := (r1 K).
Local Infix "+" := (radd K).
Local Infix "*" := (rmul K).

Record nd2 : Type := mk2 { rows : nat; cols : nat; ent : nat -> nat -> K }.

Inductive ndarr : Type := D1 (v : list K) | D2 (m : nd2).

(** [a.shape[0]] *)
Definition shape0 (a : ndarr) : nat := match a with D1 v => length v | D2 m => rows m end.
(** [a.shape[1]]: IndexError on a one-dimensional array *)
Definition shape1 (a : ndarr) : result nat := match a with D1 _ => Exn IndexError | D2 m => Ok (cols m) end.

(** [np.zeros((r, c))] *)
Definition zeros (r c : nat) : nd2 := mk2 r c (fun _ _ => 0).
(** [np.eye(r, c)] *)
Definition eye2 (r c : nat) : nd2 := mk2 r c (fun i j => if Nat.eqb i j then 1 else 0).

(** [np.dot] of two matrices *)
Definition dotm (a b : nd2) : result nd2 :=
  if Nat.eqb (cols a) (rows b)
  then Ok (mk2 (rows a) (cols b) (fun i j => ksum (cols a) (fun k => ent a i k * ent b k j)))
  else Exn ValueError.

(** [np.dot] of a matrix and a vector *)
Definition dotv (a : nd2) (x : list K) : result (list K) :=
  if Nat.eqb (cols a) (length x)
  then Ok (map (fun i => ksum (cols a) (fun k => ent a i k * nth k x 0)) (seq O (rows a)))
  else Exn ValueError.

(** [M[r0:r1, c0:c1] = V]; used only where the shape of V is that of the slice (the constructor below enforces it). *)
Definition setblk (M : nd2) (r0 r1 c0 c1 : nat) (V : nd2) : nd2 :=
  mk2 (rows M) (cols M) (fun i j =>
    if (r0 <=? i) && (i <? r1) && ((c0 <=? j) && (j <? c1)) then ent V (i - r0) (j - c0) else ent M i j).

(** The same with an attribute that may be [None]; then the slice is empty and the assignment has no effect. *)
Definition setblk_opt (M : nd2) (r0 r1 c0 c1 : nat) (V : option nd2) : nd2 :=
  match V with Some V => setblk M r0 r1 c0 c1 V | None => M end.

(** ** The constructor, analog_system.py 132-273 *)
Record asys : Type := mkAS {
  aA : nd2; aB : nd2; aCT : nd2;
  aG : option nd2;     (* Gamma *)
  aGt : option nd2;    (* Gamma_tildeT *)
  aD : nd2; aBt : nd2; aAt : nd2
}.

(** attributes N, L, N_tilde, M, M_tilde (174, 197-202, 210-211) *)
Definition sN (s : asys) : nat := rows (aA s).
Definition sL (s : asys) : nat := cols (aB s).
Definition sNt (s : asys) : nat := rows (aCT s).
Definition sM (s : asys) : nat := match aG s with Some g => cols g | None => O end.
Definition sMt (s : asys) : nat := match aGt s with Some g => rows g | None => O end.

(** lines 165-182: [if Gamma is not None: ... raise InvalidAnalogSystemError]; yields (Gamma, M).
    InvalidAnalogSystemError derives from Exception and is [GenericException] here. *)
Definition chk_gamma (G : option ndarr) (N0 : nat) : result (option nd2 * nat) :=
  match G with
  | None => Ok (None, O)
  | Some g =>
      if negb (Nat.eqb (shape0 g) N0) then Exn GenericException
      else match g with D1 _ => Exn IndexError | D2 m => Ok (Some m, cols m) end
  end.

(** lines 184-199; yields (Gamma_tildeT, M_tilde) *)
Definition chk_gammat (G : option ndarr) (N0 : nat) : result (option nd2 * nat) :=
  match G with
  | None => Ok (None, O)
  | Some g =>
      match g with
      | D1 _ => Exn IndexError
      | D2 m => if negb (Nat.eqb (cols m) N0) then Exn GenericException else Ok (Some m, rows m)
      end
  end.

(** lines 207-208: a one-dimensional B becomes a column; [reshape] raises ValueError on a wrong size *)
Definition as_column (N : nat) (b : ndarr) : result nd2 :=
  match b with
  | D1 v => if Nat.eqb (length v) N then Ok (mk2 N 1 (fun i _ => nth i v 0)) else Exn ValueError
  | D2 m => Ok m
  end.

(** lines 209-210: a one-dimensional CT becomes a row *)
Definition as_row (N : nat) (c : ndarr) : result nd2 :=
  match c with
  | D1 v => if Nat.eqb (length v) N then Ok (mk2 1 N (fun _ j => nth j v 0)) else Exn ValueError
  | D2 m => Ok m
  end.

(** lines 229-266: the optional matrices D, B_tilde, A_tilde: zeros by default, else the shape must be r x c
    ([x.shape[0] != r or x.shape[1] != c], so a one-dimensional array of length r is an IndexError) *)
Definition chk_opt (r c : nat) (a : option ndarr) : result nd2 :=
  match a with
  | None => Ok (zeros r c)
  | Some a =>
      if negb (Nat.eqb (shape0 a) r) then Exn GenericException
      else match a with
           | D1 _ => Exn IndexError
           | D2 m => if negb (Nat.eqb (cols m) c) then Exn GenericException else Ok m
           end
  end.

Definition as_init (A B CT : ndarr) (G Gt D Bt At : option ndarr) : result asys :=
  let N0 := shape0 A in
  bind (chk_gamma G N0) (fun '(g, M) =>
  bind (chk_gammat Gt N0) (fun '(gt, Mt) =>
  match A with
  | D1 _ => Exn IndexError
  | D2 a =>
      if negb (Nat.eqb (rows a) (cols a)) then Exn GenericException else
      bind (as_column N0 B) (fun b =>
      bind (as_row N0 CT) (fun c =>
      if negb (Nat.eqb (rows b) N0) then Exn GenericException else
      if negb (Nat.eqb (cols c) N0) then Exn GenericException else
      bind (chk_opt (rows c) (cols b) D) (fun d =>
      bind (chk_opt Mt (cols b) Bt) (fun bt =>
      bind (chk_opt Mt M At) (fun at_ =>
      Ok (mkAS a b c g gt d bt at_))))))
  end)).

(** ** derivative, 280-305.  [np.dot(None, s)] is a TypeError. *)
Definition dotv_opt (a : option nd2) (x : list K) : result (list K) :=
  match a with None => Exn TypeError | Some a => dotv a x end.

Definition derivative (s : asys) (x u c : list K) : result (list K) :=
  bind (dotv (aA s) x) (fun ax =>
  bind (dotv (aB s) u) (fun bu =>
  bind (dotv_opt (aG s) c) (fun gc =>
  Ok (vadd (vadd ax bu) gc)))).

(** signal_observation, 353-374 *)
Definition signal_observation (s : asys) (x : list K) : result (list K) := dotv (aCT s) x.

(** control_observation, 376-409.  With [u] given and [s] omitted the two-term sum of line 404 is computed and dropped
    and [np.dot(self.A_tilde, None)] is evaluated: a TypeError as soon as A_tilde has an entry (for an A_tilde without
    entries numpy's broadcasting rules decide; those cases are also mapped to TypeError here and excluded from the theorems). *)
Definition control_observation (s : asys) (x : list K) (u c : option (list K)) : result (list K) :=
  match u with
  | None => dotv_opt (aGt s) x
  | Some u =>
      bind (dotv_opt (aGt s) x) (fun gx =>
      bind (dotv (aBt s) u) (fun bu =>
      match c with
      | None => Exn TypeError
      | Some c => bind (dotv (aAt s) c) (fun ac => Ok (vadd (vadd gx bu) ac))
      end))
  end.

(** ** chain, topology.py 8-94 *)
Record cst : Type := mkCst {
  cA : nd2; cAt : nd2; cB : nd2; cD : nd2; cCT : nd2; cG : nd2; cGt : nd2;
  cn : nat; cm : nat; cmt : nat
}.

(** one turn of the loop, 67-90; [Ntot] is the number of columns of [A] *)
Definition chain_step (Ntot L : nat) (st : cst) (s : asys) : result cst :=
  let n_end := (cn st + sN s)%nat in
  let m_end := (cm st + sM s)%nat in
  let mt_end := (cmt st + sMt s)%nat in
  bind (dotm (aB s) (cCT st)) (fun bc =>
  let A1 := setblk (cA st) (cn st) n_end O Ntot bc in
  let A2 := setblk A1 (cn st) n_end (cn st) n_end (aA s) in
  let At := setblk (cAt st) (cmt st) mt_end (cm st) m_end (aAt s) in
  bind (dotm (aB s) (cD st)) (fun bd =>
  let B := setblk (cB st) (cn st) n_end O L bd in
  bind (dotm (aD s) (cD st)) (fun d =>
  bind (dotm (aD s) (cCT st)) (fun dc =>
  let CT := setblk dc O (rows dc) (cn st) n_end (aCT s) in
  let G := setblk_opt (cG st) (cn st) n_end (cm st) m_end (aG s) in
  let Gt := setblk_opt (cGt st) (cmt st) mt_end (cn st) n_end (aGt s) in
  Ok (mkCst A2 At B d CT G Gt n_end m_end mt_end))))).

Fixpoint chain_loop (Ntot L : nat) (st : cst) (l : list asys) : result cst :=
  match l with
  | [] => Ok st
  | s :: l => bind (chain_step Ntot L st s) (fun st => chain_loop Ntot L st l)
  end.

Definition total (f : asys -> nat) (l : list asys) : nat := list_sum (map f l).

(** lines 45-66 and 91-94; [analog_systems[0]] on an empty list is an IndexError *)
Definition chain (l : list asys) : result asys :=
  match l with
  | [] => Exn IndexError
  | s0 :: _ =>
      let N := total sN l in
      let M := total sM l in
      let Mt := total sMt l in
      let L := sL s0 in
      let CT := setblk (zeros (rows (aCT s0)) N) O (rows (aCT s0)) O (cols (aCT s0)) (aCT s0) in
      bind (chain_loop N L (mkCst (zeros N N) (zeros Mt M) (zeros N L) (eye2 (sNt s0) L) CT (zeros N M) (zeros Mt N) O O O) l)
        (fun st =>
      as_init (D2 (cA st)) (D2 (cB st)) (D2 (cCT st)) (Some (D2 (cG st))) (Some (D2 (cGt st)))
        (Some (D2 (cD st))) (Some (D2 (zeros Mt L))) (Some (D2 (cAt st))))
  end.

(** ** stack, topology.py 97-177 *)
Record sst : Type := mkSst {
  tA : nd2; tB : nd2; tCT : nd2; tG : nd2; tGt : nd2; tD : nd2; tAt : nd2;
  tn : nat; tm : nat; tmt : nat; tl_ : nat; tnt : nat
}.

Definition stack_step (st : sst) (s : asys) : sst :=
  let n_end := (tn st + sN s)%nat in
  let m_end := (tm st + sM s)%nat in
  let mt_end := (tmt st + sMt s)%nat in
  let l_end := (tl_ st + sL s)%nat in
  let nt_end := (tnt st + sNt s)%nat in
  mkSst (setblk (tA st) (tn st) n_end (tn st) n_end (aA s))
        (setblk (tB st) (tn st) n_end (tl_ st) l_end (aB s))
        (setblk (tCT st) (tnt st) nt_end (tn st) n_end (aCT s))
        (setblk_opt (tG st) (tn st) n_end (tm st) m_end (aG s))
        (setblk_opt (tGt st) (tmt st) mt_end (tn st) n_end (aGt s))
        (setblk (tD st) (tnt st) nt_end (tl_ st) l_end (aD s))
        (setblk (tAt st) (tmt st) mt_end (tm st) m_end (aAt s))
        n_end m_end mt_end l_end nt_end.

(** An empty list gives [np.sum([]) = 0.0] and [np.zeros((0.0, 0.0))], a TypeError. *)
Definition stack (l : list asys) : result asys :=
  match l with
  | [] => Exn TypeError
  | _ =>
      let N := total sN l in
      let M := total sM l in
      let Mt := total sMt l in
      let L := total sL l in
      let Nt := total sNt l in
      let st := fold_left stack_step l
        (mkSst (zeros N N) (zeros N L) (zeros Nt N) (zeros N M) (zeros Mt N) (zeros Nt L) (zeros Mt M) O O O O O) in
      as_init (D2 (tA st)) (D2 (tB st)) (D2 (tCT st)) (Some (D2 (tG st))) (Some (D2 (tGt st)))
        (Some (D2 (tD st))) (Some (D2 (zeros Mt L))) (Some (D2 (tAt st)))
  end.

(** ** tf2abcd, topology.py 372-417: [b] has L+1 coefficients, [a] the L non-leading ones, highest power first.
    [np.eye(L - 1)] raises ValueError for L = 0.  Result (A, B, CT, D). *)
Definition tf2abcd (b a : list K) : result (nd2 * nd2 * nd2 * nd2) :=
  if negb (Nat.eqb (length b) (S (length a))) then Exn GenericException else
  match a with
  | [] => Exn ValueError
  | _ =>
      let L := length a in
      let A := mk2 L L (fun i j =>
                 if Nat.eqb (S i) L then ropp K (nth j (rev a) 0)
                 else if Nat.eqb (S i) j then 1 else 0) in
      let B := mk2 L 1 (fun i _ => if Nat.eqb (S i) L then 1 else 0) in
      let CT := mk2 1 L (fun _ j => nth j (rev (map2 (fun bb aa => rsub K bb (nth O b 0 * aa)) (tl b) a)) 0) in
      Ok (A, B, CT, mk2 1 1 (fun _ _ => nth O b 0))
  end.

End AnalogSystem.
Arguments nd2 : clear implicits.
Arguments ndarr : clear implicits.
Arguments asys : clear implicits.
Arguments cst : clear implicits.
Arguments sst : clear implicits.
