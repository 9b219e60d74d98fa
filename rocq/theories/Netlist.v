(** Model of the netlist data structures of /repo/src/cbadc/circuit/__init__.py: terminals and their lookup in a circuit element, nets
    made by [connect], de-duplication of device models and sub-circuit definitions, the check of sub-circuit names.  Objects of type
    Terminal are compared by identity (no [__eq__]): [T] is the set of terminal objects and [tname] their immutable name attribute. *)
From Coq Require Import String Ascii Decimal DecimalString List Lia Arith Bool ZArith.
From Verif Require Import Base.
Import ListNotations.
Open Scope nat_scope.

(** [str.upper] on ASCII text *)
Definition up_ascii (c : ascii) : ascii :=
  let n := nat_of_ascii c in if Nat.leb 97 n && Nat.leb n 122 then ascii_of_nat (n - 32) else c.
Fixpoint upper (s : string) : string := match s with EmptyString => EmptyString | String c s => String (up_ascii c) (upper s) end.
(** [f"{n}"] *)
Definition dec (n : nat) : string := NilEmpty.string_of_uint (Nat.to_uint n).

Section Netlist.
Context {T : Type}.
Variable teq : forall a b : T, {a = b} + {a <> b}.
Variable tname : T -> string.

(** ** Nets *)
(** 75-113 [Port]: the set of terminals and the name; ports are heap objects, here indices into the list of ports in order of creation *)
Record port : Type := mkPort { p_terms : list T; p_name : string }.
(** the attribute [_internal_connections] and the ports it refers to *)
Record sub : Type := mkSub { conns : list (T * nat); ports : list port }.
Definition sub0 : sub := mkSub [] [].

Fixpoint cget (c : list (T * nat)) (t : T) : option nat :=
  match c with
  | [] => None
  | (t', p) :: c => if teq t t' then Some p else cget c t
  end.
Definition set_add (t : T) (l : list T) : list T := if in_dec teq t l then l else t :: l.
Definition set_union (l k : list T) : list T := fold_right set_add l k.
Fixpoint upd_port (l : list port) (p : nat) (f : port -> port) : list port :=
  match l, p with
  | [], _ => []
  | x :: l, O => f x :: l
  | x :: l, S p => x :: upd_port l p f
  end.
Definition port_at (l : list port) (p : nat) : port := nth p l (mkPort [] "").

(** 572-589: the four cases of [connect] *)
Definition join (st : sub) (first second : T) : sub :=
  let c := conns st in
  let ps := ports st in
  match cget c first, cget c second with
  | Some p, Some q => mkSub ((second, p) :: c) (upd_port ps p (fun x => mkPort (set_union (p_terms x) (p_terms (port_at ps q))) (p_name x)))
  | Some p, None => mkSub ((second, p) :: c) (upd_port ps p (fun x => mkPort (set_add second (p_terms x)) (p_name x)))
  | None, Some q => mkSub ((first, q) :: c) (upd_port ps q (fun x => mkPort (set_add first (p_terms x)) (p_name x)))
  | None, None => mkSub ((second, length ps) :: (first, length ps) :: c) (ps ++ [mkPort (set_add first [second]) ""])
  end.
(** 591-599: the name of the net *)
Definition net_label (first second : T) (name : string) : string :=
  if String.eqb name "" then (if String.eqb (tname first) "" then tname second else tname first) else name.
(** 544-599 [connect] *)
Definition connect (st : sub) (first second : T) (name : string) : sub :=
  let st := join st first second in
  match cget (conns st) first with
  | Some p => mkSub (conns st) (upd_port (ports st) p (fun x => mkPort (p_terms x) (net_label first second name)))
  | None => st
  end.
(** a sequence of calls, [connects] 533-542 being one without explicit names *)
Definition connect_all (st : sub) (calls : list (T * T * string)) : sub := fold_left (fun st '(a, b, n) => connect st a b n) calls st.

(** 233-245 [_get_terminal_names]: the net a terminal is attached to in the emitted netlist (the numbering of unnamed ports is global in the code) *)
Definition net_name (st : sub) (t : T) : string :=
  match cget (conns st) t with
  | Some p => if String.eqb (p_name (port_at (ports st) p)) "" then dec p else p_name (port_at (ports st) p)
  | None => tname t
  end.

(** ** Terminals of an element *)
(** [_terminals] and [_terminal_lookup] *)
Record elt : Type := mkElt { terms : list T; lookup : list (string * nat) }.
Definition elt0 : elt := mkElt [] [].
Fixpoint sget (l : list (string * nat)) (k : string) : option nat :=
  match l with
  | [] => None
  | (k', i) :: l => if String.eqb k k' then Some i else sget l k
  end.
(** 264-287 [add_terminal] *)
Definition insert_at (l : list T) (i : nat) (t : T) : list T := firstn i l ++ t :: skipn i l.
Definition relabel (lk : list (string * nat)) (l : list T) : list (string * nat) :=
  fold_left (fun lk '(i, t) => (tname t, i) :: lk) (combine (seq 0 (length l)) l) lk.
Definition add_terminal (e : elt) (t : T) (index : Z) : result elt :=
  if (index =? -1)%Z then
    match sget (lookup e) (tname t) with
    | Some _ => Exn ValueError
    | None => Ok (mkElt (terms e ++ [t]) ((tname t, length (terms e)) :: lookup e))
    end
  else if (0 <=? index)%Z && (index <? Z.of_nat (length (terms e)))%Z then
    let l := insert_at (terms e) (Z.to_nat index) t in
    Ok (mkElt l (relabel (lookup e) l))
  else Exn ValueError.
(** 299-312 [add_terminals] and later insertions: the first failure propagates *)
Fixpoint add_all (e : elt) (ops : list (T * Z)) : result elt :=
  match ops with
  | [] => Ok e
  | (t, i) :: ops => bind (add_terminal e t i) (fun e => add_all e ops)
  end.
(** 289-297 [__getitem__] by name and by (possibly negative) position *)
Definition get_name (e : elt) (key : string) : result T :=
  match sget (lookup e) (upper key) with
  | None => Exn ValueError
  | Some i => match nth_error (terms e) i with Some t => Ok t | None => Exn IndexError end
  end.
Definition get_index (e : elt) (key : Z) : result T :=
  let n := Z.of_nat (length (terms e)) in
  let i := if (key <? 0)%Z then (key + n)%Z else key in
  if (i <? 0)%Z then Exn IndexError
  else match nth_error (terms e) (Z.to_nat i) with Some t => Ok t | None => Exn IndexError end.
End Netlist.
Arguments port : clear implicits.
Arguments sub : clear implicits.
Arguments elt : clear implicits.

(** ** The hierarchy of elements *)
Section Tree.
Context {P : Type}.
(** 116-166 [DeviceModel]: the two names it is compared by, and the parameters *)
Record dmodel : Type := mkDM { ng_name : string; m_name : string; m_par : P }.
Definition dm_eqb (a b : dmodel) : bool := String.eqb (ng_name a) (ng_name b) && String.eqb (m_name a) (m_name b).
(** An element is a component with an optional model, or a sub-circuit: its name, the cached list of names ([_subckt_names], empty when not
    yet computed), the rendered text of its own definition, and its elements in order of insertion. *)
Inductive tree : Type :=
| Comp (m : option dmodel)
| Subckt (name : string) (cache : list string) (text : string) (kids : list tree).

Definition app_new {X} (eqb : X -> X -> bool) (acc l : list X) : list X :=
  fold_left (fun acc x => if existsb (fun y => eqb x y) acc then acc else acc ++ [x]) l acc.

(** 255-258 and 465-472 [_get_model_set] *)
Fixpoint model_set (t : tree) : list dmodel :=
  match t with
  | Comp None => []
  | Comp (Some m) => [m]
  | Subckt _ _ _ kids => fold_left (fun acc k => app_new dm_eqb acc (model_set k)) kids []
  end.

(** 414-441 [get_sub_circuit_definitions] (ngspice) *)
Fixpoint definitions (t : tree) : list string :=
  match t with
  | Comp _ => []
  | Subckt _ _ text kids => fold_left (fun acc k => app_new String.eqb acc (definitions k)) kids [text]
  end.

(** 629-636 [_check_subckt_names]: the names, and the element with caches filled *)
Fixpoint check_names (t : tree) : list string * tree :=
  match t with
  | Comp m => ([], Comp m)
  | Subckt name (c :: cache) text kids => (c :: cache, t)
  | Subckt name [] text kids =>
      let l := map check_names kids in
      let names := name :: flat_map fst l in
      (names, Subckt name names text (map snd l))
  end.

(** 638-650 [check_subckt_names]: for each sub-circuit among the elements first its own check, then the comparison of names *)
Fixpoint check_subckt (t : tree) : result tree :=
  match t with
  | Comp m => Ok (Comp m)
  | Subckt name cache text kids =>
      bind ((fix go l := match l with
                         | [] => Ok []
                         | k :: l =>
                             bind (check_subckt k) (fun k =>
                             let '(names, k) := check_names k in
                             if existsb (String.eqb name) names then Exn ValueError
                             else bind (go l) (fun l => Ok (k :: l)))
                         end) kids)
        (fun kids => Ok (Subckt name cache text kids))
  end.
End Tree.
Arguments dmodel : clear implicits.
Arguments tree : clear implicits.
