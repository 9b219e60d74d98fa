(** Elements of a sub-circuit: instance names, [SubCircuitElement.__setattr__] and [add] of /repo/src/cbadc/circuit/__init__.py.  Type checks of
    arguments are not modelled (typed). *)
From Coq Require Import String Ascii List Lia Arith Bool ZArith.
From Verif Require Import Base Netlist.
Import ListNotations.
Open Scope nat_scope.

(** [str.lower] on ASCII text *)
Definition low_ascii (c : ascii) : ascii := let n := nat_of_ascii c in if Nat.leb 65 n && Nat.leb n 90 then ascii_of_nat (n + 32) else c.
Fixpoint lower (s : string) : string := match s with EmptyString => EmptyString | String c s => String (low_ascii c) (lower s) end.
(** The check in the constructor of a component class whose names begin with [letter] (components/passives.py 25-28, sources.py 16-19, summer.py, ... TypeError;
    SubCircuitElement 355-360, letter X: ValueError), then CircuitElement.__init__ 206-208 *)
Definition element_name (sub : bool) (letter : ascii) (name : string) : result string :=
  match name with
  | EmptyString => Exn (if sub then ValueError else TypeError)
  | String c r => Ok (if Ascii.eqb c letter then String c (lower r) else String letter (lower name))
  end.
(** 41-58 [Terminal]: the name of the terminal with number [id], upper case *)
Definition terminal_name (id : nat) (name : string) : string := upper (match name with EmptyString => dec id | _ => name end).

Section Body.
Context {T : Type}.
Variable teq : forall a b : T, {a = b} + {a <> b}.
Variable tname : T -> string.

(** An element: the letter of its class, its instance name (mutable) and its terminals *)
Record element : Type := mkElement { e_letter : ascii; e_name : string; e_elt : elt T }.
(** A sub-circuit: the dictionary [_subckts] in order of insertion, and [_internal_connections] *)
Record body : Type := mkBody { kids : list (string * element); nets : sub T }.
Definition body0 : body := mkBody [] sub0.
Fixpoint kget (l : list (string * element)) (k : string) : option element :=
  match l with [] => None | (k', e) :: l => if String.eqb k k' then Some e else kget l k end.
(** assignment to a key that exists: in place *)
Fixpoint kset (l : list (string * element)) (k : string) (e : element) : list (string * element) :=
  match l with [] => [] | (k', e') :: l => if String.eqb k k' then (k', e) :: l else (k', e') :: kset l k e end.
(** 491-492: for terminal in old_subckt.get_terminals(): self.connect(__value[terminal.name], terminal) *)
Fixpoint take_over (e : elt T) (olds : list T) (st : sub T) : result unit * sub T :=
  match olds with
  | [] => (Ok tt, st)
  | t :: olds => match get_name e (tname t) with Exn x => (Exn x, st) | Ok n => take_over e olds (connect teq tname st n t "") end
  end.
(** 477-496 [__setattr__] with a CircuitElement.  When the replacement fails the connections made so far stay (as does the new instance name of the element, which is not
    part of the sub-circuit then). *)
Definition setattr (b : body) (key : string) (e : element) : result unit * body :=
  match kget (kids b) key with
  | None => if String.eqb key (e_name e) then (Ok tt, mkBody (kids b ++ [(key, e)]) (nets b)) else (Exn ValueError, b)
  | Some old =>
      match take_over (e_elt e) (terms (e_elt old)) (nets b) with
      | (Exn x, st) => (Exn x, mkBody (kids b) st)
      | (Ok _, st) => (Ok tt, mkBody (kset (kids b) key (mkElement (e_letter e) key (e_elt e))) st)
      end
  end.
(** 520-531 [add] *)
Fixpoint add (b : body) (es : list element) : result unit * body :=
  match es with
  | [] => (Ok tt, b)
  | e :: es => match setattr b (e_name e) e with (Exn x, b) => (Exn x, b) | (Ok _, b) => add b es end
  end.
(** what a program does to a sub-circuit: attribute assignments (also those made by [add]) and [connect] calls; exceptions caught or not, the state is the one left behind *)
Inductive op : Type := OSet (key : string) (e : element) | OConnect (f s : T) (name : string).
Definition run1 (b : body) (o : op) : body :=
  match o with OSet k e => snd (setattr b k e) | OConnect f s n => mkBody (kids b) (connect teq tname (nets b) f s n) end.
Definition run (l : list op) : body := fold_left run1 l body0.
End Body.
Arguments element : clear implicits.
Arguments body : clear implicits.
Arguments op : clear implicits.
