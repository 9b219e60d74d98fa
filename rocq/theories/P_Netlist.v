(** Netlists: connectivity (C48), terminal lookup (C49), device models (C50), sub-circuit names (C71), sub-circuit definitions (C72): theorems. *)
From Coq Require Import String Ascii List Lia Arith Bool ZArith.
From Verif Require Import Base Netlist NetlistProofs NetlistTree.
Import ListNotations.
Open Scope nat_scope.

(** *** C48 *)
(** For every sequence of connect calls in which no call joins two nets that both exist already, two terminals share a port exactly when the
    calls wire them together. *)
Theorem C48_nets : forall (T : Type) (teq : forall a b : T, {a = b} + {a <> b}) (tname : T -> string) (calls : list (T * T * string)) a b,
  no_merge calls -> touched calls a -> touched calls b ->
  (cget teq (conns (connect_all teq tname sub0 calls)) a = cget teq (conns (connect_all teq tname sub0 calls)) b <-> wired calls a b).
Proof. intros. now apply same_port. Qed.
Print Assumptions C48_nets.

(** With distinct non-empty terminal names and no explicit net names the emitted net names express exactly this connectivity, for all terminals. *)
Theorem C48_emitted : forall (T : Type) (teq : forall a b : T, {a = b} + {a <> b}) (tname : T -> string) (calls : list (T * T * string)) a b,
  no_merge calls -> (forall c, In c calls -> snd c = ""%string) ->
  (forall t, tname t <> ""%string) -> (forall t t', tname t = tname t' -> t = t') ->
  (net_name teq tname (connect_all teq tname sub0 calls) a = net_name teq tname (connect_all teq tname sub0 calls) b <-> wired calls a b).
Proof. intros. now apply netlist_exact. Qed.
Print Assumptions C48_emitted.

(** A net is named by the last call that touched it: the explicit name, else the name of the first terminal of that call. *)
Theorem C48_net_name : forall (T : Type) (teq : forall a b : T, {a = b} + {a <> b}) (tname : T -> string) (calls : list (T * T * string)) a,
  no_merge calls -> (forall t, tname t <> ""%string) -> touched calls a ->
  exists l f s n r, calls = l ++ (f, s, n) :: r /\ wired calls f a /\ (forall d, In d r -> ~ wired calls (fst (fst d)) a) /\
    net_name teq tname (connect_all teq tname sub0 calls) a = (if String.eqb n "" then tname f else n).
Proof.
  intros T teq tname calls a D Hn Ha.
  assert (Lb : forall c : T * T * string, c_label tname c = if String.eqb (snd c) "" then tname (fst (fst c)) else snd c).
  { intros [[f s] n]. unfold c_label, net_label, c_first, c_second. cbn [fst snd]. destruct (String.eqb n ""); [|reflexivity].
    destruct (String.eqb_spec (tname f) ""); [exfalso; eapply Hn; eauto|reflexivity]. }
  assert (N : named tname calls).
  { intros c _. rewrite Lb. destruct (String.eqb_spec (snd c) ""); auto. }
  destruct (net_name_on_net teq tname calls a D N Ha) as (l & [[f s] n] & r & E & W & Hr & En).
  exists l, f, s, n, r. split; [exact E|]. split; [exact W|]. split; [exact Hr|]. rewrite En, Lb. reflexivity.
Qed.
Print Assumptions C48_net_name.

(** When both terminals are on nets already only the second one moves; the rest of its old net stays behind. *)
Theorem C48_merge_moves : forall (T : Type) (teq : forall a b : T, {a = b} + {a <> b}) (tname : T -> string) (st : sub T) f s n p q t,
  cget teq (conns st) f = Some p -> cget teq (conns st) s = Some q ->
  cget teq (conns (connect teq tname st f s n)) s = Some p /\ (t <> s -> cget teq (conns (connect teq tname st f s n)) t = cget teq (conns st) t).
Proof. intros. now apply merge_moves with q. Qed.
Print Assumptions C48_merge_moves.

(** connect(a, b); connect(c, d); connect(b, d) leaves c alone *)
Theorem C48_merge_refuted : exists (tname : nat -> string) (calls : list (nat * nat * string)) a c,
  wired calls a c /\ net_name Nat.eq_dec tname (connect_all Nat.eq_dec tname sub0 calls) a <> net_name Nat.eq_dec tname (connect_all Nat.eq_dec tname sub0 calls) c.
Proof.
  exists (fun n => nth n ["A"; "B"; "C"; "D"]%string "Z"%string), [(0, 1, ""%string); (2, 3, ""%string); (1, 3, ""%string)], 0, 2. split.
  - eapply w_trans; [exact (w_call [(0, 1, ""%string); (2, 3, ""%string); (1, 3, ""%string)] (0, 1, ""%string) ltac:(cbn; auto))|].
    eapply w_trans; [exact (w_call [(0, 1, ""%string); (2, 3, ""%string); (1, 3, ""%string)] (1, 3, ""%string) ltac:(cbn; auto))|].
    apply w_sym. exact (w_call [(0, 1, ""%string); (2, 3, ""%string); (1, 3, ""%string)] (2, 3, ""%string) ltac:(cbn; auto)).
  - vm_compute. discriminate.
Qed.
Print Assumptions C48_merge_refuted.

(** Two separate nets whose first terminals carry the same name are emitted as one net. *)
Theorem C48_same_name_refuted : exists (tname : nat -> string) (calls : list (nat * nat * string)) a b,
  no_merge calls /\ ~ wired calls a b /\ net_name Nat.eq_dec tname (connect_all Nat.eq_dec tname sub0 calls) a = net_name Nat.eq_dec tname (connect_all Nat.eq_dec tname sub0 calls) b.
Proof.
  set (calls := [(0, 1, ""%string); (2, 3, ""%string)]).
  assert (D : no_merge calls).
  { intros l c r E. right. left. intros (d & Hd & K). destruct l as [|x [|y [|z l]]]; [destruct Hd| | |]; injection E; intros; subst; try (destruct l; discriminate).
    - destruct Hd as [<-|[]]. cbn in K. lia.
    - discriminate. }
  exists (fun n => nth n ["OUT"; "1"; "OUT"; "2"]%string "Z"%string), calls, 1, 3. split; [exact D|]. split; [|reflexivity].
  intro W.
  pose proof (proj2 (same_port Nat.eq_dec (fun n => nth n ["A"; "B"; "C"; "D"]%string "Z"%string) calls 1 3 D
    ltac:(exists (0, 1, ""%string); cbn; auto) ltac:(exists (2, 3, ""%string); cbn; auto)) W) as E. discriminate E.
Qed.
Print Assumptions C48_same_name_refuted.

(** A node connected to the ground terminal (named 0) as second argument is not grounded: the net takes the name of the node. *)
Theorem C48_ground_refuted : exists (tname : nat -> string) (node ground : nat), tname ground = "0"%string /\
  net_name Nat.eq_dec tname (connect_all Nat.eq_dec tname sub0 [(node, ground, ""%string)]) node <> "0"%string /\
  net_name Nat.eq_dec tname (connect_all Nat.eq_dec tname sub0 [(node, ground, ""%string)]) ground <> "0"%string.
Proof. exists (fun n => nth n ["0"; "VSS"]%string "Z"%string), 1, 0. split; [reflexivity|]. split; vm_compute; discriminate. Qed.
Print Assumptions C48_ground_refuted.

(** Component terminals that are each attached to one fixed terminal (as all generators of the package do) are emitted with the name of the
    terminal they were attached to. *)
Theorem C48_generated : forall (T : Type) (teq : forall a b : T, {a = b} + {a <> b}) (tname : T -> string) (calls : list (T * T)) f s,
  (forall c d, In c calls -> In d calls -> snd c = snd d -> fst c = fst d) -> (forall c d, In c calls -> In d calls -> fst c <> snd d) -> (forall c, In c calls -> tname (fst c) <> ""%string) -> In (f, s) calls ->
  let st := connect_all teq tname sub0 (map (fun c => (c, ""%string)) calls) in
  net_name teq tname st s = tname f /\ net_name teq tname st f = tname f.
Proof.
  intros T teq tname calls f s H1 H2 H3 Hc. cbv zeta.
  apply (star_nets teq tname (map (fun c => (c, ""%string)) calls) ((f, s), ""%string)); [|now apply (in_map (fun c => (c, ""%string)))].
  split; [|split].
  - intros c d Hin Hd E. apply in_map_iff in Hin, Hd. destruct Hin as (x & <- & Hx), Hd as (y & <- & Hy). exact (H1 x y Hx Hy E).
  - intros c d Hin Hd. apply in_map_iff in Hin, Hd. destruct Hin as (x & <- & Hx), Hd as (y & <- & Hy). exact (H2 x y Hx Hy).
  - intros c Hin. apply in_map_iff in Hin. destruct Hin as (x & <- & Hx). split; [reflexivity|]. exact (H3 x Hx).
Qed.
Print Assumptions C48_generated.

Example C48_meets :
  let calls := [(0, 1, ""%string); (0, 2, ""%string); (3, 2, ""%string); (4, 5, ""%string)] in
  let tname := fun n => dec n in
  let st := connect_all Nat.eq_dec tname sub0 calls in
  no_merge calls /\ map (net_name Nat.eq_dec tname st) (seq 0 7) = ["3"; "3"; "3"; "3"; "4"; "4"; "6"]%string.
Proof.
  split; [|reflexivity]. intros l c r E.
  destruct l as [|x1 [|x2 [|x3 [|x4 [|x5 l]]]]]; injection E; intros; subst; try discriminate.
  - left. intros (d & [] & _).
  - right. left. intros (d & [<-|[]] & K). cbn in K. lia.
  - left. intros (d & [<-|[<-|[]]] & K); cbn in K; lia.
  - left. intros (d & [<-|[<-|[<-|[]]]] & K); cbn in K; lia.
Qed.

(** *** C49 *)
(** Appending distinct names: the element holds exactly these terminals and looking up a name (in any case) finds the terminal of that name;
    a repeated name is a ValueError. *)
Theorem C49_appends : forall (T : Type) (tname : T -> string) (l : list T),
  (NoDup (map tname l) -> exists e, add_all tname elt0 (map (fun t => (t, (-1)%Z)) l) = Ok e /\ terms e = l /\
     forall key t, get_name e key = Ok t <-> In t l /\ tname t = upper key) /\
  (~ NoDup (map tname l) -> add_all tname elt0 (map (fun t => (t, (-1)%Z)) l) = Exn ValueError).
Proof. exact @append_lookup. Qed.
Print Assumptions C49_appends.

(** After any mixture of appends and insertions a name denotes the last terminal of that name in the list; unknown names raise ValueError. *)
Theorem C49_lookup : forall (T : Type) (tname : T -> string) (ops : list (T * Z)) e key, add_all tname elt0 ops = Ok e ->
  (forall t, get_name e key = Ok t <-> exists i, nth_error (terms e) i = Some t /\ tname t = upper key /\
                                       forall j t', nth_error (terms e) j = Some t' -> tname t' = upper key -> j <= i) /\
  ((forall t, In t (terms e) -> tname t <> upper key) -> get_name e key = Exn ValueError).
Proof. exact @lookup_last. Qed.
Print Assumptions C49_lookup.

(** An inserted terminal may be unreachable by its name. *)
Theorem C49_insert_refuted : exists (tname : nat -> string) (ops : list (nat * Z)) e, add_all tname elt0 ops = Ok e /\
  In (2, 0%Z) ops /\ get_name e (tname 2) = Ok 0.
Proof.
  exists (fun n => nth n ["IN"; "OUT"; "IN"]%string ""%string), [(0, (-1)%Z); (1, (-1)%Z); (2, 0%Z)]. eexists. split; [reflexivity|]. split; [cbn; auto|]. reflexivity.
Qed.
Print Assumptions C49_insert_refuted.

Example C49_meets : exists e, add_all (fun n => nth n ["VDD"; "IN_P"]%string ""%string) elt0 [(0, (-1)%Z); (1, (-1)%Z)] = Ok e /\ get_name e "in_p" = Ok 1 /\ get_name e "in_n" = Exn ValueError.
Proof. eexists. split; [reflexivity|]. split; reflexivity. Qed.

(** *** C50 *)
(** Exactly the models that are the first of their pair of names in the traversal of the hierarchy are emitted, one for each pair. *)
Theorem C50_first_of_its_name : forall (P : Type) (t : tree P) m, In m (model_set t) <->
  exists l r, models t = l ++ m :: r /\ forall m', In m' l -> (ng_name m', m_name m') <> (ng_name m, m_name m).
Proof. exact @models_first. Qed.
Print Assumptions C50_first_of_its_name.
Theorem C50_one_per_name : forall (P : Type) (t : tree P), NoDup (map (fun m : dmodel P => (ng_name m, m_name m)) (model_set t)).
Proof. exact @models_distinct. Qed.
Print Assumptions C50_one_per_name.
(** They are emitted in the order of the traversal. *)
Theorem C50_order : forall (P : Type) (t : tree P), model_set t = firsts (fun a b : dmodel P => String.eqb (ng_name a) (ng_name b) && String.eqb (m_name a) (m_name b)) (models t).
Proof. exact @model_set_firsts. Qed.
Print Assumptions C50_order.
(** Two transconductors of the same model name but different gm: the second value is lost. *)
Theorem C50_parameters_refuted : exists (t : tree nat) m, In m (models t) /\ ~ In m (model_set t).
Proof.
  exists (Subckt "gm0" [] "" [Comp (Some (mkDM "ota" "ota" 1)); Comp (Some (mkDM "ota" "ota" 2))]), (mkDM "ota" "ota" 2).
  split; [cbn; auto|]. vm_compute. intros [H|[]]. discriminate.
Qed.
Print Assumptions C50_parameters_refuted.
Example C50_meets : let t : tree nat := Subckt "top" [] "" [Comp (Some (mkDM "d" "a" 1)); Subckt "s" [] "" [Comp (Some (mkDM "d" "b" 2)); Comp None; Comp (Some (mkDM "d" "a" 3))]; Comp (Some (mkDM "e" "a" 4))] in
  model_set t = [mkDM "d" "a" 1; mkDM "d" "b" 2; mkDM "e" "a" 4].
Proof. reflexivity. Qed.

(** *** C71 *)
(** As long as no name list is out of date the check fails exactly when a sub-circuit contains, at any depth, another one of its own name;
    otherwise it changes nothing but the cached lists, which stay up to date. *)
Theorem C71_check : forall (P : Type) (t : tree P), fresh t ->
  (recurs t /\ check_subckt t = Exn ValueError) \/ (~ recurs t /\ exists t', check_subckt t = Ok t' /\ same_shape t t' /\ fresh t').
Proof. exact @check_spec. Qed.
Print Assumptions C71_check.

(** The lists are computed once: a clash added after a check goes unnoticed. *)
Theorem C71_stale_refuted : exists (t t' : tree nat) n c x kids new, check_subckt t = Ok t' /\ t' = Subckt "a" [] "" [Subckt n c x kids] /\
  recurs (Subckt "a" [] "" [Subckt n c x (kids ++ [new])]) /\ exists t'', check_subckt (Subckt "a" [] "" [Subckt n c x (kids ++ [new])]) = Ok t''.
Proof.
  exists (Subckt "a" [] "" [Subckt "b" [] "" []]), (Subckt "a" [] "" [Subckt "b" ["b"%string] "" []]), "b"%string, ["b"%string], ""%string, [], (Subckt "a" [] "" []).
  split; [reflexivity|]. split; [reflexivity|]. split; [apply r_here; cbn; auto|]. eexists. reflexivity.
Qed.
Print Assumptions C71_stale_refuted.

(** Siblings of the same name with different contents pass the check, and both definitions are emitted under that name. *)
Theorem C71_siblings_refuted : exists (t t' : tree nat) n x1 x2, check_subckt t = Ok t' /\ x1 <> x2 /\
  t = Subckt "a" [] "" [Subckt n [] x1 []; Subckt n [] x2 []] /\ In x1 (definitions t) /\ In x2 (definitions t).
Proof.
  exists (Subckt "a" [] "" [Subckt "b" [] "1" []; Subckt "b" [] "2" []]). eexists. exists "b"%string, "1"%string, "2"%string.
  split; [reflexivity|]. split; [discriminate|]. split; [reflexivity|]. split; vm_compute; auto.
Qed.
Print Assumptions C71_siblings_refuted.
Example C71_meets : fresh (Subckt "a" [] "" [Subckt "b" [] "" [Subckt "a" [] "" [@Comp nat None]]]) /\
  check_subckt (Subckt "a" [] "" [Subckt "b" [] "" [Subckt "a" [] "" [@Comp nat None]]]) = Exn ValueError.
Proof. split; [|reflexivity]. repeat constructor. Qed.

(** *** C72 *)
(** The emitted definitions are those of all sub-circuits of the hierarchy, each text once. *)
Theorem C72_definitions : forall (P : Type) (t : tree P), (forall y, In y (definitions t) <-> In y (texts t)) /\ NoDup (definitions t).
Proof. intros. split; [intro; apply definitions_all|apply definitions_nodup]. Qed.
Print Assumptions C72_definitions.
(** They come in order of first occurrence, outer ones before the ones inside. *)
Theorem C72_order : forall (P : Type) (t : tree P), definitions t = firsts String.eqb (texts t).
Proof. exact @definitions_firsts. Qed.
Print Assumptions C72_order.
Example C72_meets : definitions (Subckt "a" [] "A" [Subckt "b" [] "B" [Subckt "c" [] "C" [@Comp nat None]]; Subckt "c" [] "C" []; Subckt "b" [] "B" []]) = ["A"; "B"; "C"]%string.
Proof. reflexivity. Qed.
