(** C114: elements of a sub-circuit: instance names, adding, and replacing an element. *)
From Coq Require Import String Ascii List ListDec Lia Arith Bool ZArith.
From Verif Require Import Base Netlist NetlistProofs NetlistTree CircuitProofs Elements ElementsProofs.
Import ListNotations.
Open Scope nat_scope.

(** names *)
Theorem C114_name : forall sub letter name, upper_letter letter ->
  (name = ""%string -> element_name sub letter name = Exn (if sub then ValueError else TypeError)) /\
  (name <> ""%string -> exists r, element_name sub letter name = Ok (String letter r) /\ lower r = r /\ (lower name = String (low_ascii letter) r \/ lower name = r)).
Proof.
  intros sub letter name L. split; [intros ->; reflexivity|]. intros N. destruct name as [|c r]; [now destruct N|]. unfold element_name. destruct (Ascii.eqb_spec c letter) as [->|Nc].
  - exists (lower r). split; [reflexivity|]. split; [exact (lower_idem r)|]. left. reflexivity.
  - exists (lower (String c r)). split; [reflexivity|]. split; [exact (lower_idem (String c r))|]. now right.
Qed.
Print Assumptions C114_name.
(** naive: elements given different names have different names *)
Theorem C114_name_refuted : exists letter a b s, upper_letter letter /\ a <> b /\ element_name false letter a = Ok s /\ element_name false letter b = Ok s.
Proof. exists "R"%char, "1"%string, "R1"%string, "R1"%string. split; [unfold upper_letter; cbn; lia|]. split; [discriminate|]. split; reflexivity. Qed.
Print Assumptions C114_name_refuted.

(** the elements of a sub-circuit carry their keys as names, and the names are distinct also for SPICE, which does not distinguish case *)
Theorem C114_distinct : forall (T : Type) (teq : forall a b : T, {a = b} + {a <> b}) (tname : T -> string) (l : list (op T)),
  (forall key e, In (OSet key e) l -> exists sub letter name, upper_letter letter /\ element_name sub letter name = Ok (e_name e)) ->
  (forall key e, In (key, e) (kids (run teq tname l)) -> e_name e = key) /\
  NoDup (map (fun x => lower (e_name (snd x))) (kids (run teq tname l))).
Proof.
  intros T teq tname l H. destruct (run_good teq tname made l) as [N G].
  { intros [key e|f s n] Ho; [|exact I]. cbn. destruct (H key e Ho) as (sub & letter & name & L & E). destruct (element_made sub letter name _ L E) as (r & -> & Hr). now exists letter, r. }
  split; [intros key e Hin; now apply (G key e)|]. unfold keys in N. revert N G. generalize (kids (run teq tname l)). clear. intros k. induction k as [|[key e] k IH]; intros N G; cbn [map snd]; [constructor|].
  cbn [map fst] in N. inversion_clear N. constructor; [|apply IH; [assumption|intros; apply G; now right]]. intros Q. apply in_map_iff in Q. destruct Q as ([key' e'] & E & Hin). cbn [snd] in E.
  destruct (G key e ltac:(now left)) as [E1 M1]. destruct (G key' e' ltac:(now right)) as [E2 M2]. rewrite E1, E2 in E. apply (made_inj key' key M2 M1) in E. subst key'. apply H. apply (in_map fst) in Hin. exact Hin.
Qed.
Print Assumptions C114_distinct.

(** an element whose name is not in use is appended; under another key it is refused *)
Theorem C114_new : forall (T : Type) (teq : forall a b : T, {a = b} + {a <> b}) (tname : T -> string) (b : body T) key e, ~ In key (map fst (kids b)) ->
  setattr teq tname b key e = if String.eqb key (e_name e) then (Ok tt, mkBody (kids b ++ [(key, e)]) (nets b)) else (Exn ValueError, b).
Proof.
  intros T teq tname b key e H. unfold setattr. destruct (kget (kids b) key) as [old|] eqn:G; [|reflexivity]. exfalso. apply H. apply kget_in in G. now apply (in_map fst) in G.
Qed.
Print Assumptions C114_new.

Section Replace.
Context (T : Type) (teq : forall a b : T, {a = b} + {a <> b}) (tname : T -> string).
(** an element with these terminals, as CircuitElement.__init__ makes it *)
Definition has_terminals (e : element T) (l : list T) : Prop := add_all tname elt0 (map (fun t => (t, (-1)%Z)) l) = Ok (e_elt e).
Lemma has_spec e l : has_terminals e l -> NoDup (map tname l) /\ terms (e_elt e) = l /\ forall key t, get_name (e_elt e) key = Ok t <-> In t l /\ tname t = upper key.
Proof.
  intros H. change (add_all tname elt0 (appends l) = Ok (e_elt e)) in H. destruct (append_lookup tname l) as [A B]. destruct (NoDup_dec string_dec (map tname l)) as [N|N]; [|rewrite (B N) in H; discriminate H].
  destruct (A N) as (x & E & Q). rewrite E in H. injection H as <-. tauto.
Qed.
Lemma pairing_spec e news olds : has_terminals e news -> (forall t, In t olds -> upper (tname t) = tname t) ->
  (forall t, In t olds -> exists n, In n news /\ tname n = tname t) ->
  exists l, pairing tname (e_elt e) olds = Some l /\ map snd l = olds /\ forall n t, In (n, t) l -> In n news /\ tname n = tname t.
Proof.
  intros He. destruct (has_spec _ _ He) as (_ & _ & G). induction olds as [|t olds IH]; intros U H; [exists []; repeat split; intros; contradiction|].
  destruct IH as (l & E & M & P); [intros; apply U; now right|intros; apply H; now right|]. destruct (H t (or_introl eq_refl)) as (n & Hn & En).
  exists ((n, t) :: l). cbn [pairing]. rewrite (proj2 (G (tname t) n)) by (split; [exact Hn|]; rewrite U by (now left); exact En). rewrite E. split; [reflexivity|]. split; [cbn; now rewrite M|].
  intros n' t' [Q|Q]; [injection Q as <- <-; now split|now apply P].
Qed.
Lemma take_over_wf e olds st : wf teq st -> wf teq (snd (take_over teq tname e olds st)).
Proof.
  revert st. induction olds as [|t olds IH]; intros st W; cbn [take_over]; [exact W|]. destruct (get_name e (tname t)); [|exact W]. apply IH. now apply connect_wf.
Qed.
Lemma run_wf l : wf teq (nets (run teq tname l)).
Proof.
  unfold run. assert (W : wf teq (nets (body0 : body T))) by (intros t p; discriminate). revert W. generalize (body0 : body T). induction l as [|o l IH]; intros b W; [exact W|]. cbn [fold_left]. apply IH.
  destruct o as [k e|f s n]; cbn [run1]; [|now apply connect_wf]. unfold setattr. destruct (kget (kids b) k) as [old|]; [|destruct (String.eqb k (e_name e)); exact W].
  pose proof (take_over_wf (e_elt e) (terms (e_elt old)) (nets b) W) as Q. destruct (take_over _ _ _ _ _) as [[|] st]; exact Q.
Qed.
Lemma nodup_names (l : list T) : NoDup (map tname l) -> NoDup l.
Proof. apply NoDup_map_inv. Qed.
(** the situation of a replacement: the sub-circuit was built by any program; [old] is there under [key]; the replacement [e] has not been connected *)
Definition situation (l : list (op T)) key (old e : element T) (olds news : list T) : Prop :=
  kget (kids (run teq tname l)) key = Some old /\ has_terminals old olds /\ has_terminals e news /\ (forall t, In t olds -> upper (tname t) = tname t) /\
  forall n, In n news -> tname n <> ""%string /\ ~ connected teq (nets (run teq tname l)) n /\ ~ In n olds.
Lemma situation_pairs l key old e olds news : situation l key old e olds news -> (forall t, In t olds -> exists n, In n news /\ tname n = tname t) ->
  exists ps, map snd ps = olds /\ (forall n t, In n news -> In t olds -> tname n = tname t -> In (n, t) ps) /\ (forall n t, In (n, t) ps -> In n news /\ tname n = tname t) /\ apart teq (nets (run teq tname l)) ps /\
    setattr teq tname (run teq tname l) key e = (Ok tt, mkBody (kset (kids (run teq tname l)) key (mkElement (e_letter e) key (e_elt e))) (attach teq tname (nets (run teq tname l)) ps)).
Proof.
  intros (K & Ho & He & U & F) Hn. destruct (pairing_spec e news olds He U Hn) as (ps & E & M & P). destruct (has_spec _ _ Ho) as (No & To & _). destruct (has_spec _ _ He) as (Nn & _ & _).
  exists ps. split; [exact M|]. split; [|split; [exact P|split]].
  - intros n t In1 In2 Et. rewrite <- M in In2. apply in_map_iff in In2. destruct In2 as ([n' t'] & <- & Hin). cbn [snd] in *. destruct (P _ _ Hin) as [Q1 Q2].
    assert (n = n'); [|now subst]. revert Nn In1 Q1. rewrite <- Q2 in Et. clear - Et. induction news as [|x xs IH]; [intros _ []|]. cbn [map]. intros N. inversion_clear N. intros [->|A] [->|B]; auto.
    + exfalso. apply H. rewrite Et. now apply in_map.
    + exfalso. apply H. rewrite <- Et. now apply in_map.
  - split; [|split; [|split]].
    + apply nodup_names. replace (map tname (map fst ps)) with (map tname olds); [exact No|]. rewrite <- M, !map_map. apply map_ext_in. intros [n t] Hin. cbn [fst snd]. symmetry. now apply (P n t).
    + rewrite M. now apply nodup_names.
    + intros n Hin. apply in_map_iff in Hin. destruct Hin as ([n' t] & <- & Hin). apply F. now apply (P n' t).
    + intros n Hin. rewrite M. apply in_map_iff in Hin. destruct Hin as ([n' t] & <- & Hin). apply F. now apply (P n' t).
  - unfold setattr. rewrite K, To. rewrite (take_over_ok teq tname _ _ _ _ E). reflexivity.
Qed.
End Replace.

(** replacing: possible exactly when the new element has a terminal for every terminal of the old one.  Then it takes its place and its nets, and nothing else is connected differently. *)
Theorem C114_replace : forall (T : Type) (teq : forall a b : T, {a = b} + {a <> b}) (tname : T -> string) (l : list (op T)) key old e olds news,
  situation T teq tname l key old e olds news -> (forall t, In t olds -> exists n, In n news /\ tname n = tname t) ->
  let b := run teq tname l in exists b', setattr teq tname b key e = (Ok tt, b') /\
    map fst (kids b') = map fst (kids b) /\ kget (kids b') key = Some (mkElement (e_letter e) key (e_elt e)) /\ (forall k, k <> key -> kget (kids b') k = kget (kids b) k) /\
    (forall n t, In n news -> In t olds -> tname n = tname t -> same teq (nets b') n t) /\
    (forall u v, ~ In u news -> ~ In v news -> (same teq (nets b') u v <-> same teq (nets b) u v)).
Proof.
  intros T teq tname l key old e olds news S H. cbv zeta. destruct (situation_pairs T teq tname l key old e olds news S H) as (ps & M & P1 & P2 & A & E).
  destruct (attach_spec teq tname ps _ (run_wf T teq tname l) A) as (_ & _ & _ & J3 & J4). eexists. split; [exact E|]. cbn [kids nets].
  split; [apply kset_keys|]. split; [apply kget_kset; destruct S as (K & _); apply kget_in in K; now apply (in_map fst) in K|]. split; [intros; now apply kget_kset_ne|]. split.
  - intros n t H1 H2 Et. destruct (J3 n t (P1 n t H1 H2 Et)) as (p & Q). right. exists p. exact Q.
  - intros u v Hu Hv. apply J4; intros Q; apply in_map_iff in Q; destruct Q as ([n t] & <- & Hin); now apply P2 in Hin.
Qed.
Print Assumptions C114_replace.
Theorem C114_replace_raises : forall (T : Type) (teq : forall a b : T, {a = b} + {a <> b}) (tname : T -> string) (l : list (op T)) key old e olds news t,
  situation T teq tname l key old e olds news -> In t olds -> (forall n, In n news -> tname n <> tname t) ->
  exists b', setattr teq tname (run teq tname l) key e = (Exn ValueError, b') /\ kids b' = kids (run teq tname l).
Proof.
  intros T teq tname l key old e olds news t (K & Ho & He & U & F) Ht Hn. destruct (has_spec T tname _ _ Ho) as (_ & To & _). destruct (lookup_last tname _ _ (tname t) He) as [_ HL]. destruct (has_spec T tname _ _ He) as (_ & Te & _).
  unfold setattr. rewrite K, To. assert (Q : forall st, exists st', take_over teq tname (e_elt e) olds st = (Exn ValueError, st')).
  { clear K Ho To F. revert U Ht. induction olds as [|x olds IH]; [intros _ []|]. intros U Hin st. cbn [take_over]. destruct (get_name (e_elt e) (tname x)) as [n|y] eqn:G.
    - destruct Hin as [->|Hin]; [|apply IH; [intros; apply U; now right|exact Hin]]. exfalso. destruct (has_spec T tname _ _ He) as (_ & _ & GG). apply GG in G. rewrite U in G by now left. destruct G. now apply (Hn n).
    - destruct (lookup_last tname _ _ (tname x) He) as [L1 L2]. exists st. f_equal. unfold get_name in G. destruct (Netlist.sget _ _) as [i|] eqn:E; [|injection G as <-; reflexivity].
      exfalso. destruct (nth_error (terms (e_elt e)) i) as [z|] eqn:Ez; [discriminate|]. pose proof (L2) as L3. unfold get_name in L3. rewrite E, Ez in L3.
      assert (C : forall z, In z (terms (e_elt e)) -> tname z <> upper (tname x)).
      { intros z Hz Ez'. destruct (has_spec T tname _ _ He) as (_ & _ & GG). assert (X : get_name (e_elt e) (tname x) = Ok z) by (apply GG; split; [now rewrite <- Te|exact Ez']). unfold get_name in X. rewrite E, Ez in X. discriminate. }
      specialize (L3 C). discriminate. }
  destruct (Q (nets (run teq tname l))) as (st' & ->). eexists. split; reflexivity.
Qed.
Print Assumptions C114_replace_raises.
(** the names of the nets: those of the replaced terminals are renamed after them, all others stay *)
Theorem C114_replace_names : forall (T : Type) (teq : forall a b : T, {a = b} + {a <> b}) (tname : T -> string) (l : list (op T)) key old e olds news,
  situation T teq tname l key old e olds news -> (forall t, In t olds -> exists n, In n news /\ tname n = tname t) ->
  let b := run teq tname l in exists b', setattr teq tname b key e = (Ok tt, b') /\
    (forall u, ~ In u news -> (forall t, In t olds -> ~ same teq (nets b) u t) -> net_name teq tname (nets b') u = net_name teq tname (nets b) u) /\
    (forall t, In t olds -> exists t', In t' olds /\ same teq (nets b) t t' /\ forall u, same teq (nets b') u t -> net_name teq tname (nets b') u = tname t').
Proof.
  intros T teq tname l key old e olds news S H. cbv zeta. destruct (situation_pairs T teq tname l key old e olds news S H) as (ps & M & P1 & P2 & A & E).
  assert (NE : forall n, In n (map fst ps) -> tname n <> ""%string).
  { intros n Q. apply in_map_iff in Q. destruct Q as ([n' t] & <- & Hin). destruct S as (_ & _ & _ & _ & F). apply F. now apply (P2 n' t). }
  assert (NW : forall u, In u (map fst ps) -> In u news) by (intros u Q; apply in_map_iff in Q; destruct Q as ([n' t] & <- & Hin); now apply (P2 n' t)).
  destruct (attach_names teq tname ps _ (run_wf T teq tname l) A NE) as (N1 & N2). destruct (attach_spec teq tname ps _ (run_wf T teq tname l) A) as (_ & _ & _ & J3 & J4).
  assert (ON : forall t, In t olds -> ~ In t (map fst ps)) by (intros t Ht Q; destruct S as (_ & _ & _ & _ & F); destruct (F t (NW t Q)) as (_ & _ & X); contradiction).
  eexists. split; [exact E|]. cbn [nets]. split.
  - intros u Hu Hs. apply N1; [intros Q; apply Hu; now apply NW|]. rewrite M. exact Hs.
  - intros t Ht. assert (Q := Ht). rewrite <- M in Q. apply in_map_iff in Q. destruct Q as ([n t0] & Et & Hin). cbn [snd] in Et. subst t0. destruct (N2 n t Hin) as (n' & t' & Hin' & Sm & _ & Nm).
    exists t'. assert (Ht' : In t' olds) by (rewrite <- M; now apply (in_map snd) in Hin'). split; [exact Ht'|]. split; [apply J4; auto|]. destruct (P2 n' t' Hin') as [_ En]. rewrite <- En.
    destruct (J3 n t Hin) as (p & _ & Pt). intros u [->|(q & Q1 & Q2)]; [exact Nm|]. rewrite <- Nm. assert (q = p) by congruence. subst q. unfold net_name. now rewrite Q1, Pt.
Qed.
Print Assumptions C114_replace_names.

(** Witnesses: terminals are numbers; 0, 1 belong to the sub-circuit (IN, OUT), 2, 3 to the element Xa (IN, OUT), 4, 5 to another element (MID, OUT2), 6, 7 to the replacement (IN, OUT) *)
Definition wname (n : nat) : string := nth n ["IN"; "OUT"; "IN"; "OUT"; "MID"; "W"; "IN"; "OUT"]%string ""%string.
Definition welt (a b : nat) : elt nat := match add_all wname elt0 [(a, (-1)%Z); (b, (-1)%Z)] with Ok e => e | Exn _ => elt0 end.
Definition wels (letter : ascii) (name : string) (a b : nat) : element nat := mkElement letter name (welt a b).
(** Xb from IN to MID, Xa from MID to OUT *)
Definition wprog : list (op nat) := [OSet "Xa" (wels "X" "Xa" 2 3); OSet "Xb" (wels "X" "Xb" 5 4); OConnect 0 5 ""; OConnect 4 2 ""; OConnect 1 3 ""].
(** naive: replacing an element by one with the same terminals leaves separate nets separate in the emitted netlist.  Here the input of the second stage gets shorted to the input of the sub-circuit. *)
Theorem C114_replace_short_refuted : exists (tname : nat -> string) l key old e olds news a b b', situation nat Nat.eq_dec tname l key old e olds news /\ map tname olds = map tname news /\
  setattr Nat.eq_dec tname (run Nat.eq_dec tname l) key e = (Ok tt, b') /\
  ~ same Nat.eq_dec (nets b') a b /\ net_name Nat.eq_dec tname (nets (run Nat.eq_dec tname l)) a <> net_name Nat.eq_dec tname (nets (run Nat.eq_dec tname l)) b /\
  net_name Nat.eq_dec tname (nets b') a = net_name Nat.eq_dec tname (nets b') b.
Proof.
  exists wname, wprog, "Xa"%string, (wels "X" "Xa" 2 3), (wels "X" "Xnew" 6 7), [2; 3], [6; 7], 0, 4. eexists. split; [|split; [reflexivity|split; [reflexivity|split; [|split]]]].
  - split; [reflexivity|]. split; [reflexivity|]. split; [reflexivity|]. split; [intros t [<-|[<-|[]]]; reflexivity|].
    intros n [<-|[<-|[]]]; (split; [discriminate|split; [intros Q; apply Q; reflexivity|cbn; lia]]).
  - intros [E|(p & E1 & E2)]; [discriminate|]. vm_compute in E1, E2. congruence.
  - vm_compute. discriminate.
  - reflexivity.
Qed.
Print Assumptions C114_replace_short_refuted.
(** naive: the name of an element begins with the letter of its class.  Here an element of class G is emitted as an X line. *)
Theorem C114_letter_refuted : exists l key e, (forall key e, In (OSet key e) l -> exists name, element_name false (e_letter e) name = Ok (e_name e)) /\
  In (key, e) (kids (run Nat.eq_dec wname l)) /\ exists c r, e_name e = String c r /\ c <> e_letter e.
Proof.
  exists (wprog ++ [OSet "Xa" (wels "G" "Gm" 6 7)]), "Xa"%string, (mkElement "G" "Xa" (welt 6 7)). split.
  - intros key e Hin. cbn in Hin. destruct Hin as [E|[E|[E|[E|[E|[E|[]]]]]]]; try discriminate E; injection E as <- <-; [exists "Xa"%string|exists "Xb"%string|exists "Gm"%string]; reflexivity.
  - split; [vm_compute; tauto|]. exists "X"%char, "a"%string. split; [reflexivity|discriminate].
Qed.
Print Assumptions C114_letter_refuted.

(** Resistors, capacitors, inductors and sources have unnamed terminals, named by a global counter: they cannot be replaced. *)
Theorem C114_passive : forall (tname : nat -> string) l key old e i j, (forall t, tname t = terminal_name t "") -> i + 1 < j ->
  situation nat Nat.eq_dec tname l key old e [i; i + 1] [j; j + 1] ->
  exists b', setattr Nat.eq_dec tname (run Nat.eq_dec tname l) key e = (Exn ValueError, b') /\ kids b' = kids (run Nat.eq_dec tname l).
Proof.
  intros tname l key old e i j Hn Hij S. apply (C114_replace_raises nat Nat.eq_dec tname l key old e _ _ i S); [now left|].
  assert (U : forall n, upper (dec n) = dec n).
  { intros n. pose proof (dec_digits n) as D. induction (dec n) as [|c s IH]; [reflexivity|]. cbn in D. destruct D as [D1 D2]. cbn [upper]. rewrite IH by exact D2. f_equal. unfold up_ascii. destruct (Nat.leb_spec 97 (nat_of_ascii c)); [lia|reflexivity]. }
  assert (UN : forall t, terminal_name t "" = dec t) by (intros t; exact (U t)).
  intros n [<-|[<-|[]]]; rewrite !Hn, !UN; intros E; apply dec_inj in E; lia.
Qed.
Print Assumptions C114_passive.

(** non-vacuity *)
Example C114_ex_replace : situation nat Nat.eq_dec wname wprog "Xa" (wels "X" "Xa" 2 3) (wels "X" "Xnew" 6 7) [2; 3] [6; 7] /\ (forall t, In t [2; 3] -> exists n, In n [6; 7] /\ wname n = wname t) /\
  map (net_name Nat.eq_dec wname (nets (run Nat.eq_dec wname wprog))) [0; 1; 2; 3; 4; 5] = ["IN"; "OUT"; "MID"; "OUT"; "MID"; "IN"]%string.
Proof.
  split; [|split; [|reflexivity]].
  - split; [reflexivity|]. split; [reflexivity|]. split; [reflexivity|]. split; [intros t [<-|[<-|[]]]; reflexivity|].
    intros n [<-|[<-|[]]]; (split; [discriminate|split; [intros Q; apply Q; reflexivity|cbn; lia]]).
  - intros t [<-|[<-|[]]]; [exists 6|exists 7]; split; cbn; auto.
Qed.
Definition pelt (a b : nat) : elt nat := match add_all (fun t => terminal_name t "") elt0 [(a, (-1)%Z); (b, (-1)%Z)] with Ok e => e | Exn _ => elt0 end.
Example C114_ex_passive : situation nat Nat.eq_dec (fun t => terminal_name t "") [OSet "R1" (mkElement "R" "R1" (pelt 1 2))] "R1" (mkElement "R" "R1" (pelt 1 2)) (mkElement "R" "R2" (pelt 3 4)) [1; 1 + 1] [3; 3 + 1].
Proof.
  split; [reflexivity|]. split; [reflexivity|]. split; [reflexivity|]. split; [intros t [<-|[<-|[]]]; reflexivity|].
  intros n [<-|[<-|[]]]; (split; [discriminate|split; [intros Q; apply Q; reflexivity|cbn; lia]]).
Qed.
Example C114_ex_names : element_name false "R" "A_1" = Ok "Ra_1"%string /\ element_name false "R" "Ra" = Ok "Ra"%string /\ element_name true "X" "AMP" = Ok "Xamp"%string.
Proof. repeat split. Qed.
