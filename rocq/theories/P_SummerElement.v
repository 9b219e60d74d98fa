(** Property theorems C125: the summer components, in ngspice and in Spectre. *)
From Coq Require Import List Arith Bool ZArith Reals Lra Lia String Ascii FinFun.
From Verif Require Import Base Netlist Elements VerilogAms VerilogAmsProofs CircuitProofs SummerElement P_VerilogAms.
Import ListNotations.
Open Scope nat_scope.

(** Verilog-AMS, connection by position: the ports get the nodes in order; the numbers must agree. *)
Fixpoint port_node (ports nodes : list string) (p : string) : string :=
  match ports, nodes with
  | q :: ports, nd :: nodes => if String.eqb p q then nd else port_node ports nodes p
  | _, _ => ""%string
  end.
Definition instantiate (ports nodes : list string) : option (string -> string) :=
  if Nat.eqb (List.length ports) (List.length nodes) then Some (port_node ports nodes) else None.
(** the voltages a module sees, given the node voltages [V] *)
Definition seen (V : string -> R -> R) (f : string -> string) (a : string) (r : option string) (t : R) : R :=
  (V (f a) t - match r with Some b => V (f b) t | None => 0 end)%R.

Lemma port_node_nth : forall ports nodes i, NoDup ports -> List.length ports = List.length nodes -> i < List.length ports ->
  port_node ports nodes (nth i ports ""%string) = nth i nodes ""%string.
Proof.
  induction ports as [|q ports IH]; intros [|nd nodes] i HN HL Hi; cbn in HL, Hi; try lia. cbn [port_node nth]. inversion HN as [|? ? HN1 HN2]; subst. destruct i as [|i].
  - now rewrite String.eqb_refl.
  - replace (String.eqb (nth i ports ""%string) q) with false.
    + apply IH; [exact HN2|lia|lia].
    + symmetry. apply String.eqb_neq. intros E. apply HN1. rewrite <- E. apply nth_In. lia.
Qed.
Lemma in_port_inj i j : in_port i = in_port j -> i = j.
Proof. unfold in_port. cbn [append]. intros [= H]. now apply dec_inj. Qed.
Lemma ports_nodup s : NoDup (module_ports s).
Proof.
  assert (HI : forall p, In p (map in_port (seq 0 (List.length (in_gain s)))) -> exists i, p = in_port i) by (intros p Hp; apply in_map_iff in Hp; destruct Hp as (i & <- & _); now exists i).
  unfold module_ports. assert (HN : NoDup (map in_port (seq 0 (List.length (in_gain s))))).
  { apply FinFun.Injective_map_NoDup; [|apply seq_NoDup]. intros i j H. now apply in_port_inj. }
  revert HI HN. generalize (map in_port (seq 0 (List.length (in_gain s)))). induction l as [|p l IH]; intros HI HN; cbn.
  - constructor; [intros [H|[]]; discriminate|]. constructor; [intros []|constructor].
  - inversion HN as [|? ? HN1 HN2]; subst. constructor; [|apply IH; [intros q Hq; apply HI; now right|exact HN2]]. intros H. apply in_app_or in H. destruct H as [H|H]; [contradiction|].
    destruct (HI p ltac:(now left)) as (i & ->). destruct H as [H|[H|[]]]; discriminate.
Qed.
Lemma ports_length s : List.length (module_ports s) = List.length (in_gain s) + 2.
Proof. unfold module_ports. rewrite app_length, map_length, seq_length. reflexivity. Qed.
Lemma summer_init_fields io ig oo og s : summer_init io ig oo og = Ok s -> in_gain s = ig /\ in_offset s = io /\ List.length ig = List.length io.
Proof. unfold summer_init. destruct (Nat.eqb_spec (List.length ig) (List.length io)); [|discriminate]. intros H. injection H as <-. now repeat split. Qed.

(** *** Construction *)
Theorem C125_summer_init : forall c name n io ig oo og,
  summer_element (String c name) n io ig oo og = (if Nat.eqb (List.length io) (List.length ig) then
    Ok (mkSelem (if Ascii.eqb c "A" then String c (lower name) else String "A" (lower (String c name))) false n (mkSummer io ig oo og)) else Exn ValueError).
Proof. intros. unfold summer_element, summer_init. cbn [element_name bind]. rewrite (Nat.eqb_sym (List.length ig)). now destruct (Nat.eqb (List.length io) (List.length ig)). Qed.
Print Assumptions C125_summer_init.

(** The dimension check of DifferentialSummer rejects exactly the lists that differ in length; which exception depends on [n].  Lists of equal length are
    accepted whatever [n] is. *)
Theorem C125_differential_init : forall c name n io ig oo og,
  (List.length io = List.length ig -> exists nm, diff_summer_element (String c name) n io ig oo og = Ok (mkSelem nm true n (mkSummer io ig oo og))) /\
  (List.length io <> List.length ig -> List.length io = n -> diff_summer_element (String c name) n io ig oo og = Exn ValueError) /\
  (List.length io <> List.length ig -> List.length io <> n -> diff_summer_element (String c name) n io ig oo og = Exn GenericException).
Proof.
  intros. unfold diff_summer_element, summer_init. cbn [element_name bind]. rewrite (Nat.eqb_sym (List.length ig)).
  destruct (Nat.eqb_spec (List.length io) (List.length ig)), (Nat.eqb_spec (List.length io) n); cbn [negb andb bind]; (split; [|split]); intros; try contradiction; try reflexivity; eexists; reflexivity.
Qed.
Print Assumptions C125_differential_init.
(** naive: a summer that was accepted has as many gains as inputs *)
Theorem C125_dimensions_refuted : exists name n io ig oo og e, diff_summer_element name n io ig oo og = Ok e /\ List.length (in_gain (se_model e)) <> se_n e.
Proof. exists "As"%string, 3, [0%R], [1%R], 0%R, 1%R. eexists. split; [reflexivity|]. discriminate. Qed.
Print Assumptions C125_dimensions_refuted.

(** *** Single ended: both simulators compute the same *)
Theorem C125_summer_agrees : forall name n io ig oo og e nodes, summer_element name n io ig oo og = Ok e -> n = List.length ig -> (exists g, In g ig /\ g <> 0%R) ->
  List.length nodes = se_terms e -> forall V idt, exists f w,
  instantiate (module_ports (se_model e)) (spectre_nodes e nodes) = Some f /\
  denotes (seen V f) idt (summer_vams (se_model e)) w /\
  f "out"%string = snd (ngspice_nodes e nodes) /\ List.length (fst (ngspice_nodes e nodes)) = n /\
  forall t, w t = xspice_summer io ig oo og (map (fun p => (V (fst p) t - V (snd p) t)%R) (fst (ngspice_nodes e nodes))).
Proof.
  intros name n io ig oo og e nodes HE Hn HG HL V idt. unfold summer_element in HE. destruct (element_name false "A" name) as [nm|]; [|discriminate]. cbn [bind] in HE.
  destruct (summer_init io ig oo og) as [s|] eqn:ES; [|discriminate]. cbn [bind] in HE. injection HE as <-. destruct (summer_init_fields _ _ _ _ _ ES) as (F1 & F2 & F3).
  unfold se_terms in HL. cbn [se_diff se_n se_model spectre_nodes ngspice_nodes] in *.
  assert (PL := ports_length s). rewrite F1 in PL. assert (PN := ports_nodup s).
  set (f := port_node (module_ports s) nodes).
  assert (FI : forall i, i < n -> f (in_port i) = nth i nodes ""%string).
  { intros i Hi. unfold f. rewrite <- (port_node_nth (module_ports s) nodes i PN) by lia. f_equal. unfold module_ports. rewrite F1, <- Hn.
    rewrite app_nth1 by (rewrite map_length, seq_length; lia). rewrite (nth_indep _ _ (in_port 0)) by (rewrite map_length, seq_length; lia). rewrite map_nth, seq_nth by lia. reflexivity. }
  assert (FO : f "out"%string = nth n nodes ""%string).
  { unfold f. rewrite <- (port_node_nth (module_ports s) nodes n PN) by lia. f_equal. unfold module_ports. rewrite F1, <- Hn.
    rewrite app_nth2 by (rewrite map_length, seq_length; lia). rewrite map_length, seq_length, Nat.sub_diag. reflexivity. }
  assert (FV : f "vgnd"%string = nth (n + 1) nodes ""%string).
  { unfold f. rewrite <- (port_node_nth (module_ports s) nodes (n + 1) PN) by lia. f_equal. unfold module_ports. rewrite F1, <- Hn.
    rewrite app_nth2 by (rewrite map_length, seq_length; lia). rewrite map_length, seq_length. replace (n + 1 - n) with 1 by lia. reflexivity. }
  destruct (C113_summer (seen V f) idt io ig oo og s ES HG) as (w & Dw & Vw). exists f, w.
  replace (List.length nodes - 2) with n by lia. replace (List.length nodes - 1) with (n + 1) by lia.
  split; [unfold instantiate; replace (List.length (module_ports s)) with (List.length nodes) by lia; now rewrite Nat.eqb_refl|]. split; [exact Dw|]. split; [exact FO|].
  split; [cbn [fst]; rewrite map_length, firstn_length; lia|]. intros t. rewrite Vw. f_equal. cbn [fst]. rewrite map_map. cbn [fst snd]. unfold voltages. rewrite <- Hn.
  apply nth_ext with (d := 0%R) (d' := 0%R); [rewrite !map_length, seq_length, firstn_length; lia|]. intros i Hi. rewrite map_length, seq_length in Hi.
  rewrite (nth_indep _ 0%R (seen V f (append "in_" (dec 0)) (Some "vgnd"%string) t)) by (rewrite map_length, seq_length; lia).
  rewrite (map_nth (fun i => seen V f (append "in_" (dec i)) (Some "vgnd"%string) t)), seq_nth by lia. cbn [plus].
  rewrite (nth_indep (map _ (firstn n nodes)) 0%R ((fun nd => (V nd t - V (nth (n + 1) nodes ""%string) t)%R) ""%string)) by (rewrite map_length, firstn_length; lia).
  rewrite (map_nth (fun nd => (V nd t - V (nth (n + 1) nodes ""%string) t)%R)). unfold seen. fold (in_port i). rewrite FI, FV by lia.
  rewrite <- (firstn_skipn n nodes) at 1. now rewrite app_nth1 by (rewrite firstn_length; lia).
Qed.
Print Assumptions C125_summer_agrees.
(** The Spectre line of a summer fits its module exactly if there are as many gains as inputs. *)
Theorem C125_summer_fits : forall name n io ig oo og e nodes, summer_element name n io ig oo og = Ok e -> List.length nodes = se_terms e ->
  ((exists f, instantiate (module_ports (se_model e)) (spectre_nodes e nodes) = Some f) <-> List.length ig = n).
Proof.
  intros name n io ig oo og e nodes HE HL. unfold summer_element in HE. destruct (element_name false "A" name) as [nm|]; [|discriminate]. cbn [bind] in HE.
  destruct (summer_init io ig oo og) as [s|] eqn:ES; [|discriminate]. cbn [bind] in HE. injection HE as <-. destruct (summer_init_fields _ _ _ _ _ ES) as (F1 & _).
  unfold se_terms in HL. cbn [se_diff se_n se_model spectre_nodes] in *. unfold instantiate, spectre_nodes. rewrite ports_length, F1, HL. destruct (Nat.eqb_spec (List.length ig + 2) (n + 2)).
  - split; [intros _; lia|]. intros _. eexists. reflexivity.
  - split; [intros (f & H); discriminate|lia].
Qed.
Print Assumptions C125_summer_fits.

(** *** Differential: the ngspice line has the pairs in order; the Spectre line fits only a summer with one input, and then drives the wrong node *)
Theorem C125_differential_ngspice : forall name n io ig oo og e pos neg out, diff_summer_element name n io ig oo og = Ok e ->
  List.length pos = n -> List.length neg = n -> ngspice_nodes e (pos ++ neg ++ [out]) = (combine pos neg, out).
Proof.
  intros name n io ig oo og e pos neg out HE H1 H2. unfold diff_summer_element in HE. destruct (element_name false "A" name) as [nm|]; [|discriminate]. cbn [bind] in HE.
  destruct (_ && _)%bool; [discriminate|]. destruct (summer_init io ig oo og) as [s|]; [|discriminate]. cbn [bind] in HE. injection HE as <-.
  unfold ngspice_nodes. cbn [se_diff se_n]. rewrite firstn_app, H1, Nat.sub_diag, firstn_O, app_nil_r, <- H1, firstn_all.
  rewrite skipn_app, Nat.sub_diag, skipn_all. cbn [app skipn]. rewrite firstn_app. replace (List.length pos - List.length neg) with 0 by lia. rewrite firstn_O, app_nil_r.
  replace (firstn (List.length pos) neg) with neg by (rewrite H1, <- H2; now rewrite firstn_all). f_equal.
  rewrite !app_length. cbn [List.length]. rewrite app_nth2 by lia. rewrite app_nth2 by lia. now replace (_ - 1 - _ - _) with 0 by lia.
Qed.
Print Assumptions C125_differential_ngspice.
Theorem C125_differential_fits : forall name n io ig oo og e nodes, diff_summer_element name n io ig oo og = Ok e -> List.length ig = n -> List.length nodes = se_terms e ->
  ((exists f, instantiate (module_ports (se_model e)) (spectre_nodes e nodes) = Some f) <-> n = 1) /\
  forall f pos neg out, instantiate (module_ports (se_model e)) (spectre_nodes e nodes) = Some f -> nodes = [pos; neg; out] ->
    f "in_0"%string = pos /\ f "out"%string = neg /\ f "vgnd"%string = out /\ snd (ngspice_nodes e nodes) = out.
Proof.
  intros name n io ig oo og e nodes HE Hn HL. unfold diff_summer_element in HE. destruct (element_name false "A" name) as [nm|]; [|discriminate]. cbn [bind] in HE.
  destruct (_ && _)%bool; [discriminate|]. destruct (summer_init io ig oo og) as [s|] eqn:ES; [|discriminate]. cbn [bind] in HE. injection HE as <-. destruct (summer_init_fields _ _ _ _ _ ES) as (F1 & _).
  unfold se_terms in HL. cbn [se_diff se_n se_model spectre_nodes] in *. unfold instantiate, spectre_nodes. rewrite ports_length, F1, HL, Hn. split.
  - destruct (Nat.eqb_spec (n + 2) (2 * n + 1)).
    + split; [intros _; lia|]. intros _. eexists. reflexivity.
    + split; [intros (f & H); discriminate|lia].
  - intros f pos neg out H ->. cbn [List.length] in HL. assert (E1 : n = 1) by lia. subst n. rewrite E1 in H. cbn [Nat.mul Nat.add Nat.eqb] in H. injection H as <-.
    unfold module_ports. rewrite F1, E1. cbn. repeat split.
Qed.
Print Assumptions C125_differential_fits.
(** naive: a differential summer with as many gains as inputs can be used with Spectre *)
Theorem C125_differential_refuted : exists name n io ig oo og e nodes, diff_summer_element name n io ig oo og = Ok e /\ List.length ig = n /\ List.length nodes = se_terms e /\
  instantiate (module_ports (se_model e)) (spectre_nodes e nodes) = None.
Proof.
  exists "As"%string, 2, [0%R; 0%R], [1%R; 1%R], 0%R, 1%R. eexists. exists ["a"; "b"; "c"; "d"; "s"]%string. split; [reflexivity|]. repeat split.
Qed.
Print Assumptions C125_differential_refuted.

(** The hypotheses are met: a summer of two inputs. *)
Example C125_ex : exists e, summer_element "Sum1" 2 [0%R; 1%R] [2%R; (-1)%R] 0%R 1%R = Ok e /\ se_name e = "Asum1"%string /\ se_terms e = 4 /\
  ngspice_nodes e ["X0"; "X1"; "OUT"; "VCM"]%string = ([("X0", "VCM"); ("X1", "VCM")]%string, "OUT"%string) /\
  (exists f, instantiate (module_ports (se_model e)) (spectre_nodes e ["X0"; "X1"; "OUT"; "VCM"]%string) = Some f /\ f "in_1"%string = "X1"%string /\ f "out"%string = "OUT"%string).
Proof. eexists. split; [reflexivity|]. split; [reflexivity|]. split; [reflexivity|]. split; [reflexivity|]. eexists. split; [reflexivity|]. split; reflexivity. Qed.
Example C125_ex_differential : exists e, diff_summer_element "As" 2 [0%R; 0%R] [2%R; (-1)%R] 0%R 1%R = Ok e /\
  ngspice_nodes e ["X0_P"; "X1_P"; "X0_N"; "X1_N"; "S"]%string = ([("X0_P", "X0_N"); ("X1_P", "X1_N")]%string, "S"%string).
Proof. eexists. split; reflexivity. Qed.
