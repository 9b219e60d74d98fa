(** C102: the test bench as a control loop.  [obeys anon danon kt kf kd law states w] (ClosedLoop.v): the waveforms [w] obey the sources of the test
    bench [kt], the analog laws of the front end [kf] in it and the ideal XSPICE elements of the digital control [kd] in that.
    [nominal S G amp u e x s] (ClosedLoop.v): [x], [s] are states and control signals of the loop of [S] with decisions at the times [e] and control
    amplitude [amp]. *)
From Coq Require Import String Ascii List Bool Arith Reals Lia Lra.
From Flocq Require Import Core.
From Verif Require Import Base LinAlg FirExtras Netlist NetlistProofs NetlistTree AnalogSystem AnalogProofs IntegratorsProofs Circuits CircuitLaws CircuitProofs CircuitControl XspiceLaws CircuitControlProofs CircuitControlSem CircuitControlTop CircuitControlMain CircuitDither.
From Verif Require Import ClosedLoop ClosedLoopProofs ClosedLoopMain.
From Verif Require OpampCircuit GmCircuit SourceProofs P_Circuits P_CircuitControl.
Import ListNotations.
Open Scope R_scope.

(** ideal operational amplifiers; for the Gm-C circuit, ideal transconductances with the resistors of the netlist *)
Definition opamp_law (anon : cid -> lab -> string) (kf : ckt) (v dv il : string -> R) : Prop := forall l, In l (lines anon kf) -> ideal_opamp v dv il (lines anon kf) l.
Definition gmc_law (anon : cid -> lab -> string) (cs : list ckt) (kf : ckt) (N : nat) (v dv il : string -> R) : Prop := forall a, In a (state_nodes N) -> kcl v dv il (flatten anon cs kf) a.

Theorem C102_opamp : forall anon danon vdd T tt sg S G C kt kf kd w, 0 < vdd -> 0 < tt <= T / 2 -> valid S -> aG S = Some G -> aGt S <> None -> C > 0 ->
  opamp_frontend S C = Ok kf -> testbench vdd T tt sg (sL S) (sM S) (k_name kf) = Ok kt -> control_ckt S T 0 0 vdd 0 0 = Ok kd ->
  obeys anon danon kt kf kd (opamp_law anon kf) (state_nodes (sN S)) w ->
  nominal S G vdd (uw sg) (edge T tt) (xw w) (so T tt w) /\
  forall k m t, (m < sM S)%nat -> edge T tt k < t <= edge T tt (Datatypes.S k) -> ow w m t = so T tt w (Datatypes.S k) m.
Proof. intros anon danon vdd T tt sg S G C kt kf kd w. exact (opamp_loop anon danon vdd T tt sg S G C kt kf kd w). Qed.
Print Assumptions C102_opamp.
(** The Gm-C front end leaks at the rate of C52 unless its transconductances are ideal. *)
Theorem C102_gmc : forall anon danon vdd T tt sg S G C gain kt kf cs kd w, 0 < vdd -> 0 < tt <= T / 2 -> valid S -> aG S = Some G -> aGt S <> None -> C <> 0 -> (forall g, gain = Some g -> g <> 0) -> (0 < sN S)%nat ->
  gmc_frontend S C gain = Ok (kf, cs) -> testbench vdd T tt sg (sL S) (sM S) (k_name kf) = Ok kt -> control_ckt S T 0 0 vdd 0 0 = Ok kd ->
  obeys anon danon kt kf kd (gmc_law anon cs kf (sN S)) (state_nodes (sN S)) w ->
  nominal (leaky S (match gain with None => 0 | Some g => max_abs (sN S) (sL S) (ent (aB S)) / (4 * g) end)) G vdd (uw sg) (edge T tt) (xw w) (so T tt w) /\
  forall k m t, (m < sM S)%nat -> edge T tt k < t <= edge T tt (Datatypes.S k) -> ow w m t = so T tt w (Datatypes.S k) m.
Proof. intros anon danon vdd T tt sg S G C gain kt kf cs kd w. exact (gmc_loop anon danon vdd T tt sg S G C gain kt kf cs kd w). Qed.
Print Assumptions C102_gmc.
(** The loop is deterministic as long as no observation is exactly zero. *)
Theorem C102_unique : forall S G amp u e x s x' s', nominal S G amp u e x s -> nominal S G amp u e x' s' -> no_ties S u e x s -> (forall k, e k < e (Datatypes.S k)) ->
  (forall n, (n < sN S)%nat -> x n (e O) = x' n (e O)) -> (forall m, (m < sM S)%nat -> s O m = s' O m) ->
  forall k, (forall m, (m < sM S)%nat -> s k m = s' k m) /\ (forall n t, (n < sN S)%nat -> e O <= t <= e k -> x n t = x' n t).
Proof. exact nominal_unique. Qed.
Print Assumptions C102_unique.
(** It is homogeneous: amplitude, input, states and control signals scale together. *)
Theorem C102_scale : forall S G amp u e x s c, valid S -> aGt S <> None -> (sM S <= sMt S)%nat -> 0 < c -> nominal S G amp u e x s ->
  nominal S G (c * amp) (fun l t => c * u l t) e (fun n t => c * x n t) (fun k m => c * s k m).
Proof. exact nominal_scale. Qed.
Print Assumptions C102_scale.
(** So the op-amp test bench repeats the loop with unit controls, in units of the supply voltage. *)
Theorem C102_reproduces : forall anon danon vdd T tt sg S G C kt kf kd w u x s, 0 < vdd -> 0 < tt <= T / 2 -> valid S -> aG S = Some G -> aGt S <> None -> C > 0 ->
  opamp_frontend S C = Ok kf -> testbench vdd T tt sg (sL S) (sM S) (k_name kf) = Ok kt -> control_ckt S T 0 0 vdd 0 0 = Ok kd ->
  obeys anon danon kt kf kd (opamp_law anon kf) (state_nodes (sN S)) w ->
  nominal S G 1 u (edge T tt) x s -> no_ties S (uw sg) (edge T tt) (xw w) (so T tt w) -> (forall l t, vdd * u l t = uw sg l t) ->
  (forall n, (n < sN S)%nat -> xw w n (edge T tt 0) = vdd * x n (edge T tt 0)) -> (forall m, (m < sM S)%nat -> ow w m (edge T tt 0) = vdd * s O m) ->
  forall k, (forall m, (m < sM S)%nat -> ow w m (edge T tt k) = vdd * s k m) /\ (forall n t, (n < sN S)%nat -> edge T tt 0 <= t <= edge T tt k -> xw w n t = vdd * x n t).
Proof.
  intros anon danon vdd T tt sg S G C kt kf kd w u x s Hv Ht V HG HGt HC Hf Hk Hd W Hn Nt Hu Hx Hs.
  destruct (C102_opamp anon danon vdd T tt sg S G C kt kf kd w Hv Ht V HG HGt HC Hf Hk Hd W) as [Q _].
  assert (HM : (sM S <= sMt S)%nat). { pose proof (proj1 (control_ok_iff S T 0 0 vdd 0 0) (ex_intro _ kd Hd)). lia. }
  pose proof (C102_scale S G 1 u (edge T tt) x s vdd V HGt HM Hv Hn) as Q'. rewrite Rmult_1_r in Q'.
  assert (Q'' : nominal S G vdd (uw sg) (edge T tt) (fun n t => vdd * x n t) (fun k m => vdd * s k m)).
  { destruct Q' as [C1 D1]. split; [exact C1|]. intro k. destruct (D1 k) as (D2 & o & Ho & D3). split.
    - intros n t Hn' Ht'. specialize (D2 n t Hn' Ht'). rewrite (rsum_ext (sL S) (fun l => ent (aB S) n l * (vdd * u l t)) (fun l => ent (aB S) n l * uw sg l t)) in D2 by (intros l _; now rewrite Hu). exact D2.
    - exists o. split; [|exact D3]. rewrite (map_ext (fun l => vdd * u l (edge T tt k)) (fun l => uw sg l (edge T tt k))) in Ho by (intro l; apply Hu). exact Ho. }
  apply (C102_unique S G vdd (uw sg) (edge T tt) (xw w) (so T tt w) _ _ Q Q'' Nt); [|exact Hx|exact Hs].
  intro k. unfold edge. rewrite S_INR. lra.
Qed.
Print Assumptions C102_reproduces.

(** ** Non-vacuity: an integrator at rest, its input cancelled by its control *)
Definition S1 := P_CircuitControl.S1.
Definition sg1 : list sine := [mkSine 0 1 0 (1 / 2)].
Definition clkw (t : R) : R := pulse_wave 0 1 0 (1 / 4) (1 / 4) (1 * (1 / 2) - 1 / 4) 1 t.
Definition ckw (t : R) : bool := Rlt_bool (1 / 2) (clkw t).
Definition wv (l : list (string * R)) (nm : string) (t : R) : R := if String.eqb nm "CLK" then clkw t else P_CircuitControl.look l nm.
Definition tb_v := wv [("VDD", 1); ("VCM", 1 / 2); ("IN0_P", 1); ("OUT0_P", 1)]%string.
Definition fe_v := wv [("VDD", 1); ("VCM", 1 / 2); ("IN0_P", 1); ("OUT0_P", 1); ("X0_P", 3 / 4); ("X0_N", 1 / 4); ("VGND_0_P", 1 / 2); ("VGND_0_N", 1 / 2)]%string.
Definition w1 : waves := mkW tb_v fe_v (fun _ _ => 0) (fun _ _ => 0) (P_CircuitControl.va1 clkw) (P_CircuitControl.vd1 ckw).
Lemma ckw_ok : forall t, threshold 0 0 (clkw t - 1 / 2) (ckw t).
Proof. intro t. unfold threshold, ckw. split; intro H; [apply Rlt_bool_false|apply Rlt_bool_true]; lra. Qed.
(** the part of the laws that is the same for both front ends *)
Lemma w1_obeys anon danon kf kd (law : (string -> R) -> (string -> R) -> (string -> R) -> Prop) : k_terms kf = fe_terms 1 1 -> (forall l, node anon kf (Own l) = labname l) -> control_ckt S1 1 0 0 1 0 0 = Ok kd -> solves danon kd (w_dc w1) (w_dd w1) ->
  (forall nm nodes, In (LX nm nodes "digital_control") (lines anon kf) -> nodes = map (fun l => labname (updc l)) (dc_pins 1 1 1)) ->
  (forall t, law (fun a => w_fe w1 a t) (fun _ => 0) (fun _ => 0)) ->
  obeys anon danon (SourceProofs.tb_ckt 1 1 (1 / 4) sg1 1 1 (k_name kf)) kf kd law (state_nodes 1) w1.
Proof.
  intros Ht Ho Hd Hs Hdc Hl. destruct (SourceProofs.tb_all anon 1 1 (1 / 4) sg1 1 1 (k_name kf)) as [x E].
  assert (Ex : x = map (fun l => labname (af l)) (fe_terms 1 1)).
  { pose proof (tb_af anon 1 1 (1 / 4) sg1 1 1 (k_name kf)) as H. rewrite E in H. cbn [app In flat_map combine seq length sg1] in H.
    repeat (destruct H as [H|H]; [try discriminate H|]); [|destruct H]. now injection H. }
  assert (St : forall a, In a (state_nodes 1) -> exists c, forall t, w_fe w1 a t = c).
  { intros a Ha. cbn in Ha. destruct Ha as [<-|[<-|[]]]; [exists (3 / 4)|exists (1 / 4)]; intro t; reflexivity. }
  constructor.
  - reflexivity.
  - intros t l H0 H. rewrite E in H. cbn [app In flat_map combine seq length sg1] in H. cbn [w_tb w1].
    repeat (destruct H as [<-|H]; [split; cbn [source pulse_source]; try exact I; try (intros _); unfold tb_v, wv; cbn; try lra; try (unfold clkw; cbn; lra)|]); destruct H.
  - intros nm nodes H. rewrite E in H. cbn [app In flat_map combine seq length sg1] in H. repeat (destruct H as [H|H]; [try discriminate H|]); [|destruct H]. injection H as _ <-.
    rewrite Ex. unfold formals. rewrite Ht, (map_ext _ labname) by exact Ho. cbn. repeat constructor.
  - intros t _. apply Hl.
  - intros a t Ha _. destruct (St a Ha) as [c Hc]. apply const_cont with (c := c) (a := t - 1) (b := t + 1); [lra|]. intros; apply Hc.
  - intros a t Ha _ _. destruct (St a Ha) as [c Hc]. apply LinearOde.derivable_ext with (f := fct_cte c); [intro y; symmetry; apply Hc|]. apply derivable_pt_lim_const.
  - intros nm nodes H. destruct (control_formals danon _ _ _ _ _ _ _ Hd) as [F1 F2]. rewrite F2 in H. rewrite (Hdc nm nodes H), F1. cbn. repeat constructor.
  - exact Hs.
Qed.
(** it decides +1 at every edge *)
Lemma w1_no_ties : no_ties S1 (uw sg1) (edge 1 (1 / 4)) (xw w1) (so 1 (1 / 4) w1).
Proof.
  intros k o m Ho Hm. change (sM S1) with 1%nat in Hm. replace m with 0%nat by lia.
  rewrite (obs_nth S1 (P_CircuitControl.m11 1) (fun n => xw w1 n (edge 1 (1 / 4) k)) (fun l => uw sg1 l (edge 1 (1 / 4) k)) (so 1 (1 / 4) w1 k) o 0 P_CircuitControl.S1_valid eq_refl (Nat.lt_0_succ 0) Ho).
  change (sN S1) with 1%nat. change (sL S1) with 1%nat. change (sM S1) with 1%nat. rewrite !rsum_S, !rsum_0. cbn. unfold xw. cbn. lra.
Qed.
Example C102_opamp_ex : forall anon danon, exists G kt kf kd, aG S1 = Some G /\ valid S1 /\ aGt S1 <> None /\ opamp_frontend S1 1 = Ok kf /\
  testbench 1 1 (1 / 4) sg1 (sL S1) (sM S1) (k_name kf) = Ok kt /\ control_ckt S1 1 0 0 1 0 0 = Ok kd /\
  obeys anon danon kt kf kd (opamp_law anon kf) (state_nodes (sN S1)) w1 /\ no_ties S1 (uw sg1) (edge 1 (1 / 4)) (xw w1) (so 1 (1 / 4) w1) /\
  xw w1 0 (edge 1 (1 / 4) 0) = 1 / 2 /\ so 1 (1 / 4) w1 5 0 = 1.
Proof.
  intros anon danon. destruct (P_CircuitControl.solution_of clkw ckw ckw_ok danon) as (kd & Hd & Hs).
  exists (P_CircuitControl.m11 (-1)), (SourceProofs.tb_ckt 1 1 (1 / 4) sg1 1 1 "opamp_analog_frontend"). eexists. exists kd. split; [reflexivity|]. split; [exact P_CircuitControl.S1_valid|]. split; [discriminate|].
  split; [reflexivity|]. split; [reflexivity|]. split; [exact Hd|]. split; [|split; [exact w1_no_ties|split; unfold xw, so, ow; cbn; lra]].
  match goal with |- obeys _ _ _ ?k _ _ _ _ => change k with (OpampCircuit.op_ckt 1 1 1 (fun _ _ => 0) (fun _ _ => 1) (fun _ _ => -1) 1) end.
  apply (w1_obeys anon danon (OpampCircuit.op_ckt 1 1 1 (fun _ _ => 0) (fun _ _ => 1) (fun _ _ => -1) 1) kd); try assumption; try reflexivity.
  - apply (node_own anon _ _ (OpampCircuit.op_att_ok 1 1 1 (fun _ _ => 0) (fun _ _ => 1) (fun _ _ => -1) 1)).
  - intros nm nodes H. pose proof (dc_line anon 1 1 1 _ _ (OpampCircuit.op_att_ok 1 1 1 (fun _ _ => 0) (fun _ _ => 1) (fun _ _ => -1) 1)) as D.
    rewrite OpampCircuit.op_lines in H, D. unfold net_pairs, mat_pairs in H, D. cbn [seq flat_map app] in H, D. rewrite (Req_bool_true 0 0), (Req_bool_false 1 0), (Req_bool_false (-1) 0) in H, D by lra. cbn [app flat_map] in H, D. unfold OpampCircuit.pair_lines in H, D. cbn [app map In] in H, D.
    assert (D' := D (or_introl eq_refl) (fun c Hc => in_or_app _ _ _ (or_introl Hc))). clear D.
    repeat (destruct H as [H|H]; [try discriminate H|]); [|destruct H]. repeat (destruct D' as [D|D']; [try discriminate D|]); [|destruct D']. rewrite H in D. now injection D.
  - intro t. unfold opamp_law. rewrite OpampCircuit.op_lines. unfold net_pairs, mat_pairs. cbn [seq flat_map app]. rewrite (Req_bool_true 0 0), (Req_bool_false 1 0), (Req_bool_false (-1) 0) by lra. cbn [app flat_map].
    unfold OpampCircuit.pair_lines. cbn [rp_val rp_k rp_n rp_j]. rewrite (Rlt_bool_true (-1)), (Rlt_bool_false 1) by lra. rewrite (Rabs_left (-1)), (Rabs_right 1) by lra. cbn [map app].
    set (ls := _ :: _). intros l Hl. subst ls. cbn [In] in Hl.
    repeat (destruct Hl as [<-|Hl]; [cbn [OpampCircuit.op_line ideal_opamp emit dc_comp c_kind]; try exact I|]); [|destruct Hl]; try exact I.
    split; [cbn; lra|]. split; [cbn; lra|]. split; unfold kcl, total; cbn; field.
Qed.
(** the Gm-C front end of the same system, transconductances ideal *)
Example C102_gmc_ex : forall anon danon, exists G kt kf cs kd, aG S1 = Some G /\ gmc_frontend S1 1 None = Ok (kf, cs) /\
  testbench 1 1 (1 / 4) sg1 (sL S1) (sM S1) (k_name kf) = Ok kt /\ control_ckt S1 1 0 0 1 0 0 = Ok kd /\
  obeys anon danon kt kf kd (gmc_law anon cs kf (sN S1)) (state_nodes (sN S1)) w1.
Proof.
  intros anon danon. destruct (P_CircuitControl.solution_of clkw ckw ckw_ok danon) as (kd & Hd & Hs).
  exists (P_CircuitControl.m11 (-1)), (SourceProofs.tb_ckt 1 1 (1 / 4) sg1 1 1 "ota_frontend"). eexists. eexists. exists kd. split; [reflexivity|].
  split; [apply (GmCircuit.gmc_ok S1 1 None (P_CircuitControl.m11 (-1)) eq_refl); now left|]. split; [reflexivity|]. split; [exact Hd|].
  change (GmCircuit.gmc_ckt _ _ _ _) with (GmCircuit.gmc_ckt 1 1 1 1). change (GmCircuit.cells _ _ _ _ _ _ _ _) with (GmCircuit.cells 1 1 1 (fun _ _ => 0) (fun _ _ => 1) (fun _ _ => -1) 1 None).
  apply (w1_obeys anon danon (GmCircuit.gmc_ckt 1 1 1 1) kd); try assumption; try reflexivity.
  - apply (node_own anon _ _ (GmCircuit.fe_att_ok 1 1 1 1)).
  - intros nm nodes H. pose proof (dc_line anon 1 1 1 _ _ (GmCircuit.fe_att_ok 1 1 1 1) (or_introl eq_refl) (fun c Hc => in_or_app _ _ _ (or_introl Hc))) as D.
    rewrite GmCircuit.gmc_lines in H, D. cbn [seq flat_map app In GmCircuit.cap_lines] in H, D. unfold GmCircuit.gm_inst in H, D. cbn [app In] in H, D.
    repeat (destruct H as [H|H]; [try discriminate H|]); [|destruct H]. destruct D as [D|D]; [rewrite H in D; now injection D|]. exfalso.
    repeat (destruct D as [D|D]; [apply (f_equal (fun l => match l with LX _ _ s => s | _ => ""%string end)) in D; cbn in D; discriminate D|]). destruct D.
  - intros t a Ha. rewrite GmCircuit.gmc_flat. cbn [seq flat_map]. unfold GmCircuit.row_flat, GmCircuit.row_list, row_pairs. cbn [seq flat_map app].
    rewrite (Req_bool_true 0 0) by reflexivity. rewrite !Req_bool_false by lra. cbn [app map GmCircuit.flat_dc].
    unfold GmCircuit.flat_ota, GmCircuit.r_dc. cbn [rp_val rp_k rp_n rp_j]. try rewrite (Rlt_bool_false 1) by lra. try rewrite (Rlt_bool_true (-1)) by lra. rewrite ?(Rabs_right 1) by lra.
    rewrite ?(Rabs_right (1 * 1)) by lra. rewrite ?(Rabs_left (-1)), ?(Rabs_left (1 * -1)) by lra. cbn in Ha.
    destruct Ha as [<-|[<-|[]]]; unfold kcl, total; cbn; rewrite (Rlt_bool_false (1 * 1)), (Rlt_bool_true (-1 * 1)), (Rabs_left (-1 * 1)) by lra; cbn; field.
Qed.
Example C102_nominal_ex : exists G x s, aG S1 = Some G /\ nominal S1 G 1 (uw sg1) (edge 1 (1 / 4)) x s /\ no_ties S1 (uw sg1) (edge 1 (1 / 4)) x s /\ (sM S1 <= sMt S1)%nat /\
  (forall k, edge 1 (1 / 4) k < edge 1 (1 / 4) (Datatypes.S k)) /\ (forall l t, 1 * uw sg1 l t = uw sg1 l t) /\ (forall k, s k 0%nat = 1) /\ forall t, x 0%nat t = 1 / 2.
Proof.
  destruct (C102_opamp_ex (fun _ _ => ""%string) (fun _ _ => ""%string)) as (G & kt & kf & kd & H1 & H2 & H3 & H4 & H5 & H6 & H7 & H8 & _).
  exists G, (xw w1), (so 1 (1 / 4) w1). split; [exact H1|]. split; [eapply (C102_opamp _ _ 1 1 (1 / 4) sg1 S1 G 1); try eassumption; lra|]. split; [exact H8|]. split; [cbn; lia|].
  split; [intro k; unfold edge; rewrite S_INR; lra|]. split; [intros; ring|]. split; intros; unfold so, ow, xw; cbn; lra.
Qed.
