(** C93-C96: the circuits of the digital controls.
    [solves anon k va vd]: the node waveforms [va] (analog) and [vd] (digital) obey every line of the netlist of [k] and of its sub-circuits, with ideal
    XSPICE elements (XspiceLaws.v).  [anon] names anonymous terminals; all theorems hold for every choice.  [follows S ih il oh ol va cv m mt]
    (CircuitControlMain.v): control [m] decides, at the rising edges of the clock voltage [cv], on row [mt] of the control observation of [S] applied
    to the differential voltages of the nodes. *)
From Coq Require Import String Ascii List Bool Arith Reals Lia Lra.
From Verif Require Import Base LinAlg FirExtras Netlist NetlistProofs NetlistTree AnalogSystem AnalogProofs Circuits CircuitControl XspiceLaws CircuitControlProofs CircuitControlSem CircuitControlTop CircuitControlMain CircuitDither.
Import ListNotations.
Open Scope R_scope.

(** ** C93 *)
Theorem C93_decision : forall anon S T ih il oh ol k va vd m, valid S -> control_ckt S T ih il oh ol 0 = Ok k -> solves anon k va vd -> (m < sM S)%nat ->
  exists ck : R -> bool,
    (forall t, let x := va "CLK"%string t - va "VCM"%string t in (x < il -> ck t = false) /\ (ih < x -> ck t = true)) /\
    forall t0 o, control_observation S (dv va XX (sN S) t0) (Some (dv va IN (sL S) t0)) (Some (dv va SS (sM S) t0)) = Ok o ->
    exists q : bool, (let y := nth m o 0 + (oh + ol) / 2 - va "VCM"%string t0 in (y < il -> q = false) /\ (ih < y -> q = true)) /\ forall t1, latched ck t0 t1 ->
      va (labname (SS true m)) t1 = (if q then oh else ol) /\ va (labname (SS false m)) t1 = (if q then ol else oh).
Proof.
  intros anon S T ih il oh ol k va vd m V Hk Hs Hm.
  assert (F : follows S ih il oh ol va (va "CLK"%string) m (m - 0)) by (apply (control_follows anon S T ih il oh ol 0 k (dcards k) (ddefs k) va vd 0 m V Hk); auto; lia).
  rewrite Nat.sub_0_r in F. exact F.
Qed.
Print Assumptions C93_decision.
(** With the thresholds at the common mode, and that in the middle of the output levels, the decision is the sign of the observation. *)
Theorem C93_sign : forall anon S T oh ol k va vd m t0 t1 o, valid S -> control_ckt S T 0 0 oh ol 0 = Ok k -> solves anon k va vd -> (m < sM S)%nat ->
  (forall t, va "VCM"%string t = (oh + ol) / 2) -> t0 < t1 ->
  (exists e, 0 < e /\ forall s, t0 - e < s < t0 -> va "CLK"%string s < (oh + ol) / 2) ->
  (exists tf, t0 < tf <= t1 /\ (forall s, t0 < s < tf -> va "CLK"%string s > (oh + ol) / 2) /\ (forall s, tf < s < t1 -> va "CLK"%string s < (oh + ol) / 2)) ->
  control_observation S (dv va XX (sN S) t0) (Some (dv va IN (sL S) t0)) (Some (dv va SS (sM S) t0)) = Ok o ->
  (nth m o 0 > 0 -> va (labname (SS true m)) t1 = oh /\ va (labname (SS false m)) t1 = ol) /\
  (nth m o 0 < 0 -> va (labname (SS true m)) t1 = ol /\ va (labname (SS false m)) t1 = oh).
Proof.
  intros anon S T oh ol k va vd m t0 t1 o V Hk Hs Hm HV Ht (e & He & Hlo) (tf & Htf & Hh & Hl) Ho.
  destruct (C93_decision anon S T 0 0 oh ol k va vd m V Hk Hs Hm) as (ck & H1 & H2). cbv zeta in H1.
  assert (Up : forall t, va "CLK"%string t > (oh + ol) / 2 -> ck t = true) by (intros t H; apply H1; rewrite HV; lra).
  assert (Dn : forall t, va "CLK"%string t < (oh + ol) / 2 -> ck t = false) by (intros t H; apply H1; rewrite HV; lra).
  assert (La : latched ck t0 t1) by (apply (latched_shape ck t0 tf t1 e); auto).
  destruct (H2 t0 o Ho) as (q & Hq & HS). specialize (HS t1 La). cbv zeta in Hq. rewrite HV in Hq. split; intro Hn.
  - assert (q = true) by (apply Hq; lra). now subst q.
  - assert (q = false) by (apply Hq; lra). now subst q.
Qed.
Print Assumptions C93_sign.
(** One control signal per row of the observation, or no circuit. *)
Theorem C93_exists : forall S T ih il oh ol off,
  ((exists k, control_ckt S T ih il oh ol off = Ok k) <-> (sM S - off = sMt S)%nat) /\
  (aGt S <> None -> forall e, control_ckt S T ih il oh ol off = Exn e -> e = IndexError).
Proof. intros S T ih il oh ol off. split; [apply control_ok_iff|]. intros H e. now apply control_error. Qed.
Print Assumptions C93_exists.

(** ** C94 *)
Theorem C94_delayed : forall anon S T t0 ih il oh ol k va vd m, valid S -> phase_ckt S T t0 ih il oh ol 0 = Ok k -> solves anon k va vd -> (m < sM S)%nat ->
  exists d, nth_error t0 m = Some d /\ follows S ih il oh ol va (fun t => va "CLK"%string (t - d)) m m.
Proof.
  intros anon S T t0 ih il oh ol k va vd m V Hk Hs Hm. assert (Ht : (sM S <= length t0)%nat) by (destruct (proj1 (phase_ok_iff S T t0 ih il oh ol 0) (ex_intro _ k Hk)) as [_ [H|H]]; lia).
  exists (nth m t0 0). split; [apply nth_error_nth'; lia|].
  assert (F : follows S ih il oh ol va (fun t => va "CLK"%string (t - nth m t0 0)) m (m - 0)) by (apply (phase_follows anon S T t0 ih il oh ol 0 k (dcards k) (ddefs k) va vd 0 m V Hk); auto; lia).
  now rewrite Nat.sub_0_r in F.
Qed.
Print Assumptions C94_delayed.
Theorem C94_exists : forall S T t0 ih il oh ol off,
  (exists k, phase_ckt S T t0 ih il oh ol off = Ok k) <-> (sM S - off = sMt S)%nat /\ (sM S <= off \/ sM S <= length t0)%nat.
Proof. exact phase_ok_iff. Qed.
Print Assumptions C94_exists.

(** ** C95 *)
(** The deterministic controls of a dither control are those after the random ones, and decide on the rows from 0 on. *)
Theorem C95_deterministic : forall anon S c ih il oh ol w k va vd m, valid S -> dither_ckt S c ih il oh ol w = Ok k -> solves anon k va vd -> d_multi c = false ->
  (d_K c <= m < sM S)%nat -> follows S ih il oh ol va (va "CLK"%string) m (m - d_K c).
Proof.
  intros anon S c ih il oh ol w k va vd m V Hk Hs Em Hm. destruct (dith_inv _ _ _ _ _ _ _ _ Hk) as (dc & _ & Hdc & ->).
  pose proof (dith_follows anon S c ih il oh ol w dc Hdc va vd Hs m V Hm) as F. rewrite Em in F.
  apply (follows_ext S ih il oh ol va va (va "CLK"%string) (fun t => va "CLK"%string (t - 0))); [reflexivity|intro t; now rewrite Rminus_0_r|lia|exact F].
Qed.
Print Assumptions C95_deterministic.
(** A multi-phase deterministic control cannot be dithered: its delays are read at the index of the control. *)
Theorem C95_multi_phase : forall S c ih il oh ol w, (0 < d_K c < sM S)%nat -> d_multi c = true -> length (d_t0 c) = (sM S - d_K c)%nat ->
  forall k, dither_ckt S c ih il oh ol w <> Ok k.
Proof.
  intros S c ih il oh ol w HK Em Hl k Hk. destruct (dith_inv _ _ _ _ _ _ _ _ Hk) as (dc & _ & Hdc & _). rewrite Em in Hdc.
  destruct (proj1 (phase_ok_iff S (d_T c) (d_t0 c) ih il oh ol (d_K c)) (ex_intro _ dc Hdc)) as [_ [H|H]]; lia.
Qed.
Print Assumptions C95_multi_phase.
(** The random controls put out the sequence, sampled at the rising edges of the clock seen against ground. *)
Theorem C95_random : forall anon S c ih il oh ol w k va vd, dither_ckt S c ih il oh ol w = Ok k -> solves anon k va vd -> (0 < d_K c)%nat ->
  exists ck : R -> bool, (forall t, (va "CLK"%string t < il -> ck t = false) /\ (ih < va "CLK"%string t -> ck t = true)) /\
  forall m t0 t1 j, (m < d_K c)%nat -> latched ck t0 t1 -> INR j * d_T c <= t0 < (INR j + 1) * d_T c ->
    va (labname (SS true m)) t1 = (if d_seq c j m then oh else ol) /\ va (labname (SS false m)) t1 = (if d_seq c j m then ol else oh).
Proof.
  intros anon S c ih il oh ol w k va vd Hk Hs HK. destruct (dith_inv _ _ _ _ _ _ _ _ Hk) as (dc & _ & Hdc & ->). exact (dith_random anon S c ih il oh ol w dc Hdc va vd Hs HK).
Qed.
Print Assumptions C95_random.
(** All random controls drive the same pair of nets: their outputs are the same waveform. *)
Theorem C95_shared : forall anon S c ih il oh ol w k va vd m m', dither_ckt S c ih il oh ol w = Ok k -> solves anon k va vd -> (m < d_K c)%nat -> (m' < d_K c)%nat ->
  forall t, va (labname (SS true m)) t = va (labname (SS true m')) t /\ va (labname (SS false m)) t = va (labname (SS false m')) t.
Proof.
  intros anon S c ih il oh ol w k va vd m m' Hk Hs Hm Hm'. destruct (dith_inv _ _ _ _ _ _ _ _ Hk) as (dc & _ & Hdc & ->). exact (dith_short anon S c ih il oh ol w dc Hdc va vd Hs m m' Hm Hm').
Qed.
Print Assumptions C95_shared.
(** The timing parameters given to a dither control with deterministic controls do not reach the netlist. *)
Theorem C95_timing : forall S c ih il oh ol w w' k k', dither_ckt S c ih il oh ol w = Ok k -> dither_ckt S c ih il oh ol w' = Ok k' -> (d_K c < sM S)%nat ->
  dcards k = dcards k' /\ (forall anon, dlines anon k = dlines anon k' /\ dformals anon k = dformals anon k') /\ tl (ddefs k) = tl (ddefs k').
Proof. exact dith_timing. Qed.
Print Assumptions C95_timing.
Theorem C95_timing_all : forall S c ih il oh ol w k, dither_ckt S c ih il oh ol w = Ok k -> d_K c = sM S -> (0 < sM S)%nat ->
  In (adc_model il ih (t_rdelay w) (t_fdelay w)) (dcards k) /\ In (dff_model (t_clk w) (t_set w) (t_res w) 1 (t_rdelay w) (t_fdelay w)) (dcards k) /\
  In (dac_model ol oh ((oh + ol) / 2) (t_load w) (t_rise w) (t_fall w)) (dcards k).
Proof. intros S c ih il oh ol w k Hk HK HM. rewrite (dith_timing_all S c ih il oh ol w k Hk HK HM). cbn. tauto. Qed.
Print Assumptions C95_timing_all.

(** ** C96 *)
(** the nodes whose value a line determines *)
Definition driven (l : dline) : list string :=
  match l with
  | DSum _ _ out _ => [out] | DAdc _ _ _ out _ => [out] | DDff _ _ _ _ _ q qn _ => [q; qn] | DDac _ _ out _ => [out] | DDly _ _ out _ _ => [out]
  | DSrc _ outs _ => outs | DX _ _ _ => []
  end.
Theorem C96_differential : forall anon nm il ih ol oh undef load clk trise tfall rdelay fdelay set res,
  NoDup (flat_map driven (dlines anon (diff_comparator nm il ih ol oh undef load clk trise tfall rdelay fdelay set res))).
Proof.
  intros. destruct (cmp_lines anon il ih ol oh nm undef load clk trise tfall rdelay fdelay set res) as [E _]. cbv zeta in E. rewrite E. cbn.
  repeat (constructor; [cbn; intro H; repeat (destruct H as [H|H]; [discriminate|]); exact H|]). constructor.
Qed.
Print Assumptions C96_differential.
(** The single-ended comparator: the digital output of its input ADC and the analog output of the circuit are one node. *)
Theorem C96_single_refuted : exists anon nm il ih ol oh undef load clk trise tfall rdelay fdelay set res, il <= ih /\ ol < oh /\
  let k := comparator nm il ih ol oh undef load clk trise tfall rdelay fdelay set res in
  In "OUT"%string (dformals anon k) /\
  (exists p r md, In (DAdc "Ain_adc" p r "OUT" md) (dlines anon k)) /\ (exists i md, In (DDac "Adac" i "OUT" md) (dlines anon k)) /\ ~ NoDup (flat_map driven (dlines anon k)).
Proof.
  exists (fun _ _ => ""%string), "c"%string, 0, 0, 0, 1, 0, 0, 0, 0, 0, 0, 0, 0, 0. split; [lra|]. split; [lra|]. cbv zeta. split; [|split; [|split]].
  - vm_compute. tauto.
  - do 3 eexists. right. left. vm_compute. reflexivity.
  - do 2 eexists. do 3 right. left. vm_compute. reflexivity.
  - intro H. assert (E : flat_map driven (dlines (fun _ _ => ""%string) (comparator "c" 0 0 0 1 0 0 0 0 0 0 0 0 0)) = ["CLKD"; "OUT"; "F_OUT_P"; "F_OUT_N"; "OUT"]%string) by (vm_compute; reflexivity).
    rewrite E in H. inversion H as [|? ? _ K1]. inversion K1 as [|? ? K2 _]. apply K2. cbn. tauto.
Qed.
Print Assumptions C96_single_refuted.
(** ** Non-vacuity: a one-state system whose comparator sees a positive state at the clock edge at time 0 *)
Lemma sat_intro anon cards defs k va vd : (forall l, In l (dlines anon k) -> law cards va vd l) ->
  (forall nm nodes sub, In (DX nm nodes sub) (dlines anon k) -> exists d va' vd', sub_def defs sub = Some d /\
     Forall2 (fun f a => forall t, va' f t = va a t /\ vd' f t = vd a t) (dformals anon d) nodes /\ forall n, sat anon cards defs n d va' vd') ->
  forall n, sat anon cards defs n k va vd.
Proof.
  intros H1 H2 n. destruct n as [|n]; (split; [exact H1|]); [exact I|]. intros nm nodes sub H. destruct (H2 nm nodes sub H) as (d & va' & vd' & E & F & G). exists d, va', vd'. auto.
Qed.
Definition m11 (x : R) : nd2 Rring := mk2 (K := Rring) 1 1 (fun _ _ => x).
Definition S1 : asys Rring := mkAS (K := Rring) (m11 0) (m11 1) (m11 1) (Some (m11 (-1))) (Some (m11 1)) (m11 0) (m11 0) (m11 0).
Lemma S1_valid : valid S1.
Proof. repeat constructor. Qed.
Fixpoint look (l : list (string * R)) (n : string) : R := match l with [] => 0 | (a, x) :: l => if String.eqb n a then x else look l n end.
Definition clk1 (t : R) : R := if Rlt_dec t 0 then 0 else 1.
Definition ck1 (t : R) : bool := if Rlt_dec t 0 then false else true.
Definition va1 (f : R -> R) (nm : string) (t : R) : R :=
  if String.eqb nm "CLK" then f t else look [("VDD", 1); ("VCM", 1 / 2); ("X0_P", 3 / 4); ("X0_N", 1 / 4); ("IN0_P", 1); ("S0_P", 1); ("STILDE", 1); ("IN", 1); ("OUT_P", 1)]%string nm.
Definition vd1 (f : R -> bool) (nm : string) (t : R) : bool := if String.eqb nm "CLKD" then f t else String.eqb nm "OUT" || String.eqb nm "F_OUT_P".
Ltac each H := repeat (destruct H as [H|H]; [first [discriminate H|injection H as <- <- <-|subst]|]).
Lemma cmp_sat anon cards defs T (f : R -> R) (g : R -> bool) : (forall t, threshold 0 0 (f t - 1 / 2) (g t)) ->
  card cards "adc" = Some (PAdc 0 0 (T / 1000) (T / 1000)) -> card cards "dflip" = Some (PDff 0 fs fs 1 (T / 1000) (T / 1000)) ->
  (exists a b c d, card cards "dac" = Some (PDac 0 1 a b c d)) -> forall n, sat anon cards defs n (cmp_ckt T 0 0 1 0) (va1 f) (vd1 g).
Proof.
  intros Hf E1 E2 (a & b & c & d & E3). apply sat_intro.
  - destruct (cmp_lines anon 0 0 0 1 "clocked_comparator" ((1 - 0) / 2) (/ 10 ^ 12) 0 (T / 100) (T / 100) (T / 1000) (T / 1000) fs fs) as [E _]. cbv zeta in E. fold (cmp_ckt T 0 0 1 0) in E.
    intros l Hl. rewrite E in Hl. cbn [In] in Hl. each Hl; [| | | | |destruct Hl]; cbn [law]; rewrite ?E1, ?E2, ?E3; cbn.
    + intro t. apply Hf.
    + intro t. split; [intro; exfalso; lra|reflexivity].
    + intros; auto.
    + reflexivity.
    + reflexivity.
  - intros nm nodes sub Hl. destruct (cmp_lines anon 0 0 0 1 "clocked_comparator" ((1 - 0) / 2) (/ 10 ^ 12) 0 (T / 100) (T / 100) (T / 1000) (T / 1000) fs fs) as [E _]. cbv zeta in E. fold (cmp_ckt T 0 0 1 0) in E.
    rewrite E in Hl. cbn [In] in Hl. repeat (destruct Hl as [Hl|Hl]; [discriminate Hl|]). destruct Hl.
Qed.
Lemma mic_sat anon cards defs T (f : R -> R) (g : R -> bool) d : (forall t, threshold 0 0 (f t - 1 / 2) (g t)) -> mic_ckt S1 T 0 0 0 0 1 0 = Ok d ->
  card cards "adc" = Some (PAdc 0 0 (T / 1000) (T / 1000)) -> card cards "dflip" = Some (PDff 0 fs fs 1 (T / 1000) (T / 1000)) ->
  (exists a b c d, card cards "dac" = Some (PDac 0 1 a b c d)) -> card cards "sum_0" = Some (PSum [0; 0; 0] [1; 0; 0] ((1 - 0) / 2 + 0) 1) ->
  sub_def defs "clocked_comparator" = Some (cmp_ckt T 0 0 1 0) -> forall n, sat anon cards defs n d (va1 f) (vd1 g).
Proof.
  intros Hf Hd E1 E2 E3 E4 E5. apply ok_inj in Hd. subst d.
  match goal with |- forall n, sat _ _ _ n ?d _ _ => assert (E : dlines anon d = [DSum "As" [("X0_P", "X0_N"); ("IN0_P", "IN0_N"); ("S0_P", "S0_N")] "STILDE" "sum_0";
      DX "Xcomp" ["CLK"; "STILDE"; "S0_P"; "S0_N"; "VCM"] "clocked_comparator"]%string) by (vm_compute; reflexivity) end.
  apply sat_intro.
  - intros l Hl. rewrite E in Hl. cbn [In] in Hl. each Hl; [| |destruct Hl]; cbn [law]; [|exact I]. rewrite E4. intro t. cbn. lra.
  - intros nm nodes sub Hl. rewrite E in Hl. cbn [In] in Hl. each Hl; [|destruct Hl]. exists (cmp_ckt T 0 0 1 0), (va1 f), (vd1 g). split; [exact E5|]. split; [|now apply cmp_sat].
    destruct (cmp_lines anon 0 0 0 1 "clocked_comparator" ((1 - 0) / 2) (/ 10 ^ 12) 0 (T / 100) (T / 100) (T / 1000) (T / 1000) fs fs) as [_ F]. cbv zeta in F. fold (cmp_ckt T 0 0 1 0) in F. rewrite F.
    repeat constructor.
Qed.
Lemma clk_ok d : forall t, threshold 0 0 (clk1 (t - d) - 1 / 2) (ck1 (t - d)).
Proof. intro t. unfold threshold, clk1, ck1. destruct (Rlt_dec (t - d) 0); split; intro H; try reflexivity; exfalso; lra. Qed.
Lemma solution_of f g : (forall t, threshold 0 0 (f t - 1 / 2) (g t)) -> forall anon, exists k, control_ckt S1 1 0 0 1 0 0 = Ok k /\ solves anon k (va1 f) (vd1 g).
Proof.
  intros Hf anon. destruct (proj2 (control_ok_iff S1 1 0 0 1 0 0)) as [k Hk]; [reflexivity|]. exists k. split; [exact Hk|]. apply ok_inj in Hk. subst k. unfold solves.
  match goal with |- forall n, sat _ _ _ n ?d _ _ => assert (E : dlines anon d = [DX "Xmic_0" ["VSS"; "VDD"; "CLK"; "VCM"; "X0_P"; "X0_N"; "IN0_P"; "IN0_N"; "S0_P"; "S0_N"] "multi_input_comparator_0"]%string) by (vm_compute; reflexivity) end.
  apply sat_intro.
  - intros l Hl. rewrite E in Hl. cbn [In] in Hl. each Hl; [|destruct Hl]. exact I.
  - intros nm nodes sub Hl. rewrite E in Hl. cbn [In] in Hl. each Hl; [|destruct Hl]. eexists. exists (va1 f), (vd1 g). split; [reflexivity|]. split.
    + match goal with |- Forall2 _ ?x _ => assert (F : x = ["VSS"; "VDD"; "CLK"; "VCM"; "X0_P"; "X0_N"; "IN0_P"; "IN0_N"; "S0_P"; "S0_N"]%string) by (vm_compute; reflexivity) end. rewrite F. repeat constructor.
    + apply mic_sat with (T := 1); try reflexivity.
      * exact Hf.
      * do 4 eexists. reflexivity.
Qed.
Lemma C93_solution : forall anon, exists k, control_ckt S1 1 0 0 1 0 0 = Ok k /\ solves anon k (va1 clk1) (vd1 ck1).
Proof. apply solution_of. intro t. pose proof (clk_ok 0 t) as C. now rewrite Rminus_0_r in C. Qed.
(** and the decision it makes *)
Lemma ck1_latched d t1 : d < t1 -> latched (fun t => ck1 (t - d)) d t1.
Proof. intro H. unfold ck1. apply (latched_shape _ d t1 t1 1); try lra; intros s Hs; destruct (Rlt_dec (s - d) 0); try reflexivity; lra. Qed.
Example C93_ex : forall anon, exists k va vd o, valid S1 /\ control_ckt S1 1 0 0 1 0 0 = Ok k /\ solves anon k va vd /\ (0 < sM S1)%nat /\
  (forall t, va "VCM"%string t = (1 + 0) / 2) /\ (forall s, 0 - 1 < s < 0 -> va "CLK"%string s < (1 + 0) / 2) /\ (forall s, 0 < s < 3 -> va "CLK"%string s > (1 + 0) / 2) /\
  control_observation S1 (dv va XX (sN S1) 0) (Some (dv va IN (sL S1) 0)) (Some (dv va SS (sM S1) 0)) = Ok o /\ nth 0 o 0 > 0 /\ va (labname (SS true 0)) 3 = 1.
Proof.
  intro anon. destruct (C93_solution anon) as (k & H1 & H2). exists k, (va1 clk1), (vd1 ck1). eexists. split; [exact S1_valid|]. split; [exact H1|]. split; [exact H2|]. split; [cbn; lia|].
  split; [intro t; cbn; lra|]. unfold va1, clk1. cbn [String.eqb Ascii.eqb Bool.eqb]. split; [intros s Hs; destruct (Rlt_dec s 0); lra|]. split; [intros s Hs; destruct (Rlt_dec s 0); lra|].
  split; [reflexivity|]. split; [cbn; lra|]. reflexivity.
Qed.
(** one comparator, its clock late by 1/4 *)
Lemma C94_solution : forall anon, exists k, phase_ckt S1 1 [1 / 4] 0 0 1 0 0 = Ok k /\
  solves anon k (fun nm t => if String.eqb nm "CLK_0" then clk1 (t - 1 / 4) else va1 clk1 nm t) (vd1 (fun t => ck1 (t - 1 / 4))).
Proof.
  intro anon. destruct (proj2 (phase_ok_iff S1 1 [1 / 4] 0 0 1 0 0)) as [k Hk]; [split; [reflexivity|right; cbn; lia]|]. exists k. split; [exact Hk|]. apply ok_inj in Hk. subst k. unfold solves.
  match goal with |- forall n, sat _ _ _ n ?d _ _ => assert (E : dlines anon d = [DX "Xmic_0" ["VSS"; "VDD"; "CLK_0"; "VCM"; "X0_P"; "X0_N"; "IN0_P"; "IN0_N"; "S0_P"; "S0_N"] "multi_input_comparator_0";
    DDly "A_delay_0" "CLK" "CLK_0" "VDD" "analog_delay_0"]%string) by (vm_compute; reflexivity);
    assert (Ed : card (dcards d) "analog_delay_0" = Some (PDly (1 / 4))) by reflexivity end.
  apply sat_intro.
  - intros l Hl. rewrite E in Hl. cbn [In] in Hl. each Hl; [| |destruct Hl]; [exact I|]. cbn [law]. rewrite Ed. intro t. reflexivity.
  - intros nm nodes sub Hl. rewrite E in Hl. cbn [In] in Hl. each Hl; [|destruct Hl]. eexists. exists (va1 (fun t => clk1 (t - 1 / 4))), (vd1 (fun t => ck1 (t - 1 / 4))). split; [reflexivity|]. split.
    + match goal with |- Forall2 _ ?x _ => assert (F : x = ["VSS"; "VDD"; "CLK"; "VCM"; "X0_P"; "X0_N"; "IN0_P"; "IN0_N"; "S0_P"; "S0_N"]%string) by (vm_compute; reflexivity) end. rewrite F. repeat constructor.
    + apply mic_sat with (T := 1); try reflexivity.
      * apply clk_ok.
      * do 4 eexists. reflexivity.
Qed.
Example C94_ex : forall anon, exists k va vd, valid S1 /\ phase_ckt S1 1 [1 / 4] 0 0 1 0 0 = Ok k /\ solves anon k va vd /\ (0 < sM S1)%nat /\ latched (fun t => ck1 (t - 1 / 4)) (1 / 4) 3 /\
  (forall t, threshold 0 0 (va "CLK"%string (t - 1 / 4) - va "VCM"%string t) (ck1 (t - 1 / 4))).
Proof.
  intro anon. destruct (C94_solution anon) as (k & H1 & H2). exists k. do 2 eexists. split; [exact S1_valid|]. split; [exact H1|]. split; [exact H2|]. split; [cbn; lia|]. split.
  - apply (ck1_latched (1 / 4)). lra.
  - exact (clk_ok (1 / 4)).
Qed.
(** two controls, the first random: a sequence that is low from time 0 and a comparator that sees a positive state *)
Definition m2 (r c : nat) (f : nat -> nat -> R) : nd2 Rring := mk2 (K := Rring) r c f.
Definition S2 : asys Rring := mkAS (K := Rring) (m11 0) (m11 1) (m11 1) (Some (m2 1 2 (fun _ _ => -1))) (Some (m11 1)) (m11 0) (m11 0) (m2 1 2 (fun _ _ => 0)).
Lemma S2_valid : valid S2.
Proof. repeat constructor. Qed.
Definition c2 : dither := mkDither 1 1 false [0] (fun _ _ => false).
Definition w2 : timing := mkTiming 0 0 0 0 0 0 0 0.
Definition clk2 (t : R) : R := if Rlt_dec t 0 then -1 else 1.
Definition va2 (nm : string) (t : R) : R :=
  if String.eqb nm "CLK" then clk2 t else look [("VCM", 1 / 2); ("X0_P", 3 / 4); ("X0_N", 1 / 4); ("S0_N", 1); ("S1_P", 1); ("STILDE", 1); ("IN", 1); ("OUT_P", 1)]%string nm.
Definition vd2 (nm : string) (t : R) : bool := if String.eqb nm "OUT" then ck1 t else if String.eqb nm "F_OUT_N" then true else false.
Lemma clk2_ok : forall t, threshold 0 0 (clk2 t - 1 / 2) (ck1 t).
Proof. intro t. unfold threshold, clk2, ck1. destruct (Rlt_dec t 0); split; intro H; try reflexivity; exfalso; lra. Qed.
Lemma C95_solution : forall anon, exists k, dither_ckt S2 c2 0 0 1 0 w2 = Ok k /\ solves anon k va2 vd2.
Proof.
  intro anon. destruct (proj2 (control_ok_iff S2 1 0 0 1 0 1)) as [dc Hk]; [reflexivity|]. assert (exists k, dither_ckt S2 c2 0 0 1 0 w2 = Ok k) as [k Hk'] by (unfold dither_ckt; cbn [d_multi c2 d_T d_K]; rewrite Hk; eexists; reflexivity).
  exists k. split; [exact Hk'|]. apply ok_inj in Hk'. subst k. unfold solves.
  match goal with |- forall n, sat _ ?cs ?ds n ?d _ _ =>
    assert (E : dlines anon d = [DX "Xdc" ["VSS"; "VDD"; "CLK"; "VCM"; "X0_P"; "X0_N"; "IN0_P"; "IN0_N"; "S0_P"; "S1_P"; "S0_N"; "S1_N"] "digital_control"; DSrc "Ars" ["RS_0"] "r_source";
      DAdc "Aclk_adc" "CLK" None "OUT" "adc"; DDff "Adffp_0" "RS_0" "OUT" "SET" "RES" "F_OUT_P" "F_OUT_N" "dflip"; DDac "Adac_p_0" "F_OUT_P" "S0_P" "dac"; DDac "Adac_n_0" "F_OUT_N" "S0_N" "dac"]%string) by (vm_compute; reflexivity);
    assert (E1 : card cs "adc" = Some (PAdc 0 0 (1 / 1000) (1 / 1000))) by reflexivity;
    assert (E2 : card cs "dflip" = Some (PDff 0 fs fs 1 (1 / 1000) (1 / 1000))) by reflexivity;
    assert (E3 : exists x y z u, card cs "dac" = Some (PDac 0 1 x y z u)) by (do 4 eexists; reflexivity);
    assert (E4 : card cs "r_source" = Some (PSrc 1 (fun _ _ => false))) by reflexivity;
    assert (E5 : card cs "sum_0" = Some (PSum [0; 0; 0; 0] [1; 0; 0; 0] ((1 - 0) / 2 + 0) 1)) by reflexivity;
    assert (E6 : sub_def ds "clocked_comparator" = Some (cmp_ckt 1 0 0 1 0)) by reflexivity
  end.
  apply sat_intro.
  - intros l Hl. rewrite E in Hl. cbn [In] in Hl. destruct E3 as (a & b & c & d & E3). each Hl; [| | | | | |destruct Hl]; cbn [law]; rewrite ?E1, ?E2, ?E3, ?E4.
    + exact I.
    + intros i j t nm H _. destruct i as [|[|]]; [|discriminate H|discriminate H]. injection H as <-. reflexivity.
    + intro t. unfold va2, vd2. cbn. unfold clk2, ck1. destruct (Rlt_dec t 0); split; intro H; try reflexivity; exfalso; lra.
    + intros; auto.
    + reflexivity.
    + reflexivity.
  - intros nm nodes sub Hl. rewrite E in Hl. cbn [In] in Hl. each Hl; [|destruct Hl]. eexists. exists va2, vd2. split; [reflexivity|]. split.
    + match goal with |- Forall2 _ ?x _ => assert (F : x = ["VSS"; "VDD"; "CLK"; "VCM"; "X0_P"; "X0_N"; "IN0_P"; "IN0_N"; "S0_P"; "S1_P"; "S0_N"; "S1_N"]%string) by (vm_compute; reflexivity) end. rewrite F. repeat constructor.
    + match goal with |- forall n, sat _ _ _ n ?d _ _ => assert (E' : dlines anon d = [DX "Xmic_1" ["VSS"; "VDD"; "CLK"; "VCM"; "X0_P"; "X0_N"; "IN0_P"; "IN0_N"; "S0_P"; "S1_P"; "S0_N"; "S1_N"] "multi_input_comparator_1"]%string) by (vm_compute; reflexivity) end.
      apply sat_intro.
      * intros l Hl. rewrite E' in Hl. cbn [In] in Hl. each Hl; [|destruct Hl]. exact I.
      * intros nm nodes sub Hl. rewrite E' in Hl. cbn [In] in Hl. each Hl; [|destruct Hl]. eexists. exists va2, vd2. split; [reflexivity|]. split.
        -- match goal with |- Forall2 _ ?x _ => assert (F : x = ["VSS"; "VDD"; "CLK"; "VCM"; "X0_P"; "X0_N"; "IN0_P"; "IN0_N"; "S0_P"; "S1_P"; "S0_N"; "S1_N"]%string) by (vm_compute; reflexivity) end. rewrite F. repeat constructor.
        -- match goal with |- forall n, sat _ _ _ n ?d _ _ => assert (E'' : dlines anon d = [DSum "As" [("X0_P", "X0_N"); ("IN0_P", "IN0_N"); ("S0_P", "S0_N"); ("S1_P", "S1_N")] "STILDE" "sum_0";
             DX "Xcomp" ["CLK"; "STILDE"; "S1_P"; "S1_N"; "VCM"] "clocked_comparator"]%string) by (vm_compute; reflexivity) end.
           apply sat_intro.
           ++ intros l Hl. rewrite E'' in Hl. cbn [In] in Hl. each Hl; [| |destruct Hl]; cbn [law]; [|exact I]. rewrite E5. intro t. cbn. lra.
           ++ intros nm nodes sub Hl. rewrite E'' in Hl. cbn [In] in Hl. each Hl; [|destruct Hl]. exists (cmp_ckt 1 0 0 1 0), (va1 clk2), (vd1 ck1). split; [exact E6|]. split; [|now apply cmp_sat; [apply clk2_ok| | |]].
              destruct (cmp_lines anon 0 0 0 1 "clocked_comparator" ((1 - 0) / 2) (/ 10 ^ 12) 0 (1 / 100) (1 / 100) (1 / 1000) (1 / 1000) fs fs) as [_ F]. cbv zeta in F. fold (cmp_ckt 1 0 0 1 0) in F. rewrite F.
              repeat constructor; try (intro t; split; reflexivity).
Qed.
Example C95_ex : forall anon, exists k va vd, valid S2 /\ dither_ckt S2 c2 0 0 1 0 w2 = Ok k /\ solves anon k va vd /\ d_multi c2 = false /\ (0 < d_K c2 < sM S2)%nat /\
  latched ck1 0 (1 / 2) /\ (forall t, threshold 0 0 (va "CLK"%string t) (ck1 t)) /\ INR 0 * d_T c2 <= 0 < (INR 0 + 1) * d_T c2 /\ va (labname (SS true 0)) (1 / 2) = 0.
Proof.
  intro anon. destruct (C95_solution anon) as (k & H1 & H2). exists k, va2, vd2. split; [exact S2_valid|]. split; [exact H1|]. split; [exact H2|]. split; [reflexivity|]. split; [cbn; lia|].
  assert (R0 : latched ck1 0 (1 / 2)) by (unfold ck1; apply (latched_shape _ 0 (1 / 2) (1 / 2) 1); try lra; intros s Hs; destruct (Rlt_dec s 0); try reflexivity; lra).
  split; [exact R0|]. split; [|split; [cbn; lra|reflexivity]].
  intro t. unfold threshold, va2, ck1, clk2. cbn [String.eqb Ascii.eqb Bool.eqb]. destruct (Rlt_dec t 0); split; intro H; try reflexivity; exfalso; lra.
Qed.
(** Two random controls with different sequences: no waveforms obey the netlist once the clock rises. *)
Definition S3 : asys Rring := mkAS (K := Rring) (m11 0) (m11 1) (m11 1) (Some (m2 1 3 (fun _ _ => -1))) (Some (m11 1)) (m11 0) (m11 0) (m2 1 3 (fun _ _ => 0)).
Definition c3 : dither := mkDither 2 1 false [0] (fun _ m => Nat.eqb m 0).
Theorem C95_independent_refuted : exists S c ih il oh ol w k, valid S /\ d_K c = 2%nat /\ d_multi c = false /\ il <= ih /\ ol < oh /\ dither_ckt S c ih il oh ol w = Ok k /\
  forall anon va vd, solves anon k va vd -> ~ (forall t, va "CLK"%string t = if Rlt_dec t 0 then -1 else 1).
Proof.
  destruct (proj2 (control_ok_iff S3 1 0 0 1 0 2)) as [dc Hk]; [reflexivity|]. assert (exists k, dither_ckt S3 c3 0 0 1 0 w2 = Ok k) as [k Hk'] by (unfold dither_ckt; cbn [d_multi c3 d_T d_K]; rewrite Hk; eexists; reflexivity).
  exists S3, c3, 0, 0, 1, 0, w2, k. split; [repeat constructor|]. split; [reflexivity|]. split; [reflexivity|]. split; [lra|]. split; [lra|]. split; [exact Hk'|].
  intros anon va vd Hs Hc. destruct (C95_random anon S3 c3 0 0 1 0 w2 k va vd Hk' Hs) as (ck & H1 & H2); [cbn; lia|].
  assert (Up : forall t, 0 <= t -> ck t = true) by (intros t Ht; apply H1; rewrite Hc; destruct (Rlt_dec t 0); lra).
  assert (Dn : forall t, t < 0 -> ck t = false) by (intros t Ht; apply H1; rewrite Hc; destruct (Rlt_dec t 0); lra).
  assert (La : latched ck 0 (1 / 2)) by (apply (latched_shape _ 0 (1 / 2) (1 / 2) 1); try lra; intros s Hs'; first [apply Up|apply Dn|idtac]; lra).
  assert (J : INR 0 * d_T c3 <= 0 < (INR 0 + 1) * d_T c3) by (cbn; lra).
  destruct (H2 0%nat 0 (1 / 2) 0%nat (Nat.lt_0_succ 1) La J) as [A _], (H2 1%nat 0 (1 / 2) 0%nat (Nat.lt_succ_diag_r 1) La J) as [B _].
  destruct (C95_shared anon S3 c3 0 0 1 0 w2 k va vd 0 1 Hk' Hs (Nat.lt_0_succ 1) (Nat.lt_succ_diag_r 1) (1 / 2)) as [E _]. cbn [d_seq c3 Nat.eqb] in A, B. lra.
Qed.
Print Assumptions C95_independent_refuted.
(** the multi-phase case: two phases dithered by one *)
Example C95_multi_ex : exists (S : asys Rring) c, (0 < d_K c < sM S)%nat /\ d_multi c = true /\ length (d_t0 c) = (sM S - d_K c)%nat /\ (sM S - d_K c = sMt S)%nat.
Proof.
  exists (mkAS (K := Rring) (m11 0) (m11 1) (m11 1) (Some (m2 1 3 (fun _ _ => -1))) (Some (m2 2 1 (fun _ _ => 1))) (m11 0) (m2 2 1 (fun _ _ => 0)) (m2 2 3 (fun _ _ => 0))), (mkDither 1 1 true [0; 1 / 2] (fun _ _ => true)).
  cbn. lia.
Qed.
Example C95_timing_ex : exists k k', dither_ckt S2 c2 0 0 1 0 w2 = Ok k /\ dither_ckt S2 c2 0 0 1 0 (mkTiming 1 1 1 1 1 1 1 1) = Ok k' /\ (d_K c2 < sM S2)%nat.
Proof.
  destruct (proj2 (control_ok_iff S2 1 0 0 1 0 1)) as [dc Hk]; [reflexivity|]. unfold dither_ckt. cbn [d_multi c2 d_T d_K]. rewrite Hk. do 2 eexists. split; [reflexivity|]. split; [reflexivity|]. cbn. lia.
Qed.
