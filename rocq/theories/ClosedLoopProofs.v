(** The closed loop of the emitted test bench. *)
From Coq Require Import String Ascii List Bool Arith ZArith Reals Lia Lra.
From Flocq Require Import Core.
From Verif Require Import Base LinAlg FirExtras AnalogSystem AnalogProofs IntegratorsProofs Stability LinearOde Netlist NetlistProofs NetlistTree Circuits CircuitLaws CircuitProofs.
From Verif Require Import CircuitControl XspiceLaws CircuitControlProofs CircuitControlSem CircuitControlTop CircuitControlMain ClosedLoop.
From Verif Require OpampCircuit GmCircuit SourceProofs P_Circuits.
Import ListNotations.
Open Scope R_scope.

(** ** The clock *)
Lemma phase_at per k x : 0 < per -> 0 <= x < per -> pulse_phase 0 per (INR k * per + x) = x.
Proof.
  intros Hp Hx. unfold pulse_phase. rewrite Rminus_0_r.
  replace (Zfloor ((INR k * per + x) / per)) with (Z.of_nat k).
  - rewrite <- INR_IZR_INZ. ring.
  - symmetry. apply Zfloor_imp. rewrite plus_IZR, <- INR_IZR_INZ. replace ((INR k * per + x) / per) with (INR k + x / per) by (field; lra).
    assert (0 <= x / per) by (apply Rmult_le_pos; [lra|apply Rlt_le, Rinv_0_lt_compat; lra]).
    assert (x / per < 1) by (apply (Rmult_lt_reg_r per); [lra|]; unfold Rdiv; rewrite Rmult_assoc, Rinv_l by lra; lra). lra.
Qed.
Section Clock.
Variables vdd T tt : R.
Hypothesis Hv : 0 < vdd.
Hypothesis Ht : 0 < tt <= T / 2.
Let w := pulse_wave 0 vdd 0 tt tt (T * (1 / 2) - tt) T.
Lemma wave_at k x : 0 <= x < T -> w (INR k * T + x) =
  if Rlt_bool x tt then vdd * (x / tt) else if Rlt_bool x (T / 2) then vdd else if Rlt_bool x (T / 2 + tt) then vdd - vdd * ((x - T / 2) / tt) else 0.
Proof.
  intro Hx. unfold w, pulse_wave. rewrite phase_at by lra. pose proof (pos_INR k).
  rewrite Rlt_bool_false by nra. replace (tt + (T * (1 / 2) - tt)) with (T / 2) by field.
  destruct (Rlt_bool x tt); [ring|]. destruct (Rlt_bool x (T / 2)); [reflexivity|]. destruct (Rlt_bool x (T / 2 + tt)); [|reflexivity].
  replace (x - tt - (T * (1 / 2) - tt)) with (x - T / 2) by field. ring.
Qed.
Lemma div_lt x y : x < y / 2 -> 0 < y -> x / y < 1 / 2.
Proof. intros H Hy. apply (Rmult_lt_reg_r y); [lra|]. unfold Rdiv at 1. rewrite Rmult_assoc, Rinv_l by lra. lra. Qed.
Lemma div_gt x y : y / 2 < x -> 0 < y -> 1 / 2 < x / y.
Proof. intros H Hy. apply (Rmult_lt_reg_r y); [lra|]. unfold Rdiv at 2. rewrite Rmult_assoc, Rinv_l by lra. lra. Qed.
Lemma wave_low1 k x : 0 <= x < tt / 2 -> w (INR k * T + x) < vdd / 2.
Proof. intro H. rewrite wave_at by lra. rewrite Rlt_bool_true by lra. assert (x / tt < 1 / 2) by (apply div_lt; lra). nra. Qed.
Lemma wave_high k x : tt / 2 < x < T / 2 + tt / 2 -> vdd / 2 < w (INR k * T + x).
Proof.
  intro H. rewrite wave_at by lra. destruct (Rlt_bool_spec x tt); [assert (1 / 2 < x / tt) by (apply div_gt; lra); nra|].
  destruct (Rlt_bool_spec x (T / 2)); [lra|]. rewrite Rlt_bool_true by lra. assert ((x - T / 2) / tt < 1 / 2) by (apply div_lt; lra). nra.
Qed.
Lemma wave_low2 k x : T / 2 + tt / 2 < x < T -> w (INR k * T + x) < vdd / 2.
Proof.
  intro H. rewrite wave_at by lra. rewrite !Rlt_bool_false by lra. destruct (Rlt_bool_spec x (T / 2 + tt)); [|lra].
  assert (1 / 2 < (x - T / 2) / tt) by (apply div_gt; lra). nra.
Qed.
Local Notation edge := (ClosedLoop.edge T tt).
Lemma edge_S k : edge (S k) = edge k + T.
Proof. unfold ClosedLoop.edge. rewrite S_INR. ring. Qed.
Lemma edge_pos k : 0 < edge k.
Proof. unfold ClosedLoop.edge. pose proof (pos_INR k). nra. Qed.
Lemma clock_latched (ck : R -> bool) k t1 : (forall t, 0 <= t -> (w t < vdd / 2 -> ck t = false) /\ (vdd / 2 < w t -> ck t = true)) -> edge k < t1 <= edge (S k) -> latched ck (edge k) t1.
Proof.
  intros Hck H. rewrite edge_S in H. assert (H0 := edge_pos k). pose proof (pos_INR k) as Hk.
  apply (latched_shape ck (edge k) (Rmin t1 (edge k + T / 2)) t1 (tt / 2)).
  - lra.
  - split; [apply Rmin_glb_lt; lra|apply Rmin_l].
  - intros s Hs. unfold ClosedLoop.edge in *. replace s with (INR k * T + (s - INR k * T)) by ring. apply Hck; [nra|]. apply wave_low1. lra.
  - intros s Hs. pose proof (Rmin_r t1 (edge k + T / 2)). unfold ClosedLoop.edge in *. replace s with (INR k * T + (s - INR k * T)) by ring. apply Hck; [nra|]. apply wave_high. lra.
  - intros s Hs. destruct (Rlt_le_dec t1 (edge k + T / 2)) as [L|L]; [rewrite Rmin_left in Hs by lra; lra|]. rewrite Rmin_right in Hs by lra. unfold ClosedLoop.edge in *.
    destruct (Rlt_le_dec s (INR k * T + T)) as [L'|L'].
    + replace s with (INR k * T + (s - INR k * T)) by ring. apply Hck; [nra|]. apply wave_low2. lra.
    + replace s with (INR (S k) * T + (s - INR (S k) * T)) by ring. apply Hck; [rewrite S_INR; nra|]. apply wave_low1. rewrite S_INR. lra.
Qed.
End Clock.

(** ** Continuity *)
Lemma continuity_local (f g : R -> R) a b t : a < t < b -> (forall s, a < s < b -> f s = g s) -> continuity_pt g t -> continuity_pt f t.
Proof.
  intros H E C. apply (continuity_pt_locally_ext g f (Rmin (t - a) (b - t))); [apply Rmin_glb_lt; lra| |exact C].
  intros s Hs. unfold R_dist in Hs. pose proof (Rmin_l (t - a) (b - t)). pose proof (Rmin_r (t - a) (b - t)). apply Rabs_def2 in Hs. symmetry. apply E. lra.
Qed.
Lemma continuity_sine (o a f p : R) t : continuity_pt (fun s => o + a * exp (- (s - 0) * 0) * sin (2 * PI * f * (s - 0) + p * PI / 180)) t.
Proof. apply derivable_continuous_pt. reg. Qed.

(** ** The front end in the test bench *)
Section Join.
Variable anon : cid -> lab -> string.
Variables (vdd T tt : R) (sg : list sine) (L M : nat) (fe : string).
Definition af (l : lab) : lab := match l with VSS => GND | l => l end.
Lemma fe_cases l : In l (fe_terms L M) -> In l [VSS; VDD; CLK; VCM] \/ (exists p i, (i < L)%nat /\ l = IN p i) \/ (exists p i, (i < M)%nat /\ l = OUT p i).
Proof.
  intro H. unfold fe_terms in H. apply in_app_or in H. destruct H as [H|H]; [now left|].
  repeat (apply in_app_or in H; destruct H as [H|H]); apply in_map_iff in H; destruct H as (i & <- & Hi); apply in_seq in Hi; right.
  1,2: left; do 2 eexists; split; [|reflexivity]; lia. all: right; do 2 eexists; split; [|reflexivity]; lia.
Qed.
Lemma tb_af : In (LX "Xaf" (map (fun l => labname (af l)) (fe_terms L M)) fe) (lines anon (SourceProofs.tb_ckt vdd T tt sg L M fe)).
Proof.
  assert (H : In (emit anon (SourceProofs.tb_ckt vdd T tt sg L M fe) (mkComp CAf (KX fe (fe_terms L M)))) (lines anon (SourceProofs.tb_ckt vdd T tt sg L M fe))).
  { unfold lines. apply in_map. cbn [k_comps SourceProofs.tb_ckt]. apply in_or_app. right. now left. }
  cbn [emit c_kind c_id cname] in H. rewrite (map_ext_in _ (fun l => labname (af l))) in H; [exact H|].
  intros l Hl. apply (node_pin anon _ _ (SourceProofs.tb_att_ok vdd T tt sg L M fe)). cbn [k_calls SourceProofs.tb_ckt]. apply in_or_app. right. unfold af_calls.
  apply in_or_app. destruct (fe_cases l Hl) as [H'|[(p & i & Hi & ->)|(p & i & Hi & ->)]].
  - left. cbn in H'. destruct H' as [<-|[<-|[<-|[<-|[]]]]]; cbn; tauto.
  - right. apply in_or_app. left. apply in_flat_map. exists i. split; [apply in_seq; lia|]. destruct p; cbn; tauto.
  - right. apply in_or_app. right. apply in_flat_map. exists i. split; [apply in_seq; lia|]. destruct p; cbn; tauto.
Qed.
End Join.
Lemma control_formals danon S T ih il oh ol k : control_ckt S T ih il oh ol 0 = Ok k -> dformals danon k = map labname (dc_pins (sN S) (sL S) (sM S)) /\ d_name k = "digital_control"%string.
Proof.
  intro Hk. destruct (control_inv _ _ _ _ _ _ _ _ Hk) as (l & _ & _ & ->). split; [|reflexivity]. unfold dformals. cbn [d_terms ctl].
  rewrite (map_ext _ dlabname); [unfold dpins; now rewrite map_map|]. intro x. apply (dnode_root danon _ ctl_root (control_rooted danon _ _ _ _ _ _ _ _) (DOwn x)). reflexivity.
Qed.
Definition updc (l : lab) : lab := match l with SS p i => OUT p i | l => l end.
Lemma joined_in inner outer (f g : lab -> string) ls : joined inner outer (map f ls) (map g ls) -> forall l, In l ls -> forall t, inner (f l) t = outer (g l) t.
Proof. intros H l Hl. exact (f2_map _ f g ls H l Hl). Qed.

(** ** The loop *)
Section Loop.
Variable anon : cid -> lab -> string.
Variable danon : dcid -> nat -> string.
Variables (vdd T tt : R) (sg : list sine) (S : asys Rring) (G : nd2 Rring) (lk : R).
Variables (kt kf : ckt) (kd : dckt).
Variable fe_law : (string -> R) -> (string -> R) -> (string -> R) -> Prop.
Variable states : list string.
Hypothesis Hv : 0 < vdd.
Hypothesis Ht : 0 < tt <= T / 2.
Hypothesis V : valid S.
Hypothesis HG : aG S = Some G.
Hypothesis HGt : aGt S <> None.
Let N := sN S.
Let L := sL S.
Let M := sM S.
Hypothesis Hsg : (L <= length sg)%nat.
Hypothesis Hkt : kt = SourceProofs.tb_ckt vdd T tt sg L M (k_name kf).
Hypothesis Hkd : control_ckt S T 0 0 vdd 0 0 = Ok kd.
Hypothesis Fform : formals anon kf = map labname (fe_terms L M).
Hypothesis Fterm : k_terms kf = fe_terms L M.
Hypothesis Fown : forall l, node anon kf (Own l) = labname l.
Hypothesis Fdc : exists nm, In (LX nm (map (fun l => labname (updc l)) (dc_pins N L M)) "digital_control") (lines anon kf).
Hypothesis Flaw : forall v dv il n, fe_law v dv il -> (n < N)%nat -> P_Circuits.dif dv "X" n = P_Circuits.state_rhs S G v n - lk * P_Circuits.dif v "X" n.
Hypothesis Fst : forall p n, (n < N)%nat -> In (labname (XX p n)) states.
Variable w : waves.
Hypothesis W : obeys anon danon kt kf kd fe_law states w.

Local Notation xw := (ClosedLoop.xw w).
Local Notation ow := (ClosedLoop.ow w).
Local Notation uw := (ClosedLoop.uw sg).
Local Notation so := (ClosedLoop.so T tt w).
Let e := edge T tt.
Let e_S k : e (Datatypes.S k) = e k + T := edge_S T tt k.
Let e_pos k : 0 < e k := edge_pos T tt Ht k.

Lemma fe_tb l t : In l (fe_terms L M) -> w_fe w (labname l) t = w_tb w (labname (af l)) t.
Proof.
  intro Hl. assert (J : joined (w_fe w) (w_tb w) (formals anon kf) (map (fun l => labname (af l)) (fe_terms L M))).
  { apply (ob_fe _ _ _ _ _ _ _ _ W "Xaf"%string). rewrite Hkt. apply tb_af. }
  rewrite Fform in J. exact (joined_in _ _ _ _ _ J l Hl t).
Qed.
Lemma dc_fe l t : In l (dc_pins N L M) -> w_dc w (labname l) t = w_fe w (labname (updc l)) t.
Proof.
  intro Hl. destruct Fdc as [nm Hnm]. destruct (control_formals danon _ _ _ _ _ _ _ Hkd) as [E1 E2].
  assert (J : joined (w_dc w) (w_fe w) (dformals danon kd) (map (fun l => labname (updc l)) (dc_pins N L M))).
  { apply (ob_dc _ _ _ _ _ _ _ _ W nm). now rewrite E2. }
  rewrite E1 in J. exact (joined_in _ _ _ _ _ J l Hl t).
Qed.
Lemma in_fe4 l : In l [VSS; VDD; CLK; VCM] -> In l (fe_terms L M).
Proof. intro H. unfold fe_terms. apply in_or_app. now left. Qed.
Lemma in_feI p i : (i < L)%nat -> In (IN p i) (fe_terms L M).
Proof. intro H. unfold fe_terms. apply in_or_app. right. apply in_or_app. destruct p; [left; apply in_map, in_seq; lia|right; apply in_or_app; left; apply in_map, in_seq; lia]. Qed.
Lemma in_feO p i : (i < M)%nat -> In (OUT p i) (fe_terms L M).
Proof.
  intro H. unfold fe_terms. apply in_or_app. right. apply in_or_app. right. apply in_or_app. right. apply in_or_app.
  destruct p; [left; apply in_map, in_seq; lia|right; apply in_map, in_seq; lia].
Qed.
Lemma in_dc l : In (B l) (dpins N L M) -> In l (dc_pins N L M).
Proof. unfold dpins. intro H. apply in_map_iff in H. destruct H as (x & E & H). injection E as ->. exact H. Qed.
Lemma src t l : 0 <= t -> In l (lines anon kt) -> source t (fun a => w_tb w a t) l.
Proof. intros H Hl. apply (ob_src _ _ _ _ _ _ _ _ W t l H Hl). Qed.
Lemma tb_rail t : 0 <= t -> w_tb w "VDD"%string t = vdd /\ w_tb w "VCM"%string t = vdd / 2.
Proof.
  intro H. pose proof (SourceProofs.tb_rails anon vdd T tt sg L M (k_name kf) t (fun a => w_tb w a t)) as R. rewrite <- Hkt in R. specialize (R (fun l Hl => src t l H Hl)).
  cbv beta in R. rewrite (ob_gnd _ _ _ _ _ _ _ _ W t) in R. lra.
Qed.
Lemma tb_clk t : 0 <= t -> w_tb w "CLK"%string t = pulse_wave 0 vdd 0 tt tt (T * (1 / 2) - tt) T t.
Proof.
  intro H. destruct (SourceProofs.tb_supplies anon vdd T tt sg L M (k_name kf)) as (_ & _ & Hl). rewrite <- Hkt in Hl.
  destruct (ob_src _ _ _ _ _ _ _ _ W t _ H Hl) as [_ P]. cbn [pulse_source] in P. rewrite (ob_gnd _ _ _ _ _ _ _ _ W t) in P. lra.
Qed.
Lemma u_node l t : 0 <= t -> (l < L)%nat -> w_fe w (labname (IN true l)) t - w_fe w (labname (IN false l)) t = uw l t.
Proof.
  intros H Hl. rewrite !fe_tb by (now apply in_feI). cbn [af]. unfold ClosedLoop.uw. destruct (nth_error sg l) as [s|] eqn:E; [|apply nth_error_None in E; lia].
  pose proof (SourceProofs.tb_input anon vdd T tt sg L M (k_name kf) t (fun a => w_tb w a t) l s H E) as R. rewrite <- Hkt in R. apply R. intros ln Hln. now apply src.
Qed.
(** the terminals other than the clock are continuous between the edges *)
Lemma in_cont p l t : 0 < t -> (l < L)%nat -> continuity_pt (w_fe w (labname (IN p l))) t.
Proof.
  intros H Hl. destruct (nth_error sg l) as [s|] eqn:E; [|apply nth_error_None in E; lia].
  destruct (SourceProofs.tb_lines anon vdd T tt sg L M (k_name kf) l s E) as [H1 H2]. rewrite <- Hkt in H1, H2.
  pose proof (continuity_sine (vdd / 2 + s_offset s) (s_ampl s / 2) (s_freq s) (s_phase s) t) as C1.
  pose proof (continuity_sine (vdd / 2 - s_offset s) (- (s_ampl s / 2)) (s_freq s) (s_phase s) t) as C2.
  destruct p.
  - apply continuity_local with (a := 0) (b := t + 1) (g := fun s0 => (vdd / 2 + s_offset s) + s_ampl s / 2 * exp (- (s0 - 0) * 0) * sin (2 * PI * s_freq s * (s0 - 0) + s_phase s * PI / 180)); [lra| |exact C1].
    intros r Hr. rewrite fe_tb by (now apply in_feI). cbn [af]. apply (src r _ ltac:(lra)) in H1. cbn [source] in H1. specialize (H1 ltac:(lra)). destruct (tb_rail r) as [_ E2]; [lra|]. rewrite E2 in H1. lra.
  - apply continuity_local with (a := 0) (b := t + 1) (g := fun s0 => (vdd / 2 - s_offset s) + - (s_ampl s / 2) * exp (- (s0 - 0) * 0) * sin (2 * PI * s_freq s * (s0 - 0) + s_phase s * PI / 180)); [lra| |exact C2].
    intros r Hr. rewrite fe_tb by (now apply in_feI). cbn [af]. apply (src r _ ltac:(lra)) in H2. cbn [source] in H2. specialize (H2 ltac:(lra)). destruct (tb_rail r) as [_ E2]; [lra|]. rewrite E2 in H2. lra.
Qed.
Lemma const_cont (f : R -> R) c a b t : a < t < b -> (forall s, a < s < b -> f s = c) -> continuity_pt f t.
Proof. intros H E. apply (continuity_local f (fun _ => c) a b t H E). apply continuity_pt_const. intros x y. reflexivity. Qed.
Lemma rail_cont l t : 0 < t -> In l [VSS; VDD; VCM] -> continuity_pt (w_fe w (labname l)) t.
Proof.
  intros H Hl. assert (Hl' : In l (fe_terms L M)) by (apply in_fe4; cbn in *; tauto).
  cbn in Hl. destruct Hl as [<-|[<-|[<-|[]]]].
  - apply const_cont with (c := 0) (a := 0) (b := t + 1); [lra|]. intros s Hs. rewrite fe_tb by exact Hl'. apply (ob_gnd _ _ _ _ _ _ _ _ W).
  - apply const_cont with (c := vdd) (a := 0) (b := t + 1); [lra|]. intros s Hs. rewrite fe_tb by exact Hl'. apply tb_rail. lra.
  - apply const_cont with (c := vdd / 2) (a := 0) (b := t + 1); [lra|]. intros s Hs. rewrite fe_tb by exact Hl'. apply tb_rail. lra.
Qed.
(** one decision *)
Lemma obs_dc k : control_observation S (dv (w_dc w) XX N (e k)) (Some (dv (w_dc w) IN L (e k))) (Some (dv (w_dc w) SS M (e k)))
  = control_observation S (map (fun n => xw n (e k)) (seq 0 N)) (Some (map (fun l => uw l (e k)) (seq 0 L))) (Some (map (so k) (seq 0 M))).
Proof.
  assert (E := e_pos k). f_equal; [|f_equal|f_equal]; apply map_ext_in; intros i Hi; apply in_seq in Hi.
  - rewrite !dc_fe by (apply in_dc, pin_X; unfold N in *; lia). reflexivity.
  - rewrite !dc_fe by (apply in_dc, pin_I; unfold L in *; lia). cbn [updc]. apply u_node; [lra|lia].
  - rewrite !dc_fe by (apply in_dc, pin_S; unfold M in *; lia). reflexivity.
Qed.
Lemma decided k m o : (m < M)%nat -> control_observation S (map (fun n => xw n (e k)) (seq 0 N)) (Some (map (fun l => uw l (e k)) (seq 0 L))) (Some (map (so k) (seq 0 M))) = Ok o ->
  exists q : bool, (nth m o 0 < 0 -> q = false) /\ (0 < nth m o 0 -> q = true) /\
    forall t, e k < t <= e (Datatypes.S k) -> w_fe w (labname (OUT true m)) t = (if q then vdd else 0) /\ w_fe w (labname (OUT false m)) t = (if q then 0 else vdd).
Proof.
  intros Hm Ho. rewrite <- obs_dc in Ho. assert (E := e_pos k).
  assert (F : follows S 0 0 vdd 0 (w_dc w) (w_dc w "CLK"%string) m (m - 0)).
  { apply (control_follows danon S T 0 0 vdd 0 0 kd (dcards kd) (ddefs kd) (w_dc w) (w_dd w) 0 m V Hkd); auto; [|unfold M in Hm; lia]. apply (ob_ctl _ _ _ _ _ _ _ _ W). }
  rewrite Nat.sub_0_r in F. destruct F as (ck & C1 & C2).
  assert (Vc : forall t, 0 <= t -> w_dc w "VCM"%string t = vdd / 2).
  { intros t H. change "VCM"%string with (labname VCM). rewrite dc_fe by (apply in_dc, pin_4; cbn; tauto). cbn [updc]. rewrite fe_tb by (apply in_fe4; cbn; tauto). now apply tb_rail. }
  assert (Ck : forall t, 0 <= t -> w_dc w "CLK"%string t = pulse_wave 0 vdd 0 tt tt (T * (1 / 2) - tt) T t).
  { intros t H. change "CLK"%string with (labname CLK). rewrite dc_fe by (apply in_dc, pin_4; cbn; tauto). cbn [updc]. rewrite fe_tb by (apply in_fe4; cbn; tauto). now apply tb_clk. }
  destruct (C2 (e k) o Ho) as (q & [Q1 Q2] & Hh). rewrite Vc in Q1, Q2 by lra. exists q. split; [intro H; apply Q1; lra|]. split; [intro H; apply Q2; lra|].
  intros t Hte. assert (La : latched ck (e k) t).
  { apply (clock_latched vdd T tt Hv Ht ck k t); [|exact Hte]. intros s Hs. destruct (C1 s) as [D1 D2]. rewrite Vc, Ck in D1, D2 by exact Hs. split; intro H; [apply D1|apply D2]; lra. }
  destruct (Hh t La) as [R1 R2]. rewrite dc_fe in R1, R2 by (apply in_dc, pin_S; unfold M in *; lia). auto.
Qed.
Lemma obs_ok k : exists o, control_observation S (map (fun n => xw n (e k)) (seq 0 N)) (Some (map (fun l => uw l (e k)) (seq 0 L))) (Some (map (so k) (seq 0 M))) = Ok o.
Proof.
  assert (Lm : forall (f : nat -> R) n, length (map f (seq 0 n)) = n) by (intros; now rewrite map_length, seq_length).
  eexists. apply (control_observation_xus (K := Rring) S); [exact V|exact HGt|apply (Lm _ N)|apply (Lm _ L)|apply (Lm _ M)].
Qed.
Lemma held k m t : (m < M)%nat -> e k < t <= e (Datatypes.S k) -> ow m t = so (Datatypes.S k) m /\ forall p, w_fe w (labname (OUT p m)) t = w_fe w (labname (OUT p m)) (e (Datatypes.S k)).
Proof.
  intros Hm Hte. destruct (obs_ok k) as [o Ho]. destruct (decided k m o Hm Ho) as (q & _ & _ & H).
  assert (He : e k < e (Datatypes.S k) <= e (Datatypes.S k)) by (rewrite e_S; lra).
  destruct (H t Hte) as [A1 A2], (H _ He) as [B1 B2]. unfold ClosedLoop.so, ClosedLoop.ow. change (ClosedLoop.edge T tt) with e. rewrite A1, A2, B1, B2. split; [reflexivity|]. intros [|]; congruence.
Qed.
Theorem loop : nominal (leaky S lk) G vdd uw e xw so /\ forall k m t, (m < M)%nat -> e k < t <= e (Datatypes.S k) -> ow m t = so (Datatypes.S k) m.
Proof.
  split; [|intros k m t Hm H; now apply held]. split.
  { intros n t Hn H0. assert (E := e_pos 0). apply (continuity_pt_minus (w_fe w (labname (XX true n))) (w_fe w (labname (XX false n)))); apply (ob_cont _ _ _ _ _ _ _ _ W); try (apply Fst; exact Hn); lra. }
  intro k. split.
  - intros n t Hn H. assert (E := e_pos k). assert (H0 : 0 < t) by lra.
    assert (Tc : forall l, In l (k_terms kf) -> l <> CLK -> continuity_pt (w_fe w (node anon kf (Own l))) t).
    { intros l Hl Nl. rewrite Fown. rewrite Fterm in Hl. destruct (fe_cases L M l Hl) as [H4|[(p & i & Hi & ->)|(p & i & Hi & ->)]].
      - apply rail_cont; [exact H0|]. cbn in *. intuition congruence.
      - now apply in_cont.
      - apply const_cont with (c := w_fe w (labname (OUT p i)) (e (Datatypes.S k))) (a := e k) (b := e (Datatypes.S k)); [exact H|]. intros s Hs. apply (proj2 (held k i s Hi ltac:(lra))). }
    pose proof (ob_diff _ _ _ _ _ _ _ _ W _ t (Fst true n Hn) H0 Tc) as D1. pose proof (ob_diff _ _ _ _ _ _ _ _ W _ t (Fst false n Hn) H0 Tc) as D2.
    pose proof (derivable_pt_lim_minus _ _ _ _ _ D1 D2) as D.
    pose proof (Flaw _ _ _ n (ob_law _ _ _ _ _ _ _ _ W t H0) Hn) as FE. unfold P_Circuits.dif, P_Circuits.state_rhs in FE.
    apply derivable_ext with (f := (w_fe w (labname (XX true n)) - w_fe w (labname (XX false n)))%F); [reflexivity|].
    match type of D with derivable_pt_lim _ _ ?d => match goal with |- derivable_pt_lim _ _ ?r => assert (Er : d = r) end end; [|rewrite <- Er; exact D].
    cbn [labname side]. rewrite FE. clear FE D D1 D2.
    change (sN (leaky S lk)) with N. change (sL (leaky S lk)) with L. change (sM (leaky S lk)) with M. cbn [leaky aA aB ent]. unfold P_Circuits.dif.
    rewrite (rsum_ext N (fun j => (ent (aA S) n j - (if Nat.eqb n j then lk else 0)) * xw j t) (fun j => ent (aA S) n j * xw j t + (if Nat.eqb j n then - lk * xw j t else 0))) by (intros j _; rewrite (Nat.eqb_sym n j); destruct (Nat.eqb j n); cbn [car Rring]; ring).
    rewrite rsum_add, (rsum_single N n (fun j => - lk * xw j t)) by exact Hn.
    rewrite (rsum_ext L (fun l => ent (aB S) n l * uw l t) (fun l => ent (aB S) n l * (w_fe w (labname (IN true l)) t - w_fe w (labname (IN false l)) t))) by (intros l Hl; rewrite u_node by (lra || exact Hl); reflexivity).
    rewrite (rsum_ext M (fun m => ent G n m * so (Datatypes.S k) m) (fun m => ent G n m * ow m t)) by (intros m Hm; rewrite (proj1 (held k m t Hm ltac:(lra))); reflexivity).
    unfold ClosedLoop.xw, ClosedLoop.ow. cbn [labname side]. unfold N, L, M. cbn [car Rring]. ring.
  - destruct (obs_ok k) as [o Ho]. exists o. split; [exact Ho|]. intros m Hm. destruct (decided k m o Hm Ho) as (q & Q1 & Q2 & Hh).
    assert (He : e k < e (Datatypes.S k) <= e (Datatypes.S k)) by (rewrite e_S; lra). destruct (Hh _ He) as [O1 O2]. unfold ClosedLoop.so, ClosedLoop.ow. change (ClosedLoop.edge T tt) with e. rewrite O1, O2.
    split; [destruct q; [left|right]; lra|]. split; intro H; [rewrite Q2 by lra; lra|rewrite Q1 by lra; lra].
Qed.
(** what a simulator reports of it *)
Theorem levels : (forall t, 0 <= t -> w_tb w "CLK"%string t = pulse_wave 0 vdd 0 tt tt (T * (1 / 2) - tt) T t) /\
  forall k m t, (m < M)%nat -> e k < t <= e (Datatypes.S k) -> w_tb w (labname (OUT true m)) t = (vdd + so (Datatypes.S k) m) / 2 /\ (so (Datatypes.S k) m = vdd \/ so (Datatypes.S k) m = - vdd).
Proof.
  split; [exact tb_clk|]. intros k m t Hm H. destruct (obs_ok k) as [o Ho]. destruct (decided k m o Hm Ho) as (q & _ & _ & Hh).
  assert (He : e k < e (Datatypes.S k) <= e (Datatypes.S k)) by (rewrite e_S; lra). destruct (Hh _ He) as [O1 O2]. destruct (Hh t H) as [R1 _].
  rewrite fe_tb in R1 by (now apply in_feO). cbn [af] in R1. rewrite R1. unfold ClosedLoop.so, ClosedLoop.ow. change (ClosedLoop.edge T tt) with e. rewrite O1, O2. destruct q; split; lra.
Qed.
End Loop.
