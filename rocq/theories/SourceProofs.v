(** The sources of the test bench. *)
From Coq Require Import String List Bool Arith Reals Lia Lra ZArith.
From Flocq Require Import Core.
From Verif Require Import Base LinAlg FirExtras Netlist NetlistProofs AnalogSystem Circuits CircuitLaws CircuitProofs.
Import ListNotations.
Open Scope R_scope.

Lemma pulse_eq v0 v1 per rise fall : pulse v0 v1 per rise fall = KPulse v0 v1 0 rise fall (per * (1 / 2) - fall) per.
Proof. reflexivity. Qed.

Section Tb.
Variable anon : cid -> lab -> string.
Variables (vdd T tt : R) (sg : list sine) (L M : nat) (fe : string).
Definition tb_ckt : ckt := mkCkt "testbench" [] (tb_comps vdd T tt sg ++ [mkComp CAf (KX fe (fe_terms L M))]) (tb_calls (length sg) M ++ af_calls L M).
Definition tb_att (c : cid) (m : lab) : lab :=
  match c, m with
  | CVdd, P0 => VDD | CVdd, _ => VCM
  | CVss, P0 => VCM | CVss, _ => GND
  | CVclk, P0 => CLK | CVclk, _ => GND
  | CVin p l, P0 => if p then IN true l else VCM
  | CVin p l, _ => if p then VCM else IN false l
  | CObs, SS _ m => OUT true m
  | CAf, VSS => GND
  | _, _ => m
  end.
Ltac one := injection 1 as <- <-; eexists; eexists; eexists; split; [reflexivity|split; [reflexivity|split; [|split; discriminate]]].
Ltac each H := repeat (destruct H as [H|H]; [revert H; one; try reflexivity|]); try destruct H.
Ltac inn := cbn; solve [repeat (first [left; reflexivity|right])].
Lemma tb_att_ok : att_ok tb_ckt tb_att.
Proof.
  intros a b H. cbn [k_calls tb_ckt] in H. apply in_app_or in H. destruct H as [H|H].
  - unfold tb_calls in H. apply in_app_or in H. destruct H as [H|H]; [each H|]. apply in_app_or in H. destruct H as [H|H]; [|each H].
    apply in_flat_map in H. destruct H as (n & _ & H). each H.
  - unfold af_calls in H. apply in_app_or in H. destruct H as [H|H]; [each H|]. apply in_app_or in H.
    destruct H as [H|H]; apply in_flat_map in H; destruct H as (n & _ & H); each H.
Qed.
Lemma in_tb c : In c (tb_calls (length sg) M) -> In c (k_calls tb_ckt).
Proof. intro H. cbn [k_calls tb_ckt]. apply in_or_app. now left. Qed.
Lemma tb_line c : In c (tb_comps vdd T tt sg) -> In (emit anon tb_ckt c) (lines anon tb_ckt).
Proof. intro H. unfold lines. apply in_map. cbn [k_comps tb_ckt]. apply in_or_app. now left. Qed.
Lemma tb_vin_call l c : (l < length sg)%nat -> In c [own (IN true l) (CVin true l) P0; own (IN false l) (CVin false l) P1; own VCM (CVin true l) P1; own VCM (CVin false l) P0] -> In c (k_calls tb_ckt).
Proof.
  intros Hl Hc. apply in_tb. unfold tb_calls. apply in_or_app. right. apply in_or_app. left. apply in_flat_map. exists l. split; [apply in_seq; lia|exact Hc].
Qed.
Lemma combine_nth_in (l : nat) (s : sine) : nth_error sg l = Some s -> In (l, s) (combine (seq 0 (length sg)) sg).
Proof.
  intro H. assert (K : forall b, nth_error sg l = Some s -> In ((b + l)%nat, s) (combine (seq b (length sg)) sg)).
  { clear H. revert l. induction sg as [|x r IH]; intros l b H; [destruct l; discriminate|]. destruct l as [|l]; cbn in *.
    - injection H as ->. left. f_equal. lia.
    - right. replace (b + S l)%nat with (S b + l)%nat by lia. now apply IH. }
  exact (K 0%nat H).
Qed.
Lemma tb_lines l s : nth_error sg l = Some s ->
  In (LSin (cname (CVin true l)) (labname (IN true l)) "VCM" (s_offset s) (s_ampl s / 2) (s_freq s) 0 0 (s_phase s)) (lines anon tb_ckt) /\
  In (LSin (cname (CVin false l)) "VCM" (labname (IN false l)) (s_offset s) (s_ampl s / 2) (s_freq s) 0 0 (s_phase s)) (lines anon tb_ckt).
Proof.
  intro H. assert (Hl : (l < length sg)%nat) by (apply nth_error_Some; congruence).
  pose proof (fun l c m => node_pin anon tb_ckt tb_att tb_att_ok l c m) as Np.
  assert (Hin : forall c, In c [mkComp (CVin true l) (vin s); mkComp (CVin false l) (vin s)] -> In c (tb_comps vdd T tt sg)).
  { intros c Hc. unfold tb_comps. apply in_or_app. right. apply in_flat_map. exists (l, s). split; [now apply combine_nth_in|exact Hc]. }
  split.
  - pose proof (tb_line (mkComp (CVin true l) (vin s)) (Hin (mkComp (CVin true l) (vin s)) ltac:(inn))) as E. cbn [emit c_kind c_id vin] in E.
    rewrite (Np (IN true l)) in E by (apply (tb_vin_call l); [exact Hl|inn]). rewrite (Np VCM) in E by (apply (tb_vin_call l); [exact Hl|inn]). exact E.
  - pose proof (tb_line (mkComp (CVin false l) (vin s)) (Hin (mkComp (CVin false l) (vin s)) ltac:(inn))) as E. cbn [emit c_kind c_id vin] in E.
    rewrite (Np VCM) in E by (apply (tb_vin_call l); [exact Hl|inn]). rewrite (Np (IN false l)) in E by (apply (tb_vin_call l); [exact Hl|inn]). exact E.
Qed.
Lemma tb_supplies : In (LV "Vdd" "VDD" "VCM" (vdd / 2)) (lines anon tb_ckt) /\ In (LV "Vss" "VCM" "0" (vdd / 2)) (lines anon tb_ckt) /\
  In (LPulse "Vclk" "CLK" "0" 0 vdd 0 tt tt (T * (1 / 2) - tt) T) (lines anon tb_ckt).
Proof.
  pose proof (fun l c m H => node_pin anon tb_ckt tb_att tb_att_ok l c m (in_tb _ H)) as Np.
  split; [|split].
  - pose proof (tb_line (mkComp CVdd (KV (vdd / 2))) ltac:(inn)) as E. cbn [emit c_kind c_id] in E. rewrite (Np VDD), (Np VCM) in E by inn. exact E.
  - pose proof (tb_line (mkComp CVss (KV (vdd / 2))) ltac:(inn)) as E. cbn [emit c_kind c_id] in E. rewrite (Np VCM), (Np GND) in E by inn. exact E.
  - pose proof (tb_line (mkComp CVclk (pulse 0 vdd T tt tt)) ltac:(inn)) as E. rewrite pulse_eq in E. cbn [emit c_kind c_id] in E. rewrite (Np CLK), (Np GND) in E by inn. exact E.
Qed.
Lemma tb_all : exists x, lines anon tb_ckt =
  [LV "Vdd" "VDD" "VCM" (vdd / 2); LV "Vss" "VCM" "0" (vdd / 2); LPulse "Vclk" "CLK" "0" 0 vdd 0 tt tt (T * (1 / 2) - tt) T]
  ++ flat_map (fun '(l, s) => [LSin (cname (CVin true l)) (labname (IN true l)) "VCM" (s_offset s) (s_ampl s / 2) (s_freq s) 0 0 (s_phase s);
       LSin (cname (CVin false l)) "VCM" (labname (IN false l)) (s_offset s) (s_ampl s / 2) (s_freq s) 0 0 (s_phase s)]) (combine (seq 0 (length sg)) sg)
  ++ [LX "Xaf" x fe].
Proof.
  pose proof (fun l c m H => node_pin anon tb_ckt tb_att tb_att_ok l c m (in_tb _ H)) as Np.
  eexists. unfold lines. cbn [k_comps tb_ckt]. unfold tb_comps. rewrite !map_app, <- app_assoc. f_equal; [|f_equal].
  - cbn [map]. rewrite pulse_eq. cbn [emit c_kind c_id]. rewrite (Np VDD CVdd P0), (Np VCM CVdd P1), (Np VCM CVss P0), (Np GND CVss P1), (Np CLK CVclk P0), (Np GND CVclk P1) by inn. reflexivity.
  - rewrite flat_map_concat_map, concat_map, map_map, <- flat_map_concat_map. rewrite !flat_map_concat_map. f_equal. apply map_ext_in. intros [l s] Hx.
    apply in_combine_l in Hx. apply in_seq in Hx. cbn [map emit c_kind c_id vin].
    pose proof (fun a c m H => node_pin anon tb_ckt tb_att tb_att_ok a c m (tb_vin_call l _ ltac:(lia) H)) as Nq.
    rewrite (Nq (IN true l) (CVin true l) P0), (Nq VCM (CVin true l) P1), (Nq VCM (CVin false l) P0), (Nq (IN false l) (CVin false l) P1) by inn. reflexivity.
  - cbn [map emit c_kind c_id cname]. reflexivity.
Qed.
Theorem tb_input (t : R) (v : string -> R) l s : 0 <= t -> nth_error sg l = Some s -> (forall ln, In ln (lines anon tb_ckt) -> source t v ln) ->
  v (labname (IN true l)) - v (labname (IN false l)) = s_ampl s * sin (2 * PI * s_freq s * t + s_phase s * PI / 180) + 2 * s_offset s.
Proof.
  intros Ht Hs H. destruct (tb_lines l s Hs) as [H1 H2]. apply H in H1, H2. cbn [source] in H1, H2. specialize (H1 Ht). specialize (H2 Ht).
  replace (- (t - 0) * 0) with 0 in H1, H2 by ring. rewrite exp_0 in H1, H2. replace (t - 0) with t in H1, H2 by ring. lra.
Qed.
Theorem tb_rails (t : R) (v : string -> R) : (forall ln, In ln (lines anon tb_ckt) -> source t v ln) ->
  v "VDD"%string - v "0"%string = vdd /\ v "VCM"%string - v "0"%string = vdd / 2.
Proof. intro H. destruct tb_supplies as (H1 & H2 & _). apply H in H1, H2. cbn in H1, H2. lra. Qed.
End Tb.

(** ** The clock *)
Lemma phase_range per t : per > 0 -> 0 <= pulse_phase 0 per t < per.
Proof.
  intro Hp. unfold pulse_phase. rewrite Rminus_0_r. pose proof (Zfloor_lb (t / per)) as H1. pose proof (Zfloor_ub (t / per)) as H2.
  apply (Rmult_le_compat_l per) in H1; [|lra]. apply (Rmult_lt_compat_l per) in H2; [|lra].
  replace (per * (t / per)) with t in * by (field; lra). lra.
Qed.
Theorem pulse_high v0 v1 per rise fall t : v0 < v1 -> 0 < rise -> 0 < fall -> fall <= per / 2 -> rise <= per / 2 -> 0 <= t ->
  let x := pulse_phase 0 per t in
  (v0 + v1) / 2 <= pulse_wave v0 v1 0 rise fall (per * (1 / 2) - fall) per t <-> rise / 2 <= x <= per / 2 + rise - fall / 2.
Proof.
  intros Hv Hr Hf Hf2 Hr2 Ht x. assert (Hp : per > 0) by lra. pose proof (phase_range per t Hp) as Hx. fold x in Hx.
  unfold pulse_wave. fold x. rewrite Rlt_bool_false by lra.
  assert (Q : forall a b y, 0 < b -> y = a * b -> y / b = a) by (intros a b y Hb ->; field; lra).
  destruct (Rlt_bool_spec x rise) as [H1|H1].
  - set (q := x / rise). assert (Eq : x = q * rise) by (unfold q; field; lra). split; intro H.
    + split; [|lra]. assert (1 / 2 <= q) by nra. nra.
    + assert (1 / 2 <= q) by nra. nra.
  - destruct (Rlt_bool_spec x (rise + (per * (1 / 2) - fall))) as [H2|H2]; [split; intro; lra|].
    destruct (Rlt_bool_spec x (rise + (per * (1 / 2) - fall) + fall)) as [H3|H3].
    + set (q := (x - rise - (per * (1 / 2) - fall)) / fall). assert (Eq : x - rise - (per * (1 / 2) - fall) = q * fall) by (unfold q; field; lra). split; intro H.
      * split; [lra|]. assert (q <= 1 / 2) by nra. nra.
      * assert (q <= 1 / 2) by nra. nra.
    + split; intro; lra.
Qed.
