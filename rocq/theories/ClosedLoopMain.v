(** The loop: uniqueness, scaling, and the front ends. *)
From Coq Require Import String Ascii List Bool Arith ZArith Reals Lia Lra.
From Flocq Require Import Core.
From Verif Require Import Base LinAlg FirExtras AnalogSystem AnalogProofs IntegratorsProofs Stability LinearOde Netlist NetlistProofs NetlistTree Circuits CircuitLaws CircuitProofs.
From Verif Require Import CircuitControl XspiceLaws CircuitControlProofs CircuitControlSem CircuitControlTop CircuitControlMain ClosedLoop ClosedLoopProofs.
From Verif Require ParallelProofs OpampCircuit GmCircuit SourceProofs P_Circuits.
Import ListNotations.
Open Scope R_scope.

Lemma derivable_shift (f : R -> R) c t d : derivable_pt_lim f (c + t) d -> derivable_pt_lim (fun s => f (c + s)) t d.
Proof. intros H eps He. destruct (H eps He) as [dl Hd]. exists dl. intros h H1 H2. specialize (Hd h H1 H2). now rewrite <- Rplus_assoc. Qed.
Lemma continuity_shift (f : R -> R) c t : continuity_pt f (c + t) -> continuity_pt (fun s => f (c + s)) t.
Proof.
  intro H. apply (continuity_pt_comp (fun s => c + s) f t); [|exact H]. apply derivable_continuous_pt. reg.
Qed.
Lemma nominal_unique S G amp u e x s x' s' : nominal S G amp u e x s -> nominal S G amp u e x' s' -> no_ties S u e x s -> (forall k, e k < e (Datatypes.S k)) ->
  (forall n, (n < sN S)%nat -> x n (e O) = x' n (e O)) -> (forall m, (m < sM S)%nat -> s O m = s' O m) ->
  forall k, (forall m, (m < sM S)%nat -> s k m = s' k m) /\ (forall n t, (n < sN S)%nat -> e O <= t <= e k -> x n t = x' n t).
Proof.
  intros [C1 D1] [C2 D2] Nt He Hx Hs. assert (Mono : forall k, e O <= e k) by (induction k; [lra|]; specialize (He k); lra).
  induction k as [|k [IHs IHx]].
  - split; [exact Hs|]. intros n t Hn Hte. replace t with (e O) by lra. now apply Hx.
  - destruct (D1 k) as (E1 & o & O1 & P1), (D2 k) as (E2 & o' & O2 & P2).
    assert (Eo : o' = o).
    { rewrite (map_ext_in (fun n => x' n (e k)) (fun n => x n (e k))) in O2 by (intros n Hn; apply in_seq in Hn; symmetry; apply IHx; [lia|specialize (Mono k); lra]).
      rewrite (map_ext_in (s' k) (s k)) in O2 by (intros n Hn; apply in_seq in Hn; symmetry; apply IHs; lia). rewrite O1 in O2. injection O2 as ->. reflexivity. }
    subst o'. assert (Es : forall m, (m < sM S)%nat -> s (Datatypes.S k) m = s' (Datatypes.S k) m).
    { intros m Hm. pose proof (Nt k o m O1 Hm) as Hz. destruct (P1 m Hm) as (_ & A1 & A2), (P2 m Hm) as (_ & B1 & B2). destruct (Rtotal_order (nth m o 0) 0) as [H|[H|H]]; [|contradiction|].
      - now rewrite A2, B2. - now rewrite A1, B1. }
    split; [exact Es|]. intros n t Hn Hte. destruct (Rle_dec t (e k)) as [H|H]; [apply IHx; [exact Hn|lra]|].
    pose (b := fun n tau => rsum (sL S) (fun l => ent (aB S) n l * u l (e k + tau)) + rsum (sM S) (fun m => ent G n m * s (Datatypes.S k) m)).
    pose proof (unique (sN S) (ent (aA S)) (e (Datatypes.S k) - e k) b (fun n tau => x n (e k + tau)) (fun n tau => x' n (e k + tau))) as U.
    replace t with (e k + (t - e k)) by ring. apply U; [| | |exact Hn|lra].
    + split; [intros n' t' Hn' Ht'; apply continuity_shift, C1; [exact Hn'|specialize (Mono k); lra]|]. exists []. intros n' t' Hn' Ht' _. apply derivable_shift.
      specialize (E1 n' (e k + t') Hn' ltac:(lra)). unfold b. rewrite <- Rplus_assoc. exact E1.
    + split; [intros n' t' Hn' Ht'; apply continuity_shift, C2; [exact Hn'|specialize (Mono k); lra]|]. exists []. intros n' t' Hn' Ht' _. apply derivable_shift.
      specialize (E2 n' (e k + t') Hn' ltac:(lra)). unfold b. rewrite <- Rplus_assoc. rewrite (rsum_ext _ (fun m => ent G n' m * s (Datatypes.S k) m) (fun m => ent G n' m * s' (Datatypes.S k) m)) by (intros m Hm; now rewrite Es). exact E2.
    + intros n' Hn'. rewrite Rplus_0_r. apply IHx; [exact Hn'|specialize (Mono k); lra].
Qed.

(** the observation of row [m] *)
Lemma obs_nth (S : asys Rring) (G : nd2 Rring) (x u s : nat -> R) o m : valid S -> aGt S = Some G -> (m < sMt S)%nat ->
  control_observation S (map x (seq 0 (sN S))) (Some (map u (seq 0 (sL S)))) (Some (map s (seq 0 (sM S)))) = Ok o ->
  nth m o 0 = rsum (sN S) (fun i => ent G m i * x i) + rsum (sL S) (fun i => ent (aBt S) m i * u i) + rsum (sM S) (fun i => ent (aAt S) m i * s i).
Proof.
  intros V EG Hm Ho. assert (Lm : forall (f : nat -> R) n, length (map f (seq 0 n)) = n) by (intros; now rewrite map_length, seq_length).
  rewrite (control_observation_xus (K := Rring) S _ _ _ V) in Ho; [|congruence|apply (Lm x)|apply (Lm u)|apply (Lm s)]. apply ok_inj in Ho. subst o.
  pose proof (v_Gt _ V) as VG. rewrite EG in VG. destruct (v_Bt _ V) as [_ VB], (v_At _ V) as [_ VA].
  assert (Nm : forall (f : nat -> R) n i, (i < n)%nat -> nth i (map f (seq 0 n)) 0 = f i) by (intros; now apply nth_seq_R).
  unfold vadd, obs_x, obs_u, obs_s, lino. rewrite EG. change (@radd Rring) with Rplus.
  rewrite (ParallelProofs.nth_map2 Rplus _ _ m 0 0); [|rewrite map2_length, !map_length, !seq_length; lia|rewrite map_length, seq_length; exact Hm].
  rewrite (ParallelProofs.nth_map2 Rplus _ _ m 0 0) by (rewrite map_length, seq_length; exact Hm).
  f_equal; [f_equal|]; (etransitivity; [apply Nm; exact Hm|]); rewrite IntegratorsProofs.lin_rsum; rewrite ?VG, ?VB, ?VA; apply rsum_ext; intros i Hi; now rewrite Nm.
Qed.
Lemma nominal_scale S G amp u e x s c : valid S -> aGt S <> None -> (sM S <= sMt S)%nat -> 0 < c -> nominal S G amp u e x s ->
  nominal S G (c * amp) (fun l t => c * u l t) e (fun n t => c * x n t) (fun k m => c * s k m).
Proof.
  intros V HG HM Hc [C D]. destruct (aGt S) as [Gt|] eqn:EG; [|congruence]. split.
  - intros n t Hn Hte. apply (continuity_pt_scal (x n) c t). now apply C.
  - intro k. destruct (D k) as (E & o & Ho & P). split.
    + intros n t Hn Hte. specialize (E n t Hn Hte). pose proof (derivable_pt_lim_scal (x n) c t _ E) as E'. unfold mult_real_fct in E'.
      rewrite (rsum_ext (sN S) _ (fun j => c * (ent (aA S) n j * x j t))) by (intros; cbn [car Rring]; ring).
      rewrite (rsum_ext (sL S) _ (fun l => c * (ent (aB S) n l * u l t))) by (intros; cbn [car Rring]; ring).
      rewrite (rsum_ext (sM S) _ (fun m => c * (ent G n m * s (Datatypes.S k) m))) by (intros; cbn [car Rring]; ring).
      rewrite !rsum_scale, <- !Rmult_plus_distr_l. exact E'.
    + assert (Lm : forall (f : nat -> R) n, length (map f (seq 0 n)) = n) by (intros; now rewrite map_length, seq_length).
      assert (Ok' : exists o', control_observation S (map (fun n => c * x n (e k)) (seq 0 (sN S))) (Some (map (fun l => c * u l (e k)) (seq 0 (sL S)))) (Some (map (fun m => c * s k m) (seq 0 (sM S)))) = Ok o').
      { eexists. apply (control_observation_xus (K := Rring) S _ _ _ V); [congruence|apply (Lm _ (sN S))|apply (Lm _ (sL S))|apply (Lm _ (sM S))]. }
      destruct Ok' as [o' Ho']. exists o'. split; [exact Ho'|]. intros m Hm. destruct (P m Hm) as (P1 & P2 & P3).
      assert (En : nth m o' 0 = c * nth m o 0).
      { rewrite (obs_nth S Gt (fun n => c * x n (e k)) (fun l => c * u l (e k)) (fun m => c * s k m) o' m V EG ltac:(lia) Ho'), (obs_nth S Gt (fun n => x n (e k)) (fun l => u l (e k)) (s k) o m V EG ltac:(lia) Ho).
        rewrite (rsum_ext (sN S) _ (fun i => c * (ent Gt m i * x i (e k)))) by (intros; cbn [car Rring]; ring).
        rewrite (rsum_ext (sL S) _ (fun i => c * (ent (aBt S) m i * u i (e k)))) by (intros; cbn [car Rring]; ring).
        rewrite (rsum_ext (sM S) _ (fun i => c * (ent (aAt S) m i * s k i))) by (intros; cbn [car Rring]; ring).
        rewrite !rsum_scale. cbn [car Rring]. ring. }
      rewrite En. split; [destruct P1 as [->| ->]; [left|right]; ring|]. split; intro H; [rewrite P2 by nra|rewrite P3 by nra]; ring.
Qed.
Lemma nominal_ext (S S' : asys Rring) G amp u e x s : (forall n j, (n < sN S)%nat -> (j < sN S)%nat -> @eq R (ent (aA S) n j) (ent (aA S') n j)) -> rows (aA S) = rows (aA S') -> cols (aA S) = cols (aA S') ->
  aB S = aB S' -> aCT S = aCT S' -> aG S = aG S' -> aGt S = aGt S' -> aBt S = aBt S' -> aAt S = aAt S' -> nominal S G amp u e x s -> nominal S' G amp u e x s.
Proof.
  destruct S as [A B CT g gt D Bt At], S' as [A' B' CT' g' gt' D' Bt' At']. cbn [aA aB aCT aG aGt aBt aAt]. intros EA ER EC <- <- <- <- <- <- [C H].
  unfold nominal, sN, sL, sM in *. cbn [aA aB aG] in *. rewrite <- ER. split; [exact C|]. intro k. destruct (H k) as (H1 & H2). split; [|exact H2].
  intros n t Hn Ht. specialize (H1 n t Hn Ht). rewrite (rsum_ext (rows A) (fun j => ent A' n j * x j t) (fun j => ent A n j * x j t)) by (intros j Hj; cbn [car Rring] in *; now rewrite EA). exact H1.
Qed.

(** ** The front ends *)
Section Ends.
Variable anon : cid -> lab -> string.
Variables N L M : nat.
Lemma dc_cases l : In l (dc_pins N L M) -> In l [VSS; VDD; CLK; VCM] \/ (exists p i, (i < N)%nat /\ l = XX p i) \/ (exists p i, (i < L)%nat /\ l = IN p i) \/ (exists p i, (i < M)%nat /\ l = SS p i).
Proof.
  intro H. unfold dc_pins in H. apply in_app_or in H. destruct H as [H|H]; [now left|].
  repeat (apply in_app_or in H; destruct H as [H|H]); apply in_map_iff in H; destruct H as (i & <- & Hi); apply in_seq in Hi; right.
  1,2: left; do 2 eexists; split; [|reflexivity]; lia. 1,2: right; left; do 2 eexists; split; [|reflexivity]; lia. all: right; right; do 2 eexists; split; [|reflexivity]; lia.
Qed.
Lemma dc_call l : In l (dc_pins N L M) -> In (own (updc l) CDC l) (dc_calls N L M).
Proof.
  intro H. unfold dc_calls. apply in_or_app. destruct (dc_cases l H) as [H'|[(p & i & Hi & ->)|[(p & i & Hi & ->)|(p & i & Hi & ->)]]].
  - left. cbn in H'. destruct H' as [<-|[<-|[<-|[<-|[]]]]]; cbn; tauto.
  - right. apply in_or_app. left. apply in_flat_map. exists i. split; [apply in_seq; lia|]. destruct p; cbn; tauto.
  - right. apply in_or_app. right. apply in_or_app. left. apply in_flat_map. exists i. split; [apply in_seq; lia|]. destruct p; cbn; tauto.
  - right. apply in_or_app. right. apply in_or_app. right. apply in_flat_map. exists i. split; [apply in_seq; lia|]. destruct p; cbn; tauto.
Qed.
Lemma dc_line k att : att_ok k att -> In (dc_comp N L M) (k_comps k) -> (forall c, In c (dc_calls N L M) -> In c (k_calls k)) ->
  In (LX (cname CDC) (map (fun l => labname (updc l)) (dc_pins N L M)) "digital_control") (lines anon k).
Proof.
  intros A Hc Hk. apply (in_map (emit anon k)) in Hc. cbn [emit dc_comp c_kind c_id] in Hc. rewrite (map_ext_in _ (fun l => labname (updc l))) in Hc; [exact Hc|].
  intros l Hl. apply (node_pin anon k att A). now apply Hk, dc_call.
Qed.
End Ends.
Lemma opamp_eq S C G k : aG S = Some G -> opamp_frontend S C = Ok k -> k = OpampCircuit.op_ckt (sN S) (sL S) (sM S) (ent (aA S)) (ent (aB S)) (ent G) C.
Proof. intros HG H. unfold opamp_frontend in H. rewrite HG in H. apply ok_inj in H. now subst k. Qed.
Lemma gmc_eq S C gain G k cs : aG S = Some G -> (0 < sN S)%nat -> gmc_frontend S C gain = Ok (k, cs) -> k = GmCircuit.gmc_ckt (sN S) (sL S) (sM S) C.
Proof.
  intros HG HN Hk. assert (D : gain = None \/ max_abs (sN S) (sL S) (ent (aB S)) * C <> 0).
  { destruct gain as [g|]; [right|now left]. intro E. unfold gmc_frontend in Hk. rewrite HG in Hk.
    destruct (sN S) as [|N] eqn:EN; [lia|]. cbn [seq map all_ok] in Hk. unfold gm_cell at 1 in Hk. rewrite E in Hk. rewrite Req_bool_true in Hk by reflexivity. discriminate Hk. }
  rewrite (GmCircuit.gmc_ok S C gain G HG D) in Hk. apply ok_inj in Hk. injection Hk as <- _. reflexivity.
Qed.
Lemma testbench_eq vdd T tt sg L M fe k : testbench vdd T tt sg L M fe = Ok k -> (L <= length sg)%nat /\ k = SourceProofs.tb_ckt vdd T tt sg L M fe.
Proof. unfold testbench. destruct (Nat.ltb_spec (length sg) L); [discriminate|]. intro E. apply ok_inj in E. subst k. now split. Qed.
Lemma state_in N p n : (n < N)%nat -> In (labname (XX p n)) (state_nodes N).
Proof. intro H. apply in_flat_map. exists n. split; [apply in_seq; lia|]. destruct p; cbn; tauto. Qed.

Theorem opamp_loop anon danon vdd T tt sg S G C kt kf kd w : 0 < vdd -> 0 < tt <= T / 2 -> valid S -> aG S = Some G -> aGt S <> None -> C > 0 ->
  opamp_frontend S C = Ok kf -> testbench vdd T tt sg (sL S) (sM S) (k_name kf) = Ok kt -> control_ckt S T 0 0 vdd 0 0 = Ok kd ->
  obeys anon danon kt kf kd (fun v dv il => forall l, In l (lines anon kf) -> ideal_opamp v dv il (lines anon kf) l) (state_nodes (sN S)) w ->
  nominal S G vdd (uw sg) (edge T tt) (xw w) (so T tt w) /\ forall k m t, (m < sM S)%nat -> edge T tt k < t <= edge T tt (Datatypes.S k) -> ow w m t = so T tt w (Datatypes.S k) m.
Proof.
  intros Hv Ht V HG HGt HC Hf Hk Hd W. pose proof (opamp_eq S C G kf HG Hf) as Ef. destruct (testbench_eq _ _ _ _ _ _ _ _ Hk) as [Hsg Et].
  pose proof (OpampCircuit.op_att_ok (sN S) (sL S) (sM S) (ent (aA S)) (ent (aB S)) (ent G) C) as A. rewrite <- Ef in A.
  assert (Q : nominal (leaky S 0) G vdd (uw sg) (edge T tt) (xw w) (so T tt w) /\ forall k m t, (m < sM S)%nat -> edge T tt k < t <= edge T tt (Datatypes.S k) -> ow w m t = so T tt w (Datatypes.S k) m).
  { eapply (loop anon danon vdd T tt sg S G 0 kt kf kd) with (w := w); try eassumption.
    - rewrite Ef. unfold formals. cbn [k_terms OpampCircuit.op_ckt]. apply map_ext. intro l. rewrite <- Ef. apply (node_own anon kf _ A).
    - now rewrite Ef.
    - intro l. apply (node_own anon kf _ A).
    - exists (cname CDC). apply (dc_line anon _ _ _ kf _ A); rewrite Ef; [now left|]. intros c Hc. cbn [k_calls OpampCircuit.op_ckt]. apply in_or_app. now left.
    - cbv beta. intros v dv il n H Hn. rewrite (P_Circuits.C51_ideal anon S C G kf v dv il n HG HC Hf Hn H). ring.
    - intros p n Hn. now apply state_in. }
  destruct Q as [Q1 Q2]. split; [|exact Q2]. apply (nominal_ext (leaky S 0)); try reflexivity; [|exact Q1].
  intros n j _ _. cbn [leaky aA ent]. destruct (Nat.eqb n j); cbn [car Rring]; ring.
Qed.
Theorem opamp_levels anon danon vdd T tt sg S G C kt kf kd law st w : 0 < vdd -> 0 < tt <= T / 2 -> valid S -> aG S = Some G -> aGt S <> None ->
  opamp_frontend S C = Ok kf -> testbench vdd T tt sg (sL S) (sM S) (k_name kf) = Ok kt -> control_ckt S T 0 0 vdd 0 0 = Ok kd -> obeys anon danon kt kf kd law st w ->
  (forall t, 0 <= t -> w_tb w "CLK"%string t = pulse_wave 0 vdd 0 tt tt (T * (1 / 2) - tt) T t) /\
  forall k m t, (m < sM S)%nat -> edge T tt k < t <= edge T tt (Datatypes.S k) -> w_tb w (labname (OUT true m)) t = (vdd + so T tt w (Datatypes.S k) m) / 2 /\ (so T tt w (Datatypes.S k) m = vdd \/ so T tt w (Datatypes.S k) m = - vdd).
Proof.
  intros Hv Ht V HG HGt Hf Hk Hd W. pose proof (opamp_eq S C G kf HG Hf) as Ef. destruct (testbench_eq _ _ _ _ _ _ _ _ Hk) as [Hsg Et].
  pose proof (OpampCircuit.op_att_ok (sN S) (sL S) (sM S) (ent (aA S)) (ent (aB S)) (ent G) C) as A. rewrite <- Ef in A.
  eapply (levels anon danon vdd T tt sg S kt kf kd) with (w := w); try eassumption.
  - rewrite Ef. unfold formals. cbn [k_terms OpampCircuit.op_ckt]. apply map_ext. intro l. rewrite <- Ef. apply (node_own anon kf _ A).
  - exists (cname CDC). apply (dc_line anon _ _ _ kf _ A); rewrite Ef; [now left|]. intros c Hc. cbn [k_calls OpampCircuit.op_ckt]. apply in_or_app. now left.
Qed.
Definition gm_leak (S : asys Rring) (gain : option R) : R := match gain with None => 0 | Some g => max_abs (sN S) (sL S) (ent (aB S)) / (4 * g) end.
Theorem gmc_loop anon danon vdd T tt sg S G C gain kt kf cs kd w : 0 < vdd -> 0 < tt <= T / 2 -> valid S -> aG S = Some G -> aGt S <> None -> C <> 0 -> (forall g, gain = Some g -> g <> 0) -> (0 < sN S)%nat ->
  gmc_frontend S C gain = Ok (kf, cs) -> testbench vdd T tt sg (sL S) (sM S) (k_name kf) = Ok kt -> control_ckt S T 0 0 vdd 0 0 = Ok kd ->
  obeys anon danon kt kf kd (fun v dv il => forall a, In a (state_nodes (sN S)) -> kcl v dv il (flatten anon cs kf) a) (state_nodes (sN S)) w ->
  nominal (leaky S (gm_leak S gain)) G vdd (uw sg) (edge T tt) (xw w) (so T tt w) /\ forall k m t, (m < sM S)%nat -> edge T tt k < t <= edge T tt (Datatypes.S k) -> ow w m t = so T tt w (Datatypes.S k) m.
Proof.
  intros Hv Ht V HG HGt HC Hg HN Hf Hk Hd W. pose proof (gmc_eq S C gain G kf cs HG HN Hf) as Ef. destruct (testbench_eq _ _ _ _ _ _ _ _ Hk) as [Hsg Et].
  pose proof (GmCircuit.fe_att_ok (sN S) (sL S) (sM S) C) as A. rewrite <- Ef in A.
  eapply (loop anon danon vdd T tt sg S G (gm_leak S gain) kt kf kd) with (w := w); try eassumption.
  - rewrite Ef. unfold formals. cbn [k_terms GmCircuit.gmc_ckt]. apply map_ext. intro l. rewrite <- Ef. apply (node_own anon kf _ A).
  - now rewrite Ef.
  - intro l. apply (node_own anon kf _ A).
  - exists (cname CDC). apply (dc_line anon _ _ _ kf _ A); rewrite Ef; [now left|]. intros c Hc. cbn [k_calls GmCircuit.gmc_ckt]. apply in_or_app. now left.
  - cbv beta. intros v dv il n H Hn. apply (P_Circuits.C52_state anon S C gain G kf cs v dv il n HG HC Hg Hf Hn).
    + change ("X" ++ dec n ++ "_P")%string with (labname (XX true n)). apply H. now apply state_in.
    + change ("X" ++ dec n ++ "_N")%string with (labname (XX false n)). apply H. now apply state_in.
  - intros p n Hn. now apply state_in.
Qed.
Theorem gmc_levels anon danon vdd T tt sg S G C gain kt kf cs kd law st w : 0 < vdd -> 0 < tt <= T / 2 -> valid S -> aG S = Some G -> aGt S <> None -> (0 < sN S)%nat ->
  gmc_frontend S C gain = Ok (kf, cs) -> testbench vdd T tt sg (sL S) (sM S) (k_name kf) = Ok kt -> control_ckt S T 0 0 vdd 0 0 = Ok kd -> obeys anon danon kt kf kd law st w ->
  (forall t, 0 <= t -> w_tb w "CLK"%string t = pulse_wave 0 vdd 0 tt tt (T * (1 / 2) - tt) T t) /\
  forall k m t, (m < sM S)%nat -> edge T tt k < t <= edge T tt (Datatypes.S k) -> w_tb w (labname (OUT true m)) t = (vdd + so T tt w (Datatypes.S k) m) / 2 /\ (so T tt w (Datatypes.S k) m = vdd \/ so T tt w (Datatypes.S k) m = - vdd).
Proof.
  intros Hv Ht V HG HGt HN Hf Hk Hd W. pose proof (gmc_eq S C gain G kf cs HG HN Hf) as Ef. destruct (testbench_eq _ _ _ _ _ _ _ _ Hk) as [Hsg Et].
  pose proof (GmCircuit.fe_att_ok (sN S) (sL S) (sM S) C) as A. rewrite <- Ef in A.
  eapply (levels anon danon vdd T tt sg S kt kf kd) with (w := w); try eassumption.
  - rewrite Ef. unfold formals. cbn [k_terms GmCircuit.gmc_ckt]. apply map_ext. intro l. rewrite <- Ef. apply (node_own anon kf _ A).
  - exists (cname CDC). apply (dc_line anon _ _ _ kf _ A); rewrite Ef; [now left|]. intros c Hc. cbn [k_calls GmCircuit.gmc_ckt]. apply in_or_app. now left.
Qed.
