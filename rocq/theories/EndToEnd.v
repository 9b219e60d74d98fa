(** From the simulator to the estimator: runs of FullSimulator as trajectories of the analog system, with the control signals it hands out as decisions. *)
From Coq Require Import List Arith Lia Bool Reals Lra ZArith.
From Flocq Require Import Core.
From Coquelicot Require Import Complex.
From Verif Require Import Base LinAlg Estimators FirExtras AnalogSystem AnalogProofs Signals DigitalControl DigitalControlProofs ControlKinds Integrators IntegratorsProofs Simulator Stability LinearOde PreSim Zpk
  SynthesisProofs CplxLin TransferProofs FilterCoeff FilterCoeffProofs FilterOde EstimatorDecay ConversionError.
Import ListNotations.
Open Scope R_scope.

(** the control signals handed out by the first, second, ... call of [next]: the contents of the array at the time it is handed out *)
Definition handed_out ivp (S : asys Rring) (inputs : list (R -> R)) (s0 : sim) (i : nat) : list R :=
  match full_run ivp S inputs (i + 1) s0 with Ok s => rd_arr (s_h s) (d_s (s_d s)) | Exn _ => [] end.

Lemma finite_choice {A} (P : nat -> A -> Prop) (a0 : A) hi : (forall i, (i < hi)%nat -> exists a, P i a) -> exists f, forall i, (i < hi)%nat -> P i (f i).
Proof.
  induction hi as [|hi IH]; intros H; [exists (fun _ => a0); lia|]. destruct IH as (f & Hf); [intros; apply H; lia|]. destruct (H hi ltac:(lia)) as (a & Ha).
  exists (fun i => if Nat.eqb i hi then a else f i). intros i Hi. destruct (Nat.eqb_spec i hi) as [->|N]; [exact Ha|]. apply Hf. lia.
Qed.

Section Run.
Variables (ivp : (R -> list R -> result (list R)) -> R -> R -> list R -> result (list R)) (S : asys Rring) (d : dc) (inputs : list (R -> R)) (s0 : sim).
Local Notation N := (sN S).
Local Notation T := (ck_T (d_clk d)).
Hypothesis V : valid S.
Hypothesis HG : aG S <> None.
Hypothesis HM : sMt S = sM S.
Hypothesis HP : plain d (sM S).
Hypothesis HI : inputs <> [].
Hypothesis LI : length inputs = sL S.
Hypothesis HT : 0 <= T.
Hypothesis D0 : s_d s0 = d.
Hypothesis W0 : wf d (s_h s0).
Hypothesis T0 : s_t s0 = 0.
Hypothesis X0 : length (s_x s0) = N.
Hypothesis EX : forall i s, full_run ivp S inputs i s0 = Ok s -> answers_exactly ivp S inputs s.

Definition regular (i : nat) (s : sim) : Prop := s_d s = d /\ wf d (s_h s) /\ s_t s = INR i * T /\ length (s_x s) = N.

Lemma inputs_at_ok t : inputs_at S inputs t = map (fun f => f t) inputs /\ length (inputs_at S inputs t) = sL S.
Proof. unfold inputs_at. destruct inputs as [|f l]; [congruence|]. split; [reflexivity|]. rewrite map_length. exact LI. Qed.
Lemma rhs_ok s h t y : regular 0 (mkSim 0 (s_x s) (s_d s) (s_h s)) -> wf d h -> 0 <= t -> length y = N ->
  full_rhs S inputs s h t y = Ok (rhs S y (map (fun f => f (t + s_t s)) inputs) (map (rd h (d_dec d)) (seq 0 (sM S)))).
Proof.
  intros (Ed & _) Wh Ht Ly. cbn [s_d] in Ed. unfold full_rhs. destruct inputs as [|f l] eqn:EI; [congruence|]. rewrite <- EI in *. rewrite Ed, (plain_contribution d (sM S) h t HP Wh Ht). cbn [bind].
  assert (L1 : length (map (fun f => f (t + s_t s)) inputs) = sL S) by (rewrite map_length; exact LI). assert (L2 : length (map (rd h (d_dec d)) (seq 0 (sM S))) = sM S) by (rewrite map_length; apply seq_length).
  first [exact (derivative_rhs (K:=Rring) S y _ _ V HG Ly L1 L2)|exact (derivative_rhs S y _ _ V HG Ly L1 L2)|apply (derivative_rhs S)].
Qed.
Lemma step_ok i s s' : regular i s -> full_run ivp S inputs i s0 = Ok s -> full_run ivp S inputs (i + 1) s0 = Ok s' ->
  regular (i + 1) s' /\ (exists y, solves (full_rhs S inputs s (s_h s')) 0 T (s_x s) y /\ s_x s' = y T) /\
  forall m, (m < sM S)%nat -> rd (s_h s') (d_dec d) m = 2 * rd (s_h s') (d_s d) m - 1 /\ 0 <= rd (s_h s') (d_s d) m <= 1.
Proof.
  intros (Ed & W & Et & Lx) Es Es'. rewrite Nat.add_1_r in Es'. cbn [full_run] in Es'. rewrite Es in Es'. cbn [bind] in Es'. apply bind_ok in Es' as ([a s1] & E & Q). apply Ok_inj in Q. subst s1.
  unfold full_next in E. apply bind_ok in E as (h & EO & E). apply bind_ok in E as (x & EI & E). apply Ok_inj in E. injection E as _ <-. cbn [s_h s_x s_d s_t].
  destruct (EX i s Es h EO) as (y & Hy & Ey). rewrite EI in Ey. apply Ok_inj in Ey. subst x. rewrite Ed in Hy. rewrite Ed.
  unfold observe_update in EO. rewrite Ed, (plain_contribution d (sM S) _ 0 HP W (Rle_refl 0)) in EO. cbn [bind] in EO. apply bind_ok in EO as (st & Est & EO).
  assert (Lst : length st = sM S).
  { destruct (aGt S) as [gt|] eqn:EG.
    - assert (LC : length (map (rd (s_h s) (d_dec d)) (seq 0 (sM S))) = sM S) by (now rewrite map_length, seq_length).
      assert (Est' := control_observation_xus S (s_x s) (inputs_at S inputs (0 + s_t s)) (map (rd (s_h s) (d_dec d)) (seq 0 (sM S))) V ltac:(congruence) Lx (proj2 (inputs_at_ok _)) LC).
      assert (Est2 := eq_trans (eq_sym Est) Est'). apply Ok_inj in Est2. subst st. rewrite <- HM. unfold obs_x, obs_u, obs_s. rewrite !vadd_map. rewrite map_length. apply seq_length.
    - exfalso. unfold control_observation in Est. rewrite EG in Est. cbn in Est. discriminate. }
  destruct (plain_update d (sM S) (s_h s) st HP W (Nat.eq_le_incl _ _ (eq_sym Lst))) as (h' & EU & W' & HU). rewrite EU in EO. apply Ok_inj in EO. subst h'.
  split; [|split].
  - split; [reflexivity|]. split; [exact W'|]. split; [cbn [s_t]; rewrite ?Ed, Et, plus_INR; cbn [INR]; ring|]. cbn [s_x]. destruct Hy as (_ & Yl & _). rewrite Yl by lra. exact Lx.
  - exists y. split; [exact Hy|reflexivity].
  - intros m Hm. destruct (HU m Hm) as [U1 U2]. rewrite U1, U2. match goal with |- context [Rle_bool ?a ?b] => destruct (Rle_bool a b) end; lra.
Qed.
Lemma all_regular i s : full_run ivp S inputs i s0 = Ok s -> regular i s.
Proof.
  revert s. induction i as [|i IH]; intros s Hs.
  - cbn [full_run] in Hs. apply Ok_inj in Hs. subst s. split; [exact D0|]. split; [exact W0|]. split; [cbn [INR]; lra|exact X0].
  - assert (H := Hs). cbn [full_run] in H. apply bind_ok in H as (s1 & E1 & _). rewrite <- Nat.add_1_r in *. exact (proj1 (step_ok i s1 s (IH s1 E1) E1 Hs)).
Qed.

(** the simulated run is a run of the analog system *)
Lemma sim_front_end hi : (forall i, (i <= hi)%nat -> exists s, full_run ivp S inputs i s0 = Ok s) ->
  exists x, front_end S d 0 hi (handed_out ivp S inputs s0) (fun i l t => nth l (map (fun f => f (t + INR i * T)) inputs) 0) x /\
    forall i s, (i <= hi)%nat -> full_run ivp S inputs i s0 = Ok s -> (forall n, x i n 0 = nth n (s_x s) 0) /\
      ((i < hi)%nat -> forall h, observe_update S (inputs_at S inputs (0 + s_t s)) s = Ok h -> exists y, solves (full_rhs S inputs s h) 0 T (s_x s) y /\ forall n t, 0 <= t <= T -> x i n t = nth n (y t) 0).
Proof.
  intros HR.
  destruct (finite_choice (fun i y => forall s s', full_run ivp S inputs i s0 = Ok s -> full_run ivp S inputs (i + 1) s0 = Ok s' -> solves (full_rhs S inputs s (s_h s')) 0 T (s_x s) y /\ s_x s' = y T) (fun _ => []) hi) as (y & Hy).
  { intros i Hi. destruct (HR i ltac:(lia)) as (s & Es). destruct (HR (i + 1)%nat ltac:(lia)) as (s' & Es'). destruct (step_ok i s s' (all_regular i s Es) Es Es') as (_ & (y & Y1 & Y2) & _). exists y.
    intros s1 s1' E1 E1'. rewrite Es in E1. rewrite Es' in E1'. apply Ok_inj in E1. apply Ok_inj in E1'. subst s1 s1'. split; assumption. }
  destruct (HR hi ltac:(lia)) as (sh & Esh).
  set (x := fun i n t => if Nat.ltb i hi then nth n (y i t) 0 else nth n (s_x sh) 0).
  assert (XI : forall i s, (i <= hi)%nat -> full_run ivp S inputs i s0 = Ok s -> forall n, x i n 0 = nth n (s_x s) 0).
  { intros i s Hi Es n. unfold x. destruct (Nat.ltb_spec i hi) as [L|L].
    - destruct (HR (i + 1)%nat ltac:(lia)) as (s' & Es'). destruct (Hy i L s s' Es Es') as [(Y0 & _) _]. now rewrite Y0.
    - replace i with hi in Es by lia. rewrite Esh in Es. apply Ok_inj in Es. now subst. }
  exists x. split.
  - intros i Hi. destruct (HR i ltac:(lia)) as (s & Es). destruct (HR (i + 1)%nat ltac:(lia)) as (s' & Es'). assert (RG := all_regular i s Es). destruct (step_ok i s s' RG Es Es') as (RG' & _ & DEC).
    destruct (Hy i ltac:(lia) s s' Es Es') as [(Y0 & Yl & Yc & Yd) YT]. destruct RG as (Ed & W & Et & Lx). destruct RG' as (Ed' & W' & _).
    assert (Ex : forall n t, x i n t = nth n (y i t) 0) by (intros; unfold x; destruct (Nat.ltb_spec i hi); [reflexivity|lia]). split.
    + split.
      * intros n t Hn Ht. apply (continuity_pt_locally_ext (fun t => nth n (y i t) 0) _ 1); [lra|intros; symmetry; apply Ex|apply Yc; exact Ht].
      * exists []. intros n t Hn Ht _. destruct (Yd t Ht) as (v & Ev & Lv & Dv). apply (derivable_ext (fun t => nth n (y i t) 0)); [intros; symmetry; apply Ex|].
        assert (Er := rhs_ok s (s_h s') t (y i t) ltac:(split; [exact Ed|split; [exact W|split; [cbn; lra|exact Lx]]]) W' ltac:(lra) ltac:(rewrite Yl by lra; exact Lx)).
        rewrite Er in Ev. apply Ok_inj in Ev. subst v. assert (D := Dv n ltac:(rewrite Lx; exact Hn)).
        match goal with |- derivable_pt_lim _ _ ?r => replace r with (nth n (rhs S (y i t) (map (fun f => f (t + s_t s)) inputs) (map (rd (s_h s') (d_dec d)) (seq 0 (sM S)))) 0); [exact D|] end.
        unfold rhs. rewrite (nth_seq_R _ _ _ Hn). rewrite !lin_rsum. rewrite (v_A _ V).
        unfold lino, input_drive, FilterCoeffProofs.ctl, gent.
        assert (HO : handed_out ivp S inputs s0 i = rd_arr (s_h s') (d_s d)) by (unfold handed_out; rewrite Es'; now rewrite Ed'). rewrite HO.
        assert (VG := v_G _ V). unfold sM in *. destruct (aG S) as [g|] eqn:EG; [|congruence]. rewrite lin_rsum.
        cbn [car Rring radd]. match goal with |- ?a + ?b + ?c = ?a' + (?b' + ?c') => assert (A1 : a = a'); [|assert (A2 : b = b'); [|assert (A3 : c = c'); [|rewrite A1, A2, A3; apply Rplus_assoc]]] end.
        -- apply rsum_ext. intros k _. now rewrite Ex.
        -- apply rsum_ext. intros l _. now rewrite Et.
        -- apply rsum_ext. intros m Hm. rewrite nth_seq_R by exact Hm. f_equal. rewrite (proj1 (DEC m Hm)). unfold rd. 
           assert (Wv : wave d m t = 1). { unfold wave. destruct HP as (_ & -> & _). rewrite nth_repeat_lt by exact Hm. cbn [w_eval]. rewrite Rle_bool_true by lra. reflexivity. }
           rewrite Wv. ring.
    + intros n Hn. rewrite (XI (i + 1)%nat s' ltac:(lia) Es'). rewrite Ex. now rewrite YT.
  - intros i s Hi Es. split; [now apply XI|]. intros L h EO. destruct (HR (i + 1)%nat ltac:(lia)) as (s' & Es'). destruct (Hy i L s s' Es Es') as [Ys _]. exists (y i).
    assert (Eh : s_h s' = h).
    { rewrite Nat.add_1_r in Es'. cbn [full_run] in Es'. rewrite Es in Es'. cbn [bind] in Es'. unfold full_next in Es'. rewrite EO in Es'. cbn [bind] in Es'.
      destruct (ivp (full_rhs S inputs s h) 0 (ck_T (d_clk (s_d s))) (s_x s)); cbn [bind] in Es'; [|discriminate]. apply Ok_inj in Es'. now subst s'. }
    rewrite Eh in Ys. split; [exact Ys|]. intros n t _. unfold x. destruct (Nat.ltb_spec i hi); [reflexivity|lia].
Qed.
Lemma handed_decisions : (forall i, exists s, full_run ivp S inputs i s0 = Ok s) -> decisions (sM S) (handed_out ivp S inputs s0).
Proof.
  intros HR i. destruct (HR i) as (s & Es). destruct (HR (i + 1)%nat) as (s' & Es'). destruct (step_ok i s s' (all_regular i s Es) Es Es') as ((Ed & W & _) & _ & DEC).
  unfold handed_out. rewrite Es', Ed. split; [destruct W as (_ & _ & (L & _) & _); rewrite L; apply HP|]. intros m Hm. apply (DEC m Hm).
Qed.
End Run.

(** *** Chains of integrators *)
Lemma finish_D A beta kappa (S : asys Rring) : finish_init A beta kappa = Ok S -> forall r l, ent (aD S) r l = 0.
Proof.
  unfold finish_init. intros H. apply bind_ok in H as (B & _ & H). apply bind_ok in H as (G & _ & H). apply bind_ok in H as (Gt & _ & H).
  apply as_init_ok in H as (_ & _ & _ & _ & _ & _ & _ & E & _). intros r l. rewrite E. reflexivity.
Qed.
Lemma coi_D beta rho kappa (S : asys Rring) : coi_init beta rho kappa = Ok S -> forall r l, ent (aD S) r l = 0.
Proof. unfold coi_init. intros H. apply bind_ok in H as (? & _ & H). apply bind_ok in H as (A & _ & H). exact (finish_D _ _ _ _ H). Qed.
Lemma coi_osr_D o N BW rho h S d h' : coi_osr o N BW rho h = Ok (S, d, h') -> forall r l, ent (aD S) r l = 0.
Proof.
  unfold coi_osr. destruct (Req_bool _ _); [discriminate|]. intros H. apply bind_ok in H as (S' & E & H). apply bind_ok in H as (clk & _ & H). apply bind_ok in H as ([d' h2] & _ & H).
  apply Ok_inj in H. inversion H; subst. exact (coi_D _ _ _ _ E).
Qed.
Lemma coi_enob_D k e N BW h S d h' : coi_enob k e N BW h = Ok (S, d, h') -> forall r l, ent (aD S) r l = 0.
Proof.
  unfold coi_enob. destruct (Nat.eqb N 0); [discriminate|]. destruct (Rle_bool _ _); [discriminate|]. destruct (Req_bool _ _); [discriminate|].
  intros H. apply bind_ok in H as (S0 & _ & H). apply bind_ok in H as ([[kk d1] h1] & _ & H). apply bind_ok in H as (S1 & E & H). apply Ok_inj in H. inversion H; subst.
  assert (Q := coi_D _ _ _ _ E). destruct (k_fg k); exact Q.
Qed.
Lemma get_coi_D k h S d h' : get_coi k h = Ok (S, d, h') -> forall r l, ent (aD S) r l = 0.
Proof.
  unfold get_coi. destruct (k_N k) as [N|]; [|discriminate]. destruct (k_BW k) as [BW|].
  - destruct (k_ENOB k); [apply coi_enob_D|]. destruct (k_SNR k); [apply coi_enob_D|]. destruct (k_OSR k); [apply coi_osr_D|discriminate].
  - destruct (k_OSR k); [|discriminate]. destruct (k_T k); [|discriminate]. destruct (Req_bool _ _); [discriminate|apply coi_osr_D].
Qed.

Definition delta (N j : nat) : list R := map (fun k => if Nat.eqb k j then 1 else 0) (seq 0 N).
Lemma lin_delta (m : rmat) N j i : (cols m = N)%nat -> (j < N)%nat -> lin (K := Rring) m (delta N j) i = ent m i j.
Proof.
  intros <- Hj. rewrite lin_rsum. rewrite (rsum_ext _ _ (fun k => if Nat.eqb k j then ent m i k else 0)); [now rewrite rsum_single|].
  intros k Hk. unfold delta. rewrite nth_seq_R by exact Hk. destruct (Nat.eqb k j); ring.
Qed.
Lemma lin_zero (m : rmat) x i : (forall k, nth k x 0 = 0) -> lin (K := Rring) m x i = 0.
Proof. intros H. rewrite lin_rsum. apply rsum_zero. intros k _. rewrite H. ring. Qed.

Lemma chain_A (S : asys Rring) beta rho k : valid S -> aG S <> None -> integrator_system S beta (repeat 0 (length beta - 1)) rho k ->
  forall i j, (i < sN S)%nat -> (j < sN S)%nat -> ent (aA S) i j = (if Nat.eqb i j then nth i rho 0 else 0) + (if Nat.eqb i (j + 1) then nth i beta 0 else 0).
Proof.
  intros V HG (EN & EL & EM & _ & HD & _) i j Hi Hj. set (c := repeat 0 (sM S)). assert (Lc : length c = sM S) by apply repeat_length.
  assert (Ld : length (delta (sN S) j) = sN S) by (unfold delta; now rewrite map_length, seq_length).
  assert (E1 := derivative_rhs (K := Rring) S (delta (sN S) j) [0] c V HG Ld ltac:(rewrite EL; reflexivity) Lc).
  assert (E2 := HD (delta (sN S) j) 0 c ltac:(rewrite Ld; exact EN) ltac:(rewrite Lc; exact EM)).
  assert (E := eq_trans (eq_sym E1) E2). apply Ok_inj in E. apply (f_equal (fun l => nth i l 0)) in E. unfold rhs in E.
  rewrite (nth_seq_R _ (sN S)) in E by exact Hi. rewrite <- EN in E. rewrite (nth_seq_R _ (sN S)) in E by exact Hi.
  assert (Zc : forall k, nth k c 0 = 0) by (intros k0; unfold c; apply nth_repeat).
  assert (Zg : lino (aG S) c i = 0) by (unfold lino; destruct (aG S) as [g|]; [now apply (lin_zero g)|reflexivity]).
  assert (Zb : lin (aB S) [0] i = 0) by (apply (lin_zero (aB S)); intros [|[|q]]; reflexivity).
  assert (Za : lin (aA S) (delta (sN S) j) i = ent (aA S) i j) by (apply (lin_delta (aA S)); [apply (v_A _ V)|exact Hj]).
  cbn [car Rring radd] in E. rewrite Za, Zb, Zg in E.
  assert (Zs : rsum (ncontrols k) (fun m => IntegratorsProofs.gain k i m * nth m c 0) = 0) by (apply rsum_zero; intros m _; rewrite Zc; ring).
  rewrite Zs in E. rewrite nth_repeat in E.
  assert (Zd : forall q, (q < sN S)%nat -> nth q (delta (sN S) j) 0 = if Nat.eqb q j then 1 else 0) by (intros q Hq; unfold delta; now rewrite nth_seq_R).
  rewrite (Zd i Hi) in E.
  assert (En : (if Nat.eqb i 0 then 0 else nth (i - 1) (delta (sN S) j) 0) = if Nat.eqb i (j + 1) then 1 else 0).
  { destruct (Nat.eqb_spec i 0) as [->|N0]; [destruct (Nat.eqb_spec 0 (j + 1)); [lia|reflexivity]|]. rewrite Zd by lia. destruct (Nat.eqb_spec (i - 1) j), (Nat.eqb_spec i (j + 1)); try lia; reflexivity. }
  rewrite En in E. destruct (Nat.eqb i j), (Nat.eqb i (j + 1)); lra.
Qed.
Lemma chain_off_poles (S : asys Rring) beta rho k w : valid S -> aG S <> None -> integrator_system S beta (repeat 0 (length beta - 1)) rho k -> w <> 0 -> off_poles S w.
Proof.
  intros V HG HI Hw x Hx. assert (HA := chain_A S beta rho k V HG HI).
  induction i as [i IH] using lt_wf_ind. intros Hi. specialize (Hx i Hi). rewrite (cap_zero (sL S)) in Hx by reflexivity. unfold none in Hx.
  assert (E : cap (sN S) (ce (aA S)) x i = (RtoC (nth i rho 0) * x i)%C).
  { unfold cap. rewrite (csum_ext _ _ (fun j => if Nat.eqb j i then (RtoC (nth i rho 0%R) * x i)%C else RtoC 0)); [apply (csum_single (sN S) i (fun _ => (RtoC (nth i rho 0%R) * x i)%C)); exact Hi|].
    intros j Hj. unfold ce. rewrite HA by assumption. rewrite (Nat.eqb_sym j i). destruct (Nat.eqb_spec i j) as [->|N0].
    - destruct (Nat.eqb_spec j (j + 1)); [lia|]. now rewrite Rplus_0_r.
    - destruct (Nat.eqb_spec i (j + 1)) as [->|N1]; [rewrite (IH j ltac:(lia) Hj); ring|]. rewrite Rplus_0_r. ring. }
  rewrite E in Hx. destruct (x i) as [p q]. apply (f_equal (fun c => (fst c, snd c))) in Hx. cbn in Hx. injection Hx as E1 E2. set (r := nth i rho 0) in *.
  assert (Q1 : - (w * q) = r * p) by lra. assert (Q2 : w * p = r * q) by lra.
  assert (Z : w * (p * p + q * q) = 0) by (replace (w * (p * p + q * q)) with (p * (w * p) - q * (- (w * q))) by ring; rewrite Q1, Q2; ring).
  apply Rmult_integral in Z as [Z|Z]; [contradiction|]. assert (P0 : p = 0) by nra. assert (R0 : q = 0) by nra. subst. reflexivity.
Qed.
Lemma chain_observed (S : asys Rring) beta alpha rho k : valid S -> integrator_system S beta alpha rho k ->
  sNt S = sN S /\ forall (x : nat -> R -> R) r t, (r < sN S)%nat -> observed S x r t = x r t.
Proof.
  intros V (EN & _ & _ & _ & _ & HO & _).
  assert (H : forall x : list R, length x = sN S -> length x = sNt S /\ forall r, (r < sNt S)%nat -> rsum (sN S) (fun n => ent (aCT S) r n * nth n x 0) = nth r x 0).
  { intros x Lx. assert (E := HO x ltac:(now rewrite Lx)). unfold signal_observation in E. assert (VC := v_CT _ V). assert (E2 := dotv_R (aCT S) x ltac:(rewrite VC; now symmetry)).
    assert (E3 := eq_trans (eq_sym E) E2). apply Ok_inj in E3. split.
    - rewrite E3. rewrite map_length, seq_length. reflexivity.
    - intros r Hr. assert (F := f_equal (fun l => nth r l 0) E3). cbv beta in F. rewrite nth_seq_R in F by exact Hr. rewrite VC in F. symmetry. exact F. }
  assert (EQ : sNt S = sN S). { destruct (H (repeat 0 (sN S)) (repeat_length _ _)) as [E _]. rewrite repeat_length in E. now symmetry. }
  split; [exact EQ|]. intros x r t Hr. unfold observed.
  destruct (H (map (fun n => x n t) (seq 0 (sN S))) ltac:(now rewrite map_length, seq_length)) as [_ E]. specialize (E r ltac:(now rewrite EQ)). rewrite nth_seq_R in E by exact Hr. rewrite <- E.
  apply rsum_ext. intros n Hn. now rewrite nth_seq_R.
Qed.
Lemma plain_waves d M : plain d M -> waves_ok d.
Proof.
  intros (HM & Hr & _). split; [now rewrite Hr, repeat_length|]. intros w Hw. rewrite Hr in Hw. apply repeat_spec in Hw. subst w. cbn. auto.
Qed.
