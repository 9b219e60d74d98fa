(** Property C59: the sine wave modulator.  [pairs], [rotated] and [normsq] (ModulatorProofs) are the specification:
    [pairs N] lists the coordinates that are turned against each other and [rotated N phi x w] says w is x with each pair turned by phi. *)
From Coq Require Import List Arith Bool Reals Lia Lra Permutation.
From Verif Require Import Base LinAlg FirExtras AnalogSystem AnalogProofs IntegratorsProofs Modulator ModulatorProofs.
Import ListNotations.
Open Scope R_scope.

(** The constructor needs an even number of states and an even number of controls. *)
Theorem C59_init : forall S f, if (Nat.even (sN S) && Nat.even (sM S))%bool then exists m, mod_init S f = Ok m /\ m_sys m = S /\ m_w m = 2 * PI * f else mod_init S f = Exn ValueError.
Proof.
  intros S f. unfold mod_init. rewrite <- !Nat.negb_even. destruct (Nat.even (sN S)), (Nat.even (sM S)); cbn [negb andb]; try reflexivity. eexists. split; [reflexivity|split; reflexivity].
Qed.
Print Assumptions C59_init.

(** The coordinates are partitioned into pairs, a turn preserves the norm, and turning back restores the vector. *)
Theorem C59_rotation : forall N phi x w, Nat.even N = true -> length x = N -> rotated N phi x w ->
  Permutation (seq 0 N) (flat_map (fun '(a, b) => [a; b]) (pairs N)) /\ normsq w = normsq x /\ (forall v, rotated N (- phi) w v -> v = x).
Proof.
  intros N phi x w He Hx Hr. rewrite (even_half N He) in *. set (h := Nat.div2 N) in *. split; [apply pairs_perm|]. split; [now apply (rotated_norm h phi)|].
  intros v Hv. apply (rotated_zero h); [exact Hx|]. replace 0 with (phi + - phi) by ring. now apply (rotated_add h phi (- phi) x w v).
Qed.
Print Assumptions C59_rotation.

(** The pairs are in general neither (x_i, x_(i+N/2)) nor neighbours (x_2i, x_(2i+1)). *)
Theorem C59_pairs_refuted : exists N, Nat.even N = true /\ (exists i, (i + Nat.div2 N < N)%nat /\ ~ In (i, (i + Nat.div2 N)%nat) (pairs N) /\ ~ In ((i + Nat.div2 N)%nat, i) (pairs N)) /\
  (exists i, (2 * i + 1 < N)%nat /\ ~ In ((2 * i)%nat, (2 * i + 1)%nat) (pairs N) /\ ~ In ((2 * i + 1)%nat, (2 * i)%nat) (pairs N)).
Proof.
  exists 6%nat. split; [reflexivity|]. split; exists 0%nat; (split; [cbn; lia|]); split; cbn; intuition congruence.
Qed.
Print Assumptions C59_pairs_refuted.

(** The observation is that of the state turned by minus the phase of the carrier... *)
Theorem C59_observation : forall S f m t x, valid S -> mod_init S f = Ok m -> aGt S <> None -> length x = sN S ->
  exists w, rotated (sN S) (- (2 * PI * f * t)) x w /\ mod_observation m t x None None = Ok (obs_x S w, demodulate m t) /\
  forall u s, length u = sL S -> length s = sM S -> mod_observation m t x (Some u) (Some s) = Ok (vadd (K := Rring) (vadd (K := Rring) (obs_x S w) (obs_u S u)) (obs_s S s), demodulate m t).
Proof.
  intros S f m t x V Hi HG Hx. destruct (init_wf S f m V Hi) as (W & ES & Ew). pose proof (even_half _ (w_N _ W)) as HN. rewrite ES in HN.
  assert (HL : (sN (m_sys m) <= @length R x)%nat) by (rewrite ES; apply Nat.eq_le_incl; symmetry; exact Hx).
  exists (pipe (Nat.div2 (sN S)) (- m_w m * t) x). split; [|split].
  - pose proof (pipe_rotated (Nat.div2 (sN S)) (- m_w m * t) x) as P. rewrite <- HN in P. replace (- (2 * PI * f * t)) with (- m_w m * t) by (rewrite Ew; ring). exact P.
  - rewrite observation_pipe by assumption. rewrite ES. rewrite (control_observation_x (K := Rring)); [reflexivity|exact V|exact HG|]. exact (eq_trans (pipe_length _ _ _) (eq_sym HN)).
  - intros u s Hu Hs. rewrite observation_pipe by assumption. rewrite ES. rewrite (control_observation_xus (K := Rring)); [reflexivity|exact V|exact HG| |exact Hu|exact Hs]. exact (eq_trans (pipe_length _ _ _) (eq_sym HN)).
Qed.
Print Assumptions C59_observation.

(** ... so a state riding on the carrier is observed as if there were no carrier. *)
Theorem C59_downmodulation : forall S f m t x0 x, valid S -> mod_init S f = Ok m -> aGt S <> None -> length x0 = sN S -> rotated (sN S) (2 * PI * f * t) x0 x ->
  mod_observation m t x None None = Ok (obs_x S x0, demodulate m t).
Proof.
  intros S f m t x0 x V Hi HG Hx0 Hr. destruct (init_wf S f m V Hi) as (W & ES & _). pose proof (w_N _ W) as He. rewrite ES in He.
  destruct (C59_observation S f m t x V Hi HG (proj1 Hr)) as (w & Hw & -> & _). 
  destruct (C59_rotation _ _ _ _ He Hx0 Hr) as (_ & _ & Hb). rewrite (Hb w Hw). reflexivity.
Qed.
Print Assumptions C59_downmodulation.

(** With as many controls as states the control contribution is turned by the phase of the carrier... *)
Theorem C59_control : forall S f m x t u s, valid S -> mod_init S f = Ok m -> aG S <> None -> sM S = sN S -> length x = sN S -> length u = sL S -> length s = sM S ->
  exists w, rotated (sM S) (2 * PI * f * t) s w /\ mod_derivative m x t u s = Ok (rhs S x u w, modulate m t).
Proof.
  intros S f m x t u s V Hi HG HMN Hx Hu Hs. destruct (init_wf S f m V Hi) as (W & ES & Ew). pose proof (even_half _ (w_M _ W)) as HM. rewrite ES in HM.
  exists (pipe (Nat.div2 (sM S)) (m_w m * t) s). split.
  - pose proof (pipe_rotated (Nat.div2 (sM S)) (m_w m * t) s) as P. rewrite <- HM in P. rewrite <- Ew. exact P.
  - rewrite mod_derivative_pipe; rewrite ?ES; try assumption; [|lia]. rewrite <- HMN, pipe_cut_full. reflexivity.
Qed.
Print Assumptions C59_control.

(** ... but with at most half as many it is only scaled by the cosine... *)
Theorem C59_amplitude : forall S f m x t u s, valid S -> mod_init S f = Ok m -> aG S <> None -> (2 * sM S <= sN S)%nat -> length x = sN S -> length u = sL S -> length s = sM S ->
  mod_derivative m x t u s = Ok (rhs S x u (map (fun v => cos (2 * PI * f * t) * v) s), modulate m t).
Proof.
  intros S f m x t u s V Hi HG HMN Hx Hu Hs. destruct (init_wf S f m V Hi) as (W & ES & Ew). pose proof (even_half _ (w_M _ W)) as HM. pose proof (even_half _ (w_N _ W)) as HN. rewrite ES in HM, HN.
  rewrite mod_derivative_pipe; rewrite ?ES; try assumption; [|lia]. rewrite pipe_cut_small; [now rewrite Ew|lia|]. rewrite <- HM. exact Hs.
Qed.
Print Assumptions C59_amplitude.

(** The errors: more controls than states, no control matrix, too short a state, an input without a control. *)
Theorem C59_errors : forall S f m, valid S -> mod_init S f = Ok m ->
  (forall x t u s, length x = sN S -> length u = sL S -> length s = sM S -> (sN S < sM S)%nat -> mod_derivative m x t u s = Exn ValueError) /\
  (forall x t u, length x = sN S -> length u = sL S -> aG S = None -> mod_derivative m x t u [] = Exn TypeError) /\
  (forall t x u s, (length x < sN S)%nat -> mod_observation m t x u s = Exn IndexError) /\
  (forall t x u, length x = sN S -> length u = sL S -> mod_observation m t x (Some u) None = Exn TypeError).
Proof.
  intros S f m V Hi. destruct (init_wf S f m V Hi) as (W & ES & Ew). rewrite <- ES in *. repeat split.
  - intros. now apply mod_derivative_wide.
  - intros. now apply mod_derivative_none.
  - intros. now apply observation_short.
  - intros t x u Hx Hu. rewrite observation_pipe by (try assumption; apply Nat.eq_le_incl; symmetry; exact Hx). unfold control_observation.
    destruct (aGt (m_sys m)) as [g|] eqn:E; [|reflexivity]. cbn [dotv_opt]. pose proof (v_Gt _ V) as VG. rewrite E in VG.
    rewrite (dotv_ok (K := Rring)); [|rewrite VG, (even_half _ (w_N _ W)) at 1; symmetry; exact (pipe_length _ _ _)]. cbn [bind].
    rewrite (dotv_ok (K := Rring)); [reflexivity|]. rewrite (proj2 (v_Bt _ V)). symmetry. exact Hu.
Qed.
Print Assumptions C59_errors.

(** All calls of modulate and demodulate return the one buffer of the object: whatever the history, it shows the turn of the last call. *)
Inductive call := Mod (t : R) | Dem (t : R).
Definition call_step (m : smod) (c : call) : smod := match c with Mod t => modulate m t | Dem t => demodulate m t end.
Definition call_phase (w : R) (c : call) : R := match c with Mod t => w * t | Dem t => - (w * t) end.
Theorem C59_buffer : forall S f m hist c, valid S -> mod_init S f = Ok m -> let b := m_buf (fold_left call_step (hist ++ [c]) m) in let phi := call_phase (2 * PI * f) c in
  rows b = sN S /\ cols b = sN S /\ forall i j, (i < sN S)%nat -> (j < sN S)%nat ->
  @eq R (ent b i j) (if Nat.eqb i j then cos phi else if Nat.eqb (i + Nat.div2 (sN S)) j then - sin phi else if Nat.eqb (j + Nat.div2 (sN S)) i then sin phi else 0).
Proof.
  intros S f m hist c V Hi. cbv zeta. destruct (init_wf S f m V Hi) as (W & ES & Ew). rewrite fold_left_app. cbn [fold_left].
  assert (I : forall l m0, wf m0 -> wf (fold_left call_step l m0) /\ m_sys (fold_left call_step l m0) = m_sys m0 /\ m_w (fold_left call_step l m0) = m_w m0).
  { induction l as [|[t|t] l IH]; intros m0 W0; cbn [fold_left call_step]; [auto|destruct (IH _ (rotation_wf m0 (m_w m0 * t) W0)) as (A & B & C); auto|destruct (IH _ (rotation_wf m0 (- m_w m0 * t) W0)) as (A & B & C); auto]. }
  destruct (I hist m W) as (W1 & E1 & E2). set (m1 := fold_left call_step hist m) in *. rewrite <- ES, <- E1.
  assert (Hp : call_step m1 c = rotation_matrix m1 (call_phase (2 * PI * f) c)) by (rewrite <- Ew, <- E2; destruct c; cbn; unfold modulate, demodulate; f_equal; ring).
  rewrite Hp. split; [apply (w_r _ W1)|]. split; [apply (w_c _ W1)|]. intros i j H1 H2. pose proof (even_half _ (w_N _ W1)) as HN. apply buf_eq; [exact HN|lia|lia].
Qed.
Print Assumptions C59_buffer.

(** *** A concrete modulator: two states, two controls; and one with four states and two controls *)
Definition id2 (n k : nat) : nd2 Rring := eye2 (K := Rring) n k.
Definition sysN (n k : nat) : asys Rring := mkAS (K := Rring) (id2 n n) (id2 n 1) (id2 1 n) (Some (id2 n k)) (Some (id2 k n)) (id2 1 1) (id2 k 1) (id2 k k).
Lemma sysN_valid n k : valid (sysN n k). Proof. constructor; cbn; auto. Qed.
Lemma phase1 : 2 * PI * (1 / 4) * 1 = PI / 2. Proof. lra. Qed.

(** ... with no control left at a quarter of the carrier period: the derivative does not see the control signal. *)
Theorem C59_control_refuted : exists S f m x t u s s', valid S /\ mod_init S f = Ok m /\ length x = sN S /\ length u = sL S /\ length s = sM S /\ length s' = sM S /\
  rhs S x u s <> rhs S x u s' /\ mod_derivative m x t u s = mod_derivative m x t u s'.
Proof.
  exists (sysN 4 2), (1 / 4), (mkMod (sysN 4 2) (2 * PI * (1 / 4)) (id2 4 4)), [0; 0; 0; 0], 1, [0], [1; 1], [0; 0]. 
  split; [apply sysN_valid|]. split; [reflexivity|]. do 4 (split; [reflexivity|]). split.
  - intro E. apply (f_equal (fun l => nth 0 l 0)) in E. unfold rhs in E. cbn in E. lra.
  - rewrite !(C59_amplitude (sysN 4 2) (1 / 4)); try reflexivity; try apply sysN_valid; try discriminate; try (cbn; lia). rewrite phase1, cos_PI2. cbn [map]. now rewrite !Rmult_0_l.
Qed.
Print Assumptions C59_control_refuted.

(** The array returned by modulate does not keep its value: a later demodulate turns it round. *)
Theorem C59_alias_refuted : exists S f m t, valid S /\ mod_init S f = Ok m /\
  @eq R (ent (m_buf (call_step m (Mod t))) 1 0) 1 /\ @eq R (ent (m_buf (fold_left call_step [Mod t; Dem t] m)) 1 0) (-1).
Proof.
  exists (sysN 2 2), (1 / 4), (mkMod (sysN 2 2) (2 * PI * (1 / 4)) (id2 2 2)), 1. split; [apply sysN_valid|]. split; [reflexivity|].
  pose proof (C59_buffer (sysN 2 2) (1 / 4) (mkMod (sysN 2 2) (2 * PI * (1 / 4)) (id2 2 2)) [] (Mod 1) (sysN_valid 2 2) eq_refl) as [_ [_ B1]].
  pose proof (C59_buffer (sysN 2 2) (1 / 4) (mkMod (sysN 2 2) (2 * PI * (1 / 4)) (id2 2 2)) [Mod 1] (Dem 1) (sysN_valid 2 2) eq_refl) as [_ [_ B2]].
  split; [refine (eq_trans (B1 1%nat 0%nat _ _) _)|refine (eq_trans (B2 1%nat 0%nat _ _) _)]; try (cbn; lia); cbn [Nat.eqb Nat.add Nat.div2 sN sysN id2 eye2 rows aA call_phase]; rewrite phase1, ?sin_neg, sin_PI2; lra.
Qed.
Print Assumptions C59_alias_refuted.

Example C59_init_ex : exists m, mod_init (sysN 4 2) (1 / 4) = Ok m. Proof. eexists. reflexivity. Qed.
Example C59_odd_ex : mod_init (sysN 3 2) 1 = Exn ValueError /\ mod_init (sysN 4 1) 1 = Exn ValueError. Proof. split; reflexivity. Qed.
Example C59_pairs_ex : pairs 4 = [(0, 1); (2, 3)]%nat /\ pairs 6 = [(0, 4); (1, 5); (3, 2)]%nat /\ pairs 8 = [(0, 2); (1, 3); (4, 6); (5, 7)]%nat. Proof. repeat split. Qed.
Example C59_rotation_ex : rotated 4 (PI / 2) [1; 2; 3; 4] [-2; 1; -4; 3].
Proof. split; [reflexivity|]. intros a b H. rewrite cos_PI2, sin_PI2. cbn in H. destruct H as [E|[E|[]]]; injection E as <- <-; cbn; lra. Qed.
Example C59_observation_ex : exists m m', mod_init (sysN 4 2) (1 / 4) = Ok m /\ mod_observation m 1 [-2; 1; -4; 3] None None = Ok (obs_x (sysN 4 2) [1; 2; 3; 4], m').
Proof.
  eexists. eexists. split; [reflexivity|]. apply C59_downmodulation with (f := 1 / 4); [apply sysN_valid|reflexivity|discriminate|reflexivity|]. rewrite phase1. exact C59_rotation_ex.
Qed.
Example C59_control_ex : sM (sysN 2 2) = sN (sysN 2 2) /\ aG (sysN 2 2) <> None /\ exists m, mod_init (sysN 2 2) 1 = Ok m. Proof. repeat split; [discriminate|eexists; reflexivity]. Qed.
