(** The brute force iteration for the Riccati equation. *)
From Coq Require Import List Arith Lia Bool Reals Lra.
From Flocq Require Import Core.
From Coquelicot Require Import Complex.
From Verif Require Import Base LinAlg FirExtras AnalogSystem AnalogProofs Signals DigitalControl Simulator Integrators IntegratorsProofs LinearOde Zpk CplxLin FilterCoeff FilterCoeffProofs FilterExample Riccati RiccatiAlg RiccatiProofs RiccatiFilter RiccatiDecay RiccatiExample.
Import ListNotations.
Open Scope R_scope.

(** *** Specification *)
(** A^T V + V^T A + Q - V B R^-1 B^T V^T, the residual of the Riccati equation for symmetric V *)
Definition residual (A B Q Ri V : rmat) (i j : nat) : R :=
  rsum (rows A) (fun k => ent A k i * ent V k j) + rsum (rows A) (fun k => ent V k i * ent A k j) + ent Q i j -
  rsum (rows A) (fun k => ent V i k * rsum (cols B) (fun p => ent B k p * rsum (cols B) (fun q => ent Ri p q * rsum (rows A) (fun l => ent B l q * ent V j l)))).
Definition half (f : nat -> nat -> R) (i j : nat) : R := (f i j + f j i) / 2.
(** V' = sym (V + tau residual V) *)
Definition follows (tau : R) (A B Q Ri V V' : rmat) : Prop := rows V' = rows A /\ cols V' = rows A /\
  forall i j, (i < rows A)%nat -> (j < rows A)%nat -> ent V' i j = half (ent V) i j + tau * half (residual A B Q Ri V) i j.
(** the iterates Vs 0 ... Vs k; the step shrinks by one per cent *)
Definition iterates (tau : R) (A B Q Ri V0 : rmat) (k : nat) (Vs : nat -> rmat) : Prop :=
  Vs O = V0 /\ forall j, (j < k)%nat -> follows (tau * (99 / 100) ^ j) A B Q Ri (Vs j) (Vs (S j)).
Definition close (rtol atol : R) (a b : rmat) : Prop := forall i j, (i < rows a)%nat -> (j < cols a)%nat -> Rabs (ent a i j - ent b i j) <= atol + rtol * Rabs (ent b i j).
Definition fit (A B Q Ri V : rmat) : Prop := cols A = rows A /\ rows B = rows A /\ rows Q = rows A /\ cols Q = rows A /\ rows Ri = cols B /\ cols Ri = cols B /\ rows V = rows A /\ cols V = rows A.

Lemma close_spec rtol atol a b : allclosem rtol atol a b = true <-> close rtol atol a b.
Proof.
  unfold allclosem, close. rewrite forallb_forall. split.
  - intros H i j Hi Hj. specialize (H i ltac:(apply in_seq; lia)). rewrite forallb_forall in H. specialize (H j ltac:(apply in_seq; lia)). destruct (Rle_bool_spec (Rabs (ent a i j - ent b i j)) (atol + rtol * Rabs (ent b i j))); [assumption|discriminate].
  - intros H i Hi. rewrite forallb_forall. intros j Hj. apply in_seq in Hi, Hj. apply Rle_bool_true. apply H; lia.
Qed.
Lemma step_Ok tau A B Q Ri V V' : rows A = cols A -> brute_step tau A B Q Ri V = Ok V' -> follows tau A B Q Ri V V'.
Proof.
  intros Sq H. unfold brute_step in H. apply bind_Ok in H as (t1 & H1 & H). apply bind_Ok in H as (t2 & H2 & H). apply bind_Ok in H as (t3 & H3 & H). apply bind_Ok in H as (t4 & H4 & H).
  apply bind_Ok in H as (s1 & G1 & H). apply bind_Ok in H as (s2 & G2 & H). apply bind_Ok in H as (s3 & G3 & H). apply bind_Ok in H as (s4 & G4 & H).
  apply bind_Ok in H as (r & F1 & H). apply bind_Ok in H as (V1 & F2 & H). apply bind_Ok in H as (s & F3 & H). apply Ok_inj in H. subst V'.
  apply dotm_Ok in H1 as (a1 & a2 & a3 & E1). apply dotm_Ok in H2 as (b1 & b2 & b3 & E2). apply zip2_Ok in H3 as (c1 & c2 & c3 & c4 & E3). apply zip2_Ok in H4 as (d1 & d2 & d3 & d4 & E4).
  apply dotm_Ok in G1 as (e1 & e2 & e3 & E5). apply dotm_Ok in G2 as (f1 & f2 & f3 & E6). apply dotm_Ok in G3 as (g1 & g2 & g3 & E7). apply dotm_Ok in G4 as (h1 & h2 & h3 & E8).
  apply zip2_Ok in F1 as (i1 & i2 & i3 & i4 & E9). apply zip2_Ok in F2 as (j1 & j2 & j3 & j4 & E10). apply zip2_Ok in F3 as (k1 & k2 & k3 & k4 & E11).
  cbn [tr rows cols] in *. assert (RV : rows V = rows A) by congruence. assert (CV : cols V = rows A) by congruence.
  split; [cbn [scalem mapm rows]; congruence|]. split; [cbn [scalem mapm cols]; congruence|].
  assert (ER : forall i j, ent r i j = residual A B Q Ri V i j).
  { intros i j. rewrite E9, E4, E3, E1, E2, E8. unfold residual. cbn [tr ent cols]. rewrite RV, CV. unfold Rminus. f_equal. f_equal. apply rsum_ext. intros k Hk. f_equal. rewrite E7. apply rsum_ext. intros p Hp. f_equal. rewrite E6.
    replace (cols Ri) with (cols B) by congruence. apply rsum_ext. intros q Hq. f_equal. rewrite E5. cbn [tr ent cols]. rewrite e1, CV. apply rsum_ext. reflexivity. }
  intros i j Hi Hj. cbn [scalem mapm ent]. rewrite E11. cbn [tr ent]. rewrite !E10. cbn [scalem mapm ent]. rewrite !ER. unfold half. cbn [car Rring]. field.
Qed.
Lemma step_run tau A B Q Ri V : fit A B Q Ri V -> exists V', brute_step tau A B Q Ri V = Ok V'.
Proof.
  intros (CA & RB & RQ & CQ & RR & CR & RV & CV). unfold brute_step, dotm, addm, subm, zip2. cbn [tr rows cols]. rewrite RV, Nat.eqb_refl. cbn [bind rows cols]. rewrite CA, CV, RQ, CQ, !Nat.eqb_refl. cbn [andb bind rows cols]. rewrite RB, CR, !Nat.eqb_refl. cbn [bind rows cols].
  repeat (rewrite ?CR, ?RR, ?RB, ?CV, ?RV, ?CA, ?Nat.eqb_refl; cbn [andb bind rows cols scalem mapm tr]). eexists. reflexivity.
Qed.
Lemma follows_fit tau A B Q Ri V V' : fit A B Q Ri V -> follows tau A B Q Ri V V' -> fit A B Q Ri V'.
Proof. intros (CA & RB & RQ & CQ & RR & CR & RV & CV) (R1 & C1 & _). repeat split; assumption. Qed.

Definition shift (V : rmat) (Vs : nat -> rmat) (j : nat) : rmat := match j with O => V | S j => Vs j end.
Lemma iterates_cons tau A B Q Ri V V' k Vs : follows tau A B Q Ri V V' -> iterates (tau * (99 / 100)) A B Q Ri V' k Vs -> iterates tau A B Q Ri V (S k) (shift V Vs).
Proof.
  intros F [I0 I]. split; [reflexivity|]. intros [|j] Hj; cbn [shift].
  - rewrite I0. cbn [pow]. now rewrite Rmult_1_r.
  - specialize (I j ltac:(lia)). rewrite Rmult_assoc in I. exact I.
Qed.
Lemma loop_Ok A B Q Ri rtol atol late (Sq : rows A = cols A) : forall fuel k0 tau V Vt X, brute_loop fuel late k0 tau rtol atol A B Q Ri V Vt = Some (Ok X) ->
  exists k Vs, iterates tau A B Q Ri V k Vs /\ X = Vs k /\ (forall j, (j < k)%nat -> late (k0 + j)%nat = false) /\
    (k = O -> close rtol atol V Vt) /\ ((0 < k)%nat -> ~ close rtol atol V Vt) /\ (forall j, k = S j -> close rtol atol (Vs k) (Vs j)) /\ (forall j, (S j < k)%nat -> ~ close rtol atol (Vs (S j)) (Vs j)).
Proof.
  induction fuel as [|fuel IH]; intros k0 tau V Vt X H; cbn [brute_loop] in H; destruct (allclosem rtol atol V Vt) eqn:EC; try discriminate.
  - injection H as <-. exists O, (fun _ => V). split; [split; [reflexivity|intros; lia]|]. split; [reflexivity|]. split; [intros; lia|]. split; [intros _; now apply close_spec|]. split; [intros; lia|]. split; intros; lia.
  - injection H as <-. exists O, (fun _ => V). split; [split; [reflexivity|intros; lia]|]. split; [reflexivity|]. split; [intros; lia|]. split; [intros _; now apply close_spec|]. split; [intros; lia|]. split; intros; lia.
  - destruct (late k0) eqn:EL; [discriminate|]. destruct (brute_step tau A B Q Ri V) as [V'|e] eqn:ES; [|discriminate].
    destruct (IH _ _ _ _ _ H) as (k & Vs & I & HX & HL & H0 & HP & HS & HN). exists (S k), (shift V Vs).
    split; [apply (iterates_cons tau A B Q Ri V V'); [now apply step_Ok|exact I]|]. split; [exact HX|].
    split; [intros [|j] Hj; [now rewrite Nat.add_0_r|rewrite <- plus_n_Sm; apply HL; lia]|]. split; [discriminate|]. split; [intros _ Cl; apply close_spec in Cl; congruence|]. split.
    + intros j [= <-]. cbn [shift]. destruct k as [|k]; [cbn [shift]; rewrite (proj1 I); auto|]. exact (HS k eq_refl).
    + intros [|j] Hj; cbn [shift].
      * rewrite (proj1 I). apply HP. lia.
      * apply HN. lia.
Qed.

(** *** Where the iteration goes *)
Definition symm (n : nat) (V : rmat) : Prop := forall i j, (i < n)%nat -> (j < n)%nat -> ent V i j = ent V j i.
Lemma half_sym f i j : half f i j = half f j i.
Proof. unfold half. f_equal. apply Rplus_comm. Qed.
Lemma half_of n V i j : symm n V -> (i < n)%nat -> (j < n)%nat -> half (ent V) i j = ent V i j.
Proof. intros H Hi Hj. unfold half. rewrite (H j i) by assumption. toR. field. Qed.
Lemma follows_symm tau A B Q Ri V V' : follows tau A B Q Ri V V' -> symm (rows A) V'.
Proof. intros (_ & _ & E) i j Hi Hj. rewrite !E by assumption. now rewrite (half_sym (ent V) i j), (half_sym (residual A B Q Ri V) i j). Qed.
Lemma iterates_symm tau A B Q Ri V0 k Vs j : iterates tau A B Q Ri V0 k Vs -> (j <= k)%nat -> (symm (rows A) V0 \/ (0 < j)%nat) -> symm (rows A) (Vs j).
Proof.
  intros [I0 I] Hj [H|H].
  - destruct j as [|j]; [now rewrite I0|]. apply (follows_symm _ _ _ _ _ _ _ (I j ltac:(lia))).
  - destruct j as [|j]; [lia|]. apply (follows_symm _ _ _ _ _ _ _ (I j ltac:(lia))).
Qed.
Lemma drift tau A B Q Ri V0 D : 0 <= tau -> 0 <= D -> forall k Vs, iterates tau A B Q Ri V0 k Vs ->
  (forall j i l, (j < k)%nat -> (i < rows A)%nat -> (l < rows A)%nat -> Rabs (half (residual A B Q Ri (Vs j)) i l) <= D) ->
  forall i l, (i < rows A)%nat -> (l < rows A)%nat -> Rabs (half (ent (Vs k)) i l - half (ent V0) i l) <= 100 * tau * D * (1 - (99 / 100) ^ k).
Proof.
  intros HT HD. induction k as [|k IH]; intros Vs I HB i l Hi Hl.
  - rewrite (proj1 I). unfold Rminus at 1. rewrite Rplus_opp_r, Rabs_R0. cbn [pow]. lra.
  - assert (I' : iterates tau A B Q Ri V0 k Vs) by (split; [apply I|intros; apply I; lia]). specialize (IH Vs I' ltac:(intros; apply HB; lia) i l Hi Hl).
    pose proof (proj2 I k ltac:(lia)) as F. pose proof (follows_symm _ _ _ _ _ _ _ F) as Sy. rewrite (half_of (rows A) (Vs (S k))) by assumption. destruct F as (_ & _ & E). rewrite E by assumption.
    specialize (HB k i l ltac:(lia) Hi Hl). assert (P : 0 <= tau * (99 / 100) ^ k) by (apply Rmult_le_pos; [exact HT|apply pow_le; lra]).
    replace (half (ent (Vs k)) i l + tau * (99 / 100) ^ k * half (residual A B Q Ri (Vs k)) i l - half (ent V0) i l) with ((half (ent (Vs k)) i l - half (ent V0) i l) + tau * (99 / 100) ^ k * half (residual A B Q Ri (Vs k)) i l) by ring.
    eapply Rle_trans; [apply Rabs_triang|]. rewrite Rabs_mult, (Rabs_pos_eq _ P). cbn [pow]. apply Rle_trans with (100 * tau * D * (1 - (99 / 100) ^ k) + tau * (99 / 100) ^ k * D); [apply Rplus_le_compat; [exact IH|now apply Rmult_le_compat_l]|]. right. field.
Qed.
Lemma stop_residual tau A B Q Ri V0 k Vs rtol atol : 0 <= tau -> iterates tau A B Q Ri V0 (S k) Vs -> symm (rows A) (Vs k) -> close rtol atol (Vs (S k)) (Vs k) ->
  forall i l, (i < rows A)%nat -> (l < rows A)%nat -> tau * (99 / 100) ^ k * Rabs (half (residual A B Q Ri (Vs k)) i l) <= atol + rtol * Rabs (ent (Vs k) i l).
Proof.
  intros HT I Sy Cl i l Hi Hl. destruct (proj2 I k ltac:(lia)) as (R1 & C1 & E). specialize (Cl i l ltac:(lia) ltac:(lia)). rewrite E, (half_of (rows A)) in Cl by assumption.
  assert (P : 0 <= tau * (99 / 100) ^ k) by (apply Rmult_le_pos; [exact HT|apply pow_le; lra]). rewrite <- (Rabs_pos_eq _ P) at 1. rewrite <- Rabs_mult.
  replace (tau * (99 / 100) ^ k * half (residual A B Q Ri (Vs k)) i l) with (ent (Vs k) i l + tau * (99 / 100) ^ k * half (residual A B Q Ri (Vs k)) i l - ent (Vs k) i l) by (toR; ring). exact Cl.
Qed.
(** solutions have no residual *)
Lemma care_residual A B Q Rm Ri V : care_eq A B Q Rm V -> is_inverse Rm Ri -> forall i j, (i < rows A)%nat -> (j < rows A)%nat -> residual A B Q Ri V i j = 0.
Proof.
  intros (_ & _ & Sy & E) IR i j Hi Hj. rewrite <- (E Ri IR i j Hi Hj). unfold residual.
  rewrite (rsum_ext (rows A) (fun k => ent V k i * ent A k j) (fun k => ent V i k * ent A k j)) by (intros; now rewrite (Sy i)).
  assert (X : rsum (rows A) (fun k => ent V i k * rsum (cols B) (fun p => ent B k p * rsum (cols B) (fun q => ent Ri p q * rsum (rows A) (fun l => ent B l q * ent V j l)))) =
    rsum (rows A) (fun k => ent V i k * rsum (cols B) (fun p => ent B k p * rsum (cols B) (fun q => ent Ri p q * rsum (rows A) (fun l => ent B l q * ent V l j))))).
  { apply rsum_ext. intros k Hk. f_equal. apply rsum_ext. intros p Hp. f_equal. apply rsum_ext. intros q Hq. f_equal. apply rsum_ext. intros l Hl. now rewrite (Sy j l). }
  rewrite X. cbn [car Rring]. ring.
Qed.

(** *** Termination *)
Definition run_from (A B Q Ri : rmat) (tau : R) (V : rmat) : nat -> rmat := fix go j := match j with O => V | S j => match brute_step (tau * (99 / 100) ^ j) A B Q Ri (go j) with Ok V' => V' | Exn _ => V end end.
Lemma run_fit A B Q Ri tau V : fit A B Q Ri V -> forall j, fit A B Q Ri (run_from A B Q Ri tau V j) /\ follows (tau * (99 / 100) ^ j) A B Q Ri (run_from A B Q Ri tau V j) (run_from A B Q Ri tau V (S j)).
Proof.
  intros F j. assert (Fj : fit A B Q Ri (run_from A B Q Ri tau V j)).
  { induction j as [|j IH]; [exact F|]. cbn [run_from]. destruct (step_run (tau * (99 / 100) ^ j) A B Q Ri _ IH) as [V' E]. rewrite E. exact (follows_fit _ _ _ _ _ _ _ IH (step_Ok _ _ _ _ _ _ _ (eq_sym (proj1 IH)) E)). }
  split; [exact Fj|]. destruct (step_run (tau * (99 / 100) ^ j) A B Q Ri _ Fj) as [V' E]. cbn [run_from]. rewrite E. exact (step_Ok _ _ _ _ _ _ _ (eq_sym (proj1 Fj)) E).
Qed.
Lemma run_iterates A B Q Ri tau V k : fit A B Q Ri V -> iterates tau A B Q Ri V k (run_from A B Q Ri tau V).
Proof. intros F. split; [reflexivity|]. intros j _. now apply run_fit. Qed.
Lemma run_shift A B Q Ri tau V V' j : fit A B Q Ri V -> brute_step tau A B Q Ri V = Ok V' -> run_from A B Q Ri (tau * (99 / 100)) V' j = run_from A B Q Ri tau V (S j).
Proof.
  intros F E. pose proof (follows_fit _ _ _ _ _ _ _ F (step_Ok _ _ _ _ _ _ _ (eq_sym (proj1 F)) E)) as F'.
  induction j as [|j IH]; [cbn; now rewrite Rmult_1_r, E|]. 
  change (run_from A B Q Ri tau V (S (S j))) with (match brute_step (tau * (99 / 100) ^ S j) A B Q Ri (run_from A B Q Ri tau V (S j)) with Ok V' => V' | Exn _ => V end).
  change (run_from A B Q Ri (tau * (99 / 100)) V' (S j)) with (match brute_step (tau * (99 / 100) * (99 / 100) ^ j) A B Q Ri (run_from A B Q Ri (tau * (99 / 100)) V' j) with Ok V' => V' | Exn _ => V' end).
  rewrite IH. replace (tau * (99 / 100) ^ S j) with (tau * (99 / 100) * (99 / 100) ^ j) by (cbn [pow]; ring).
  destruct (run_fit A B Q Ri tau V F (S j)) as [G _]. destruct (step_run (tau * (99 / 100) * (99 / 100) ^ j) A B Q Ri _ G) as [W EW]. now rewrite EW.
Qed.
(** the loop stops at the latest when two iterates are close *)
Lemma loop_stop A B Q Ri rtol atol late : forall k k0 tau V Vt, fit A B Q Ri V -> close rtol atol (run_from A B Q Ri tau V (S k)) (run_from A B Q Ri tau V k) ->
  exists r, brute_loop (S (S k)) late k0 tau rtol atol A B Q Ri V Vt = Some r /\ ((exists X, r = Ok X) \/ r = Exn GenericException /\ exists j, (j <= k)%nat /\ late (k0 + j)%nat = true).
Proof.
  induction k as [|k IH]; intros k0 tau V Vt F Cl; cbn [brute_loop]; destruct (allclosem rtol atol V Vt); try (eexists; split; [reflexivity|]; left; eexists; reflexivity); destruct (late k0) eqn:EL;
    try (eexists; split; [reflexivity|]; right; split; [reflexivity|]; exists O; split; [lia|]; now rewrite Nat.add_0_r); destruct (step_run tau A B Q Ri V F) as [V' ES]; rewrite ES.
  - cbn [run_from pow] in Cl. rewrite Rmult_1_r, ES in Cl. rewrite (proj2 (close_spec rtol atol V' V) Cl). eexists. split; [reflexivity|]. left. eexists. reflexivity.
  - pose proof (follows_fit _ _ _ _ _ _ _ F (step_Ok _ _ _ _ _ _ _ (eq_sym (proj1 F)) ES)) as F'. rewrite <- !(run_shift A B Q Ri tau V V') in Cl by assumption.
    destruct (IH (S k0) (tau * (99 / 100)) V' V F' Cl) as (r & Hr & Hx). exists r. split; [exact Hr|]. destruct Hx as [Hx|(Hx & j & Hj & HL)]; [now left|]. right. split; [exact Hx|]. exists (S j). split; [lia|]. now rewrite <- plus_n_Sm.
Qed.
Lemma powers_small eps : 0 < eps -> exists k, (99 / 100) ^ k <= eps.
Proof. intros H. destruct (pow_lt_1_zero (99 / 100) ltac:(rewrite Rabs_pos_eq; lra) eps H) as [k Hk]. exists k. specialize (Hk k (le_n k)). rewrite Rabs_pos_eq in Hk by (apply pow_le; lra). lra. Qed.
Lemma loop_terminates A B Q Ri rtol atol late tau V Vt D : fit A B Q Ri V -> symm (rows A) V -> 0 <= tau -> 0 <= rtol -> 0 < atol ->
  (forall k Vs j i l, iterates tau A B Q Ri V k Vs -> (j < k)%nat -> (i < rows A)%nat -> (l < rows A)%nat -> Rabs (half (residual A B Q Ri (Vs j)) i l) <= D) ->
  exists fuel r, brute_loop fuel late 0 tau rtol atol A B Q Ri V Vt = Some r /\ ((exists X, r = Ok X) \/ r = Exn GenericException /\ exists j, late j = true).
Proof.
  intros F Sy HT HR HA HD. set (D' := Rmax D 0 + 1). assert (D1 : D <= D') by (unfold D'; pose proof (Rmax_l D 0); lra). assert (D0 : 0 < D') by (unfold D'; pose proof (Rmax_r D 0); lra).
  destruct (powers_small (atol / ((tau + 1) * D'))) as [k Hk]. { apply Rdiv_lt_0_compat; [exact HA|]. apply Rmult_lt_0_compat; lra. }
  destruct (loop_stop A B Q Ri rtol atol late k 0 tau V Vt F) as (r & Hr & Hx).
  - intros i l Hi Hl. destruct (run_fit A B Q Ri tau V F k) as [Fk (R1 & C1 & E)]. rewrite R1 in Hi. rewrite C1 in Hl. rewrite E by assumption.
    pose proof (run_iterates A B Q Ri tau V (S k) F) as I. rewrite (half_of (rows A)); [|apply (iterates_symm _ _ _ _ _ _ _ _ k I); [lia|now left]|assumption|assumption].
    specialize (HD (S k) _ k i l I ltac:(lia) Hi Hl). set (h := half _ i l) in *. set (v := ent _ i l). change R in (type of v).
    replace (v + tau * (99 / 100) ^ k * h - v) with (tau * (99 / 100) ^ k * h) by ring. assert (P : 0 <= (99 / 100) ^ k) by (apply pow_le; lra).
    rewrite Rabs_mult, (Rabs_pos_eq (tau * _)) by (apply Rmult_le_pos; assumption).
    apply Rle_trans with ((tau + 1) * D' * (99 / 100) ^ k).
    + assert (0 <= Rabs h) by apply Rabs_pos. apply Rle_trans with ((tau + 1) * (99 / 100) ^ k * D'); [|right; ring].
      apply Rmult_le_compat; [now apply Rmult_le_pos|assumption| |lra]. apply Rmult_le_compat_r; lra.
    + apply Rle_trans with atol; [|assert (0 <= Rabs v) by apply Rabs_pos; nra]. apply (Rmult_le_compat_l ((tau + 1) * D')) in Hk; [|apply Rlt_le, Rmult_lt_0_compat; lra].
      replace ((tau + 1) * D' * (atol / ((tau + 1) * D'))) with atol in Hk by (field; lra). exact Hk.
  - exists (S (S k)), r. split; [exact Hr|]. destruct Hx as [Hx|(Hx & j & _ & HL)]; [now left|]. right. split; [exact Hx|]. now exists j.
Qed.
(** a time limit ends it in any case *)
Lemma loop_limited A B Q Ri rtol atol late : forall n k0 tau V Vt, fit A B Q Ri V -> late (k0 + n)%nat = true ->
  exists r, brute_loop (S n) late k0 tau rtol atol A B Q Ri V Vt = Some r /\ ((exists X, r = Ok X) \/ r = Exn GenericException).
Proof.
  induction n as [|n IH]; intros k0 tau V Vt F HL; cbn [brute_loop]; destruct (allclosem rtol atol V Vt); try (eexists; split; [reflexivity|]; left; eexists; reflexivity).
  - rewrite Nat.add_0_r in HL. rewrite HL. eexists. split; [reflexivity|]. now right.
  - destruct (late k0) eqn:EL; [eexists; split; [reflexivity|]; now right|]. destruct (step_run tau A B Q Ri V F) as [V' ES]. rewrite ES.
    apply IH; [exact (follows_fit _ _ _ _ _ _ _ F (step_Ok _ _ _ _ _ _ _ (eq_sym (proj1 F)) ES))|]. now rewrite <- plus_n_Sm in HL.
Qed.
(** a solution is left alone *)
Lemma loop_fixed A B Q Rm Ri rtol atol late k0 fuel tau V Vt : fit A B Q Ri V -> care_eq A B Q Rm V -> is_inverse Rm Ri -> 0 <= rtol -> 0 <= atol -> late k0 = false ->
  exists X, brute_loop (S fuel) late k0 tau rtol atol A B Q Ri V Vt = Some (Ok X) /\ rows X = rows A /\ cols X = rows A /\ forall i j, (i < rows A)%nat -> (j < rows A)%nat -> ent X i j = ent V i j.
Proof.
  intros F CE IR HR HA HL. destruct CE as (RV & CV & Sy & CE). cbn [brute_loop]. destruct (allclosem rtol atol V Vt); [exists V; auto|]. rewrite HL. destruct (step_run tau A B Q Ri V F) as [V' ES]. rewrite ES.
  pose proof (step_Ok _ _ _ _ _ _ _ (eq_sym (proj1 F)) ES) as (R1 & C1 & E).
  assert (Z := care_residual A B Q Rm Ri V (conj RV (conj CV (conj Sy CE))) IR).
  assert (EV : forall i j, (i < rows A)%nat -> (j < rows A)%nat -> ent V' i j = ent V i j).
  { intros i j Hi Hj. rewrite E, (half_of (rows A) V) by assumption. unfold half. rewrite !Z by assumption. toR. field. }
  assert (Cl : close rtol atol V' V).
  { intros i j Hi Hj. rewrite R1 in Hi. rewrite C1 in Hj. rewrite EV by assumption. unfold Rminus. rewrite Rplus_opp_r, Rabs_R0. assert (0 <= Rabs (ent V i j)) by apply Rabs_pos. nra. }
  exists V'. destruct fuel; cbn [brute_loop]; rewrite (proj2 (close_spec _ _ _ _) Cl); auto.
Qed.

(** *** A scalar equation whose eigenvectors do not give the solution: 2 x + 1 = 0 *)
Definition eigw (Z : rmat) : result (list C * cmat) :=
  if Nat.eqb (rows Z) 2 && Req_bool (ent Z O O) 1 && Req_bool (ent Z O 1%nat) 0 && Req_bool (ent Z 1%nat O) (-1) && Req_bool (ent Z 1%nat 1%nat) (-1)
  then Ok ([RtoC 1; RtoC (-1)], mk2 (K := Cring) 2 2 (fun i j => if Nat.eqb j 0 then (if Nat.eqb i 0 then RtoC 2 else RtoC (-1)) else (if Nat.eqb i 0 then RtoC 0 else RtoC 1)))
  else Exn GenericException.
Lemma c_ext (x y : C) : fst x = fst y -> snd x = snd y -> x = y.
Proof. destruct x, y. cbn. now intros -> ->. Qed.
Lemma eigw_exact Z W V : eigw Z = Ok (W, V) -> length W = rows Z /\ eigenbasis (cof Z) V (fun j => nth j W (RtoC 0)).
Proof.
  unfold eigw. destruct (Nat.eqb_spec (rows Z) 2) as [HR|]; [|discriminate]. destruct (Req_bool_spec (ent Z O O) 1) as [E00|]; [|discriminate]. destruct (Req_bool_spec (ent Z O 1%nat) 0) as [E01|]; [|discriminate].
  destruct (Req_bool_spec (ent Z 1%nat O) (-1)) as [E10|]; [|discriminate]. destruct (Req_bool_spec (ent Z 1%nat 1%nat) (-1)) as [E11|]; [|discriminate]. cbn [andb]. intros H. apply Ok_inj in H. injection H as <- <-.
  split; [now rewrite HR|]. split; [cbn; congruence|]. split; [cbn; congruence|]. cbn [cof rows ent]. rewrite HR. intros i j Hi Hj.
  destruct i as [|[|i]]; [| |lia]; destruct j as [|[|j]]; try lia; cbn [csum cof ent rows Nat.eqb nth]; rewrite ?E00, ?E01, ?E10, ?E11; apply c_ext; unfold Cmult, Cplus, RtoC; cbn [fst snd]; ring.
Qed.
(** the Moore-Penrose inverse of numbers *)
Definition pinv1 (M : cmat) : result cmat := if Nat.eqb (rows M) 1 && Nat.eqb (cols M) 1 then Ok (if czero (ent M O O) then c11 (RtoC 0) else c11 (Cinv (ent M O O))) else Exn ValueError.
Lemma pinv1_exact : exact_pinv pinv1.
Proof.
  intros M X (Y & S1 & RY & CY & I1 & _) H. unfold pinv1 in H. destruct (Nat.eqb_spec (rows M) 1) as [HR|]; [|discriminate]. destruct (Nat.eqb_spec (cols M) 1) as [HC|]; [|discriminate]. cbn in H. apply Ok_inj in H. subst X.
  assert (N : czero (ent M O O) = false).
  { destruct (czero (ent M O O)) eqn:E; [|reflexivity]. exfalso. rewrite HR in I1. specialize (I1 O O ltac:(lia) ltac:(lia)). unfold cmul in I1. rewrite csum1 in I1. unfold czero in E.
    destruct (Req_bool_spec (fst (ent M O O)) 0) as [F|]; [|discriminate]. destruct (Req_bool_spec (snd (ent M O O)) 0) as [G|]; [|discriminate]. rewrite (c_eq (ent M O O) 0 G F) in I1.
    cbn in I1. rewrite Cmult_0_l in I1. apply RtoC_inj in I1. lra. }
  rewrite N. apply cinv1_inv. unfold cinv1. now rewrite HR, HC, N.
Qed.
Lemma start_w : exists V, numpy_care inv1 eigw pinv1 (s11 1) (s11 0) (s11 1) (s11 1) = Ok V /\ rows V = 1%nat /\ cols V = 1%nat /\ ent V O O = 0.
Proof.
  destruct (ham1 1 0 1 1 ltac:(lra)) as (Z & HZ & RZ & E00 & E01 & E10 & E11). unfold numpy_care. rewrite HZ. cbn [bind]. unfold eigw. rewrite RZ, E00, E01, E10, E11. cbn [Nat.eqb andb].
  rewrite (Req_bool_true 1 1), (Req_bool_true (- (0 * / 1 * 0)) 0), !(Req_bool_true (-(1)) (-1)) by lra. cbn [andb bind]. 
  assert (AS : argsort [RtoC 1; RtoC (-1)] = [1%nat; O]).
  { unfold argsort. cbn [length seq fold_right insert nth]. unfold cle. cbn [RtoC fst snd]. rewrite Rlt_bool_false, Req_bool_false by lra. reflexivity. }
  rewrite AS. unfold graph_of, pinv1. cbn [slice rows cols ent Nat.sub Nat.add Nat.eqb andb s11 nth]. unfold czero. cbn [RtoC fst snd]. rewrite (Req_bool_true 0 0) by reflexivity. cbn [andb bind]. unfold dotm. cbn [slice rows cols Nat.sub Nat.eqb c11 bind].
  eexists. split; [reflexivity|]. split; [reflexivity|]. split; [reflexivity|]. cbn [rpart ent]. rewrite csum_ksum, csum1. cbn [Nat.eqb nth]. rewrite Cmult_0_r. reflexivity.
Qed.
Lemma res_w V Ri : residual (s11 1) (s11 0) (s11 1) Ri V O O = 2 * ent V O O + 1.
Proof. unfold residual. cbn [s11 rows cols ent]. rewrite !rsum1. cbn [car Rring]. ring. Qed.
Lemma run_w tau (Ri V : rmat) k Vs : 0 <= tau <= 1 / 1000 -> ent V O O = 0 -> iterates tau (s11 1) (s11 0) (s11 1) Ri V k Vs -> forall j, (j <= k)%nat -> 1 <= 2 * ent (Vs j) O O + 1 <= 1 + 300 * tau * (1 - (99 / 100) ^ j).
Proof.
  intros HT H0 [I0 I]. induction j as [|j IH]; intros Hj; [rewrite I0, H0; cbn [pow]; lra|]. specialize (IH ltac:(lia)). destruct (I j ltac:(lia)) as (_ & _ & E). rewrite E by (cbn; lia). unfold half. rewrite !res_w.
  assert (P : 0 <= (99 / 100) ^ j <= 1). { split; [apply pow_le; lra|]. rewrite <- (pow1 j). apply pow_incr. lra. }
  cbn [pow]. set (q := (99 / 100) ^ j) in *. set (v := ent (Vs j) O O) in *. change R in (type of v). clearbody q v.
  replace (2 * ((v + v) / 2 + tau * q * ((2 * v + 1 + (2 * v + 1)) / 2)) + 1) with ((2 * v + 1) * (1 + 2 * (tau * q))) by field.
  assert (T0 : 0 <= tau * q) by (apply Rmult_le_pos; lra). set (w := 2 * v + 1) in *. clearbody w. assert (W : w <= 3 / 2) by nra. split; [nra|]. replace (1 + 300 * tau * (1 - 99 / 100 * q)) with (1 + 300 * tau * (1 - q) + 3 * (tau * q)) by field. nra.
Qed.
