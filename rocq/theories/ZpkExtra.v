(** Steady states of the systems built by zpk2abcd and sos2abcd exist away from the poles; inputs that are accepted or refused. *)
From Coq Require Import List Arith Lia Bool Reals Lra Permutation.
From Coquelicot Require Import Complex.
From Flocq Require Import Core.
From Verif Require Import Base LinAlg AnalogSystem AnalogProofs ChainProofs TfProofs Zpk ZpkProofs.
Import ListNotations.
Open Scope R_scope.

Lemma two_state_ss (S : asys Cring) (s a00 a01 a10 a11 b0 b1 : C) :
  siso S -> sN S = 2%nat ->
  ent (aA S) 0 0 = a00 -> ent (aA S) 0 1 = a01 -> ent (aA S) 1 0 = a10 -> ent (aA S) 1 1 = a11 ->
  ent (aB S) 0 0 = b0 -> ent (aB S) 1 0 = b1 -> ((s - a00) * (s - a11) - a01 * a10)%C <> RtoC 0 -> has_ss (K := Cring) S s.
Proof.
  intros HS HN E1 E2 E3 E4 E5 E6 Hd u. set (det := ((s - a00) * (s - a11) - a01 * a10)%C) in *.
  pose (x0 := (((s - a11) * b0 + a01 * b1) * u / det)%C). pose (x1 := ((a10 * b0 + (s - a00) * b1) * u / det)%C).
  exists [x0; x1], (radd Cring (lin (aCT S) [x0 : Cring; x1 : Cring] O) (rmul Cring (ent (aD S) O O) u)).
  split; [now rewrite HN|]. apply (chain_steady (K := Cring) S s [x0; x1] u); [exact HS|now rewrite HN|].
  destruct HS as (V & SL & SNt & SM). split; [|reflexivity].
  assert (R2 : rows (aA S) = 2%nat) by exact HN. rewrite R2. assert (C2 : cols (aA S) = 2%nat) by (rewrite (v_A _ V); exact HN).
  intros [|[|i]] Hi; [| |lia]; unfold lin; rewrite C2; cbn [ksum nth].
  - rewrite E1, E2, E5. change ((s * x0)%C = (RtoC 0 + a00 * x0 + a01 * x1 + b0 * u)%C). unfold x0, x1, det. field. exact Hd.
  - rewrite E3, E4, E6. change ((s * x1)%C = (RtoC 0 + a10 * x0 + a11 * x1 + b1 * u)%C). unfold x0, x1, det. field. exact Hd.
Qed.

Lemma one_state_ss (S : asys Cring) (s a b : C) :
  siso S -> sN S = 1%nat -> ent (aA S) 0 0 = a -> ent (aB S) 0 0 = b -> (s - a)%C <> RtoC 0 -> has_ss (K := Cring) S s.
Proof.
  intros HS HN E1 E2 Hd u. pose (x0 := (b * u / (s - a))%C).
  exists [x0], (radd Cring (lin (aCT S) [x0 : Cring] O) (rmul Cring (ent (aD S) O O) u)).
  split; [now rewrite HN|]. apply (chain_steady (K := Cring) S s [x0] u); [exact HS|now rewrite HN|].
  destruct HS as (V & SL & SNt & SM). split; [|reflexivity].
  assert (R2 : rows (aA S) = 1%nat) by exact HN. rewrite R2. assert (C2 : cols (aA S) = 1%nat) by (rewrite (v_A _ V); exact HN).
  intros [|i] Hi; [|lia]; unfold lin; rewrite C2; cbn [ksum nth].
  rewrite E1, E2. change ((s * x0)%C = (RtoC 0 + a * x0 + b * u)%C). unfold x0. field. exact Hd.
Qed.

Lemma Cmult_neq a b : (a * b)%C <> RtoC 0 -> a <> RtoC 0 /\ b <> RtoC 0.
Proof. intros H. split; intros ->; apply H; ring. Qed.

Lemma stages_ss k (s : C) : forall p z l, zpk_stages k p z = Ok l -> separated p -> cprod s p <> RtoC 0 -> Forall (fun S => has_ss (K := Cring) S s) l.
Proof.
  intros p. induction p as [|p1|p1 p2 p IH] using list_ind2; intros z l H HS HP.
  - cbn in H. apply Ok_inj in H. subst l. constructor.
  - cbn [zpk_stages] in H. destruct (is_cplx p1) eqn:E1; [discriminate|]. apply is_cplx_false in E1.
    apply bind_ok in H as ([c d] & _ & H). apply Ok_inj in H. subst l. constructor; [|constructor].
    apply (one_state_ss _ s (RtoC (fst p1)) (RtoC k)); [split; [constructor; cbn; auto|auto]|reflexivity..|].
    rewrite (real_C p1 E1). unfold cprod in HP. cbn [fold_right] in HP. now apply Cmult_neq in HP.
  - cbn [zpk_stages] in H. apply bind_ok in H as ([[[a00 a01] a10] a11] & Hp & H). apply bind_ok in H as ([[c1 c2] d] & HO & H).
    apply bind_ok in H as (S & ES & H). apply bind_ok in H as (r & Hr & H). apply Ok_inj in H. subst l.
    unfold cprod in HP. cbn [fold_right] in HP.
    constructor.
    + cbn in ES. apply Ok_inj in ES. subst S.
      eapply (two_state_ss _ s); [split; [constructor; cbn; auto|auto]|reflexivity..|].
      change (((s - a00) * (s - a11) - a01 * a10)%C <> RtoC 0). replace ((s - a00) * (s - a11) - a01 * a10)%C with ((s - p1) * (s - p2))%C.
      * intros Q. apply HP. transitivity ((s - p1) * (s - p2) * fold_right (fun r acc => (s - r) * acc) (RtoC 1) p)%C; [ring|]. rewrite Q. ring.
      * symmetry. refine (two_pole_den p1 p2 a00 a01 a10 a11 s _ Hp). apply HS; [now left|right; now left].
    + apply (IH _ _ Hr).
      * intros a b Ha Hb. apply HS; right; now right.
      * intros Q. apply HP. unfold cprod in Q. rewrite Q. ring.
Qed.

Section G.
Context {K : cring}.
Add Ring Kr : (rth K).
Lemma steady_of_sys (S : asys K) (s : K) x u y : siso S -> steady_sys S s x [u] [y] -> length x = sN S -> steady (aA S) (aB S) (aCT S) (aD S) s x u y.
Proof.
  intros (V & SL & SNt & SM) [H1 H2] Lx.
  assert (HG : forall i, lino (aG S) [] i = r0 K).
  { intros i. unfold sM in SM. destruct (aG S) as [g|]; [|reflexivity]. cbn. unfold lin. now rewrite SM. }
  assert (HB : forall i, lin (aB S) [u] i = rmul K (ent (aB S) i O) u).
  { intros i. unfold lin. unfold sL in SL. rewrite SL. cbn. ring. }
  assert (HD : forall i, lin (aD S) [u] i = rmul K (ent (aD S) i O) u).
  { intros i. unfold lin. destruct (v_D _ V) as [_ Q]. rewrite Q, SL. cbn. ring. }
  split.
  - intros i Hi. change (i < sN S)%nat in Hi. apply (f_equal (fun l => nth i l (r0 K))) in H1. unfold rhs in H1. rewrite nth_map_seq in H1 by exact Hi.
    rewrite HB, HG in H1. unfold vscale in H1. rewrite (nth_indep _ _ (rmul K s (r0 K))) in H1 by (rewrite map_length; lia). rewrite (map_nth (rmul K s)) in H1. rewrite H1. ring.
  - unfold out in H2. rewrite SNt in H2. cbn [seq map] in H2. injection H2 as H2. now rewrite HD in H2.
Qed.
End G.

Lemma zpk_steady_exists argsort z p k A B CT D : argsort_ok argsort -> separated p -> separated z -> no_tiny_imag z ->
  zpk2abcd argsort z p k = Ok (A, B, CT, D) -> forall s : C, cprod s p <> RtoC 0 ->
  forall u : C, exists x y, length x = length p /\ steady (K := Cring) A B CT D s x u y.
Proof.
  intros HA HSp HSz HTz. unfold zpk2abcd.
  destruct (Nat.ltb_spec (length p) (length z)) as [|L1]; [discriminate|]. destruct (Nat.ltb_spec (length p) 1) as [|L2]; [discriminate|]. cbn [orb].
  intros H s HP u. apply bind_ok in H as (p' & Ep & H). apply bind_ok in H as (z' & Ez & H).
  apply bind_ok in H as (l & El & H). apply bind_ok in H as (S & ES & H). apply Ok_inj in H. apply pair4_inj in H as (<- & <- & <- & <-).
  destruct (sort_cplx_ok _ _ _ HA HSp Ep) as [Pp _].
  assert (Hz : Permutation z z' /\ zok z').
  { destruct z as [|z0 z]; [apply Ok_inj in Ez; subst; split; [constructor|exact Logic.I]|]. exact (sort_cplx_ok _ _ _ HA HSz Ez). }
  destruct Hz as [Pz Oz].
  assert (HSp' : separated p') by (intros a b Ha Hb; apply HSp; apply (Permutation_in _ (Permutation_sym Pp)); assumption).
  assert (HTz' : no_tiny_imag z') by (intros a Ha; apply HTz; apply (Permutation_in _ (Permutation_sym Pz)); assumption).
  pose proof (Permutation_length Pp) as Lp. pose proof (Permutation_length Pz) as Lz.
  destruct (stages_tf _ _ _ _ El HSp' Oz HTz') as (F & T & Ne & _); [lia|].
  assert (Hl : l <> []) by (apply Ne; intros ->; cbn in Lp; lia).
  destruct (chain_ss (K := Cring) s l Hl F) as (S' & ES' & Hss).
  { eapply stages_ss; [exact El|exact HSp'|]. now rewrite <- (cprod_perm s p p' Pp). }
  rewrite ES in ES'. apply Ok_inj in ES'. subst S'.
  destruct (chain_siso l Hl F) as (S' & ES' & HSi & SN & _). rewrite ES in ES'. apply Ok_inj in ES'. subst S'.
  destruct (Hss u) as (x & y & Lx & Hst). exists x, y. split; [rewrite Lx, SN, T; auto|]. apply steady_of_sys; assumption.
Qed.

(** an argsort *)
Fixpoint ins (keys : list R) (i : nat) (l : list nat) : list nat :=
  match l with [] => [i] | j :: r => if Rle_bool (nth i keys 0) (nth j keys 0) then i :: l else j :: ins keys i r end.
Definition isort (keys : list R) : list nat := fold_right (ins keys) [] (seq 0 (length keys)).

Lemma ins_perm keys i l : Permutation (ins keys i l) (i :: l).
Proof.
  induction l as [|j r IH]; cbn; [constructor; constructor|]. destruct (Rle_bool _ _); [reflexivity|].
  rewrite IH. apply perm_swap.
Qed.
Fixpoint ascending (keys : list R) (l : list nat) : Prop :=
  match l with [] => True | i :: r => (forall j, In j r -> nth i keys 0 <= nth j keys 0) /\ ascending keys r end.
Lemma ins_asc keys i l : ascending keys l -> ascending keys (ins keys i l).
Proof.
  induction l as [|j r IH]; cbn; [tauto|]. intros [H1 H2]. destruct (Rle_bool_spec (nth i keys 0) (nth j keys 0)) as [L|L]; cbn.
  - split; [|split; assumption]. intros q [<-|Hq]; [exact L|]. specialize (H1 q Hq). lra.
  - split; [|now apply IH]. intros q Hq. apply (Permutation_in _ (ins_perm keys i r)) in Hq as [<-|Hq]; [lra|now apply H1].
Qed.
Lemma isort_ok : argsort_ok isort.
Proof.
  intros keys. assert (P : Permutation (isort keys) (seq 0 (length keys))).
  { unfold isort. induction (seq 0 (length keys)) as [|i l IH]; [constructor|]. cbn. rewrite ins_perm. now constructor. }
  split; [exact P|]. assert (A : ascending keys (isort keys)).
  { clear P. unfold isort. induction (seq 0 (length keys)) as [|i l IH]; [exact Logic.I|]. cbn. apply ins_asc, IH. }
  pose proof (Permutation_length P) as L. rewrite seq_length in L. rewrite <- L. clear P L. revert A. generalize (isort keys) as l.
  induction l as [|a r IH]; intros A i j [Hi Hj]; cbn in *; [lia|]. destruct A as [A1 A2]. destruct j as [|j]; [lia|]. destruct i as [|i].
  - apply A1. apply nth_In. lia.
  - apply IH; [exact A2|lia].
Qed.

(** sorting a list of real numbers only permutes it *)
Lemma sort_cplx_real argsort (l : list C) : argsort_ok argsort -> (forall a, In a l -> snd a = 0) -> exists l', sort_cplx argsort l = Ok l' /\ Permutation l l'.
Proof.
  intros HA HR. unfold sort_cplx. set (idx := rev (argsort _)). set (l1 := map _ idx).
  destruct (HA (map (fun z => Rabs (snd z)) l)) as [P _]. rewrite map_length in P.
  assert (Pl : Permutation l l1).
  { unfold l1, idx. rewrite <- (map_nth_seq l (RtoC 0)) at 1. apply Permutation_map. rewrite <- Permutation_rev. now symmetry. }
  assert (Z : filter is_cplx l1 = [] /\ filter (fun z => negb (is_cplx z)) l1 = l1).
  { assert (Q : forall a, In a l1 -> is_cplx a = false).
    { intros a Ha. unfold is_cplx. rewrite Req_bool_true; [reflexivity|]. apply HR. apply (Permutation_in _ (Permutation_sym Pl)). exact Ha. }
    clear - Q. induction l1 as [|a l2 IH]; [auto|]. cbn. rewrite (Q a) by now left. cbn. destruct IH as [-> ->]; [intros; apply Q; now right|]. auto. }
  destruct Z as [-> ->]. cbn. exists l1. auto.
Qed.

(** real poles told apart by [np.allclose], real zeros *)
Definition apart (l : list C) : Prop := forall a b, In a l -> In b l -> allclose_c a b = true -> a = b.

Lemma Cconj_real a : snd a = 0 -> Cconj a = a.
Proof. destruct a as [x y]. cbn. intros ->. unfold Cconj. cbn. now rewrite Ropp_0. Qed.

Lemma stage2_ok k a b c d p z l : zpk_stages k p z = Ok l ->
  exists l', bind (as_init (D2 (mlist 2 2 a)) (D2 (mlist 2 1 b)) (D2 (mlist 1 2 c)) None None (Some (D2 (mlist 1 1 d))) None None)
    (fun s => bind (zpk_stages k p z) (fun r => Ok (s :: r))) = Ok l'.
Proof. intros ->. eexists. reflexivity. Qed.

Lemma stages_accept k : forall p z : list C, (forall a, In a p -> snd a = 0) -> (forall a, In a z -> snd a = 0) -> apart p -> NoDup p -> exists l, zpk_stages k p z = Ok l.
Proof.
  intros p. induction p as [|p1|p1 p2 p IH] using (@list_ind2 C); intros z HP HZ HA HN.
  - now exists [].
  - cbn [zpk_stages]. assert (E : is_cplx p1 = false) by (unfold is_cplx; rewrite Req_bool_true; [reflexivity|apply HP; now left]). rewrite E.
    destruct z as [|z1 z]; cbn [bind]; [eexists; reflexivity|].
    assert (Ez : is_cplx z1 = false) by (unfold is_cplx; rewrite Req_bool_true; [reflexivity|apply HZ; now left]). rewrite Ez. cbn. eexists. reflexivity.
  - cbn [zpk_stages]. assert (E1 : is_cplx p1 = false) by (unfold is_cplx; rewrite Req_bool_true; [reflexivity|apply HP; now left]).
    assert (E2 : is_cplx p2 = false) by (unfold is_cplx; rewrite Req_bool_true; [reflexivity|apply HP; right; now left]).
    destruct (IH (tl (tl z))) as (l & El).
    + intros a Ha. apply HP. right. now right.
    + intros a Ha. apply HZ. destruct z as [|? [|? ?]]; cbn in *; tauto.
    + intros a b Ha Hb. apply HA; right; now right.
    + inversion HN as [|? ? _ HN']; subst. now inversion HN'.
    + unfold two_pole. rewrite (Cconj_real p2) by (apply HP; right; now left).
      destruct (allclose_c p1 p2) eqn:Ea.
      { exfalso. apply HA in Ea; [|now left|right; now left]. subst p2. inversion HN as [|? ? H _]; subst. apply H. now left. }
      rewrite E1, E2. cbn [orb bind]. destruct z as [|z1 [|z2 z]]; cbn [two_pole_out].
      * unfold np_div. cbn [fst]. rewrite Req_bool_false by (cbn; lra). cbn [bind]. apply stage2_ok with (1 := El).
      * assert (Ez : is_cplx z1 = false) by (unfold is_cplx; rewrite Req_bool_true; [reflexivity|apply HZ; now left]). rewrite Ez.
        unfold np_div. cbn [fst]. rewrite Req_bool_false by (cbn; lra). cbn [bind]. apply stage2_ok with (1 := El).
      * assert (I : forall y, snd y = 0 -> imag_small y = true).
        { intros y Hy. unfold imag_small. rewrite Hy, Rabs_R0. apply Rle_bool_true. lra. }
        assert (Z1 : snd z1 = 0) by (apply HZ; now left). assert (Z2 : snd z2 = 0) by (apply HZ; right; now left).
        rewrite !I by (cbn; rewrite Z1, Z2; ring). cbn [andb negb].
        rewrite Req_bool_false by (cbn; lra). cbn [bind]. apply stage2_ok with (1 := El).
Qed.

Lemma zpk_accepts_real argsort (z p : list C) k : argsort_ok argsort -> (forall a, In a p -> snd a = 0) -> (forall a, In a z -> snd a = 0) ->
  apart p -> NoDup p -> (length z <= length p)%nat -> p <> [] -> exists r, zpk2abcd argsort z p k = Ok r.
Proof.
  intros HA HP HZ Hap HN HL Hne. unfold zpk2abcd.
  destruct (Nat.ltb_spec (length p) (length z)); [lia|]. destruct (Nat.ltb_spec (length p) 1); [destruct p; [congruence|cbn in *; lia]|]. cbn [orb].
  destruct (sort_cplx_real argsort p HA HP) as (p' & -> & Pp). cbn [bind].
  match goal with |- context [bind ?X (fun z' => bind (zpk_stages _ _ z') _)] => assert (Hz : exists z', X = Ok z' /\ Permutation z z') end.
  { destruct z; [eexists; split; [reflexivity|constructor]|]. now apply sort_cplx_real. }
  destruct Hz as (z' & -> & Pz). cbn [bind].
  assert (HP' : forall a, In a p' -> snd a = 0) by (intros a Ha; apply HP, (Permutation_in _ (Permutation_sym Pp) Ha)).
  assert (HZ' : forall a, In a z' -> snd a = 0) by (intros a Ha; apply HZ, (Permutation_in _ (Permutation_sym Pz) Ha)).
  assert (Hap' : apart p') by (intros a b Ha Hb; apply Hap; apply (Permutation_in _ (Permutation_sym Pp)); assumption).
  destruct (stages_accept (gain_per_pole k (length p)) p' z') as (l & El); auto; [now apply (Permutation_NoDup Pp)|].
  rewrite El. cbn [bind]. 
  destruct (stages_tf _ _ _ _ El) as (F & T & Ne & _).
  - intros a b Ha Hb Hab. rewrite (Cconj_real b) in * by auto. now apply Hap'.
  - now apply zok_real.
  - intros a Ha. left. auto.
  - rewrite <- (Permutation_length Pp), <- (Permutation_length Pz). exact HL.
  - destruct (chain_siso (K := Cring) l) as (S & -> & _).
    + apply Ne. intros ->. apply Hne. apply Permutation_nil. now symmetry.
    + exact F.
    + cbn. eexists. reflexivity.
Qed.

(** two real poles that [np.allclose] takes for equal *)
Lemma zpk_close_poles argsort (p1 p2 : C) k (z : list C) : argsort_ok argsort -> snd p1 = 0 -> snd p2 = 0 -> allclose_c p1 p2 = true -> allclose_c p2 p1 = true ->
  (forall a, In a z -> snd a = 0) -> (length z <= 1)%nat -> zpk2abcd argsort z [p1; p2] k = Exn ArithmeticError.
Proof.
  intros HA R1 R2 C1 C2 HZ HL. unfold zpk2abcd. cbn [length].
  destruct (Nat.ltb_spec 2 (length z)); [lia|]. cbn [orb Nat.ltb Nat.leb].
  destruct (sort_cplx_real argsort [p1; p2] HA) as (p' & -> & Pp); [intros a [<-|[<-|[]]]; auto|]. cbn [bind].
  match goal with |- context [bind ?X (fun z' => bind (zpk_stages _ _ z') _)] => assert (Hz : exists z', X = Ok z' /\ Permutation z z') end.
  { destruct z; [eexists; split; [reflexivity|constructor]|]. now apply sort_cplx_real. }
  destruct Hz as (z' & -> & Pz). cbn [bind].
  pose proof (Permutation_length Pz) as Lz.
  assert (HZ' : forall a, In a z' -> snd a = 0) by (intros a Ha; apply HZ, (Permutation_in _ (Permutation_sym Pz) Ha)).
  assert (G : forall q1 q2, snd q1 = 0 -> snd q2 = 0 -> allclose_c q1 q2 = true -> zpk_stages (gain_per_pole k 2) [q1; q2] z' = Exn ArithmeticError).
  { intros q1 q2 Q1 Q2 Q. cbn [zpk_stages]. unfold two_pole. rewrite (Cconj_real q2 Q2), Q, Q1, Q2. cbn [bind].
    destruct z' as [|z1 [|z2 z']]; [| |cbn in Lz; lia]; cbn [two_pole_out].
    - unfold np_div. now rewrite Req_bool_true.
    - unfold is_cplx. rewrite Req_bool_true by (apply HZ'; now left). cbn [negb]. unfold np_div. now rewrite Req_bool_true. }
  apply Permutation_length_2_inv in Pp as [-> | ->]; rewrite G by assumption; reflexivity.
Qed.

(** sos2abcd *)
Lemma sos_steady_exists rows_ A B CT D : sos2abcd rows_ = Ok (A, B, CT, D) -> forall s : C, (forall r, In r rows_ -> sos_den r s <> RtoC 0) ->
  forall u : C, exists x y, length x = (2 * length rows_)%nat /\ steady (K := Cring) A B CT D s x u y.
Proof.
  unfold sos2abcd. intros H s HP u. apply bind_ok in H as (l & El & H). apply bind_ok in H as (S & ES & H). apply Ok_inj in H. apply pair4_inj in H as (<- & <- & <- & <-).
  assert (G : forall rs l, (forall r, In r rs -> sos_den r s <> RtoC 0) -> sos_stages rs = Ok l -> Forall siso l /\ total sN l = (2 * length rs)%nat /\ Forall (fun S => has_ss (K := Cring) S s) l).
  { clear. induction rs as [|r rs IH]; intros l HP H.
    - apply Ok_inj in H. subst l. split; [constructor|]. split; [reflexivity|constructor].
    - cbn [sos_stages] in H. apply bind_ok in H as (S & ES & H). apply bind_ok in H as (l' & El & H). apply Ok_inj in H. subst l.
      destruct (IH _ (fun r Hr => HP r (or_intror Hr)) El) as (F & T & Hs). destruct (sos_stage_tf r S (RtoC 0) ES) as (HSi & HN & _).
      split; [now constructor|]. split; [rewrite total_cons, HN, T; cbn; lia|]. constructor; [|exact Hs].
      specialize (HP r (or_introl eq_refl)). destruct r as [[[[[b0 b1] b2] a0] a1] a2]. unfold sos_stage in ES.
      apply bind_ok in ES as ([[[[c0 c1] c2] d1] d2] & E & ES). apply Ok_inj in ES. subst S.
      assert (Q : a1 = a0 * d1 /\ a2 = a0 * d2).
      { destruct (Req_bool_spec a0 1) as [->|Q1].
        - apply Ok_inj in E. injection E as -> -> -> -> ->. split; lra.
        - destruct (Req_bool_spec a0 0) as [|Q0]; [discriminate|]. apply Ok_inj in E. injection E as <- <- <- <- <-. split; field; exact Q0. }
      destruct Q as [-> ->].
      eapply (two_state_ss _ s); [exact HSi|reflexivity..|].
      intros Q. apply HP. unfold sos_den, quad. rewrite !RtoC_mult. 
      change (((s - RtoC 0) * (s - RtoC (- d1)) - RtoC 1 * RtoC (- d2))%C = RtoC 0) in Q. rewrite !RtoC_opp in Q.
      transitivity (RtoC a0 * ((s - RtoC 0) * (s - - RtoC d1) - RtoC 1 * - RtoC d2))%C; [ring|]. rewrite Q. ring. }
  destruct (G _ _ HP El) as (F & T & Hs).
  destruct l as [|S0 l]; [discriminate ES|].
  destruct (chain_ss (K := Cring) s (S0 :: l)) as (S' & ES' & Hss); [discriminate|exact F|exact Hs|]. rewrite ES in ES'. apply Ok_inj in ES'. subst S'.
  destruct (chain_siso (K := Cring) (S0 :: l)) as (S' & ES' & HSi & SN & _); [discriminate|exact F|]. rewrite ES in ES'. apply Ok_inj in ES'. subst S'.
  destruct (Hss u) as (x & y & Lx & Hst). exists x, y. split; [rewrite Lx, SN, T; reflexivity|]. apply steady_of_sys; assumption.
Qed.

Definition sos_a0 (r : R * R * R * R * R * R) : R := let '(_, _, _, a0, _, _) := r in a0.
Lemma sos_accepts rows_ : (exists r, sos2abcd rows_ = Ok r) <-> rows_ <> [] /\ forall r, In r rows_ -> sos_a0 r <> 0.
Proof.
  assert (St : forall r, (exists S, sos_stage r = Ok S) <-> sos_a0 r <> 0).
  { intros [[[[[b0 b1] b2] a0] a1] a2]. unfold sos_stage, sos_a0. destruct (Req_bool_spec a0 1) as [->|Q1].
    - split; [intros _; lra|intros _; eexists; reflexivity].
    - destruct (Req_bool_spec a0 0) as [->|Q0]; [split; [intros [S H]; discriminate|lra]|]. split; [intros _; exact Q0|intros _; eexists; reflexivity]. }
  assert (Sl : forall rs, (exists l, sos_stages rs = Ok l) <-> forall r, In r rs -> sos_a0 r <> 0).
  { induction rs as [|r rs IH]; [split; [intros _ r []|intros _; eexists; reflexivity]|]. cbn [sos_stages]. split.
    - intros [l H]. apply bind_ok in H as (S & ES & H). apply bind_ok in H as (l' & El & _). intros q [<-|Hq]; [apply St; eauto|]. apply IH; eauto.
    - intros H. destruct (proj2 (St r)) as (S & ES); [apply H; now left|]. destruct (proj2 IH) as (l & El); [intros q Hq; apply H; now right|].
      rewrite ES. cbn [bind]. rewrite El. cbn. eauto. }
  unfold sos2abcd. split.
  - intros [r H]. apply bind_ok in H as (l & El & H). apply bind_ok in H as (S & ES & _). split; [|apply Sl; eauto].
    intros ->. apply Ok_inj in El. subst l. discriminate.
  - intros [Hne H]. apply Sl in H as (l & El). rewrite El. cbn [bind].
    assert (F : Forall siso l /\ length l = length rows_).
    { revert l El. clear. induction rows_ as [|r rs IH]; intros l El.
      - apply Ok_inj in El. subst l. split; constructor.
      - cbn [sos_stages] in El. apply bind_ok in El as (S & ES & El). apply bind_ok in El as (l' & El' & El). apply Ok_inj in El. subst l.
        destruct (IH _ El') as [F L]. destruct (sos_stage_tf r S (RtoC 0) ES) as (HSi & _). split; [now constructor|cbn; now rewrite L]. }
    destruct F as [F L]. destruct (chain_siso (K := Cring) l) as (S & -> & _); [destruct l; [destruct rows_; [congruence|discriminate]|discriminate]|exact F|].
    cbn. eauto.
Qed.
