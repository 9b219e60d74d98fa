(** Frequency response of the systems built from conjugate poles and zeros. *)
From Coq Require Import List Arith Lia Bool Reals Lra Permutation.
From Coquelicot Require Import Complex.
From Flocq Require Import Core.
From Verif Require Import Base LinAlg FirExtras AnalogSystem AnalogProofs ChainProofs TfProofs Zpk ZpkProofs ZpkExtra Integrators Filters FilterZpk.
From Verif Require Import FilterCoeff LinearOde IntegratorsProofs CplxLin TransferFn TransferProofs.
Import ListNotations.
Open Scope R_scope.

(** ** Specification *)
(** One input, one output, no controls; s is an eigenvalue of A only if it is in [p]; the response at the frequency w to the
    phasor u is [h w] times u. *)
Definition eigenvalue (S : asys Rring) (s : C) : Prop :=
  exists x : nat -> C, (exists i, (i < sN S)%nat /\ x i <> RtoC 0) /\ forall i, (i < sN S)%nat -> (s * x i)%C = cap (sN S) (ce (aA S)) x i.
Definition responds (S : asys Rring) (w : R) (h : C) : Prop :=
  off_poles S w /\ (forall u, exists x, phasor S w u none x) /\ forall u x, phasor S w u none x -> outp S u x O = (h * u O)%C.
Definition siso_filter (S : asys Rring) (n : nat) : Prop :=
  valid S /\ sN S = n /\ sL S = 1%nat /\ sNt S = 1%nat /\ aG S = None /\ aGt S = None.

(** ** chain keeps the entries real *)
Lemma ksum_real n (f : nat -> C) : (forall i, snd (f i) = 0) -> snd (ksum (K := Cring) n f) = 0.
Proof. intros H. induction n; [reflexivity|]. cbn. rewrite IHn, H. ring. Qed.
Lemma dotm_real (a b c : nd2 Cring) : realm a -> realm b -> dotm a b = Ok c -> realm c.
Proof.
  unfold dotm. intros Ha Hb. destruct (Nat.eqb _ _); [|discriminate]. intros E. apply Ok_inj in E. subst c. intros i j. cbn [ent]. apply ksum_real.
  intros k. cbn. rewrite Ha, Hb. ring.
Qed.
Lemma setblk_real M r0 r1 c0 c1 V : realm M -> realm V -> realm (setblk M r0 r1 c0 c1 V).
Proof. intros H1 H2 i j. cbn. destruct (_ && _); [apply H2|apply H1]. Qed.
Lemma zeros_real r c : realm (zeros r c).
Proof. intros i j. reflexivity. Qed.
Lemma eye_real r c : realm (eye2 r c).
Proof. intros i j. cbn. now destruct (Nat.eqb i j). Qed.

Definition creal (st : cst Cring) : Prop := realm (cA st) /\ realm (cB st) /\ realm (cCT st) /\ realm (cD st).
Lemma step_real N L st S st' : reals S -> creal st -> chain_step N L st S = Ok st' -> creal st'.
Proof.
  intros [RA RB RC RD] (H1 & H2 & H3 & H4) E. unfold chain_step in E.
  apply bind_ok in E as (bc & E1 & E). apply bind_ok in E as (bd & E2 & E). apply bind_ok in E as (d & E3 & E). apply bind_ok in E as (dc & E4 & E).
  apply Ok_inj in E. subst st'. pose proof (dotm_real _ _ _ RB H3 E1). pose proof (dotm_real _ _ _ RB H4 E2). pose proof (dotm_real _ _ _ RD H4 E3).
  pose proof (dotm_real _ _ _ RD H3 E4). split; [|split; [|split]]; cbn [cA cB cCT cD]; repeat apply setblk_real; assumption.
Qed.
Lemma loop_real N L : forall l st st', Forall reals l -> creal st -> chain_loop N L st l = Ok st' -> creal st'.
Proof.
  induction l as [|S l IH]; intros st st' HF Hc E; cbn in E; [apply Ok_inj in E; now subst|]. inversion HF; subst.
  apply bind_ok in E as (s1 & E1 & E). eapply IH; [eassumption| |exact E]. now apply (step_real N L st S).
Qed.
Lemma chain_real (l : list (asys Cring)) S : Forall reals l -> chain l = Ok S -> reals S.
Proof.
  intros HF. unfold chain. destruct l as [|s0 l]; [discriminate|]. intros E. apply bind_ok in E as (st & E1 & E).
  assert (Hst : creal st).
  { refine (loop_real _ _ _ _ _ HF _ E1). inversion HF as [|? ? [RA RB RC RD] _]; subst.
    split; [apply zeros_real|]. split; [apply zeros_real|]. split; [apply setblk_real; [apply zeros_real|exact RC]|apply eye_real]. }
  destruct Hst as (H1 & H2 & H3 & H4). unfold as_init in E. apply bind_ok in E as ([g M] & _ & E). apply bind_ok in E as ([gt Mt] & _ & E).
  destruct (negb _); [discriminate|]. cbn [as_column as_row bind] in E. destruct (negb _); [discriminate|]. destruct (negb _); [discriminate|].
  apply bind_ok in E as (d & Ed & E). apply bind_ok in E as (bt & _ & E). apply bind_ok in E as (at_ & _ & E). apply Ok_inj in E. subst S.
  unfold chk_opt in Ed. destruct (negb _); [discriminate|]. destruct (negb _); [discriminate|]. apply Ok_inj in Ed. subst d. now constructor.
Qed.

(** ** chain keeps s I - A injective *)
Lemma nth_rep0 n k : nth k (repeat (RtoC 0 : Cring) n) (r0 Cring) = RtoC 0.
Proof. revert k. induction n; intros [|k]; cbn; auto. Qed.
Lemma lin_zero (m : nd2 Cring) n i : lin m (repeat (RtoC 0 : Cring) n) i = RtoC 0.
Proof.
  unfold lin. induction (cols m) as [|c IH]; [reflexivity|]. cbn [ksum]. rewrite IH, nth_rep0. change ((RtoC 0 + ent m i c * RtoC 0)%C = RtoC 0). ring.
Qed.
Lemma out_zero S n : sNt S = 1%nat -> out (K := Cring) S (repeat (RtoC 0 : Cring) n) [RtoC 0 : Cring] = [RtoC 0 : Cring].
Proof.
  intros E. unfold out. rewrite E. cbn [seq map]. f_equal. change [RtoC 0 : Cring] with (repeat (RtoC 0 : Cring) 1). rewrite !lin_zero.
  change ((RtoC 0 + RtoC 0)%C = RtoC 0). ring.
Qed.
Lemma series_inj (s : C) (l : list (asys Cring)) : Forall siso l -> Forall (fun S => inj_at S s) l -> forall xs, Forall2 (fun S x => length x = sN S) l xs ->
  vscale (s : Cring) (concat xs) = fst (series (nodes_of l xs) [RtoC 0 : Cring]) -> concat xs = repeat (RtoC 0 : Cring) (total sN l).
Proof.
  intros HF. induction HF as [|S l (V & SL & SNt & SM) HF IH]; intros HI xs F2 H; inversion F2 as [|? x ? xs' Lx F2']; subst; [reflexivity|].
  inversion HI as [|? ? I1 I2]; subst. cbn [nodes_of series nsys nst nct fst snd concat] in *.
  assert (H' : vscale (s : Cring) x = rhs S x [RtoC 0 : Cring] [] /\ vscale (s : Cring) (concat xs') = fst (series (nodes_of l xs') (out S x [RtoC 0 : Cring]))).
  { destruct (series (nodes_of l xs') _) as [ds y]. cbn [fst] in *. unfold vscale in *. rewrite map_app in H. apply app_inj_len in H; [exact H|]. rewrite map_length, rhs_length. exact Lx. }
  destruct H' as [H1 H2]. pose proof (I1 x Lx H1) as Ex. assert (Eo : out S x [RtoC 0 : Cring] = [RtoC 0 : Cring]) by (rewrite Ex; exact (out_zero S (sN S) SNt)). rewrite Eo in H2.
  rewrite total_cons, repeat_app. exact (f_equal2 (@app C) Ex (IH I2 xs' F2' H2)).
Qed.
Lemma chain_inj (s : C) (l : list (asys Cring)) S : l <> [] -> Forall siso l -> Forall (fun S => inj_at S s) l -> chain l = Ok S -> inj_at S s.
Proof.
  intros Hne HF HI E x Lx Hx. destruct (chain_siso l Hne HF) as (S' & E' & _ & SN & _). rewrite E in E'. apply Ok_inj in E'. subst S'.
  destruct (split_lengths l x) as (xs & -> & F2); [congruence|]. destruct (chain_siso_spec l Hne HF xs (RtoC 0 : Cring) F2) as (S' & E' & _ & _ & Hr & _).
  rewrite E in E'. apply Ok_inj in E'. subst S'. rewrite SN. apply (series_inj s l HF HI xs F2). rewrite Hx. exact Hr.
Qed.

(** ** zpk2abcd on conjugate poles and zeros *)
Lemma zpk_good argsort z p k : argsort_ok argsort -> conj_set p -> conj_set z -> (length z <= length p)%nat -> p <> [] ->
  exists S : asys Cring, zpk2abcd argsort z p k = Ok (aA S, aB S, aCT S, aD S) /\ siso S /\ reals S /\ sN S = length p /\
    forall s : C, (cprod s p <> RtoC 0 -> inj_at S s /\ has_ss (K := Cring) S s) /\ has_tf S (s : Cring) (RtoC (Rabs k) * cprod s z)%C (cprod s p).
Proof.
  intros HA HP HZ HL Hne. assert (L1 : (0 < length p)%nat) by (destruct p; [congruence|cbn; lia]). unfold zpk2abcd.
  destruct (Nat.ltb_spec (length p) (length z)) as [|_]; [lia|]. destruct (Nat.ltb_spec (length p) 1) as [|_]; [lia|]. cbn [orb].
  destruct (sort_pairs argsort p HA HP) as (p' & -> & Pp & Sp). cbn [bind].
  assert (EZ : exists z', (match z with [] => Ok [] | _ => sort_cplx argsort z end) = Ok z' /\ Permutation z z' /\ pairs z').
  { destruct z as [|z0 z]; [exists []; split; [reflexivity|split; [constructor|exact Logic.I]]|]. now apply sort_pairs. }
  destruct EZ as (z' & -> & Pz & Sz). cbn [bind]. pose proof (Permutation_length Pp) as Lp. pose proof (Permutation_length Pz) as Lz.
  destruct (stages_good (gain_per_pole k (length p)) p' z' Sp Sz) as (l & -> & F & R & T & Ne & Htf); [lia|]. cbn [bind].
  assert (Hl : l <> []) by (apply Ne; intros ->; cbn in Lp; lia).
  destruct (chain_siso l Hl F) as (S & ES & HSi & SN & Hc). rewrite ES. cbn [bind]. exists S. split; [reflexivity|]. split; [exact HSi|].
  split; [exact (chain_real l S R ES)|]. split; [rewrite SN, T; auto|]. intros s. destruct (Htf s) as (Hi & t & Lt & Ht & K1 & K2). split.
  - intros Hs. assert (Hs' : cprod s p' <> RtoC 0) by now rewrite <- (cprod_perm s p p' Pp). specialize (Hi Hs'). split.
    + apply (chain_inj s l S Hl F); [|exact ES]. eapply Forall_impl; [|exact Hi]. intros ? [H _]. exact H.
    + destruct (chain_ss (K := Cring) s l Hl F) as (S' & ES' & H); [eapply Forall_impl; [|exact Hi]; intros ? [_ H]; exact H|]. rewrite ES in ES'. apply Ok_inj in ES'. now subst S'.
  - eapply has_tf_eq; [exact (Hc (s : Cring) t Lt Ht)| |].
    + rewrite K1, (cprod_perm s z z' Pz), <- Lp, gain_pow by lia. reflexivity.
    + rewrite K2. symmetry. now apply cprod_perm.
Qed.

(** ** The filter *)
Lemma cap_lin (m : nd2 Cring) (n : nat) (x : nat -> C) i : realm m -> cols m = n -> cap n (ce (re2 m)) x i = lin (K := Cring) m (map x (seq 0 n)) i.
Proof.
  intros R E. unfold cap, lin. rewrite E. symmetry. etransitivity; [apply csum_ksum|]. symmetry. apply csum_ext. intros j Hj. rewrite (nth_indep _ _ (x O)) by (rewrite map_length, seq_length; exact Hj).
  rewrite map_nth, seq_nth by exact Hj. unfold ce. cbn [re2 ent]. now rewrite real_C by apply R.
Qed.

Section F.
Variable S : asys Cring.
Hypothesis HS : siso S.
Hypothesis HR : reals S.
Variable S' : asys Rring.
Hypothesis EA : aA S' = re2 (aA S).
Hypothesis EB : aB S' = re2 (aB S).
Hypothesis EC : aCT S' = re2 (aCT S).
Hypothesis ED : aD S' = re2 (aD S).

Let V : valid S. Proof. apply HS. Qed.
Lemma sys_N : sN S' = sN S. Proof. unfold sN. now rewrite EA. Qed.
Lemma sys_L : sL S' = 1%nat. Proof. destruct HS as (_ & H & _). unfold sL in *. now rewrite EB. Qed.

Lemma row_eq (s : C) (u0 : C) (x : nat -> C) : (forall i, (i < sN S')%nat -> (s * x i)%C = (cap (sN S') (ce (aA S')) x i + ce (aB S') i O * u0)%C) <->
  (vscale (K := Cring) s (map x (seq 0 (sN S))) : list Cring) = rhs S (map x (seq 0 (sN S))) [u0] [].
Proof.
  destruct HS as (V' & SL & SNt & SM).
  assert (HG : forall i, lino (aG S) [] i = RtoC 0).
  { intros i. unfold sM in SM. destruct (aG S) as [g|]; [|reflexivity]. cbn. unfold lin. now rewrite SM. }
  assert (HB : forall i, lin (K := Cring) (aB S) [u0 : Cring] i = (ce (aB S') i O * u0)%C).
  { intros i. unfold lin. unfold sL in SL. rewrite SL. rewrite EB. unfold ce. cbn [re2 ent]. rewrite real_C by apply (re_B _ HR). cbn [ksum nth]. 
    match goal with |- ?a = ?b => change (@eq C a b) end. change ((RtoC 0 + ent (aB S) i O * u0)%C = (ent (aB S) i O * u0)%C). ring. }
  assert (HAi : forall i, cap (sN S') (ce (aA S')) x i = lin (K := Cring) (aA S) (map x (seq 0 (sN S))) i).
  { intros i. rewrite sys_N, EA. apply cap_lin; [apply (re_A _ HR)|]. apply (v_A _ V). }
  assert (HL : forall i, (i < sN S)%nat -> nth i (vscale (K := Cring) s (map x (seq 0 (sN S)))) (r0 Cring) = (s * x i)%C).
  { intros i Hi. unfold vscale. rewrite map_map. exact (nth_map_seq (fun i => rmul Cring s (x i)) (sN S) i Hi). }
  assert (HRi : forall i, (i < sN S)%nat -> nth i (rhs S (map x (seq 0 (sN S))) [u0 : Cring] []) (r0 Cring) = (cap (sN S') (ce (aA S')) x i + ce (aB S') i O * u0)%C).
  { intros i Hi. unfold rhs. rewrite nth_map_seq by exact Hi. rewrite HB, HG, HAi.
    match goal with |- ?a = ?b => change (@eq C a b) end. cbn [radd Cring]. ring. }
  rewrite sys_N in *. split.
  - intros H. apply (list_ext _ _ (r0 Cring)); [now rewrite vscale_length, map_length, seq_length, rhs_length|]. rewrite vscale_length, map_length, seq_length. intros i Hi.
    rewrite HL, HRi by exact Hi. now apply H.
  - intros H i Hi. rewrite <- HL, <- HRi by exact Hi. now rewrite H.
Qed.

Lemma inj_sys (s : C) : inj_at S s -> forall x : nat -> C, (forall i, (i < sN S')%nat -> (s * x i)%C = cap (sN S') (ce (aA S')) x i) -> forall i, (i < sN S')%nat -> x i = RtoC 0.
Proof.
  intros I x Hx i Hi. assert (E : map x (seq 0 (sN S)) = repeat (RtoC 0) (sN S)).
  { apply I; [now rewrite map_length, seq_length|]. apply (row_eq s (RtoC 0) x). intros j Hj. rewrite Hx by exact Hj. ring. }
  rewrite sys_N in Hi. apply (f_equal (fun l => nth i l (RtoC 0))) in E.
  rewrite (nth_indep _ _ (x O)) in E by (rewrite map_length, seq_length; exact Hi). rewrite map_nth, seq_nth in E by exact Hi. cbn [Nat.add] in E. rewrite E.
  exact (nth_rep0 (sN S) i).
Qed.

Lemma ss_sys (w : R) : has_ss (K := Cring) S (0, w) -> forall u, exists x, phasor S' w u none x.
Proof.
  intros H u. destruct (H (u O)) as (X & y & LX & HX & _). exists (fun i => nth i X (RtoC 0)).
  assert (EX : map (fun i => nth i X (RtoC 0)) (seq 0 (sN S)) = X) by (rewrite <- LX; exact (map_nth_seq X (RtoC 0))).
  assert (HX' : vscale (K := Cring) (0, w) (map (fun i => nth i X (RtoC 0)) (seq 0 (sN S))) = rhs S (map (fun i => nth i X (RtoC 0)) (seq 0 (sN S))) [u O : Cring] []) by (rewrite EX; exact HX).
  intros i Hi. rewrite (proj2 (row_eq (0, w) (u O) (fun i => nth i X (RtoC 0))) HX' i Hi). unfold none. rewrite sys_L. unfold cap at 3. cbn [csum]. ring.
Qed.

Lemma off_sys (w : R) : inj_at S (0, w) -> off_poles S' w.
Proof.
  intros I x Hx. apply (inj_sys (0, w) I x). intros i Hi. rewrite (Hx i Hi). unfold none. rewrite (cap_zero (sL S')) by reflexivity. ring.
Qed.

Lemma out_sys (w : R) (num den : C) : has_tf S ((0, w) : Cring) (num : Cring) (den : Cring) -> den <> RtoC 0 -> forall u x, phasor S' w u none x -> outp S' u x O = (num / den * u O)%C.
Proof.
  intros [_ T] Hd u x Hx. set (X := map x (seq 0 (sN S))). set (y := outp S' u x O).
  assert (LX : length X = sN S) by (unfold X; now rewrite map_length, seq_length).
  assert (Q : (den * y = num * u O)%C).
  { apply (T X (u O) y LX). split.
    - apply (row_eq (0, w) (u O) x). intros i Hi. rewrite (Hx i Hi). unfold none. rewrite sys_L. unfold cap at 2. cbn [csum]. ring.
    - destruct HS as (_ & SL & SNt & _). unfold out. rewrite SNt. cbn [seq map]. f_equal. unfold y, outp. rewrite sys_L, sys_N, EC, ED. 
      rewrite cap_lin; [|apply (re_C _ HR)|apply (v_CT _ V)]. unfold cap. cbn [csum]. unfold X.
      assert (EDl : lin (K := Cring) (aD S) [u O : Cring] O = (ce (re2 (aD S)) O O * u O)%C).
      { unfold lin. destruct (v_D _ V) as [_ Q]. rewrite Q, SL. unfold ce. cbn [re2 ent]. rewrite real_C by apply (re_D _ HR). cbn [ksum nth].
        match goal with |- ?a = ?b => change (@eq C a b) end. change ((RtoC 0 + ent (aD S) O O * u O)%C = (ent (aD S) O O * u O)%C). ring. }
      rewrite EDl. match goal with |- ?a = ?b => change (@eq C a b) end. cbn [radd Cring]. ring. }
  transitivity (den * y / den)%C; [field; exact Hd|]. rewrite Q. field. exact Hd.
Qed.
End F.

Lemma cprod_in s p : cprod s p = RtoC 0 <-> In s p.
Proof.
  unfold cprod. induction p as [|a p IH]; cbn [fold_right In].
  - split; [|tauto]. intros H. apply RtoC_inj in H. lra.
  - split.
    + intros H. destruct (Ceq_dec s a) as [->|N]; [now left|]. right. apply IH. destruct (Ceq_dec (fold_right (fun r acc => (s - r) * acc)%C (RtoC 1) p) (RtoC 0)) as [|Q]; [assumption|].
      exfalso. revert H. apply Cmult_neq_0; [|exact Q]. intros Z. apply N. transitivity (s - a + a)%C; [ring|]. rewrite Z. ring.
    + intros [->|H]; [ring|]. rewrite (proj2 IH H). ring.
Qed.

(** ** The constructors on conjugate poles and zeros *)
Definition filter_ok (S : asys Rring) (z p : list C) (k : R) : Prop :=
  siso_filter S (length p) /\ (forall s, eigenvalue S s -> In s p) /\
  forall w, ~ In (0, w) p -> responds S w (RtoC (Rabs k) * cprod (0, w) z / cprod (0, w) p)%C.

Lemma of_zpk_ok argsort z p k : argsort_ok argsort -> conj_set p -> conj_set z -> (length z <= length p)%nat -> p <> [] ->
  exists S, of_zpk argsort (z, p, k) = Ok S /\ filter_ok S z p k.
Proof.
  intros HA HP HZ HL Hne. destruct (zpk_good argsort z p k HA HP HZ HL Hne) as (S & E & HSi & HR & SN & Htf). unfold of_zpk. rewrite E. cbn [bind].
  pose proof HSi as (V & SL & SNt & SM). unfold as_init. cbn [chk_gamma chk_gammat shape0 bind as_column as_row re2 rows cols chk_opt].
  rewrite (v_A _ V). change (rows (aA S)) with (sN S). rewrite Nat.eqb_refl. cbn [negb]. rewrite (v_B _ V), Nat.eqb_refl. cbn [negb]. rewrite (v_CT _ V), Nat.eqb_refl. cbn [negb].
  destruct (v_D _ V) as [VD1 VD2]. rewrite VD1. change (rows (aCT S)) with (sNt S). rewrite Nat.eqb_refl. cbn [negb]. rewrite VD2. change (cols (aB S)) with (sL S). rewrite Nat.eqb_refl. cbn [negb bind].
  eexists. split; [reflexivity|]. match goal with |- filter_ok ?T _ _ _ => set (S' := T) end.
  assert (EA : aA S' = re2 (aA S)) by (unfold S', re2; cbn [aA]; now rewrite (v_A _ V)).
  assert (EB : aB S' = re2 (aB S)) by (unfold S', re2; cbn [aB]; now rewrite (v_B _ V)).
  assert (EC : aCT S' = re2 (aCT S)) by (unfold S', re2; cbn [aCT]; now rewrite (v_CT _ V)).
  assert (ED : aD S' = re2 (aD S)) by (unfold S', re2; cbn [aD]; now rewrite VD1, VD2).
  unfold filter_ok, siso_filter. split; [|split].
  - split; [|split; [exact SN|split; [exact SL|split; [exact SNt|split; reflexivity]]]]. unfold S', sL, sNt, sM, sMt. constructor; cbn; auto; [exact (v_A _ V)|exact (v_B _ V)|exact (v_CT _ V)].
  - intros s Hs. destruct Hs as (x & Hx0 & He). destruct Hx0 as (i & Hi & Hx). apply cprod_in. destruct (Ceq_dec (cprod s p) (RtoC 0)) as [|N]; [assumption|]. exfalso. apply Hx.
    destruct (Htf s) as [I _]. exact (inj_sys S HSi HR S' EA EB s (proj1 (I N)) x He i Hi).
  - intros w Hw. assert (N : cprod (0, w) p <> RtoC 0) by (intros Q; apply Hw; now apply cprod_in). destruct (Htf (0, w)) as [I T]. destruct (I N) as [I1 I2].
    assert (OF : off_poles S' w) by exact (off_sys S HSi HR S' EA EB w I1). split; [exact OF|]. split.
    + exact (ss_sys S HSi HR S' EA EB w I2).
    + exact (out_sys S HSi HR S' EA EB EC ED w _ _ T N).
Qed.

(** the frequency response is what transfer_function_matrix returns *)
Lemma responds_tfm pinv S n w h : siso_filter S n -> responds S w h -> pinv_ok pinv n ->
  exists G, transfer_function_matrix pinv S false [w] = Ok [G] /\ rows G = 1%nat /\ cols G = 1%nat /\ cent G O O = h.
Proof.
  intros (V & SN & SL & SNt & _ & _) (OF & Ex & H) P. rewrite <- SN in P. destruct (tfm_ok pinv S w V P OF) as (G & E & R1 & R2 & _ & HG).
  exists G. unfold transfer_function_matrix. cbn [mapM]. rewrite E. cbn [bind]. split; [reflexivity|]. rewrite R1, R2. split; [exact SNt|]. split; [exact SL|].
  destruct (Ex (fun _ => RtoC 1)) as (x & Hx). specialize (HG _ x Hx O ltac:(lia)). rewrite (H _ x Hx), SL in HG. unfold cap in HG. cbn [csum] in HG.
  transitivity (RtoC 0 + cent G O O * RtoC 1)%C; [ring|]. rewrite HG. ring.
Qed.
