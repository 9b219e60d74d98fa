(** tf2abcd realises its transfer function; transfer functions of chains of single-input single-output systems. *)
From Coq Require Import List Arith Lia Bool.
From Verif Require Import Base LinAlg AnalogSystem AnalogProofs ChainProofs.
Import ListNotations.

Section P.
Context {K : cring}.
Add Ring Kring : (rth K).
Local Notation "0" := (r0 K).
Local Notation "1" := (r1 K).
Local Infix "+" := (radd K).
Local Infix "*" := (rmul K).
Local Notation "- x" := (ropp K x).
Local Infix "-" := (rsub K).

(** *** Specification: value at [s] of the polynomial with the given coefficients, highest power first *)
Definition horner (l : list K) (s : K) : K := fold_left (fun acc c => acc * s + c) l 0.
Fixpoint kpow (s : K) (n : nat) : K := match n with O => 1 | S n => s * kpow s n end.

Lemma horner_snoc l c s : horner (l ++ [c]) s = horner l s * s + c.
Proof. unfold horner. now rewrite fold_left_app. Qed.

Lemma horner_sum l s : horner l s = ksum (length l) (fun i => nth i (rev l) 0 * kpow s i).
Proof.
  induction l as [|c l IH] using rev_ind; [reflexivity|].
  rewrite horner_snoc, IH, app_length, Nat.add_1_r, ksum_S_l, rev_app_distr. cbn [rev app nth kpow].
  rewrite (ksum_ext _ (fun i => nth i (rev l) 0 * (s * kpow s i)) (fun i => s * (nth i (rev l) 0 * kpow s i))) by (intros; ring).
  rewrite ksum_scale. ring.
Qed.

Lemma horner_lead a s : horner (1 :: a) s = ksum (length a) (fun i => nth i (rev a) 0 * kpow s i) + kpow s (length a).
Proof.
  rewrite horner_sum. cbn [length rev ksum]. rewrite app_nth2 by (rewrite rev_length; lia). rewrite rev_length, Nat.sub_diag. cbn [nth].
  rewrite (ksum_ext _ (fun i => nth i (rev a ++ [1]) 0 * kpow s i) (fun i => nth i (rev a) 0 * kpow s i)); [ring|].
  intros i Hi. rewrite app_nth1 by (now rewrite rev_length). reflexivity.
Qed.

(** steady state at complex frequency [s]: [s x = A x + B u], [y = C x + D u] for scalar [u], [y] *)
Definition steady (A B CT D : nd2 K) (s : K) (x : list K) (u y : K) : Prop :=
  (forall i, (i < rows A)%nat -> s * nth i x 0 = lin A x i + ent B i O * u) /\ y = lin CT x O + ent D O O * u.

Lemma pair4_inj {T : Type} (a b c d a' b' c' d' : T) : (a, b, c, d) = (a', b', c', d') -> a = a' /\ b = b' /\ c = c' /\ d = d'.
Proof. intros H. inversion H. auto. Qed.

Lemma tf2abcd_accepts (b a : list K) : (exists r, tf2abcd b a = Ok r) <-> length b = S (length a) /\ a <> [].
Proof.
  unfold tf2abcd. destruct (Nat.eqb_spec (length b) (S (length a))) as [E|E]; cbn [negb].
  - destruct a as [|a0 a]; [split; [intros [r H]; discriminate|intros [_ H]; congruence]|].
    split; [intros _; split; [exact E|discriminate]|intros _; eexists; reflexivity].
  - split; [intros [r H]; discriminate|intros [H _]; contradiction].
Qed.

Lemma tf2abcd_shapes (b a : list K) A B CT D : tf2abcd b a = Ok (A, B, CT, D) ->
  rows A = length a /\ cols A = length a /\ rows B = length a /\ cols B = 1%nat /\ rows CT = 1%nat /\ cols CT = length a /\
  rows D = 1%nat /\ cols D = 1%nat.
Proof.
  unfold tf2abcd. destruct (Nat.eqb_spec (length b) (S (length a))) as [E|E]; cbn [negb]; [|discriminate].
  destruct a as [|a0 a]; [discriminate|]. intros H; apply Ok_inj in H. injection H as <- <- <- <-. cbn. repeat split; reflexivity.
Qed.

Lemma tf2abcd_steady (b a : list K) A B CT D : tf2abcd b a = Ok (A, B, CT, D) ->
  forall s x u y, length x = length a ->
  (steady A B CT D s x u y <->
   exists q, (forall i, (i < length a)%nat -> nth i x 0 = kpow s i * q) /\ u = horner (1 :: a) s * q /\ y = horner b s * q).
Proof.
  unfold tf2abcd. destruct (Nat.eqb_spec (length b) (S (length a))) as [E|E]; cbn [negb]; [|discriminate].
  destruct (list_eq_dec Nat.eq_dec (seq O (length a)) []) as [Ea|Ea].
  { destruct a; [discriminate|]. cbn in Ea. discriminate. }
  assert (Ha : (0 < length a)%nat) by (destruct a; [cbn in Ea; congruence|cbn; lia]).
  destruct a as [|a0 a']; [cbn in Ha; lia|]. set (a := a0 :: a') in *. set (L := length a) in *.
  intros H; apply Ok_inj in H. apply pair4_inj in H as (<- & <- & <- & <-).
  intros s x u y Lx.
  destruct b as [|b0 b1]; [cbn in E; discriminate|]. cbn [nth tl length] in *. injection E as E.
  unfold steady, lin. cbn [rows cols ent].
  assert (HCT : forall g : nat -> K, ksum L (fun k => nth k (rev (map2 (fun bb aa => bb - b0 * aa) b1 a)) 0 * g k) =
     ksum L (fun k => nth k (rev b1) 0 * g k) - b0 * ksum L (fun k => nth k (rev a) 0 * g k)).
  { intros g. rewrite (ksum_ext L _ (fun k => nth k (rev b1) 0 * g k + (- b0) * (nth k (rev a) 0 * g k))).
    - rewrite ksum_add, ksum_scale. ring.
    - intros k Hk. assert (Lm : length (map2 (fun bb aa => bb - b0 * aa) b1 a) = L) by (rewrite map2_length, E; apply Nat.min_id).
      rewrite !rev_nth by lia. rewrite Lm, E. fold L. rewrite (map2_nth _ _ _ _ 0 0) by lia. ring. }
  assert (HB : horner (b0 :: b1) s = ksum L (fun k => nth k (rev b1) 0 * kpow s k) + b0 * kpow s L).
  { rewrite horner_sum. cbn [length rev]. rewrite E. fold L. cbn [ksum]. rewrite app_nth2 by (rewrite rev_length; lia).
    rewrite rev_length, E. fold L. rewrite Nat.sub_diag. cbn [nth].
    rewrite (ksum_ext L _ (fun k => nth k (rev b1) 0 * kpow s k)); [reflexivity|].
    intros i Hi. rewrite app_nth1 by (rewrite rev_length; lia). reflexivity. }
  assert (Hrow : forall i, (S i < L)%nat -> ksum L (fun k => (if Nat.eqb (S i) L then - nth k (rev a) 0 else if Nat.eqb (S i) k then 1 else 0) * nth k x 0) = nth (S i) x 0).
  { intros i Hi. rewrite (ksum_ext L _ (fun k => if Nat.eqb k (S i) then nth k x 0 else 0)); [now rewrite ksum_single|].
    intros k _. destruct (Nat.eqb_spec (S i) L); [lia|]. rewrite (Nat.eqb_sym (S i) k). destruct (Nat.eqb k (S i)); ring. }
  assert (Hlast : ksum L (fun k => (if Nat.eqb (S (L - 1)) L then - nth k (rev a) 0 else if Nat.eqb (S (L - 1)) k then 1 else 0) * nth k x 0) =
     - ksum L (fun k => nth k (rev a) 0 * nth k x 0)).
  { rewrite (ksum_ext L _ (fun k => (- (1)) * (nth k (rev a) 0 * nth k x 0))); [rewrite ksum_scale; ring|].
    intros k _. destruct (Nat.eqb_spec (S (L - 1)) L); [ring|lia]. }
  pose proof (horner_lead a s) as HA. fold L in HA.
  split.
  - intros [Hx Hy]. exists (nth O x 0).
    assert (Hk : forall i, (i < L)%nat -> nth i x 0 = kpow s i * nth O x 0).
    { induction i as [|i IH]; intros Hi; [cbn; ring|]. specialize (Hx i ltac:(lia)). rewrite Hrow in Hx by lia.
      destruct (Nat.eqb_spec (S i) L); [lia|]. cbn [kpow]. rewrite IH in Hx by lia.
      transitivity (nth (S i) x 0 + 0 * u); [ring|]. rewrite <- Hx. ring. }
    assert (Hs : forall c : nat -> K, ksum L (fun k => c k * nth k x 0) = ksum L (fun k => c k * kpow s k) * nth O x 0).
    { intros c. rewrite (ksum_ext L _ (fun k => nth O x 0 * (c k * kpow s k))); [rewrite ksum_scale; ring|].
      intros k Hk'. rewrite Hk by assumption. ring. }
    assert (Hu : u = horner (1 :: a) s * nth O x 0).
    { specialize (Hx (L - 1)%nat ltac:(lia)). rewrite Hlast in Hx. destruct (Nat.eqb_spec (S (L - 1)) L) as [EL|]; [|lia].
      rewrite Hs, Hk in Hx by lia. rewrite HA. replace (kpow s L) with (s * kpow s (L - 1)).
      - transitivity (1 * u); [ring|]. transitivity ((- (ksum L (fun k => nth k (rev a) 0 * kpow s k) * nth O x 0) + 1 * u) + ksum L (fun k => nth k (rev a) 0 * kpow s k) * nth O x 0); [ring|].
        rewrite <- Hx. ring.
      - rewrite <- EL at 2. reflexivity. }
    split; [exact Hk|]. split; [exact Hu|].
    rewrite Hy, HCT, !Hs, HB. rewrite Hu at 1. rewrite HA. ring.
  - intros (q & Hk & Hu & Hy).
    assert (Hs : forall c : nat -> K, ksum L (fun k => c k * nth k x 0) = ksum L (fun k => c k * kpow s k) * q).
    { intros c. rewrite (ksum_ext L _ (fun k => q * (c k * kpow s k))); [rewrite ksum_scale; ring|].
      intros k Hk'. rewrite Hk by assumption. ring. }
    split.
    + intros i Hi. destruct (Nat.eq_dec (S i) L) as [EL|NL].
      * replace i with (L - 1)%nat by lia. rewrite Hlast, Hs, Hk by lia. destruct (Nat.eqb_spec (S (L - 1)) L) as [EL'|]; [|lia].
        rewrite Hu, HA. replace (kpow s L) with (s * kpow s (L - 1)) by (rewrite <- EL' at 2; reflexivity). ring.
      * rewrite Hrow, !Hk by lia. destruct (Nat.eqb_spec (S i) L); [contradiction|]. cbn [kpow]. ring.
    + rewrite Hy, HCT, !Hs, HB, Hu, HA. ring.
Qed.

(** *** Transfer functions of chains *)
(** [s x = A x + B u], [y = C x + D u] in terms of the system's own right hand side (no controls) *)
Definition steady_sys (S : asys K) (s : K) (x u y : list K) : Prop := vscale s x = rhs S x u [] /\ y = out S x u.

(** a one-input one-output system without controls whose steady states satisfy den * y = num * u *)
Definition siso (S : asys K) : Prop := valid S /\ sL S = 1%nat /\ sNt S = 1%nat /\ sM S = O.
Definition has_tf (S : asys K) (s num den : K) : Prop :=
  siso S /\ forall x u y, length x = sN S -> steady_sys S s x [u] [y] -> den * y = num * u.

Lemma one_elem (l : list K) : length l = 1%nat -> l = [nth O l 0].
Proof. destruct l as [|a [|b l]]; cbn; try discriminate. reflexivity. Qed.

Lemma split_lengths (l : list (asys K)) : forall X : list K, length X = total sN l -> exists xs : list (list K), X = concat xs /\ Forall2 (fun S x => length x = sN S) l xs.
Proof.
  induction l as [|S l IH]; intros X HX.
  - exists []. destruct X; [auto|discriminate].
  - rewrite total_cons in HX. destruct (IH (skipn (sN S) X)) as (xs & E & F); [rewrite skipn_length; lia|].
    exists (firstn (sN S) X :: xs). split; [cbn; rewrite <- E; symmetry; apply firstn_skipn|].
    constructor; [rewrite firstn_length; lia|exact F].
Qed.

Fixpoint nodes_of (l : list (asys K)) (xs : list (list K)) : list (asys K * list K * list K) :=
  match l, xs with p :: l, x :: xs => (p, x, []) :: nodes_of l xs | _, _ => [] end.

Lemma nodes_of_sys (l : list (asys K)) (xs : list (list K)) : Forall2 (fun S x => length x = sN S) l xs -> map nsys (nodes_of l xs) = l.
Proof. induction 1; cbn; congruence. Qed.
Lemma nodes_of_st (l : list (asys K)) (xs : list (list K)) : Forall2 (fun S x => length x = sN S) l xs -> map nst (nodes_of l xs) = xs.
Proof. induction 1; cbn; congruence. Qed.
Lemma nodes_of_ct l xs : concat (map nct (nodes_of l xs)) = [].
Proof. revert xs; induction l; intros [|x xs]; cbn; auto. Qed.

Lemma app_inj_len (a b c d : list K) : length a = length c -> a ++ b = c ++ d -> a = c /\ b = d.
Proof.
  revert c; induction a as [|x a IH]; intros [|y c] H E; cbn in *; try discriminate; auto.
  injection E as -> E. destruct (IH c) as [-> ->]; auto.
Qed.

Definition kprod (l : list K) : K := fold_right (rmul K) 1 l.

Lemma series_tf s (l : list (asys K * K * K)) : Forall (fun t => has_tf (fst (fst t)) s (snd (fst t)) (snd t)) l ->
  forall xs u y, let sys := map (fun t => fst (fst t)) l in
  Forall2 (fun S x => length x = sN S) sys xs ->
  vscale s (concat xs) = fst (series (nodes_of sys xs) [u]) -> [y] = snd (series (nodes_of sys xs) [u]) ->
  kprod (map snd l) * y = kprod (map (fun t => snd (fst t)) l) * u.
Proof.
  induction 1 as [|[[S num] den] l [HS Htf] HF IH]; cbn zeta; intros xs u y F2 Hx Hy; cbn [map fst snd] in *.
  - inversion F2; subst. cbn in *. injection Hy as ->. ring.
  - inversion F2 as [|? x ? xs' Lx F2']; subst. cbn [nodes_of series nsys nst nct fst snd concat] in *.
    destruct (HS) as (V & SL & SNt & SM).
    assert (Eo : out S x [u] = [nth O (out S x [u]) 0]) by (apply one_elem; now rewrite out_length). 
    set (w := nth O (out S x [u]) 0) in *. rewrite Eo in Hx, Hy.
    specialize (IH xs' w y F2').
    destruct (series (nodes_of (map (fun t => fst (fst t)) l) xs') [w]) as [ds y'] eqn:ES. cbn [fst snd] in *.
    unfold vscale in Hx. rewrite map_app in Hx. apply app_inj_len in Hx; [|rewrite map_length, rhs_length; exact Lx].
    destruct Hx as [Hx1 Hx2]. specialize (IH Hx2 Hy). specialize (Htf x u w Lx). cbn [kprod fold_right].
    assert (T : den * w = num * u) by (apply Htf; split; [exact Hx1|now rewrite Eo]).
    transitivity (den * (kprod (map snd l) * y)); [unfold kprod; ring|]. rewrite IH. 
    transitivity (kprod (map (fun t => snd (fst t)) l) * (den * w)); [unfold kprod; ring|]. rewrite T. unfold kprod. ring.
Qed.

Lemma compatible_siso l : Forall siso l -> compatible 1 l.
Proof. induction 1 as [|S l (V & SL & SNt & SM) _ IH]; cbn; [exact Logic.I|]. split; [exact SL|now rewrite SNt]. Qed.

Lemma total_M0 l : Forall siso l -> total sM l = O.
Proof. induction 1 as [|S l (V & SL & SNt & SM) _ IH]; [reflexivity|]. now rewrite total_cons, SM, IH. Qed.

Lemma nodes_of_sized (l : list (asys K)) (xs : list (list K)) : Forall siso l -> Forall2 (fun S x => length x = sN S) l xs -> Forall sized (nodes_of l xs).
Proof.
  intros HF H. revert HF. induction H as [|S x l xs H H2 IH]; intros HF; cbn; constructor; inversion HF as [|? ? (V & SL & SNt & SM) HF']; subst.
  - split; [exact V|]. split; [exact H|]. cbn. now rewrite SM.
  - now apply IH.
Qed.

Lemma chain_siso_spec (l : list (asys K)) : l <> [] -> Forall siso l ->
  forall xs u, Forall2 (fun S x => length x = sN S) l xs ->
    exists S, chain l = Ok S /\ siso S /\ sN S = total sN l /\ rhs S (concat xs) [u] [] = fst (series (nodes_of l xs) [u]) /\
      out S (concat xs) [u] = snd (series (nodes_of l xs) [u]).
Proof.
  intros Hne HF.
    intros xs u F2. pose proof (nodes_of_sys _ _ F2) as E1. pose proof (nodes_of_st _ _ F2) as E2.
    pose proof (nodes_of_ct l xs) as E3. pose proof (nodes_of_sized _ _ HF F2) as HS.
    destruct (nodes_of l xs) as [|p r] eqn:EN; [destruct l; [congruence|discriminate]|].
    assert (Hp : siso (nsys p)). { rewrite Forall_forall in HF. apply HF. rewrite <- E1. now left. }
    destruct Hp as (Vp & SLp & SNtp & SMp).
    destruct (chain_series p r [u] HS) as (S & EC & V & G1 & G2 & SN & SM & SMt & SL & Hr & Ho & _).
    { rewrite SNtp, E1. now apply compatible_siso. }
    { now rewrite SLp. }
    assert (HF' : Forall (fun p => siso (nsys p)) (p :: r)).
    { apply Forall_forall. intros q Hq. rewrite Forall_forall in HF. apply HF. rewrite <- E1. now apply in_map. }
    rewrite E1 in EC, SN, SM. rewrite E2, E3 in Hr. rewrite E2 in Ho. exists S. split; [exact EC|].
    assert (sNt S = 1%nat).
    { rewrite <- (out_length S (concat xs) [u]), Ho.
      assert (G : forall (q : list (asys K * list K * list K)), Forall (fun p => siso (nsys p)) q -> forall v, length v = 1%nat -> length (snd (series q v)) = 1%nat).
      { induction 1 as [|[[S' x] c] q (V' & SL' & SNt' & _) _ IH]; intros v Hv; [exact Hv|]. cbn [series nsys nst nct fst snd].
        specialize (IH (out S' x v)). rewrite out_length in IH. specialize (IH SNt').
        destruct (series q (out S' x v)). exact IH. }
      apply G; [exact HF'|reflexivity]. }
    split; [|split; [exact SN|split; [exact Hr|exact Ho]]].
    split; [exact V|]. split; [congruence|]. split; [assumption|]. rewrite SM. now apply total_M0. 
Qed.

Lemma chain_siso (l : list (asys K)) : l <> [] -> Forall siso l ->
  exists S, chain l = Ok S /\ siso S /\ sN S = total sN l /\
    forall s (t : list (K * K)), length t = length l ->
      (forall i S', nth_error l i = Some S' -> has_tf S' s (fst (nth i t (0, 0))) (snd (nth i t (0, 0)))) ->
      has_tf S s (kprod (map fst t)) (kprod (map snd t)).
Proof.
  intros Hne HF. pose proof (chain_siso_spec l Hne HF) as Hspec.
  destruct (split_lengths l (repeat 0 (total sN l)) (repeat_length _ _)) as (xs0 & _ & F0).
  destruct (Hspec xs0 0 F0) as (S & EC & HSi & SN & _). exists S. split; [exact EC|]. split; [exact HSi|]. split; [exact SN|].
  intros s t Lt Ht. split; [exact HSi|]. intros x u y Lx [H1 H2].
  destruct (split_lengths l x) as (xs & -> & F2); [congruence|].
  destruct (Hspec xs u F2) as (S' & EC' & _ & _ & Hr & Ho). rewrite EC in EC'. apply Ok_inj in EC'. subst S'.
  set (tr := map (fun p => (fst p, fst (snd p), snd (snd p))) (combine l t)).
  assert (T1 : map (fun t => fst (fst t)) tr = l).
  { unfold tr. rewrite map_map. cbn. revert Lt. clear. revert t. induction l as [|a l IH]; intros [|b t] H; cbn in *; try discriminate; auto. f_equal. apply IH. lia. }
  assert (T2 : map snd tr = map snd t).
  { unfold tr. rewrite map_map. cbn. revert Lt. clear. revert t. induction l as [|a l IH]; intros [|b t] H; cbn in *; try discriminate; auto. f_equal. apply IH. lia. }
  assert (T3 : map (fun t => snd (fst t)) tr = map fst t).
  { unfold tr. rewrite map_map. cbn. revert Lt. clear. revert t. induction l as [|a l IH]; intros [|b t] H; cbn in *; try discriminate; auto. f_equal. apply IH. lia. }
  assert (T4 : Forall (fun t => has_tf (fst (fst t)) s (snd (fst t)) (snd t)) tr).
  { unfold tr. apply Forall_map. cbn. clear - Lt Ht. revert t Lt Ht. induction l as [|a l IH]; intros [|b t] H Ht; cbn in *; try discriminate; constructor.
    - exact (Ht O a eq_refl).
    - apply IH; [lia|]. intros i S' E. exact (Ht (Datatypes.S i) S' E). }
  rewrite <- T2, <- T3. eapply (series_tf s tr T4 xs u y); rewrite ?T1.
  - exact F2.
  - rewrite H1. exact Hr.
  - rewrite H2. exact Ho.
Qed.

(** every input has a steady state *)
Definition has_ss (S : asys K) (s : K) : Prop := forall u, exists x y, length x = sN S /\ steady_sys S s x [u] [y].

Lemma series_ss s (l : list (asys K)) : Forall siso l -> Forall (fun S => has_ss S s) l ->
  forall u, exists xs y, Forall2 (fun S x => length x = sN S) l xs /\
    vscale s (concat xs) = fst (series (nodes_of l xs) [u]) /\ [y] = snd (series (nodes_of l xs) [u]).
Proof.
  intros HF. induction HF as [|S l (V & SL & SNt & SM) HF IH]; intros H u.
  - exists [], u. split; [constructor|]. split; reflexivity.
  - inversion H as [|? ? HS Hl]; subst. destruct (HS u) as (x & w & Lx & Hx & Hw). destruct (IH Hl w) as (xs & y & F2 & H1 & H2).
    exists (x :: xs), y. split; [now constructor|]. cbn [nodes_of series nsys nst nct fst snd concat].
    rewrite <- Hw. destruct (series (nodes_of l xs) [w]) as [ds y'] eqn:E. cbn [fst snd] in *. split; [|exact H2].
    unfold vscale in *. rewrite map_app. now rewrite Hx, H1.
Qed.

Lemma chain_ss s (l : list (asys K)) : l <> [] -> Forall siso l -> Forall (fun S => has_ss S s) l -> exists S, chain l = Ok S /\ has_ss S s.
Proof.
  intros Hne HF HS. destruct (chain_siso l Hne HF) as (S & EC & HSi & SN & _). exists S. split; [exact EC|].
  intros u. destruct (series_ss s l HF HS u) as (xs & y & F2 & H1 & H2). exists (concat xs), y.
  destruct (chain_siso_spec l Hne HF xs u F2) as (S' & EC' & _ & _ & Hr & Ho). rewrite EC in EC'. apply Ok_inj in EC'. subst S'.
  split.
  - rewrite SN. clear -F2. induction F2 as [|S x l xs H _ IH]; [reflexivity|]. cbn [concat]. now rewrite app_length, total_cons, H, IH.
  - split; [now rewrite Hr|now rewrite Ho].
Qed.

End P.
