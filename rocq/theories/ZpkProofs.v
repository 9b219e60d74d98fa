(** zpk2abcd and sos2abcd realise their transfer functions. *)
From Coq Require Import List Arith Lia Bool Reals Lra Permutation.
From Coquelicot Require Import Complex.
From Flocq Require Import Core.
From Verif Require Import Base LinAlg AnalogSystem AnalogProofs ChainProofs TfProofs Zpk.
Import ListNotations.

Section Generic.
Context {K : cring}.
Add Ring Kring : (rth K).
Local Notation "0" := (r0 K).
Local Infix "+" := (radd K).
Local Infix "*" := (rmul K).
Local Infix "-" := (rsub K).

Lemma two_state_tf (S : asys K) s a00 a01 a10 a11 b0 b1 c1 c2 d :
  siso S -> sN S = 2%nat ->
  ent (aA S) 0 0 = a00 -> ent (aA S) 0 1 = a01 -> ent (aA S) 1 0 = a10 -> ent (aA S) 1 1 = a11 ->
  ent (aB S) 0 0 = b0 -> ent (aB S) 1 0 = b1 -> ent (aCT S) 0 0 = c1 -> ent (aCT S) 0 1 = c2 -> ent (aD S) 0 0 = d ->
  let den := (s - a00) * (s - a11) - a01 * a10 in
  has_tf S s (c1 * ((s - a11) * b0 + a01 * b1) + c2 * (a10 * b0 + (s - a00) * b1) + d * den) den.
Proof.
  intros HS HN E1 E2 E3 E4 E5 E6 E7 E8 E9 den. split; [exact HS|].
  destruct HS as (V & SL & SNt & SM). intros x u y Lx [H1 H2]. rewrite HN in Lx.
  destruct x as [|x0 [|x1 [|]]]; try discriminate Lx.
  unfold rhs in H1. unfold out in H2. rewrite HN in H1. rewrite SNt in H2. cbn [seq map vscale] in H1, H2.
  injection H1 as H1 H1'. injection H2 as H2.
  assert (HG : forall i, lino (aG S) [] i = 0).
  { intros i. unfold sM in SM. destruct (aG S) as [g|]; [|reflexivity]. cbn. unfold lin. now rewrite SM. }
  rewrite HG in H1, H1'. unfold lin in H1, H1', H2.
  assert (C1 : cols (aA S) = 2%nat) by (rewrite (v_A _ V); exact HN).
  assert (C2 : cols (aCT S) = 2%nat) by (rewrite (v_CT _ V); exact HN).
  assert (C3 : cols (aD S) = 1%nat) by (destruct (v_D _ V) as [_ Q]; rewrite Q; exact SL).
  unfold sL in SL. rewrite C1, SL in H1, H1'. rewrite C2, C3 in H2. cbn [ksum nth] in H1, H1', H2.
  rewrite E1, E2, E5 in H1. rewrite E3, E4, E6 in H1'. rewrite E7, E8, E9 in H2. subst y.
  set (l1 := s * x0) in *. set (l2 := s * x1) in *.
  assert (Z1 : (s - a00) * x0 - a01 * x1 - b0 * u = 0).
  { transitivity (l1 - a00 * x0 - a01 * x1 - b0 * u); [unfold l1; ring|]. rewrite H1. ring. }
  assert (Z2 : (s - a11) * x1 - a10 * x0 - b1 * u = 0).
  { transitivity (l2 - a11 * x1 - a10 * x0 - b1 * u); [unfold l2; ring|]. rewrite H1'. ring. }
  transitivity ((c1 * ((s - a11) * b0 + a01 * b1) + c2 * (a10 * b0 + (s - a00) * b1) + d * den) * u
     + (c1 * (s - a11) + c2 * a10) * ((s - a00) * x0 - a01 * x1 - b0 * u)
     + (c1 * a01 + c2 * (s - a00)) * ((s - a11) * x1 - a10 * x0 - b1 * u)); [unfold den; ring|].
  rewrite Z1, Z2. ring.
Qed.

Lemma one_state_tf (S : asys K) s a b c d :
  siso S -> sN S = 1%nat -> ent (aA S) 0 0 = a -> ent (aB S) 0 0 = b -> ent (aCT S) 0 0 = c -> ent (aD S) 0 0 = d ->
  has_tf S s (b * c + d * (s - a)) (s - a).
Proof.
  intros HS HN E1 E2 E3 E4. split; [exact HS|].
  destruct HS as (V & SL & SNt & SM). intros x u y Lx [H1 H2]. rewrite HN in Lx.
  destruct x as [|x0 [|]]; try discriminate Lx.
  unfold rhs in H1. unfold out in H2. rewrite HN in H1. rewrite SNt in H2. cbn [seq map vscale] in H1, H2.
  injection H1 as H1. injection H2 as H2.
  assert (HG : forall i, lino (aG S) [] i = 0).
  { intros i. unfold sM in SM. destruct (aG S) as [g|]; [|reflexivity]. cbn. unfold lin. now rewrite SM. }
  rewrite HG in H1. unfold lin in H1, H2.
  assert (C1 : cols (aA S) = 1%nat) by (rewrite (v_A _ V); exact HN).
  assert (C2 : cols (aCT S) = 1%nat) by (rewrite (v_CT _ V); exact HN).
  assert (C3 : cols (aD S) = 1%nat) by (destruct (v_D _ V) as [_ Q]; rewrite Q; exact SL).
  unfold sL in SL. rewrite C1, SL in H1. rewrite C2, C3 in H2. cbn [ksum nth] in H1, H2.
  rewrite E1, E2 in H1. rewrite E3, E4 in H2. subst y. set (l1 := s * x0) in *.
  assert (Z1 : (s - a) * x0 - b * u = 0).
  { transitivity (l1 - a * x0 - b * u); [unfold l1; ring|]. rewrite H1. ring. }
  transitivity ((b * c + d * (s - a)) * u + c * ((s - a) * x0 - b * u)); [ring|]. rewrite Z1. ring.
Qed.

Lemma has_tf_eq (S : asys K) s n d n' d' : has_tf S s n d -> n = n' -> d = d' -> has_tf S s n' d'.
Proof. now intros H -> ->. Qed.

(** scaling numerator and denominator together *)
Lemma has_tf_scale (S : asys K) s n d a : has_tf S s n d -> has_tf S s (a * n) (a * d).
Proof.
  intros [HS H]. split; [exact HS|]. intros x u y Lx Hs. transitivity (a * (d * y)); [ring|]. rewrite (H x u y Lx Hs). ring.
Qed.

Lemma chain_steady (S : asys K) s x u y : siso S -> length x = sN S ->
  steady (aA S) (aB S) (aCT S) (aD S) s x u y -> steady_sys S s x [u] [y].
Proof.
  intros (V & SL & SNt & SM) Lx [H1 H2].
  assert (HG : forall i, lino (aG S) [] i = 0).
  { intros i. unfold sM in SM. destruct (aG S) as [g|]; [|reflexivity]. cbn. unfold lin. now rewrite SM. }
  assert (HB : forall i, lin (aB S) [u] i = ent (aB S) i O * u).
  { intros i. unfold lin. unfold sL in SL. rewrite SL. cbn. ring. }
  assert (HD : forall i, lin (aD S) [u] i = ent (aD S) i O * u).
  { intros i. unfold lin. destruct (v_D _ V) as [_ Q]. rewrite Q, SL. cbn. ring. }
  split.
  - apply (list_ext _ _ 0); [now rewrite vscale_length, rhs_length|]. rewrite vscale_length, Lx. intros i Hi. unfold rhs. rewrite nth_map_seq by assumption.
    rewrite HB, HG. specialize (H1 i Hi). transitivity (s * nth i x 0).
    + unfold vscale. rewrite (nth_indep _ 0 (s * 0)) by (rewrite map_length; lia). now rewrite (map_nth (rmul K s)).
    + rewrite H1. ring.
  - unfold out. rewrite SNt. cbn [seq map]. now rewrite HD, H2.
Qed.
End Generic.

Open Scope R_scope.

Lemma pair3_inj {T : Type} (a b c a' b' c' : T) : (a, b, c) = (a', b', c') -> a = a' /\ b = b' /\ c = c'.
Proof. intros H. inversion H. auto. Qed.

(** *** Specification *)
Definition cprod (s : C) (l : list C) : C := fold_right (fun r acc => (s - r) * acc)%C (RtoC 1) l.

Definition argsort_ok (argsort : list R -> list nat) : Prop := forall keys,
  Permutation (argsort keys) (seq 0 (length keys)) /\
  forall i j, (i < j < length keys)%nat -> nth (nth i (argsort keys) 0%nat) keys 0 <= nth (nth j (argsort keys) 0%nat) keys 0.

(** the tolerance of [np.allclose] never mistakes two of the numbers for conjugates *)
Definition separated (l : list C) : Prop := forall a b, In a l -> In b l -> allclose_c a (Cconj b) = true -> a = Cconj b.
(** nor a complex number for a real one *)
Definition no_tiny_imag (l : list C) : Prop := forall a, In a l -> snd a = 0 \/ / 100000000 < Rabs (snd a).

Lemma is_cplx_false z : is_cplx z = false -> snd z = 0.
Proof. unfold is_cplx. destruct (Req_bool_spec (snd z) 0); cbn; [auto|discriminate]. Qed.
Lemma is_cplx_true z : is_cplx z = true -> snd z <> 0.
Proof. unfold is_cplx. destruct (Req_bool_spec (snd z) 0); cbn; [discriminate|auto]. Qed.

Definition desc (l : list C) : Prop := forall i j, (i < j < length l)%nat -> Rabs (snd (nth j l (RtoC 0))) <= Rabs (snd (nth i l (RtoC 0))).

Lemma desc_split l : desc l -> l = filter is_cplx l ++ filter (fun z => negb (is_cplx z)) l.
Proof.
  induction l as [|a l IH]; intros H; [reflexivity|].
  assert (Hl : desc l). { intros i j Hij. apply (H (S i) (S j)). cbn. lia. }
  cbn [filter]. destruct (is_cplx a) eqn:E; cbn [negb app]; [f_equal; now apply IH|].
  assert (R0 : forall b, In b l -> is_cplx b = false).
  { intros b Hb. apply (In_nth _ _ (RtoC 0)) in Hb as (j & Hj & <-). specialize (H O (S j)). cbn in H. specialize (H ltac:(lia)).
    rewrite (is_cplx_false a E), Rabs_R0 in H. unfold is_cplx. destruct (Req_bool_spec (snd (nth j l (RtoC 0))) 0) as [Q|Q]; [reflexivity|].
    exfalso. apply Q. pose proof (Rabs_pos (snd (nth j l (RtoC 0)))). apply Rabs_eq_R0. lra. }
  assert (F1 : filter is_cplx l = []).
  { clear -R0. induction l as [|b l IH]; [reflexivity|]. cbn. rewrite (R0 b) by now left. apply IH. intros c Hc. apply R0. now right. }
  assert (F2 : filter (fun z => negb (is_cplx z)) l = l).
  { clear -R0. induction l as [|b l IH]; [reflexivity|]. cbn. rewrite (R0 b) by now left. cbn. f_equal. apply IH. intros c Hc. apply R0. now right. }
  now rewrite F1, F2.
Qed.

Lemma firstn_filter l : desc l -> firstn (length (filter is_cplx l)) l ++ filter (fun z => negb (is_cplx z)) l = l.
Proof.
  intros H. pose proof (desc_split l H) as E. rewrite E at 2. rewrite firstn_app, firstn_all2, Nat.sub_diag by lia. cbn. rewrite app_nil_r. now symmetry.
Qed.

(** two neighbours at an even position that are both complex are exact conjugates *)
Fixpoint zok (l : list C) : Prop :=
  match l with a :: b :: r => (snd a <> 0 -> snd b <> 0 -> a = Cconj b) /\ zok r | _ => True end.

Lemma list_ind2 {A} (P : list A -> Prop) : P [] -> (forall a, P [a]) -> (forall a b l, P l -> P (a :: b :: l)) -> forall l, P l.
Proof.
  intros H0 H1 H2. assert (G : forall l, P l /\ forall a, P (a :: l)).
  { induction l as [|x l [IH1 IH2]]; [split; [exact H0|exact H1]|]. split; [apply IH2|]. intros a. now apply H2. }
  intros l. apply G.
Qed.

Lemma zok_real l : (forall b, In b l -> snd b = 0) -> zok l.
Proof.
  induction l as [| |a b l IH] using list_ind2; intros H; cbn; auto. split.
  - intros Ha. exfalso. apply Ha. apply H. now left.
  - apply IH. intros c Hc. apply H. right. now right.
Qed.

Lemma zok_app cs rs : conj_pairs cs = true -> separated (cs ++ rs) -> (forall b, In b rs -> snd b = 0) -> zok (cs ++ rs).
Proof.
  induction cs as [|a|a b cs IH] using list_ind2; intros HP HS HR.
  - now apply zok_real.
  - cbn. destruct rs as [|r rs]; [exact Logic.I|]. split.
    + intros _ Hr. exfalso. apply Hr. apply HR. now left.
    + apply zok_real. intros c Hc. apply HR. now right.
  - cbn in HP |- *. destruct (allclose_c a (Cconj b)) eqn:E; cbn in HP; [|discriminate]. split.
    + intros _ _. apply HS; [now left|right; now left|exact E].
    + apply IH; [exact HP| |exact HR]. intros x y Hx Hy. apply HS; right; now right.
Qed.

Lemma sort_cplx_ok argsort l l' : argsort_ok argsort -> separated l -> sort_cplx argsort l = Ok l' -> Permutation l l' /\ zok l'.
Proof.
  intros HA HSep. unfold sort_cplx. set (keys := map (fun z => Rabs (snd z)) l). set (idx := argsort keys).
  destruct (HA keys) as [HP Hs]. fold idx in HP, Hs. assert (Lk : length keys = length l) by apply map_length. rewrite Lk in *.
  assert (Li : length idx = length l) by (rewrite (Permutation_length HP); apply seq_length).
  set (l1 := map (fun i => nth i l (RtoC 0)) (rev idx)).
  assert (P1 : Permutation l l1).
  { unfold l1. rewrite <- (map_nth_seq l (RtoC 0)) at 1. apply Permutation_map. rewrite <- Permutation_rev. now symmetry. }
  assert (D1 : desc l1).
  { assert (L1 : length l1 = length l) by (unfold l1; rewrite map_length, rev_length; exact Li).
    assert (Hn : forall i, (i < length l)%nat -> Rabs (snd (nth i l1 (RtoC 0))) = nth (nth (length l - S i) idx O) keys 0).
    { intros i Hi. unfold l1. rewrite (nth_indep _ _ (nth O l (RtoC 0))) by (rewrite map_length, rev_length; lia).
      rewrite (map_nth (fun i => nth i l (RtoC 0))). rewrite rev_nth by lia. rewrite Li.
      set (q := nth (length l - S i) idx 0%nat). assert (Hq : (q < length l)%nat).
      { assert (In q idx) by (apply nth_In; lia). apply (Permutation_in _ HP) in H. apply in_seq in H. lia. }
      unfold keys. rewrite (nth_indep _ 0 (Rabs (snd (RtoC 0)))) by (now rewrite map_length).
      now rewrite (map_nth (fun z => Rabs (snd z))). }
    intros i j Hij. rewrite L1 in Hij. rewrite !Hn by lia. apply Hs. lia. }
  destruct (conj_pairs (filter is_cplx l1)) eqn:EC; cbn [negb]; [|discriminate].
  rewrite (firstn_filter l1 D1). intros H; apply Ok_inj in H. subst l'. split; [exact P1|].
  rewrite (desc_split l1 D1). apply zok_app; [exact EC| |].
  - rewrite <- (desc_split l1 D1). intros a b Ha Hb. apply HSep; apply (Permutation_in _ (Permutation_sym P1)); assumption.
  - intros b Hb. apply filter_In in Hb as [_ Hb]. apply negb_true_iff in Hb. now apply is_cplx_false.
Qed.

Lemma cprod_perm s l l' : Permutation l l' -> cprod s l = cprod s l'.
Proof.
  unfold cprod. induction 1 as [|x l l' _ IH|x y l|l1 l2 l3 _ IH1 _ IH2]; cbn [fold_right].
  - reflexivity.
  - now rewrite IH.
  - ring.
  - congruence.
Qed.

Lemma real_C z : snd z = 0 -> RtoC (fst z) = z.
Proof. destruct z as [a b]; cbn; now intros ->. Qed.

Lemma two_pole_den p1 p2 a00 a01 a10 a11 (s : C) :
  (allclose_c p1 (Cconj p2) = true -> p1 = Cconj p2) -> two_pole p1 p2 = Ok (a00, a01, a10, a11) ->
  ((s - a00) * (s - a11) - a01 * a10 = (s - p1) * (s - p2))%C.
Proof.
  intros HS. unfold two_pole. destruct (allclose_c p1 (Cconj p2)) eqn:E.
  - specialize (HS eq_refl). intros H; apply Ok_inj in H. injection H as <- <- <- <-. subst p1. destruct p2 as [a b], s as [sr si].
    cbn. apply injective_projections; cbn; ring.
  - destruct (is_cplx p1) eqn:E1; [discriminate|]. destruct (is_cplx p2) eqn:E2; [discriminate|]. cbn [orb].
    intros H; apply Ok_inj in H. injection H as <- <- <- <-. rewrite (real_C p1), (real_C p2) by (now apply is_cplx_false). ring.
Qed.

Lemma two_pole_real p1 p2 a00 a01 a10 a11 : two_pole p1 p2 = Ok (a00, a01, a10, a11) ->
  snd a00 = 0 /\ snd a01 = 0 /\ snd a10 = 0 /\ snd a11 = 0.
Proof.
  unfold two_pole. destruct (allclose_c p1 (Cconj p2)).
  - intros H; apply Ok_inj in H. injection H as <- <- <- <-. cbn. auto.
  - destruct (is_cplx p1 || is_cplx p2); [discriminate|]. intros H; apply Ok_inj in H. injection H as <- <- <- <-. cbn. auto.
Qed.

(** numerator of a two-pole stage *)
Lemma two_pole_num k a00 a01 a10 a11 z c1 c2 d (s : C) :
  snd a00 = 0 -> snd a01 = 0 -> snd a10 = 0 -> snd a11 = 0 -> zok z -> no_tiny_imag z ->
  two_pole_out k a00 a01 a10 a11 z = Ok (c1, c2, d) ->
  (RtoC (k * k) * (c1 * (s - a11) + c2 * a10) + d * ((s - a00) * (s - a11) - a01 * a10) =
   RtoC (k * k) * cprod s (firstn 2 z))%C.
Proof.
  intros R1 R2 R3 R4 HZ HT.
  assert (Ha : Req_bool (fst a10) 0 = false -> a10 <> RtoC 0).
  { destruct (Req_bool_spec (fst a10) 0) as [|Q]; [discriminate|]. intros _ Hc. apply Q. now rewrite Hc. }
  destruct z as [|z1 [|z2 z]]; cbn [two_pole_out].
  - unfold np_div. destruct (Req_bool (fst a10) 0) eqn:E; cbn [bind]; [discriminate|]. specialize (Ha eq_refl).
    intros H; apply Ok_inj in H. apply pair3_inj in H as (<- & <- & <-). cbn [firstn cprod fold_right]. field. exact Ha.
  - destruct (is_cplx z1) eqn:E1; [discriminate|]. unfold np_div. destruct (Req_bool (fst a10) 0) eqn:E; cbn [bind]; [discriminate|]. specialize (Ha eq_refl).
    intros H; apply Ok_inj in H. apply pair3_inj in H as (<- & <- & <-). rewrite (real_C z1) by (now apply is_cplx_false). cbn [firstn cprod fold_right]. field. exact Ha.
  - set (y0 := (z1 + z2 - a00 - a11)%C). set (y1 := (z1 * z2 - a00 * a11 + a01 * a10)%C).
    destruct (imag_small y0) eqn:I0; [|discriminate]. destruct (imag_small y1) eqn:I1; [|discriminate]. cbn [andb negb].
    destruct (Req_bool (fst a10) 0) eqn:E; [discriminate|]. specialize (Ha eq_refl).
    intros H; apply Ok_inj in H. apply pair3_inj in H as (<- & <- & <-).
    assert (Hre : snd z1 = 0 /\ snd z2 = 0 \/ z1 = Cconj z2).
    { destruct (Req_dec (snd z1) 0) as [Q1|Q1], (Req_dec (snd z2) 0) as [Q2|Q2]; auto.
      - exfalso. destruct (HT z2) as [T|T]; [right; now left|contradiction|]. unfold imag_small in I0.
        destruct (Rle_bool_spec (Rabs (snd y0)) (/ 100000000)) as [L|]; [|discriminate]. unfold y0 in L. cbn in L. rewrite Q1, R1, R4 in L.
        replace (0 + snd z2 + - 0 + - 0) with (snd z2) in L by ring. lra.
      - exfalso. destruct (HT z1) as [T|T]; [now left|contradiction|]. unfold imag_small in I0.
        destruct (Rle_bool_spec (Rabs (snd y0)) (/ 100000000)) as [L|]; [|discriminate]. unfold y0 in L. cbn in L. rewrite Q2, R1, R4 in L.
        replace (snd z1 + 0 + - 0 + - 0) with (snd z1) in L by ring. lra.
      - right. destruct HZ as [HZ _]. now apply HZ. }
    assert (Y0 : RtoC (fst y0) = y0).
    { apply real_C. unfold y0. cbn. rewrite R1, R4. destruct Hre as [[-> ->]| ->]; cbn; ring. }
    assert (Y1 : RtoC (fst y1) = y1).
    { apply real_C. unfold y1. cbn. rewrite R1, R2, R3, R4. destruct Hre as [[-> ->]| ->]; cbn; ring. }
    rewrite Y0, Y1. cbn [firstn cprod fold_right]. unfold y0, y1. field. exact Ha.
Qed.

Lemma stages_tf k : forall p z l, zpk_stages k p z = Ok l -> separated p -> zok z -> no_tiny_imag z -> (length z <= length p)%nat ->
  Forall siso l /\ total sN l = length p /\ (p <> [] -> l <> []) /\
  forall s : C, exists t : list (Cring * Cring), length t = length l /\
    (forall i S', nth_error l i = Some S' -> has_tf S' (s : Cring) (fst (nth i t (RtoC 0 : Cring, RtoC 0 : Cring))) (snd (nth i t (RtoC 0 : Cring, RtoC 0 : Cring)))) /\
    @kprod Cring (map fst t) = (RtoC (k ^ length p) * cprod s z)%C /\ @kprod Cring (map snd t) = cprod s p.
Proof.
  intros p. induction p as [|p1|p1 p2 p IH] using list_ind2; intros z l H HS HZ HT HL.
  - cbn in H. apply Ok_inj in H. subst l. destruct z; [|cbn in HL; lia]. split; [constructor|]. split; [reflexivity|]. split; [congruence|].
    intros s. exists []. split; [reflexivity|]. split; [|split; [|reflexivity]].
    + intros [|i] S' E; discriminate E.
    + change (RtoC 1 = (RtoC 1 * RtoC 1)%C). ring.
  - cbn [zpk_stages] in H. destruct (is_cplx p1) eqn:E1; [discriminate|]. apply is_cplx_false in E1.
    destruct z as [|z1 [|z2 z]]; [| |cbn in HL; lia]; cbn [bind] in H.
    + apply Ok_inj in H. subst l. split; [|split; [reflexivity|split; [discriminate|]]].
      { constructor; [|constructor]. split; [constructor; cbn; auto|]. auto. }
      intros s. exists [((RtoC k * RtoC 1 + RtoC 0 * (s - RtoC (fst p1)))%C : Cring, (s - RtoC (fst p1))%C : Cring)].
      split; [reflexivity|]. split; [|split].
      * intros [|[|i]] S' E; try discriminate. cbn in E. injection E as <-. cbn [nth fst snd].
        apply (one_state_tf (K := Cring) _ (s : Cring) (RtoC (fst p1) : Cring) (RtoC k : Cring) (RtoC 1 : Cring) (RtoC 0 : Cring)); [split; [constructor; cbn; auto|auto]|reflexivity..].
      * cbn [map fst kprod fold_right length pow cprod]. change (((RtoC k * RtoC 1 + RtoC 0 * (s - RtoC (fst p1))) * RtoC 1 = RtoC (k * 1) * RtoC 1)%C).
        rewrite RtoC_mult. ring.
      * cbn [map snd kprod fold_right cprod]. rewrite (real_C p1 E1). reflexivity.
    + destruct (is_cplx z1) eqn:Ez; [discriminate|]. apply is_cplx_false in Ez. cbn [bind] in H.
      apply Ok_inj in H. subst l. split; [|split; [reflexivity|split; [discriminate|]]].
      { constructor; [|constructor]. split; [constructor; cbn; auto|]. auto. }
      intros s. exists [((RtoC k * RtoC (fst p1 - fst z1) + RtoC k * (s - RtoC (fst p1)))%C : Cring, (s - RtoC (fst p1))%C : Cring)].
      split; [reflexivity|]. split; [|split].
      * intros [|[|i]] S' E; try discriminate. cbn in E. injection E as <-. cbn [nth fst snd].
        apply (one_state_tf (K := Cring) _ (s : Cring) (RtoC (fst p1) : Cring) (RtoC k : Cring) (RtoC (fst p1 - fst z1) : Cring) (RtoC k : Cring)); [split; [constructor; cbn; auto|auto]|reflexivity..].
      * cbn [map fst kprod fold_right length pow cprod].
        change (((RtoC k * RtoC (fst p1 - fst z1) + RtoC k * (s - RtoC (fst p1))) * RtoC 1 = RtoC (k * 1) * ((s - z1) * RtoC 1))%C).
        rewrite RtoC_mult, RtoC_minus, (real_C z1 Ez). ring.
      * cbn [map snd kprod fold_right cprod]. rewrite (real_C p1 E1). reflexivity.
  - cbn [zpk_stages] in H. apply bind_ok in H as ([[[a00 a01] a10] a11] & HP & H). apply bind_ok in H as ([[c1 c2] d] & HO & H).
    apply bind_ok in H as (S & ES & H). apply bind_ok in H as (r & Hr & H). apply Ok_inj in H. subst l.
    assert (HZ' : zok (tl (tl z))) by (destruct z as [|? [|? ?]]; cbn in *; tauto).
    assert (HT' : no_tiny_imag (tl (tl z))).
    { intros a Ha. apply HT. destruct z as [|? [|? ?]]; cbn in *; tauto. }
    assert (HS' : separated p) by (intros a b Ha Hb; apply HS; right; now right).
    assert (HL' : (length (tl (tl z)) <= length p)%nat) by (destruct z as [|? [|? ?]]; cbn in *; lia).
    destruct (IH _ _ Hr HS' HZ' HT' HL') as (F & T & Ne & Htf).
    assert (HSi : siso S /\ sN S = 2%nat).
    { cbn in ES. apply Ok_inj in ES. subst S. split; [|reflexivity]. split; [constructor; cbn; auto|auto]. }
    destruct HSi as [HSi HN]. split; [now constructor|]. split; [rewrite total_cons, HN, T; reflexivity|]. split; [discriminate|].
    intros s. destruct (Htf s) as (t & Lt & Ht & K1 & K2).
    destruct (two_pole_real _ _ _ _ _ _ HP) as (R1 & R2 & R3 & R4).
    exists ((RtoC (k * k) * cprod s (firstn 2 z), (s - p1) * (s - p2))%C :: t).
    split; [apply (f_equal Datatypes.S); exact Lt|]. split; [|split].
    + intros [|i] S' E; [|exact (Ht i S' E)]. cbn in E. injection E as <-. cbn [nth fst snd].
      cbn in ES. apply Ok_inj in ES. subst S.
      eapply (has_tf_eq (K := Cring)).
      * eapply (two_state_tf (K := Cring) _ (s : Cring)); [exact HSi|reflexivity..].
      * rewrite <- (two_pole_num k a00 a01 a10 a11 z c1 c2 d s R1 R2 R3 R4 HZ HT HO).
        change ((c1 * ((s - a11) * RtoC (k * k) + a01 * RtoC 0) + c2 * (a10 * RtoC (k * k) + (s - a00) * RtoC 0)
                 + d * ((s - a00) * (s - a11) - a01 * a10))%C
                = (RtoC (k * k) * (c1 * (s - a11) + c2 * a10) + d * ((s - a00) * (s - a11) - a01 * a10))%C). ring.
      * refine (two_pole_den p1 p2 a00 a01 a10 a11 s _ HP). apply HS; [now left|right; now left].
    + change (((RtoC (k * k) * cprod s (firstn 2 z)) * @kprod Cring (map fst t))%C = (RtoC (k ^ Datatypes.S (Datatypes.S (length p))) * cprod s z)%C).
      rewrite K1. assert (EZ : cprod s z = (cprod s (firstn 2 z) * cprod s (tl (tl z)))%C).
      { destruct z as [|? [|? ?]]; cbn; ring. }
      rewrite EZ. cbn [pow]. rewrite !RtoC_mult. ring.
    + change ((((s - p1) * (s - p2)) * @kprod Cring (map snd t))%C = cprod s (p1 :: p2 :: p)). rewrite K2. unfold cprod. cbn [fold_right]. ring.
Qed.

Lemma gain_pow k n : (0 < n)%nat -> gain_per_pole k n ^ n = Rabs k.
Proof.
  intros Hn. unfold gain_per_pole. destruct (Req_bool_spec k 0) as [->|Hk].
  - rewrite Rabs_R0. apply pow_ne_zero. lia.
  - assert (0 < Rabs k) by now apply Rabs_pos_lt. rewrite <- Rpower_pow by apply exp_pos. rewrite Rpower_mult.
    replace (1 / INR n * INR n) with 1 by (field; apply not_0_INR; lia). now apply Rpower_1.
Qed.

Lemma zpk_realises argsort z p k A B CT D : argsort_ok argsort -> separated p -> separated z -> no_tiny_imag z ->
  zpk2abcd argsort z p k = Ok (A, B, CT, D) ->
  rows A = length p /\ cols A = length p /\ rows B = length p /\ cols B = 1%nat /\ rows CT = 1%nat /\ cols CT = length p /\ rows D = 1%nat /\ cols D = 1%nat /\
  forall (s : C) (x : list C) (u y : C), length x = length p -> steady (K := Cring) A B CT D s x u y ->
    (cprod s p * y = RtoC (Rabs k) * cprod s z * u)%C.
Proof.
  intros HA HSp HSz HTz. unfold zpk2abcd.
  destruct (Nat.ltb_spec (length p) (length z)) as [|L1]; [discriminate|]. destruct (Nat.ltb_spec (length p) 1) as [|L2]; [discriminate|]. cbn [orb].
  intros H. apply bind_ok in H as (p' & Ep & H). apply bind_ok in H as (z' & Ez & H).
  apply bind_ok in H as (l & El & H). apply bind_ok in H as (S & ES & H). apply Ok_inj in H. apply pair4_inj in H as (<- & <- & <- & <-).
  destruct (sort_cplx_ok _ _ _ HA HSp Ep) as [Pp _].
  assert (Hz : Permutation z z' /\ zok z').
  { destruct z as [|z0 z]; [apply Ok_inj in Ez; subst; split; [constructor|exact Logic.I]|]. exact (sort_cplx_ok _ _ _ HA HSz Ez). }
  destruct Hz as [Pz Oz].
  assert (HSp' : separated p') by (intros a b Ha Hb; apply HSp; apply (Permutation_in _ (Permutation_sym Pp)); assumption).
  assert (HTz' : no_tiny_imag z') by (intros a Ha; apply HTz; apply (Permutation_in _ (Permutation_sym Pz)); assumption).
  pose proof (Permutation_length Pp) as Lp. pose proof (Permutation_length Pz) as Lz.
  destruct (stages_tf _ _ _ _ El HSp' Oz HTz') as (F & T & Ne & Htf); [lia|].
  destruct (chain_siso l) as (S' & ES' & HSi & SN & Hc); [apply Ne; intros ->; cbn in Lp; lia|exact F|].
  rewrite ES in ES'. apply Ok_inj in ES'. subst S'.
  assert (HN : sN S = length p) by (rewrite SN, T; auto).
  pose proof HSi as (V & SL & SNt & SM).
  split; [exact HN|]. split; [rewrite (v_A _ V); exact HN|]. split; [rewrite (v_B _ V); exact HN|]. split; [exact SL|].
  split; [exact SNt|]. split; [rewrite (v_CT _ V); exact HN|]. destruct (v_D _ V) as [VD1 VD2].
  split; [rewrite VD1; exact SNt|]. split; [rewrite VD2; exact SL|].
  intros s x u y Lx Hs. destruct (Htf s) as (t & Lt & Ht & K1 & K2).
  destruct (Hc (s : Cring) t Lt Ht) as [_ Hfin].
  specialize (Hfin x u y (eq_trans Lx (eq_sym HN)) (chain_steady S (s : Cring) x u y HSi (eq_trans Lx (eq_sym HN)) Hs)).
  rewrite K1, K2 in Hfin. rewrite (cprod_perm s p p' Pp), (cprod_perm s z z' Pz).
  rewrite <- (gain_pow k (length p)) by lia. rewrite Lp at 2. exact Hfin.
Qed.

(** *** sos2abcd *)
Definition quad (c2 c1 c0 : R) (s : C) : C := (RtoC c2 * (s * s) + RtoC c1 * s + RtoC c0)%C.
Definition sos_num (r : R * R * R * R * R * R) (s : C) : C := let '(b0, b1, b2, _, _, _) := r in quad b0 b1 b2 s.
Definition sos_den (r : R * R * R * R * R * R) (s : C) : C := let '(_, _, _, a0, a1, a2) := r in quad a0 a1 a2 s.

Lemma sos_stage_tf r S (s : C) : sos_stage r = Ok S -> siso S /\ sN S = 2%nat /\ has_tf (K := Cring) S s (sos_num r s) (sos_den r s).
Proof.
  destruct r as [[[[[b0 b1] b2] a0] a1] a2]. unfold sos_stage. intros H. apply bind_ok in H as ([[[[c0 c1] c2] d1] d2] & E & H).
  assert (Q : a0 <> 0 /\ b0 = a0 * c0 /\ b1 = a0 * c1 /\ b2 = a0 * c2 /\ a1 = a0 * d1 /\ a2 = a0 * d2).
  { destruct (Req_bool_spec a0 1) as [->|Q1].
    - apply Ok_inj in E. injection E as -> -> -> -> ->. repeat split; lra.
    - destruct (Req_bool_spec a0 0) as [|Q0]; [discriminate|]. apply Ok_inj in E. injection E as <- <- <- <- <-.
      repeat split; try exact Q0; field; exact Q0. }
  destruct Q as (Q0 & -> & -> & -> & -> & ->). clear E.
  apply Ok_inj in H. subst S.
  match goal with |- siso ?S /\ _ => assert (HSi : siso S) by (split; [constructor; cbn; auto|auto]) end.
  split; [exact HSi|]. split; [reflexivity|].
  eapply (has_tf_eq (K := Cring)).
  - eapply (has_tf_scale (K := Cring)) with (a := (RtoC a0 : Cring)).
    eapply (two_state_tf (K := Cring) _ (s : Cring)); [exact HSi|reflexivity..].
  - change ((RtoC a0 * (RtoC (c2 - c0 * d2) * ((s - RtoC (- d1)) * RtoC 0 + RtoC 1 * RtoC 1)
               + RtoC (c1 - c0 * d1) * (RtoC (- d2) * RtoC 0 + (s - RtoC 0) * RtoC 1)
               + RtoC c0 * ((s - RtoC 0) * (s - RtoC (- d1)) - RtoC 1 * RtoC (- d2))))%C = quad (a0 * c0) (a0 * c1) (a0 * c2) s).
    unfold quad. rewrite !RtoC_minus, !RtoC_mult, !RtoC_opp. ring.
  - change ((RtoC a0 * ((s - RtoC 0) * (s - RtoC (- d1)) - RtoC 1 * RtoC (- d2)))%C = quad a0 (a0 * d1) (a0 * d2) s).
    unfold quad. rewrite !RtoC_mult, !RtoC_opp. ring.
Qed.

Lemma sos_realises rows_ A B CT D : sos2abcd rows_ = Ok (A, B, CT, D) ->
  rows A = (2 * length rows_)%nat /\
  forall (s : C) (x : list C) (u y : C), length x = (2 * length rows_)%nat -> steady (K := Cring) A B CT D s x u y ->
    (fold_right (fun r acc => sos_den r s * acc) (RtoC 1) rows_ * y = fold_right (fun r acc => sos_num r s * acc) (RtoC 1) rows_ * u)%C.
Proof.
  unfold sos2abcd. intros H. apply bind_ok in H as (l & El & H). apply bind_ok in H as (S & ES & H). apply Ok_inj in H. apply pair4_inj in H as (<- & <- & <- & <-).
  assert (G : forall rs l, sos_stages rs = Ok l -> Forall siso l /\ total sN l = (2 * length rs)%nat /\ length l = length rs /\
     forall (s : C) i S', nth_error l i = Some S' -> has_tf (K := Cring) S' s (fst (nth i (map (fun r => (sos_num r s, sos_den r s)) rs) (RtoC 0, RtoC 0))) (snd (nth i (map (fun r => (sos_num r s, sos_den r s)) rs) (RtoC 0, RtoC 0)))).
  { clear. induction rs as [|r rs IH]; intros l H.
    - apply Ok_inj in H. subst l. split; [constructor|]. split; [reflexivity|]. split; [reflexivity|]. intros s [|i] S' E; discriminate.
    - cbn [sos_stages] in H. apply bind_ok in H as (S & ES & H). apply bind_ok in H as (l' & El & H). apply Ok_inj in H. subst l.
      destruct (IH _ El) as (F & T & L & Ht). destruct (sos_stage_tf r S (RtoC 0) ES) as (HSi & HN & _).
      split; [now constructor|]. split; [rewrite total_cons, HN, T; cbn; lia|]. split; [cbn; now rewrite L|].
      intros s [|i] S' E; [|exact (Ht s i S' E)]. cbn in E. injection E as <-. cbn [map nth fst snd]. apply (sos_stage_tf r S s ES). }
  destruct (G _ _ El) as (F & T & L & Ht).
  destruct l as [|S0 l]; [discriminate ES|].
  destruct (chain_siso (S0 :: l)) as (S' & ES' & HSi & SN & Hc); [discriminate|exact F|].
  rewrite ES in ES'. apply Ok_inj in ES'. subst S'.
  assert (HN : sN S = (2 * length rows_)%nat) by (rewrite SN, T; auto).
  split; [exact HN|]. intros s x u y Lx Hs.
  destruct (Hc (s : Cring) (map (fun r => (sos_num r s, sos_den r s)) rows_)) as [_ Hfin].
  - now rewrite map_length, L.
  - exact (Ht s).
  - specialize (Hfin x u y (eq_trans Lx (eq_sym HN)) (chain_steady S (s : Cring) x u y HSi (eq_trans Lx (eq_sym HN)) Hs)).
    rewrite !map_map in Hfin. cbn [fst snd] in Hfin.
    assert (Q : forall f : (R * R * R * R * R * R) -> C, @kprod Cring (map f rows_) = fold_right (fun r acc => (f r * acc)%C) (RtoC 1) rows_).
    { intros f. unfold kprod. induction rows_ as [|r rs IH] in |- *; [reflexivity|]. cbn [map fold_right]. now rewrite IH. }
    rewrite <- (Q (fun r => sos_den r s)), <- (Q (fun r => sos_num r s)). exact Hfin.
Qed.
