(** Proofs for FirExtras.v *)
From Coq Require Import List Lia Arith Bool ZArith Reals Lra.
From Flocq Require Import Core.
From Verif Require Import Base LinAlg Estimators BatchProofs BatchRun FirProofs FixedPoint FixedPointProofs FirExtras.
Import ListNotations.
Open Scope R_scope.

Lemma mapM_Ok {A B} (f : A -> result B) l l' : mapM f l = Ok l' -> Forall2 (fun a b => f a = Ok b) l l'.
Proof.
  revert l'. induction l as [|a l IH]; intros l' E; cbn [mapM] in E.
  - apply Ok_inj in E. subst. constructor.
  - destruct (f a) as [b|] eqn:Ea; [|discriminate]. cbn [bind] in E. destruct (mapM f l) as [bs|]; [|discriminate]. cbn [bind] in E.
    apply Ok_inj in E. subst. constructor; auto.
Qed.
Lemma mapM_Exn {A B} (f : A -> result B) l e : (forall a e', f a = Exn e' -> e' = e) ->
  (exists a, In a l /\ exists e', f a = Exn e') -> mapM f l = Exn e.
Proof.
  intros He. induction l as [|a l IH]; intros (x & Hx & e' & Ex); [contradiction|]. cbn [mapM].
  destruct (f a) as [b|e''] eqn:Ea; cbn [bind]; [|now rewrite (He _ _ Ea)].
  destruct Hx as [->|Hx]; [congruence|]. rewrite IH; [reflexivity|]. eauto.
Qed.
Lemma mapM_all {A B} (f : A -> result B) (g : A -> B) l : (forall a, In a l -> f a = Ok (g a)) -> mapM f l = Ok (map g l).
Proof.
  induction l as [|a l IH]; intros H; [reflexivity|]. cbn [mapM map]. rewrite (H a (or_introl eq_refl)). cbn [bind].
  rewrite IH by (intros; apply H; now right). reflexivity.
Qed.

(** Sum over k of [dot (row l of h_k) (buf_k)]. *)
Section Rowsum.
Context {K : cring}.
Definition krowsum (l : nat) (h : list (list (list K))) (buf : list (list K)) : K :=
  fold_right (radd K) (r0 K) (map2 (fun m b => dot (nth l m []) b) h buf).

Lemma nth_tensordot L (h : list (list (list K))) buf l : (l < L)%nat -> length h = length buf -> Forall (fun m => length m = L) h ->
  nth l (tensordot L h buf) (r0 K) = krowsum l h buf /\ length (tensordot L h buf) = L.
Proof.
  intros Hl. revert buf. induction h as [|m h IH]; intros [|b buf] HL HF; try discriminate.
  - split; [|apply vzero_length]. unfold tensordot. cbn. now apply nth_repeat_lt.
  - inversion HF as [|? ? Hm HF']; subst. destruct (IH buf (eq_add_S _ _ HL) HF') as [I1 I2].
    assert (E : tensordot (length m) (m :: h) (b :: buf) = vadd (mv m b) (tensordot (length m) h buf)) by reflexivity.
    rewrite E. split.
    + unfold vadd. rewrite (map2_nth _ _ _ _ (r0 K) (r0 K)).
      * rewrite I1. unfold krowsum. cbn [map2 fold_right]. f_equal. unfold mv.
        rewrite (nth_indep _ _ ((fun r => dot r b) [])) by (now rewrite map_length).
        now rewrite (map_nth (fun r : list K => dot r b)).
      * rewrite mv_length. assumption.
      * rewrite I2. assumption.
    + rewrite vadd_length, mv_length, I2. lia.
Qed.

Lemma tensordot_rows L (h : list (list (list K))) buf (off : list K) : length h = length buf -> Forall (fun m => length m = L) h ->
  length off = L ->
  vadd (tensordot L h buf) off = map (fun l => radd K (krowsum l h buf) (nth l off (r0 K))) (seq 0 L).
Proof.
  intros HL HF Ho. destruct (Nat.eq_dec L 0) as [E0|E0].
  - subst L. rewrite E0 in *. destruct off; [|discriminate]. unfold vadd. destruct (tensordot 0 h buf); reflexivity.
  - destruct (nth_tensordot L h buf 0 ltac:(lia) HL HF) as [_ HLt].
    apply (list_ext _ _ (r0 K)).
    + rewrite vadd_length, HLt, map_length, seq_length. lia.
    + rewrite vadd_length, HLt. intros l Hl. assert (Hl' : (l < L)%nat) by lia.
      rewrite nth_map_seq by assumption. cbn [plus]. unfold vadd. rewrite (map2_nth _ _ _ _ (r0 K) (r0 K)) by lia.
      destruct (nth_tensordot L h buf l Hl' HL HF) as [HT _]. now rewrite HT.
Qed.
End Rowsum.
Definition rdot (u v : list R) : R := @dot Rring u v.
Lemma rdot_cons x u y v : rdot (x :: u) (y :: v) = x * y + rdot u v. Proof. reflexivity. Qed.
Lemma rdot_nil_r u : rdot u [] = 0. Proof. destruct u; reflexivity. Qed.
Definition rowsum (l : nat) (h : list (list (list R))) (buf : list (list R)) : R :=
  fold_right Rplus 0 (map2 (fun m b => rdot (nth l m []) b) h buf).

Definition unit_bounded (b : list R) : Prop := Forall (fun x => Rabs x <= 1) b.

Lemma dot_err (s q : R) (a : list Z) (r d : list R) : 0 <= q -> Forall2 (fun z x => Rabs (IZR z / s - x) < q) a r ->
  unit_bounded d -> length d = length a ->
  Rabs (rdot (map IZR a) d / s - rdot r d) <= INR (length a) * q
  /\ ((1 <= length a)%nat -> Rabs (rdot (map IZR a) d / s - rdot r d) < INR (length a) * q).
Proof.
  intros Hq HF. revert d. induction HF as [|z x a r Hzx HF IH]; intros d Hd HL.
  - cbn [map]. destruct d; [|discriminate]. cbn. unfold Rdiv. rewrite Rmult_0_l, Rminus_0_r, Rabs_R0. split; [lra|lia].
  - destruct d as [|y d]; [discriminate|]. inversion Hd as [|? ? Hy Hd']; subst.
    destruct (IH d Hd' (eq_add_S _ _ HL)) as [I1 _]. cbn [map length]; rewrite !rdot_cons. rewrite S_INR.
    assert (E : Rabs (IZR z / s - x) * Rabs y <= Rabs (IZR z / s - x)).
    { rewrite <- Rmult_1_r. apply Rmult_le_compat_l; [apply Rabs_pos|assumption]. }
    assert (HT : Rabs ((IZR z * y + rdot (map IZR a) d) / s - (x * y + rdot r d)) < (INR (length a) + 1) * q).
    { replace ((IZR z * y + rdot (map IZR a) d) / s - (x * y + rdot r d))
        with ((IZR z / s - x) * y + (rdot (map IZR a) d / s - rdot r d)) by (unfold Rdiv; ring).
      eapply Rle_lt_trans; [apply Rabs_triang|]. rewrite Rabs_mult. rewrite Rmult_plus_distr_r, Rmult_1_l. lra. }
    split; [apply Rlt_le|intros _]; exact HT.
Qed.

Lemma rowsum_err (s q : R) l M (hz : list (list (list Z))) (h : list (list (list R))) (buf : list (list R)) :
  0 <= q -> Forall2 (fun mz m => Forall2 (fun z x => Rabs (IZR z / s - x) < q) (nth l mz []) (nth l m []) /\ length (nth l mz []) = M) hz h ->
  Forall unit_bounded buf -> Forall (fun b => length b = M) buf -> length buf = length h -> (1 <= M)%nat -> (1 <= length h)%nat ->
  Rabs (rowsum l (map (map (map IZR)) hz) buf / s - rowsum l h buf) < INR (length h * M) * q.
Proof.
  intros Hq HF. revert buf. induction HF as [|mz m hz h [Hzx HM] HF IH]; intros buf Hb HbL HL H1 H2; [simpl in H2; lia|].
  destruct buf as [|b buf]; [discriminate|]. inversion Hb as [|? ? Hy Hb']; subst. inversion HbL as [|? ? Hbl HbL']; subst.
  unfold rowsum. cbn [map map2 fold_right length].
  assert (EN : nth l (map (map IZR) mz) [] = map IZR (nth l mz [])).
  { change (@nil R) with (map IZR []) at 1. apply map_nth. }
  rewrite EN. destruct (dot_err s q (nth l mz []) (nth l m []) b Hq Hzx Hy ltac:(congruence)) as [_ D]. specialize (D ltac:(lia)).
  fold (rowsum l (map (map (map IZR)) hz) buf). fold (rowsum l h buf).
  replace (INR (S (length h) * length (nth l mz []))) with (INR (length (nth l mz [])) + INR (length h * length (nth l mz [])))
    by (rewrite <- plus_INR; f_equal; lia).
  assert (HR : Rabs (rowsum l (map (map (map IZR)) hz) buf / s - rowsum l h buf) <= INR (length h * length (nth l mz [])) * q).
  { destruct h as [|m' h'].
    - inversion HF; subst. destruct buf; [|discriminate]. unfold rowsum. cbn. unfold Rdiv. rewrite Rmult_0_l, Rminus_0_r, Rabs_R0. lra.
    - apply Rlt_le. apply IH; auto. simpl. lia. }
  match goal with |- Rabs ?X < _ => replace X with
    ((rdot (map IZR (nth l mz [])) b / s - rdot (nth l m []) b)
     + (rowsum l (map (map (map IZR)) hz) buf / s - rowsum l h buf)) by (unfold Rdiv; ring) end.
  eapply Rle_lt_trans; [apply Rabs_triang|]. rewrite Rmult_plus_distr_r. lra.
Qed.

(** absolute row sum over all taps *)
Definition abs_rowsum (l : nat) (h : list (list (list R))) : R :=
  fold_right Rplus 0 (map (fun m => fold_right Rplus 0 (map Rabs (nth l m []))) h).

Lemma dot_abs_le s (a : list Z) (r d : list R) : 0 < s -> Forall2 (fun z x => Rabs (IZR z) <= Rabs x * s) a r -> unit_bounded d ->
  Rabs (rdot (map IZR a) d) <= s * fold_right Rplus 0 (map Rabs r).
Proof.
  intros Hs HF. revert d. induction HF as [|z x a r Hzx HF IH]; intros d Hd.
  - cbn. rewrite Rabs_R0. lra.
  - assert (0 <= fold_right Rplus 0 (map Rabs r)). { clear. induction r; simpl; [lra|]. pose proof (Rabs_pos a). lra. }
    destruct d as [|y d].
    + rewrite rdot_nil_r, Rabs_R0. cbn [map fold_right]. apply Rmult_le_pos; [lra|]. pose proof (Rabs_pos x). lra.
    + inversion Hd as [|? ? Hy Hd']; subst. cbn [map fold_right]; rewrite rdot_cons. eapply Rle_trans; [apply Rabs_triang|].
      specialize (IH d Hd'). rewrite Rabs_mult. rewrite Rmult_plus_distr_l. apply Rplus_le_compat; [|exact IH].
      apply Rle_trans with (Rabs (IZR z) * 1); [apply Rmult_le_compat_l; [apply Rabs_pos|assumption]|]. lra.
Qed.

Lemma rowsum_abs_le s l hz h buf : 0 < s ->
  Forall2 (fun mz m => Forall2 (fun z x => Rabs (IZR z) <= Rabs x * s) (nth l mz []) (nth l m [])) hz h ->
  Forall unit_bounded buf -> Rabs (rowsum l (map (map (map IZR)) hz) buf) <= s * abs_rowsum l h.
Proof.
  intros Hs HF. revert buf. induction HF as [|mz m hz h Hzx HF IH]; intros buf Hb.
  - unfold rowsum, abs_rowsum. cbn. rewrite Rabs_R0. lra.
  - assert (HP : forall r, 0 <= fold_right Rplus 0 (map Rabs r)).
    { clear. induction r; simpl; [lra|]. pose proof (Rabs_pos a). lra. }
    assert (HA : 0 <= abs_rowsum l h).
    { clear - HP. unfold abs_rowsum. induction h; simpl; [lra|]. pose proof (HP (nth l a [])). lra. }
    destruct buf as [|b buf].
    + unfold rowsum. cbn [map map2 fold_right]. rewrite Rabs_R0. unfold abs_rowsum in *. cbn [map fold_right].
      apply Rmult_le_pos; [lra|]. pose proof (HP (nth l m [])). lra.
    + inversion Hb as [|? ? Hy Hb']; subst. unfold rowsum, abs_rowsum. cbn [map map2 fold_right].
      assert (EN : nth l (map (map IZR) mz) [] = map IZR (nth l mz [])).
      { change (@nil R) with (map IZR []) at 1. apply map_nth. }
      rewrite EN. eapply Rle_trans; [apply Rabs_triang|]. rewrite Rmult_plus_distr_l. apply Rplus_le_compat; [|now apply IH].
      now apply dot_abs_le.
Qed.

(** calls of a post-processed machine *)
Lemma calls_post {S R1 R2} (next1 : S -> result R1 * S) (next2 : S -> result R2 * S) (post : R1 -> result R2) :
  (forall st, next2 st = match next1 st with (Ok r, s) => (post r, s) | (Exn e, s) => (Exn e, s) end) ->
  forall n st k, nth_error (fst (calls next2 n st)) k
    = match nth_error (fst (calls next1 n st)) k with Some (Ok r) => Some (post r) | Some (Exn e) => Some (Exn e) | None => None end.
Proof.
  intros H. induction n as [|n IH]; intros st k; [destruct k; reflexivity|]. cbn [calls]. rewrite H.
  destruct (next1 st) as [[r|e] s]; specialize (IH s); destruct (calls next2 n s), (calls next1 n s); cbn [fst] in *;
    (destruct k as [|k]; [reflexivity|]; cbn [nth_error]; apply IH).
Qed.

(** the window buffer of 0/1 samples is bounded by one *)
Lemma zsig_bounded M xs p : Forall (Forall (fun v => v = 0 \/ v = 1)) xs -> unit_bounded (@zsig Rring M xs p).
Proof.
  intros Hx. assert (HZ : unit_bounded (@vzero Rring M)).
  { apply Forall_forall. intros v Hv. apply repeat_spec in Hv. subst. change (r0 Rring) with 0. rewrite Rabs_R0. lra. }
  rewrite zsig_pm1. destruct (p <? 0)%Z; [exact HZ|].
  destruct (Nat.lt_ge_cases (Z.to_nat p) (length xs)) as [H|H].
  - rewrite (nth_indep _ _ (pm1 ([] : list Rring))) by (now rewrite map_length). rewrite map_nth.
    rewrite Forall_forall in Hx. specialize (Hx (nth (Z.to_nat p) xs []) (nth_In _ _ H)).
    unfold unit_bounded, pm1. apply Forall_map. eapply Forall_impl; [|exact Hx]. intros a Ha.
    cbn [radd rmul rsub r1 Rring]. apply Rabs_le. destruct Ha as [Ha|Ha]; rewrite Ha; lra.
  - rewrite nth_overflow by (now rewrite map_length). exact HZ.
Qed.

Lemma zsig_length M xs p : Forall (fun x => length x = M) xs -> length (@zsig Rring M xs p) = M.
Proof.
  intros Hx. rewrite zsig_pm1. destruct (p <? 0)%Z; [apply vzero_length|].
  destruct (Nat.lt_ge_cases (Z.to_nat p) (length xs)) as [H|H].
  - rewrite (nth_indep _ _ (pm1 ([] : list Rring))) by (now rewrite map_length). rewrite map_nth. rewrite Forall_forall in Hx.
    unfold pm1. rewrite map_length. apply Hx. now apply nth_In.
  - rewrite nth_overflow by (now rewrite map_length). apply vzero_length.
Qed.

Lemma F2_flip {A B} (P : A -> B -> Prop) l l' : Forall2 P l l' -> Forall2 (fun b a => P a b) l' l.
Proof. induction 1; constructor; auto. Qed.
Lemma F2_length {A B} (P : A -> B -> Prop) l l' : Forall2 P l l' -> length l = length l'.
Proof. induction 1; simpl; auto. Qed.
Lemma F2_impl {A B} (P Q : A -> B -> Prop) l l' : (forall a b, P a b -> Q a b) -> Forall2 P l l' -> Forall2 Q l l'.
Proof. intros H. induction 1; constructor; auto. Qed.

Section C31.
Variables (n : Z) (mx : R) (f : fxp).
Hypothesis Hn : (1 <= n)%Z.
Hypothesis Hm : 0 < mx.
Hypothesis Hf : fxp_init n mx = Ok f.
Variable c : @coef Rring.
Hypothesis Hwf : coef_wf c.
Variables K1 K2 ds : nat.
Hypothesis Hds : (1 <= ds <= K1 + K2)%nat.
Variable hz : list (list (list Z)).
Hypothesis Hhz : fir_h_fixed f c K1 K2 = Ok hz.
Variable xs : list (list R).
Hypothesis Hxs : Forall (fun x => length x = cM c) xs.
Hypothesis Hbin : Forall (Forall (fun v => v = 0 \/ v = 1)) xs.

Notation P := (IZR (2 ^ (n - 1))).

Definition window (K3 M : nat) (t : nat) : list (list R) := @fbuf Rring K3 M xs t.

Lemma window_wf t : length (window (K1 + K2) (cM c) t) = (K1 + K2)%nat /\ Forall unit_bounded (window (K1 + K2) (cM c) t)
  /\ Forall (fun b => length b = cM c) (window (K1 + K2) (cM c) t).
Proof.
  unfold window, fbuf. split; [now rewrite map_length, seq_length|]. split.
  - apply Forall_map. apply Forall_forall. intros i _. now apply zsig_bounded.
  - apply Forall_map. apply Forall_forall. intros i _. now apply zsig_length.
Qed.

Lemma fir_h_shape : length (fir_h c K1 K2) = (K1 + K2)%nat
  /\ Forall (fun m => length m = cL c /\ Forall (fun r => length r = cM c) m) (fir_h c K1 K2).
Proof.
  destruct (fir_h_spec c K1 K2) as (HL & Hlo & Hhi). split; [assumption|].
  destruct (wf_lengths c Hwf) as (H1&H2&H3&H4&H5). destruct Hwf as (W1 & W2 & W3 & W4 & W5).
  assert (HM : forall B, wfm (cN c) (cM c) B -> Forall (fun r => length r = cM c) (mm (cM c) (cWT c) B)).
  { intros B HB. apply (proj2 (mm_wf (cL c) (cN c) (cM c) (cWT c) B W5 HB)). }
  apply Forall_forall. intros m Hm'. destruct (In_nth _ _ [] Hm') as (k & Hk & <-). rewrite HL in Hk.
  destruct (Nat.lt_ge_cases k K1).
  - rewrite Hlo by assumption. split; [unfold mopp, mm; now rewrite !map_length|].
    apply Forall_map. eapply Forall_impl; [|apply HM; apply (mmpow_wf (cN c)); eassumption]. intros r Hr. cbn beta. now rewrite vopp_length.
  - replace k with (K1 + (k - K1))%nat by lia. rewrite Hhi by lia. split; [unfold mm; now rewrite map_length|].
    apply HM. now apply (mmpow_wf (cN c)).
Qed.

Lemma conv_entry x z : float_to_fixed f x = Ok z -> Rabs (IZR z / (P / mx) - x) < mx / P /\ Rabs (IZR z) <= Rabs x * (P / mx).
Proof.
  intros E. destruct (f2x_spec n mx f Hn Hm Hf x) as [HX _].
  destruct (Rle_or_lt (Rabs x) mx) as [Hx|Hx]; [|rewrite (HX Hx) in E; discriminate].
  destruct (round_trip_float n mx f Hn Hm Hf x z Hx E) as (w & Hw & He & Ha & _ & _).
  destruct (f2x_spec n mx f Hn Hm Hf x) as [_ HX2]. destruct (HX2 Hx) as (z' & E' & _ & Hz). rewrite E in E'. apply Ok_inj in E'. subst z'.
  destruct (x2f_spec n mx f Hn Hm Hf z) as [_ H2]. rewrite (H2 Hz) in Hw. apply Ok_inj in Hw. pose proof (P_pos n Hn) as HP.
  assert (Ew : IZR z / (P / mx) = w) by (rewrite <- Hw; field; lra).
  rewrite Ew. split; [assumption|]. apply Rmult_le_reg_r with (mx / P); [apply Rdiv_lt_0_compat; lra|].
  replace (Rabs x * (P / mx) * (mx / P)) with (Rabs x) by (field; lra).
  replace (Rabs (IZR z) * (mx / P)) with (Rabs w); [assumption|]. rewrite <- Hw. unfold Rdiv.
  rewrite !Rabs_mult, (Rabs_pos_eq mx), (Rabs_pos_eq (/ P)) by (try lra; left; apply Rinv_0_lt_compat; lra). ring.
Qed.

Lemma hz_rel : Forall2 (fun mz m => length mz = cL c /\ forall l, (l < cL c)%nat ->
   Forall2 (fun z x => float_to_fixed f x = Ok z) (nth l mz []) (nth l m []) /\ length (nth l mz []) = cM c) hz (fir_h c K1 K2).
Proof.
  destruct fir_h_shape as [_ HS]. apply mapM_Ok in Hhz. revert Hhz HS. generalize (fir_h c K1 K2) as h. clear. intros h HF.
  induction HF as [|m mz h hz Hmz HF IH]; intros HS; constructor.
  - inversion HS as [|? ? [Hm1 Hm2] HS']; subst. apply mapM_Ok in Hmz.
    assert (HLm : length mz = length m) by (symmetry; eapply F2_length; exact Hmz).
    split; [exact (eq_trans HLm Hm1)|]. intros l Hl.
    assert (H2 : mapM (float_to_fixed f) (nth l m []) = Ok (nth l mz [])).
    { clear - Hmz Hl Hm1. rewrite <- Hm1 in Hl. clear Hm1. revert l Hl. induction Hmz as [|r rz m mz Hr HF IH]; intros l Hl; [destruct (Nat.nlt_0_r _ Hl)|].
      destruct l; [exact Hr|]. apply IH. exact (le_S_n _ _ Hl). }
    apply mapM_Ok in H2. split.
    + apply F2_flip. exact H2.
    + rewrite <- (F2_length _ _ _ H2). rewrite Forall_forall in Hm2. apply Hm2. apply nth_In. exact (eq_ind_r (fun z => (l < z)%nat) Hl Hm1).
  - apply IH. now inversion HS.
Qed.

Lemma Fint_max : fx_int_max f = (2 ^ (n - 1))%Z /\ fx_scale f = P / mx.
Proof. rewrite (init_fields n mx f Hn Hm Hf). split; reflexivity. Qed.

Definition overflow (offset : list R) (t : nat) : Prop := exists l, (l < cL c)%nat /\
  P < Rabs (rowsum l (map (map (map IZR)) hz) (window (K1 + K2) (cM c) t) + nth l offset 0).

Lemma fixed_post (offset : list R) t : length offset = cL c ->
  let res := @vadd Rring (@tensordot Rring (cL c) (map (map (map IZR)) hz : list (list (list Rring))) (@fbuf Rring (K1 + K2) (cM c) xs t)) offset in
  (overflow offset t -> mapM (acc_to_float f) res = Exn ArithmeticError) /\
  (~ overflow offset t -> mapM (acc_to_float f) res
     = Ok (map (fun l => (rowsum l (map (map (map IZR)) hz) (window (K1 + K2) (cM c) t) + nth l offset 0) * mx / P) (seq 0 (cL c)))).
Proof.
  intros Ho. cbv zeta. set (hr := (map (map (map IZR)) hz : list (list (list Rring)))). set (buf := @fbuf Rring (K1 + K2) (cM c) xs t).
  destruct (window_wf t) as (B1 & B2 & B3). change (window (K1 + K2) (cM c) t) with buf in B1, B2, B3.
  assert (HLh : length hr = length buf).
  { unfold hr. rewrite map_length, (F2_length _ _ _ hz_rel). exact (eq_trans (proj1 fir_h_shape) (eq_sym B1)). }
  assert (HFh : Forall (fun m => length m = cL c) hr).
  { unfold hr. apply Forall_map. pose proof hz_rel as HR. clear - HR. induction HR as [|mz m hz h [HL _] HF IH]; constructor; auto.
    now rewrite map_length. }
  assert (Hres : @vadd Rring (@tensordot Rring (cL c) hr buf) offset
     = map (fun l => rowsum l (map (map (map IZR)) hz) buf + nth l offset 0) (seq 0 (cL c))).
  { exact (tensordot_rows (cL c) hr buf offset HLh HFh Ho). }
  rewrite Hres. destruct Fint_max as [F1 F2].
  assert (HE : forall a e, acc_to_float f a = Exn e -> e = ArithmeticError).
  { intros a e. unfold acc_to_float. destruct (Rlt_bool _ _); intros E; inversion E; reflexivity. }
  split.
  - intros (l & Hl & Hov). apply mapM_Exn; [exact HE|].
    exists (rowsum l (map (map (map IZR)) hz) buf + nth l offset 0). split.
    + apply in_map_iff. exists l. split; [reflexivity|]. apply in_seq. lia.
    + exists ArithmeticError. unfold acc_to_float. rewrite F1, Rlt_bool_true by exact Hov. reflexivity.
  - intros Hno. rewrite (mapM_all _ (fun a => a * mx / P)).
    + f_equal. rewrite map_map. reflexivity.
    + intros a Ha. apply in_map_iff in Ha. destruct Ha as (l & <- & Hl). apply in_seq in Hl. unfold acc_to_float. rewrite F1, F2.
      rewrite Rlt_bool_false.
      * f_equal. pose proof (P_pos n Hn). field. lra.
      * apply Rnot_lt_le. intros Hlt. apply Hno. exists l. split; [lia|]. exact Hlt.
Qed.

Lemma fixed_row_err l t : (l < cL c)%nat -> (1 <= cM c)%nat ->
  Rabs (rowsum l (map (map (map IZR)) hz) (window (K1 + K2) (cM c) t) * mx / P - rowsum l (fir_h c K1 K2) (window (K1 + K2) (cM c) t))
  < INR ((K1 + K2) * cM c) * (mx / P).
Proof.
  intros Hl HM. destruct (window_wf t) as (B1 & B2 & B3). pose proof (P_pos n Hn) as HP. destruct fir_h_shape as [HS1 HS2].
  set (W := window (K1 + K2) (cM c) t) in *.
  replace (rowsum l (map (map (map IZR)) hz) W * mx / P) with (rowsum l (map (map (map IZR)) hz) W / (P / mx)) by (field; lra).
  rewrite <- HS1. apply (rowsum_err (P / mx) (mx / P) l (cM c)); auto.
  - left. apply Rdiv_lt_0_compat; lra.
  - eapply F2_impl; [|exact hz_rel]. cbn beta. intros mz m [_ H]. destruct (H l Hl) as [H1 H2]. split; [|assumption].
    eapply F2_impl; [|exact H1]. cbn beta. intros z x E. now apply conv_entry.
  - rewrite B1. symmetry. exact HS1.
  - refine (eq_ind_r (fun z => (1 <= z)%nat) _ HS1). lia.
Qed.

Lemma no_overflow (offset : list R) t : (forall l, (l < cL c)%nat -> abs_rowsum l (fir_h c K1 K2) <= mx) ->
  (forall l, nth l offset 0 = 0) -> ~ overflow offset t.
Proof.
  intros Hs Ho (l & Hl & Hov). rewrite Ho, Rplus_0_r in Hov. destruct (window_wf t) as (B1 & B2 & B3). pose proof (P_pos n Hn) as HP.
  assert (HA : Rabs (rowsum l (map (map (map IZR)) hz) (window (K1 + K2) (cM c) t)) <= (P / mx) * abs_rowsum l (fir_h c K1 K2)).
  { apply rowsum_abs_le; auto; [apply Rdiv_lt_0_compat; lra|]. eapply F2_impl; [|exact hz_rel]. cbn beta. intros mz m [_ H].
    destruct (H l Hl) as [H1 _]. eapply F2_impl; [|exact H1]. cbn beta. intros z x E. now apply conv_entry. }
  specialize (Hs l Hl). assert ((P / mx) * abs_rowsum l (fir_h c K1 K2) <= (P / mx) * mx).
  { apply Rmult_le_compat_l; [left; apply Rdiv_lt_0_compat; lra|assumption]. }
  replace (P / mx * mx) with P in H by (field; lra). lra.
Qed.

Lemma fixed_run (offset : list R) limit e N k : length offset = cL c ->
  e = SrcObj StopIteration \/ e = SrcGen RuntimeError \/ e = SrcObj RuntimeError -> (k < N)%nat ->
  ((k + 1) * ds <= length xs)%nat -> (limit = 0 \/ Z.of_nat ((k + 1) * ds) <= limit)%Z ->
  let r := nth_error (fst (calls (f_next_fixed f (K1 + K2) (cM c) (cL c) ds hz offset limit) N
                                 (f_init (K1 + K2) (cM c) (@mkSrc Rring xs e)))) k in
  (overflow offset ((k + 1) * ds) -> r = Some (Exn ArithmeticError)) /\
  (~ overflow offset ((k + 1) * ds) -> r = Some (Ok (map (fun l => (rowsum l (map (map (map IZR)) hz)
                           (window (K1 + K2) (cM c) ((k + 1) * ds)) + nth l offset 0) * mx / P) (seq 0 (cL c))))).
Proof.
  intros Ho He Hk H1 H2. cbv zeta.
  rewrite (calls_post (f_next (K1 + K2) (cM c) (cL c) ds (map (map (map IZR)) hz : list (list (list Rring))) offset limit)
     (f_next_fixed f (K1 + K2) (cM c) (cL c) ds hz offset limit) (mapM (acc_to_float f))) by (intros; reflexivity).
  destruct (fir_run (K1 + K2) (cM c) (cL c) ds (map (map (map IZR)) hz : list (list (list Rring))) offset limit xs e Hds Hxs He N k Hk) as [HG _].
  rewrite Nat.add_1_r in *. rewrite HG by (split; assumption).
  destruct (fixed_post offset (S k * ds) Ho) as [P1 P2]. split; intros H; [now rewrite P1|now rewrite P2].
Qed.
End C31.

(** ** Coefficient count (C32) *)
Definition coeffs (h : list (list (list R))) : list R := concat (map (@concat R) h).
Lemma filter_split (l : list R) :
  (length (filter (fun x => Rlt_bool 0 x) l) + length (filter (fun x => Rlt_bool x 0) l)
   = length (filter (fun x => negb (Req_bool x 0)) l))%nat.
Proof.
  induction l as [|x l IH]; [reflexivity|]. cbn [filter].
  destruct (Rlt_bool_spec 0 x), (Rlt_bool_spec x 0), (Req_bool_spec x 0); try lra; cbn [negb length]; lia.
Qed.
Lemma filter_none (l : list R) : length (filter (fun x => Rlt_bool x 0) l) = 0%nat <-> Forall (fun x => 0 <= x) l.
Proof.
  induction l as [|x l IH]; [split; [constructor|reflexivity]|]. cbn [filter]. destruct (Rlt_bool_spec x 0) as [H|H]; cbn [length].
  - split; [lia|]. intros HF. inversion HF. lra.
  - rewrite IH. split; [constructor; auto|]. now inversion 1.
Qed.

(** ** Exported tables (C33): a parser for bracketed, comma separated lists *)
Section Parse.
Context {A : Type}.
Definition parse_num (ts : list (tok A)) : option (A * list (tok A)) :=
  match ts with TNum a :: r => Some (a, r) | _ => None end.
Fixpoint parse_items {B} (p : list (tok A) -> option (B * list (tok A))) (fuel : nat) (ts : list (tok A)) : option (list B * list (tok A)) :=
  match fuel with
  | O => None
  | S fuel => match p ts with
      | Some (b, TComma :: r) => match parse_items p fuel r with Some (bs, r') => Some (b :: bs, r') | None => None end
      | Some (b, TClose :: r) => Some ([b], r)
      | _ => None
      end
  end.
Definition parse_list {B} (p : list (tok A) -> option (B * list (tok A))) (ts : list (tok A)) : option (list B * list (tok A)) :=
  match ts with TOpen :: r => parse_items p (length r) r | _ => None end.
Definition parse_table := parse_list (parse_list (parse_list parse_num)).

Fixpoint join (ls : list (list (tok A))) : list (tok A) :=
  match ls with [] => [] | [x] => x | x :: ls => x ++ [TComma] ++ join ls end.
Lemma join_cons x y ls : join (x :: y :: ls) = x ++ [TComma] ++ join (y :: ls). Proof. reflexivity. Qed.

Lemma parse_items_join {I B} (p : list (tok A) -> option (B * list (tok A))) (e : I -> list (tok A)) (v : I -> B) :
  (forall i r, p (e i ++ r) = Some (v i, r)) -> forall l fuel r, l <> [] -> (length l <= fuel)%nat ->
  parse_items p fuel (join (map e l) ++ TClose :: r) = Some (map v l, r).
Proof.
  intros Hp. induction l as [|i l IH]; intros fuel r Hl Hf; [congruence|]. destruct fuel as [|fuel]; [simpl in Hf; lia|].
  destruct l as [|j l].
  - cbn [map join parse_items]. rewrite Hp. reflexivity.
  - cbn [map]. rewrite join_cons, <- !app_assoc. cbn [parse_items]. rewrite Hp. cbn [app].
    change (e j :: map e l) with (map e (j :: l)). rewrite IH; [reflexivity|congruence|simpl in *; lia].
Qed.
Lemma flat_map_join (e : nat -> list (tok A)) n : forall s N, (s + n = N)%nat -> (1 <= n)%nat ->
  flat_map (fun i => e i ++ if Nat.ltb i (N - 1) then [TComma] else []) (seq s n) = join (map e (seq s n)).
Proof.
  induction n as [|n IH]; intros s N HN Hn; [lia|]. cbn [seq flat_map map]. destruct n as [|n].
  - cbn [seq flat_map map join]. destruct (Nat.ltb_spec s (N - 1)); [lia|]. now rewrite !app_nil_r.
  - rewrite (IH (S s) N) by lia. cbn [seq map]. rewrite join_cons. destruct (Nat.ltb_spec s (N - 1)); [|lia]. now rewrite <- app_assoc.
Qed.
Lemma flat_map_join_last (g : nat -> A) n : flat_map (fun k => [TNum (g k); TComma]) (seq 0 n) ++ [TNum (g n)]
  = join (map (fun k => [TNum (g k)]) (seq 0 (S n))).
Proof.
  cut (forall s, flat_map (fun k => [TNum (g k); TComma]) (seq s n) ++ [TNum (g (s + n)%nat)] = join (map (fun k => [TNum (g k)]) (seq s (S n))));
    [intros H; apply (H O)|].
  induction n as [|n IH]; intros s; [cbn; now rewrite Nat.add_0_r|].
  change (seq s (S (S n))) with (s :: S s :: seq (S (S s)) n). cbn [map]. rewrite join_cons.
  change (TNum (g (S s)) :: nil) with ((fun k => [TNum (g k)]) (S s)).
  change ((fun k => [TNum (g k)]) (S s) :: map (fun q : nat => [TNum (g q)]) (seq (S (S s)) n)) with (map (fun k => [TNum (g k)]) (seq (S s) (S n))).
  rewrite <- IH. cbn [seq flat_map app]. now rewrite Nat.add_succ_r.
Qed.
Lemma join_length {I} (e : I -> list (tok A)) l : (forall i, e i <> []) -> (length l <= length (join (map e l)))%nat.
Proof.
  intros He. induction l as [|i l IH]; [simpl; lia|]. assert (1 <= length (e i))%nat.
  { specialize (He i). destruct (e i); [congruence|simpl; lia]. }
  destruct l as [|j l]; [cbn; lia|]. cbn [map]. rewrite join_cons, !app_length. cbn [map] in IH. cbn [length] in *. lia.
Qed.

Lemma parse_list_join {I B} (p : list (tok A) -> option (B * list (tok A))) (e : I -> list (tok A)) (v : I -> B) l r :
  (forall i r, p (e i ++ r) = Some (v i, r)) -> (forall i, e i <> []) -> l <> [] ->
  parse_list p ((TOpen :: join (map e l) ++ [TClose]) ++ r) = Some (map v l, r).
Proof.
  intros Hp He Hl. cbn [parse_list app]. rewrite <- app_assoc. cbn [app]. apply parse_items_join; auto.
  rewrite app_length. pose proof (join_length e l He). lia.
Qed.

Lemma parse_emit (h : nat -> nat -> nat -> A) L M K3 r : (1 <= L)%nat -> (1 <= M)%nat -> (1 <= K3)%nat ->
  parse_table (emit_table h L M K3 ++ r)
  = Some (map (fun l => map (fun m => map (fun k => h l k m) (seq 0 K3)) (seq 0 M)) (seq 0 L), r).
Proof.
  intros HL HM HK.
  assert (NE : forall n, (1 <= n)%nat -> seq 0 n <> []) by (intros [|n]; [lia|discriminate]).
  assert (Hrow : forall l m r, parse_list parse_num (emit_row h K3 l m ++ r) = Some (map (fun k => h l k m) (seq 0 K3), r)).
  { intros l m r'. unfold emit_row. destruct K3 as [|k3]; [lia|]. cbn [Nat.sub]. rewrite Nat.sub_0_r.
    change [TNum (h l k3 m); TClose] with ([TNum (h l k3 m)] ++ [@TClose A]).
    rewrite (app_assoc (flat_map _ _)). rewrite (flat_map_join_last (fun k => h l k m)).
    apply (parse_list_join parse_num (fun k => [TNum (h l k m)]) (fun k => h l k m)); auto; discriminate. }
  assert (Hpl : forall l r, parse_list (parse_list parse_num) (emit_plane h M K3 l ++ r)
                 = Some (map (fun m => map (fun k => h l k m) (seq 0 K3)) (seq 0 M), r)).
  { intros l r'. unfold emit_plane. rewrite (flat_map_join (emit_row h K3 l) M 0 M) by lia.
    apply (parse_list_join (parse_list parse_num) (emit_row h K3 l)); auto. intros i; discriminate. }
  unfold parse_table, emit_table. rewrite (flat_map_join (emit_plane h M K3) L 0 L) by lia.
  apply (parse_list_join (parse_list (parse_list parse_num)) (emit_plane h M K3)); auto. intros i; discriminate.
Qed.
End Parse.

(** ** Convolution (C34) *)
Section Conv.
Context {K : cring}.
Add Ring Kring : (rth K).
Local Notation "0" := (r0 K). Local Notation "x + y" := (radd K x y). Local Notation "x * y" := (rmul K x y).
(** polynomial product, coefficients in increasing degree; [cadd] pads the shorter operand *)
Fixpoint cadd (u v : list K) : list K :=
  match u, v with [], v => v | u, [] => u | x :: u, y :: v => x + y :: cadd u v end.
Fixpoint pmul (a v : list K) : list K :=
  match a with [] => [] | x :: a => cadd (map (rmul K x) v) (0 :: pmul a v) end.
Fixpoint peval (a : list K) (x : K) : K := match a with [] => 0 | c :: a => c + x * peval a x end.

Lemma cadd_peval u v x : peval (cadd u v) x = peval u x + peval v x.
Proof. revert v. induction u as [|a u IH]; intros [|b v]; cbn [cadd peval]; try ring. rewrite IH. ring. Qed.
Lemma peval_scale c v x : peval (map (rmul K c) v) x = c * peval v x.
Proof. induction v as [|a v IH]; cbn [map peval]; [ring|rewrite IH; ring]. Qed.
Lemma peval_pmul a v x : peval (pmul a v) x = peval a x * peval v x.
Proof. induction a as [|c a IH]; cbn [pmul peval]; [ring|]. rewrite cadd_peval, peval_scale. cbn [peval]. rewrite IH. ring. Qed.
Lemma cadd_nth u v i : nth i (cadd u v) 0 = nth i u 0 + nth i v 0.
Proof. revert v i. induction u as [|a u IH]; intros [|b v] [|i]; cbn [cadd nth]; try ring. apply IH. Qed.
Lemma nth_scale c v i : nth i (map (rmul K c) v) 0 = c * nth i v 0.
Proof. revert i. induction v as [|a v IH]; intros [|i]; cbn [map nth]; try ring. apply IH. Qed.
Lemma pmul_nth a v i : nth i (pmul a v) 0 = ksum (S i) (fun j => nth (i - j) a 0 * nth j v 0).
Proof.
  revert i. induction a as [|c a IH]; intros i; cbn [pmul].
  - rewrite ksum_zero; [destruct i; reflexivity|]. intros j _. replace (nth (i - j) [] 0) with 0 by (destruct (i - j)%nat; reflexivity). ring.
  - rewrite cadd_nth, nth_scale. cbn [ksum]. rewrite Nat.sub_diag. change (nth 0 (c :: a) 0) with c. destruct i as [|i].
    + cbn [ksum nth]. ring.
    + change (nth (S i) (0 :: pmul a v) 0) with (nth i (pmul a v) 0). rewrite IH. replace (ksum (S i) (fun j => nth (S i - j) (c :: a) 0 * nth j v 0)) with (ksum (S i) (fun j => nth (i - j) a 0 * nth j v 0)); [ring|].
      apply ksum_ext. intros j Hj. now replace (S i - j)%nat with (S (i - j)) by lia.
Qed.

Lemma convolve_col_spec K3 filt col : length col = K3 -> (1 <= K3)%nat ->
  (filt = [] -> convolve_col K3 filt col = Exn ValueError) /\
  (forall g, filt = [g] -> convolve_col K3 filt col = Ok (map (rmul K g) col)) /\
  (Nat.even K3 = true -> (1 <= length filt)%nat -> exists h, convolve_col K3 filt col = Ok h /\ length h = K3 /\
      forall k, (k < K3)%nat -> nth k h 0 = nth (k + (length filt - 1) / 2) (pmul col filt) 0) /\
  (Nat.even K3 = false -> (2 <= length filt)%nat -> convolve_col K3 filt col = Exn ValueError).
Proof.
  intros HL HK. destruct col as [|c0 col']; [simpl in HL; lia|]. set (col := c0 :: col') in *.
  assert (HT : (1 <= length filt)%nat -> exists temp, np_convolve col filt = Ok temp /\ length temp = (K3 + length filt - 1)%nat /\
     forall i, (i < length temp)%nat -> nth i temp 0 = nth i (pmul col filt) 0).
  { intros Hf. unfold np_convolve. unfold col at 1. destruct filt as [|f0 filt']; [simpl in Hf; lia|]. set (filt := f0 :: filt') in *.
    eexists. split; [reflexivity|]. rewrite map_length, seq_length, HL. split; [reflexivity|]. intros i Hi.
    rewrite nth_map_seq by assumption. cbn [plus]. now rewrite pmul_nth. }
  split; [|split; [|split]].
  - intros ->. reflexivity.
  - intros g ->. destruct (HT ltac:(simpl; lia)) as (temp & E & L & N). unfold convolve_col. rewrite E. cbn [bind].
    cbn [length] in L. replace (K3 + 1 - 1)%nat with K3 in L by lia. rewrite L, Nat.eqb_refl. unfold assign1. rewrite L, Nat.eqb_refl. f_equal.
    apply (list_ext _ _ 0); [now rewrite map_length, HL|]. intros i Hi. rewrite N by assumption. rewrite pmul_nth, nth_scale.
    rewrite ksum_S_l. rewrite (ksum_zero i); [|intros j _; destruct j; cbn [nth]; ring]. rewrite Nat.sub_0_r. cbn [nth]. ring.
  - intros Hev Hf. destruct (HT Hf) as (temp & E & L & N). unfold convolve_col. rewrite E. cbn [bind].
    apply Nat.even_spec in Hev. destruct Hev as [p Hp].
    destruct (Nat.eqb_spec (length temp) K3) as [E3|E3].
    + unfold assign1. rewrite E3, Nat.eqb_refl. exists temp. split; [reflexivity|]. split; [assumption|]. intros k Hk.
      rewrite N by lia. f_equal. replace (length filt - 1)%nat with 0%nat by lia. cbn. lia.
    + set (s := ((length filt - 1) / 2)%nat).
      assert (Em : (length temp / 2 = p + s)%nat).
      { rewrite L, Hp. replace (2 * p + length filt - 1)%nat with (p * 2 + (length filt - 1))%nat by lia.
        rewrite Nat.div_add_l by lia. reflexivity. }
      assert (Eh : (K3 / 2 = p)%nat) by (rewrite Hp, Nat.mul_comm; apply Nat.div_mul; lia).
      rewrite Em, Eh. replace (p + s - p)%nat with s by lia. replace (p + s + p - s)%nat with K3 by lia.
      assert (Hs : (s <= length filt - 1)%nat) by (apply Nat.div_le_upper_bound; lia).
      assert (EL : length (firstn K3 (skipn s temp)) = K3) by (rewrite firstn_length, skipn_length, L; lia).
      unfold assign1. rewrite EL, Nat.eqb_refl. eexists. split; [reflexivity|]. split; [assumption|]. intros k Hk.
      rewrite <- N by lia. rewrite <- (firstn_skipn s temp) at 2. rewrite app_nth2 by (rewrite firstn_length; lia).
      rewrite firstn_length, L. replace (k + s - Nat.min s (K3 + length filt - 1))%nat with k by lia.
      rewrite <- (firstn_skipn K3 (skipn s temp)) at 2. rewrite app_nth1 by (rewrite EL; lia). reflexivity.
  - intros Hodd Hf. destruct (HT ltac:(lia)) as (temp & E & L & N). unfold convolve_col. rewrite E. cbn [bind].
    assert (Ho : Nat.odd K3 = true) by (unfold Nat.odd; now rewrite Hodd). apply Nat.odd_spec in Ho. destruct Ho as [p Hp].
    destruct (Nat.eqb_spec (length temp) K3) as [E3|E3]; [lia|].
    assert (Eh : (K3 / 2 = p)%nat).
    { rewrite Hp. replace (2 * p + 1)%nat with (p * 2 + 1)%nat by lia. rewrite Nat.div_add_l by lia. cbn. lia. }
    assert (Em : (p <= length temp / 2)%nat) by (apply Nat.div_le_lower_bound; lia).
    rewrite Eh. set (w := firstn _ _).
    assert (Ew : length w = (2 * p)%nat).
    { unfold w. rewrite firstn_length, skipn_length. assert (length temp / 2 * 2 <= length temp)%nat by (rewrite Nat.mul_comm; apply Nat.mul_div_le; lia).
      assert (2 * (length temp / 2) <= length temp)%nat by lia. assert (length temp <= 2 * (length temp / 2) + 1)%nat.
      { pose proof (Nat.div_mod (length temp) 2 ltac:(lia)). pose proof (Nat.mod_upper_bound (length temp) 2 ltac:(lia)). lia. }
      lia. }
    unfold assign1. destruct (Nat.eqb_spec (length w) K3); [lia|]. destruct w as [|x [|y w]]; try reflexivity. simpl in Ew. lia.
Qed.
End Conv.

Lemma fixed_ctor n mx f (c : @coef Rring) K1 K2 : (1 <= n)%Z -> 0 < mx -> fxp_init n mx = Ok f ->
  ((exists x, In x (coeffs (fir_h c K1 K2)) /\ mx < Rabs x) -> fir_h_fixed f c K1 K2 = Exn ArithmeticError) /\
  ((forall x, In x (coeffs (fir_h c K1 K2)) -> Rabs x <= mx) -> exists hz, fir_h_fixed f c K1 K2 = Ok hz).
Proof.
  intros Hn Hm Hf. unfold fir_h_fixed. generalize (fir_h c K1 K2 : list (list (list R))). intros h.
  assert (E1 : forall x e, float_to_fixed f x = Exn e -> e = ArithmeticError).
  { intros x e E. destruct (f2x_spec n mx f Hn Hm Hf x) as [A B]. destruct (Rle_or_lt (Rabs x) mx) as [H|H].
    - destruct (B H) as (k & Ek & _). congruence.
    - rewrite (A H) in E. congruence. }
  assert (EM : forall {X Y} (g : X -> result Y) l e, (forall a e, g a = Exn e -> e = ArithmeticError) -> mapM g l = Exn e -> e = ArithmeticError).
  { intros X Y g l e Hg. induction l as [|a l IH]; cbn [mapM]; [discriminate|]. destruct (g a) eqn:Eg; cbn [bind].
    - destruct (mapM g l); cbn [bind]; [discriminate|]. intros E. apply IH. congruence.
    - intros E. apply (Hg a). congruence. }
  assert (E2 : forall r e, mapM (float_to_fixed f) r = Exn e -> e = ArithmeticError) by (intros r e; apply EM; exact E1).
  assert (E3 : forall m e, mapM (mapM (float_to_fixed f)) m = Exn e -> e = ArithmeticError) by (intros m e; apply EM; exact E2).
  assert (EX : forall {X Y} (g : X -> result Y) l, (forall a, In a l -> exists b, g a = Ok b) -> exists l', mapM g l = Ok l').
  { intros X Y g l. induction l as [|a l IH]; intros Hg; cbn [mapM]; [eauto|]. destruct (Hg a (or_introl eq_refl)) as [b Eb].
    rewrite Eb. cbn [bind]. destruct IH as [l' El]; [intros; apply Hg; now right|]. rewrite El. cbn [bind]. eauto. }
  unfold coeffs. split.
  - intros (x & Hx & Hmx). apply in_concat in Hx. destruct Hx as (ml & Hml & Hx). apply in_map_iff in Hml. destruct Hml as (m & <- & Hmh).
    apply in_concat in Hx. destruct Hx as (r & Hr & Hx).
    apply mapM_Exn; [exact E3|]. exists m. split; [assumption|]. exists ArithmeticError.
    apply mapM_Exn; [exact E2|]. exists r. split; [assumption|]. exists ArithmeticError.
    apply mapM_Exn; [exact E1|]. exists x. split; [assumption|]. exists ArithmeticError.
    destruct (f2x_spec n mx f Hn Hm Hf x) as [A _]. now apply A.
  - intros Hall. apply EX. intros m Hmh. apply EX. intros r Hr. apply EX. intros x Hx.
    destruct (f2x_spec n mx f Hn Hm Hf x) as [_ B]. destruct B as (k & Ek & _); [|eauto]. apply Hall.
    apply in_concat. exists (concat m). split; [now apply in_map|]. apply in_concat. eauto.
Qed.

Lemma fixed_vs_float n mx f (c : @coef Rring) K1 K2 ds hz xs limit e N k :
  (1 <= n)%Z -> 0 < mx -> fxp_init n mx = Ok f -> coef_wf c -> (1 <= cM c)%nat -> (1 <= ds <= K1 + K2)%nat ->
  fir_h_fixed f c K1 K2 = Ok hz ->
  Forall (fun x => length x = cM c) xs -> Forall (Forall (fun v => v = 0 \/ v = 1)) xs ->
  e = SrcObj StopIteration \/ e = SrcGen RuntimeError \/ e = SrcObj RuntimeError -> (k < N)%nat ->
  ((k + 1) * ds <= length xs)%nat -> (limit = 0 \/ Z.of_nat ((k + 1) * ds) <= limit)%Z ->
  let fl := fst (calls (f_next (K1 + K2) (cM c) (cL c) ds (fir_h c K1 K2) (repeat 0 (cL c) : list Rring) limit) N
                   (f_init (K1 + K2) (cM c) (@mkSrc Rring xs e))) in
  let fx := fst (calls (f_next_fixed f (K1 + K2) (cM c) (cL c) ds hz (repeat 0 (cL c)) limit) N
                   (f_init (K1 + K2) (cM c) (@mkSrc Rring xs e))) in
  exists y, nth_error fl k = Some (Ok y) /\ length y = cL c /\
  (nth_error fx k = Some (Exn ArithmeticError) \/
   exists w, nth_error fx k = Some (Ok w) /\ length w = cL c /\
     forall l, (l < cL c)%nat -> Rabs (nth l w 0 - nth l y 0) < INR ((K1 + K2) * cM c) * (mx / IZR (2 ^ (n - 1)))) /\
  ((forall l, (l < cL c)%nat -> abs_rowsum l (fir_h c K1 K2) <= mx) -> nth_error fx k <> Some (Exn ArithmeticError)).
Proof.
  intros Hn Hm Hf Hwf HM Hds Hhz Hxs Hbin He Hk H1 H2. cbv zeta.
  assert (HLo : length (repeat 0 (cL c)) = cL c) by apply repeat_length.
  assert (Hz : forall l, nth l (repeat 0 (cL c)) 0 = 0) by (intros l; apply nth_repeat).
  destruct (fixed_run n mx f Hn Hm Hf c Hwf K1 K2 ds Hds hz Hhz xs Hxs Hbin (repeat 0 (cL c)) limit e N k HLo He Hk H1 H2) as [A B].
  destruct (fir_run (K1 + K2) (cM c) (cL c) ds (fir_h c K1 K2) (repeat 0 (cL c) : list Rring) limit xs e Hds Hxs He N k Hk) as [HG _].
  rewrite Nat.add_1_r in *. specialize (HG (conj H1 H2)).
  destruct (fir_h_shape c Hwf K1 K2 ds Hds) as [S1 S2]. destruct (window_wf c K1 K2 xs Hxs Hbin (S k * ds)) as (B1 & B2 & B3).
  set (t := (S k * ds)%nat) in *.
  assert (EY : @vadd Rring (@tensordot Rring (cL c) (fir_h c K1 K2) (@fbuf Rring (K1 + K2) (cM c) xs t)) (repeat 0 (cL c))
     = map (fun l => rowsum l (fir_h c K1 K2) (window xs (K1 + K2) (cM c) t) + nth l (repeat 0 (cL c)) 0) (seq 0 (cL c))).
  { apply (@tensordot_rows Rring (cL c) (fir_h c K1 K2) (@fbuf Rring (K1 + K2) (cM c) xs t) (repeat 0 (cL c))).
    - exact (eq_trans S1 (eq_sym B1)).
    - eapply Forall_impl; [|exact S2]. intros m [Hlm _]. exact Hlm.
    - exact HLo. }
  match type of EY with _ = ?yy => exists yy end. split; [etransitivity; [exact HG|]; do 2 f_equal; exact EY|].
  split; [exact (eq_trans (map_length _ _) (seq_length _ _))|].
  assert (DEC : overflow n c K1 K2 hz xs (repeat 0 (cL c)) t \/ ~ overflow n c K1 K2 hz xs (repeat 0 (cL c)) t) by apply Classical_Prop.classic.
  split.
  - destruct DEC as [D|D]; [left; exact (A D)|right]. eexists. split; [exact (B D)|]. split; [now rewrite map_length, seq_length|].
    intros l Hl. rewrite !nth_map_seq by assumption. cbn [plus]. rewrite Hz, !Rplus_0_r.
    apply (fixed_row_err n mx f Hn Hm Hf c Hwf K1 K2 ds Hds hz Hhz xs Hxs Hbin l t Hl HM).
  - intros Hs. rewrite (B (no_overflow n mx f Hn Hm Hf c Hwf K1 K2 ds Hds hz Hhz xs Hxs Hbin (repeat 0 (cL c)) t Hs Hz)). discriminate.
Qed.
