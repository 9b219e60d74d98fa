(** AdaptiveFIRFilter.lstsq and AdaptiveIIRFilter.predict. *)
From Coq Require Import List Lia Arith Bool ZArith Reals Lra Permutation.
From Coquelicot Require Import Complex.
From Verif Require Import Base LinAlg BatchProofs FirExtras Zpk Adaptive AdaptiveProofs AdaptiveExtra RlsRun LmsProofs.
Import ListNotations.
Open Scope R_scope.

(** *** specification *)
(** [s] minimises the squared residual of [A s = b] *)
Definition is_lsq (n : nat) (A : list (list R)) (b : list R) (s : list R) : Prop :=
  length s = n /\ forall s', length s' = n ->
    rsum (length A) (fun t => (nth t b 0 - rsum n (fun j => nth j (nth t A []) 0 * nth j s 0)) ^ 2)
    <= rsum (length A) (fun t => (nth t b 0 - rsum n (fun j => nth j (nth t A []) 0 * nth j s' 0)) ^ 2).

Lemma lsq_sse M K n ws ys s T : n = (M * K + 1)%nat -> Forall (shape M K) ws -> length ws = T -> length ys = T -> length s = n ->
  rsum (length (map sample ws)) (fun t => (nth t ys 0 - rsum n (fun j => nth j (nth t (map sample ws) []) 0 * nth j s 0)) ^ 2)
  = sse (map vsample (combine ws ys)) s.
Proof.
  intros Hn. revert ys T. induction ws as [|w ws IH]; intros [|y ys] T HX Hw Hy Hs; cbn [length] in *; subst T; try discriminate; [reflexivity|].
  inversion HX as [|? ? H1 H2]; subst n. cbn [map length]. rewrite rsum_S_l. cbn [combine map]. unfold sse in *. cbn [fold_right nth vsample fst snd].
  rewrite (IH ys (length ws) H2 eq_refl ltac:(now injection Hy) Hs). f_equal. f_equal. f_equal.
  rewrite rdot_comm. symmetry. apply rdot_rsum; [exact (sample_len M K w H1)|exact Hs].
Qed.

Lemma map_sconj_R (l : rv) : map (sconj Rfield) l = l. Proof. apply map_id. Qed.

Lemma split_flat M K (s : rv) : length s = (M * K + 1)%nat -> exists h o, shape M K h /\ h = reshape (F := Rfield) M K (removelast s) /\ o = last s 0 /\ flat h o = s.
Proof.
  intros Hs. exists (reshape (F := Rfield) M K (removelast s)), (last s 0).
  assert (L : length (removelast s) = (M * K)%nat) by (apply removelast_len; lia).
  split; [exact (reshape_wf M K _ L)|]. split; [reflexivity|]. split; [reflexivity|]. unfold flat.
  refine (eq_trans (f_equal (fun z : rv => z ++ [last s 0]) (concat_reshape M K _ L)) _). apply removelast_last. destruct s; [cbn in Hs; lia|discriminate].
Qed.

Lemma lstsq_R M K (solve : list (list R) -> list R -> list R) delay st (x y : list (list R)) N : let T := min (length x - Z.to_nat delay - K) N in
  y <> [] -> Forall (fun r => length r = N) y -> Forall (fun r => length r = M) x -> (0 <= delay)%Z -> (0 < T)%nat ->
  (forall ws ys, _batch (F := Rfield) M K x y delay = Ok (ws, ys) -> forall l, (l < length y)%nat ->
     is_lsq (M * K + 1) (map (fun w => concat w ++ [1]) ws) (nth l ys []) (solve (map (fun w => concat w ++ [1]) ws) (nth l ys []))) ->
  exists hs os, lstsq (F := Rfield) M K solve delay st x y = Ok (mkAF (F := Rfield) hs (a_hm st) (Off1 os) (a_offm st) (a_V st))
    /\ length hs = length y /\ length os = length y
    /\ forall l, (l < length y)%nat -> wfm (K := Rring) M K (nth l hs []) /\
         forall h' o', wfm (K := Rring) M K h' ->
           mse M K T (obs M K delay x (nth l y [])) (nth l hs []) (nth l os 0) <= mse M K T (obs M K delay x (nth l y [])) h' o'.
Proof.
  intros T Hy0 Hy Hx HD HT HL.
  assert (HKx : (Z.to_nat delay + K <= length x)%nat) by (unfold T in HT; lia).
  destruct (batch_pairing (F := Rfield) M K x y delay N Hx Hy0 Hy HD HKx) as (ws & ys & E & EL' & HY & HW & HR). assert (EL : length ws = T) by exact EL'. clear EL'.
  specialize (HL ws ys E). unfold lstsq. rewrite E. cbn [bind].
  assert (EB0 : Nat.eqb (length ws) 0 = false) by (apply Nat.eqb_neq; intros E0; pose proof (eq_trans (eq_sym EL) E0); lia).
  match goal with |- context [Nat.eqb ?a 0] => assert (EB : Nat.eqb a 0 = false) by exact EB0; rewrite EB end.
  set (A := map (fun w : list rv => concat w ++ [1]) ws) in *.
  assert (EA : map (fun w => map (sconj Rfield) (concat w ++ [r1 Rfield])) ws = A) by (apply map_ext; intros w; exact (map_sconj_R _)).
  rewrite EA.
  exists (map (fun s => reshape (F := Rfield) M K (removelast s)) (map (solve A) ys)), (map (fun s => last s 0) (map (solve A) ys)).
  assert (LY : length ys = length y) by apply HY.
  split; [reflexivity|]. split; [rewrite !map_length; exact LY|]. split; [rewrite !map_length; exact LY|].
  intros l Hl. destruct (HL l Hl) as [S1 S2]. set (s := solve A (nth l ys [])) in *.
  assert (E1 : nth l (map (fun s => reshape (F := Rfield) M K (removelast s)) (map (solve A) ys)) [] = reshape (F := Rfield) M K (removelast s)).
  { rewrite map_map. exact (nth_map_d (fun v => reshape (F := Rfield) M K (removelast (solve A v))) ys l [] [] (eq_ind_r (fun z => (l < z)%nat) Hl LY)). }
  assert (E2 : nth l (map (fun s => last s 0) (map (solve A) ys)) 0 = last s 0).
  { rewrite map_map. exact (nth_map_d (fun v => last (solve A v) 0) ys l [] 0 (eq_ind_r (fun z => (l < z)%nat) Hl LY)). }
  destruct (split_flat M K s S1) as (h & o & Hh & Eh & Eo & EF).
  pose (P := fun (a : list rv) (b : R) => wfm (K := Rring) M K a /\ forall h' o', wfm (K := Rring) M K h' ->
    mse M K T (obs M K delay x (nth l y [])) a b <= mse M K T (obs M K delay x (nth l y [])) h' o').
  refine (eq_ind_r (fun a => P a _) (eq_ind_r (fun b => P _ b) (eq_ind _ (fun a => P a _) (eq_ind _ (fun b => P h b) _ _ Eo) _ Eh) E2) E1).
  split; [exact Hh|]. intros h' o' Hh'.
  assert (HWS : Forall (shape M K) ws) by exact (batch_wf (F := Rfield) M K x y delay ws ys Hx HD HKx E).
  assert (LYl : length (nth l ys []) = T).
  { apply (proj1 (Forall_forall _ _) (proj2 HY)), nth_In. exact (eq_ind_r (fun z => (l < z)%nat) Hl LY). }
  assert (HS : forall t, (t < T)%nat -> same_sample M K (datum ws (nth l ys []) t) (obs M K delay x (nth l y []) t)).
  { intros t Ht. split; [exact (HR t l Ht)|]. intros m k Hm Hk. cbn [datum obs fst]. exact (HW t m k Ht Hm Hk). }
  assert (HN : 0 < INR T) by (now apply lt_0_INR).
  assert (EM : forall h' o', shape M K h' -> mse M K T (obs M K delay x (nth l y [])) h' o' = sse (map vsample (combine ws (nth l ys []))) (flat h' o') / INR T).
  { intros h1 o1 Hh1. rewrite <- (mse_ext M K T _ _ h1 o1 HS). unfold mse. f_equal. symmetry. apply sse_rsum; [exact Hh1|exact HWS|exact EL|exact LYl]. }
  rewrite !EM by assumption. apply Rmult_le_compat_r; [now apply Rlt_le, Rinv_0_lt_compat|].
  specialize (S2 (flat h' o') (flat_len M K h' o' Hh')).
  assert (G1 : forall v : rv, length v = (M * K + 1)%nat -> rsum (length A) (fun t => (nth t (nth l ys []) 0 - rsum (M * K + 1) (fun j => nth j (nth t A []) 0 * nth j v 0)) ^ 2) = sse (map vsample (combine ws (nth l ys []))) v).
  { intros v Hv. exact (lsq_sse M K (M * K + 1) ws (nth l ys []) v T eq_refl HWS EL LYl Hv). }
  rewrite !G1 in S2; [|exact (flat_len M K h' o' Hh')|exact S1]. rewrite EF. exact S2.
Qed.

(** *** complex data: the conjugate is fitted *)
Open Scope nat_scope.
Lemma conj_dot (u v : list C) : Cconj (dot (K := Cring) u v) = dot (K := Cring) (map Cconj u) (map Cconj v).
Proof.
  revert v. induction u as [|a u IH]; intros [|b v]; try (apply injective_projections; cbn; lra).
  change (Cconj (Cplus (Cmult a b) (dot (K := Cring) u v)) = Cplus (Cmult (Cconj a) (Cconj b)) (dot (K := Cring) (map Cconj u) (map Cconj v))).
  rewrite <- IH. apply injective_projections; cbn; ring.
Qed.
Lemma dot_app_C (a b c d : list C) : length a = length c -> dot (K := Cring) (a ++ b) (c ++ d) = Cplus (dot (K := Cring) a c) (dot (K := Cring) b d).
Proof.
  revert c. induction a as [|x a IH]; intros [|y c] E; try discriminate.
  - change (dot (K := Cring) b d = Cplus (RtoC 0) (dot (K := Cring) b d)). now rewrite Cplus_0_l.
  - change (Cplus (Cmult x y) (dot (K := Cring) (a ++ b) (c ++ d)) = Cplus (Cplus (Cmult x y) (dot (K := Cring) a c)) (dot (K := Cring) b d)).
    rewrite IH by (now injection E). apply Cplus_assoc.
Qed.
Lemma conj_invol_map (u : list C) : map Cconj (map Cconj u) = u.
Proof. rewrite map_map. rewrite <- (map_id u) at 2. apply map_ext. intros [a b]. unfold Cconj. cbn. f_equal. lra. Qed.
Lemma predict_conj M K (s : list C) (w : list (list C)) : length s = M * K + 1 -> shape M K w ->
  Cplus (tdot (F := Cfield) (reshape (F := Cfield) M K (removelast s)) w) (Cconj (last s (RtoC 0)))
  = Cconj (dot (K := Cring) (map Cconj (concat w ++ [RtoC 1])) s).
Proof.
  intros Hs Hw. assert (L : length (removelast s) = M * K) by (apply removelast_len; lia).
  assert (LW : length (concat w) = M * K) by (apply concat_len; apply Hw).
  unfold tdot.
  assert (EC : concat (reshape (F := Cfield) M K (removelast s)) = removelast s) by exact (concat_resh M K (removelast s) L).
  rewrite EC. rewrite conj_dot, conj_invol_map.
  rewrite <- (removelast_last s (RtoC 0)) at 3 by (destruct s; [cbn in Hs; lia|discriminate]). rewrite map_app.
  rewrite dot_app_C by (rewrite map_length; congruence). f_equal.
  - exact (dot_comm (K := Cring) _ _).
  - cbn. apply injective_projections; cbn; ring.
Qed.
Lemma lstsq_C M K (solve : list (list C) -> list C -> list C) delay st (x y : list (list C)) N : let T := min (length x - Z.to_nat delay - K) N in
  y <> [] -> Forall (fun r => length r = N) y -> Forall (fun r => length r = M) x -> (0 <= delay)%Z -> 0 < T ->
  forall ws ys, _batch (F := Cfield) M K x y delay = Ok (ws, ys) ->
  let A := map (fun w => map Cconj (concat w ++ [RtoC 1])) ws in
  (forall b, In b ys -> length (solve A b) = M * K + 1 /\ mv (K := Cring) A (solve A b) = b) ->
  exists st', lstsq (F := Cfield) M K solve delay st x y = Ok st' /\ call (F := Cfield) (length y) st' ws = Ok (map (map Cconj) ys).
Proof.
  intros T Hy0 Hy Hx HD HT ws ys E A HA.
  assert (HKx : (Z.to_nat delay + K <= length x)%nat) by (unfold T in HT; lia).
  destruct (batch_pairing (F := Cfield) M K x y delay N Hx Hy0 Hy HD HKx) as (ws2 & ys2 & E2 & EL' & HY & HW & HR). assert (EL : length ws2 = T) by exact EL'. clear EL'.
  assert (EE : ws2 = ws /\ ys2 = ys) by (rewrite E in E2; injection E2 as -> ->; now split). destruct EE as [-> ->].
  unfold lstsq. rewrite E. cbn [bind].
  assert (EB0 : Nat.eqb (length ws) 0 = false) by (apply Nat.eqb_neq; intros E0; pose proof (eq_trans (eq_sym EL) E0); lia).
  match goal with |- context [Nat.eqb ?a 0] => assert (EB : Nat.eqb a 0 = false) by exact EB0; rewrite EB end.
  eexists. split; [reflexivity|]. change (map (fun w => map (sconj Cfield) (concat w ++ [r1 Cfield])) ws) with A.
  match goal with |- call _ ?st _ = _ => destruct (call_off1 (F := Cfield) (length y) st _ ws eq_refl) as (c & Ec & Lc & Hc & Hn) end.
  rewrite Ec. f_equal. cbn [a_h] in Hn.
  assert (LY : length ys = length y) by apply HY.
  assert (HWS : Forall (shape M K) ws) by exact (batch_wf (F := Cfield) M K x y delay ws ys Hx HD HKx E).
  apply (list_ext _ _ []); [rewrite map_length; exact (eq_trans Lc (eq_sym LY))|].
  intros l Hl. assert (Hly : l < length y) by exact (eq_ind (length c) (fun z => l < z) Hl _ Lc).
  assert (Hlys : l < length ys) by (rewrite LY; exact Hly).
  assert (ER : nth l (map (map Cconj) ys) [] = map Cconj (nth l ys [])) by exact (nth_map_d (map Cconj) ys l [] [] Hlys).
  refine (eq_trans _ (eq_sym ER)).
  assert (LR : length (nth l c []) = T) by (refine (eq_trans (proj1 (Forall_forall _ _) Hc (nth l c []) (nth_In _ _ Hl)) EL)).
  assert (LYl : length (nth l ys []) = T) by (exact (proj1 (Forall_forall _ _) (proj2 HY) (nth l ys []) (nth_In _ _ Hlys))).
  apply (list_ext _ _ (RtoC 0)); [rewrite map_length; exact (eq_trans LR (eq_sym LYl))|].
  intros b Hb. assert (HbT : b < T) by exact (eq_ind (length (nth l c [])) (fun z => b < z) Hb _ LR).
  assert (Hbw : b < length ws) by exact (eq_ind_r (fun z => b < z) HbT EL).
  refine (eq_trans (Hn l b Hly Hbw) _).
  destruct (HA (nth l ys []) (nth_In _ _ Hlys)) as [S1 S2]. set (s := solve A (nth l ys [])) in *.
  assert (E1 : nth l (map (fun s => reshape (F := Cfield) M K (removelast s)) (map (solve A) ys)) [] = reshape (F := Cfield) M K (removelast s)).
  { rewrite map_map. exact (nth_map_d (fun v => reshape (F := Cfield) M K (removelast (solve A v))) ys l [] [] Hlys). }
  assert (E3 : nth l (map (fun s => last s (RtoC 0)) (map (solve A) ys)) (RtoC 0) = last s (RtoC 0)).
  { rewrite map_map. exact (nth_map_d (fun v => last (solve A v) (RtoC 0)) ys l [] (RtoC 0) Hlys). }
  transitivity (Cplus (tdot (F := Cfield) (reshape (F := Cfield) M K (removelast s)) (nth b ws [])) (Cconj (last s (RtoC 0)))).
  { exact (f_equal2 (fun p q => Cplus (tdot (F := Cfield) p (nth b ws [])) (Cconj q)) E1 E3). }
  rewrite predict_conj; [|exact S1|exact (proj1 (Forall_forall _ _) HWS (nth b ws []) (nth_In _ _ Hbw))].
  refine (eq_trans _ (eq_sym (nth_map_d Cconj (nth l ys []) b (RtoC 0) (RtoC 0) (eq_ind_r (fun z => b < z) HbT LYl)))). f_equal.
  transitivity (nth b (mv (K := Cring) A s) (RtoC 0)); [|now rewrite S2].
  symmetry. unfold mv. refine (eq_trans (nth_map_d (fun r => dot (K := Cring) r s) A b [] (RtoC 0) _) _).
  - unfold A. rewrite map_length. exact Hbw.
  - f_equal. exact (nth_map_d (fun w => map Cconj (concat w ++ [RtoC 1])) ws b [] [] Hbw).
Qed.

(** *** IIR prediction *)
Section Iir.
Context {F : sfield}.
Notation vec := (list F).
Lemma removelast_last' {A} (l : list A) a : removelast (l ++ [a]) = l.
Proof. apply List.removelast_last. Qed.
Lemma iir_loop_len den (fir past : vec) : length (iir_loop den fir past) = length fir.
Proof. revert past. induction fir as [|f fir IH]; intros past; cbn; [reflexivity|]. now rewrite IH. Qed.
Lemma iir_loop_spec den K : 0 < K -> forall (fir past : vec), length past = K -> forall i, i < length fir ->
  nth i (iir_loop den fir past) (r0 F) = radd F (nth i fir (r0 F)) (dot den (firstn K (skipn i (past ++ iir_loop den fir past)))).
Proof.
  intros HK. induction fir as [|f fir IH]; intros past HP i Hi; [cbn in Hi; lia|]. cbn [iir_loop]. destruct i as [|i]; cbn [nth].
  - f_equal. f_equal. cbn [skipn]. rewrite firstn_app, HP, Nat.sub_diag, firstn_O, app_nil_r. symmetry. apply firstn_all2. lia.
  - set (r := radd F f (dot den past)) in *.
    destruct past as [|p past]; [cbn in HP; lia|].
    cbn [tl]. rewrite (IH (past ++ [r])) by (rewrite ?app_length; cbn in *; lia).
    f_equal. f_equal. f_equal. cbn [app skipn]. rewrite <- app_assoc. reflexivity.
Qed.
(** tap (m, k) of the windows the prediction uses, and the recursion *)
Definition iir_fir (M K : nat) (h : list (list F)) (o : F) (x : list (list F)) (i : nat) : F :=
  radd F (ksum M (fun m => ksum K (fun k => rmul F (nth k (nth m h []) (r0 F)) (entry_spec M K x i m k)))) (sconj F o).
Lemma dot_concat_F M K (a b : list (list F)) : shape M K a -> shape M K b ->
  dot (concat a) (concat b) = ksum M (fun m => ksum K (fun k => rmul F (nth k (nth m a []) (r0 F)) (nth k (nth m b []) (r0 F)))).
Proof.
  intros [H1 H2] [H3 H4]. revert M b H1 H3 H4. induction a as [|r a IH]; intros M [|s b] H1 H3 H4; cbn [length] in *; try lia.
  - subst M. reflexivity.
  - destruct M as [|M]; [lia|]. inversion H2; inversion H4; subst. cbn [concat]. rewrite dot_app by congruence. rewrite ksum_S_l. cbn [nth].
    rewrite (IH ltac:(assumption) M b) by (auto; lia). f_equal. rewrite dot_ksum by congruence. reflexivity.
Qed.
Lemma iir_predict_spec M K (st : @afst F) (h : list (list F)) (den : vec) o x : 0 < K -> a_h st = [h ++ [den]] -> a_off st = Off2 [o] \/ a_off st = Off1 [o] ->
  wfm M K h -> length den = K -> Forall (fun r => length r = M) x -> K <= length x ->
  exists out, iir_predict M K st x = Ok out /\ length out = length x - K /\
    forall i, i < length x - K -> nth i out (r0 F) =
      radd F (iir_fir M K h o x i) (ksum K (fun k => rmul F (nth k den (r0 F)) (if i + k <? K then r0 F else nth (i + k - K) out (r0 F)))).
Proof.
  intros HK Hh Ho Hwf Hden Hx HL. destruct (batch_any M K x Hx HL) as (ws & E & LW & HW).
  unfold iir_predict. rewrite E, Hh. cbn [bind nth].
  assert (EO : match a_off st with Off2 o => nth 0 o (r0 F) | Off1 o => nth 0 o (r0 F) end = o) by (destruct Ho as [-> | ->]; reflexivity). rewrite EO.
  rewrite removelast_last', last_last.
  set (fir := map (fun w => radd F (dot (concat h) (concat w)) (sconj F o)) ws).
  set (out := iir_loop den fir (vzero K)).
  assert (LF : length fir = length x - K) by (unfold fir; rewrite map_length; exact LW).
  exists out. split; [reflexivity|]. split; [unfold out; rewrite iir_loop_len; exact LF|].
  intros i Hi. unfold out at 1. rewrite (iir_loop_spec den K HK fir (vzero K)) by (rewrite ?LF; auto; apply repeat_length). fold out.
  assert (LO : length out = length x - K) by (unfold out; rewrite iir_loop_len; exact LF).
  f_equal.
  - unfold fir. rewrite (nth_map_d _ ws i []) by (rewrite LW; exact Hi). unfold iir_fir. f_equal.
    rewrite (dot_concat_F M K) by (try exact Hwf; apply HW; exact Hi). apply ksum_ext. intros m Hm. apply ksum_ext. intros k Hk. f_equal. now apply HW.
  - assert (LS : length (firstn K (skipn i (vzero K ++ out))) = K).
    { rewrite firstn_length, skipn_length, app_length. unfold vzero. rewrite repeat_length. lia. }
    rewrite dot_ksum by congruence. rewrite Hden. apply ksum_ext. intros k Hk. f_equal.
    rewrite nth_firstn by exact Hk. rewrite nth_skipn. destruct (Nat.ltb_spec (i + k) K) as [H|H].
    + rewrite app_nth1 by (unfold vzero; rewrite repeat_length; exact H). apply nth_repeat.
    + rewrite app_nth2 by (unfold vzero; rewrite repeat_length; exact H). unfold vzero. now rewrite repeat_length.
Qed.
End Iir.
