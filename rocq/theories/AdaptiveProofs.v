(** Windows of the adaptive filter, and recursive least squares over the reals. *)
From Coq Require Import List Lia Arith Bool ZArith Reals Lra.
From Coquelicot Require Import Complex.
From Verif Require Import Base LinAlg BatchProofs FirExtras Zpk Adaptive.
Import ListNotations.
Open Scope nat_scope.

Section Windows.
Context {F : sfield}.
Notation mat := (list (list F)).

Lemma slice_length K (sig : mat) i : i + K <= length sig -> length (slice K sig i) = K.
Proof. intros H. unfold slice. rewrite firstn_length, skipn_length. lia. Qed.
Lemma nth_firstn {A} k n (l : list A) d : k < n -> nth k (firstn n l) d = nth k l d.
Proof. revert n l; induction k as [|k IH]; intros [|n] [|a l] H; try lia; cbn; auto. apply IH. lia. Qed.
Lemma nth_skipn {A} k n (l : list A) d : nth k (skipn n l) d = nth (n + k) l d.
Proof. revert l; induction n as [|n IH]; intros l; [reflexivity|]. destruct l as [|a l]; [destruct k; reflexivity|]. cbn. apply IH. Qed.
Lemma slice_nth K (sig : mat) i k : k < K -> nth k (slice K sig i) [] = nth (i + k) sig [].
Proof. intros H. unfold slice. rewrite nth_firstn by assumption. apply nth_skipn. Qed.

Lemma window_entry M K (sig : mat) i m k : K <> M -> i + K <= length sig -> m < M -> k < K ->
  nth k (nth m (window M K sig i) []) (r0 F) = nth m (nth (i + k) sig []) (r0 F).
Proof.
  intros HK Hi Hm Hk. unfold window. destruct (Nat.eqb_spec K M); [contradiction|]. unfold transp.
  rewrite nth_map_seq by assumption. cbn [plus].
  rewrite (nth_indep _ _ ((fun r : list F => nth m r (r0 F)) [])) by (rewrite map_length, slice_length; lia).
  rewrite (map_nth (fun r : list F => nth m r (r0 F))). now rewrite slice_nth.
Qed.
Lemma window_square M (sig : mat) i m k : i + M <= length sig -> m < M ->
  nth k (nth m (window M M sig i) []) (r0 F) = nth k (nth (i + m) sig []) (r0 F).
Proof. intros Hi Hm. unfold window. rewrite Nat.eqb_refl. now rewrite slice_nth. Qed.
Lemma window_wf M K (sig : mat) i : wfm (length sig) M sig -> i + K <= length sig -> wfm M K (window M K sig i).
Proof.
  intros [_ HS] Hi. unfold window. destruct (Nat.eqb_spec K M) as [->|].
  - split; [now apply slice_length|]. unfold slice. apply Forall_forall. intros r Hr.
    apply (proj1 (Forall_forall _ _) HS). apply (In_nth _ _ []) in Hr. destruct Hr as (k & Hk & <-).
    rewrite firstn_length, skipn_length in Hk. rewrite nth_firstn, nth_skipn by lia. apply nth_In. lia.
  - unfold transp. split; [now rewrite map_length, seq_length|]. apply Forall_map, Forall_forall. intros j _. rewrite map_length. now apply slice_length.
Qed.
End Windows.

(** *** recursive least squares *)
Open Scope R_scope.
Notation rv := (list R).
Definition rdot (u v : rv) : R := dot (K := Rring) u v.
Definition rmv (A : list rv) (v : rv) : rv := mv (K := Rring) A v.
Definition rplus (u v : rv) : rv := vadd (K := Rring) u v.
Definition rscale (c : R) (v : rv) : rv := vscale (K := Rring) c v.
Definition rminus (u v : rv) : rv := vsub (K := Rring) u v.

Lemma rdot_comm u v : rdot u v = rdot v u.
Proof. revert v; induction u as [|a u IH]; intros [|b v]; try reflexivity. change (a * b + rdot u v = b * a + rdot v u). rewrite IH. ring. Qed.
Lemma rdot_plus_r r u v : length u = length v -> rdot r (rplus u v) = rdot r u + rdot r v.
Proof. exact (dot_vadd_r (K := Rring) r u v). Qed.
Lemma rdot_scale_r c r v : rdot r (rscale c v) = c * rdot r v.
Proof. exact (dot_vscale_r (K := Rring) c r v). Qed.
Lemma rdot_plus_l r u v : length u = length v -> rdot (rplus u v) r = rdot u r + rdot v r.
Proof. intros H. rewrite rdot_comm, rdot_plus_r by assumption. now rewrite (rdot_comm r u), (rdot_comm r v). Qed.
Lemma rdot_scale_l c r v : rdot (rscale c v) r = c * rdot v r.
Proof. now rewrite rdot_comm, rdot_scale_r, rdot_comm. Qed.
Lemma rplus_len u v n : length u = n -> length v = n -> length (rplus u v) = n.
Proof. intros Hu Hv. etransitivity; [exact (vadd_length (K := Rring) u v)|]. exact (eq_trans (f_equal2 Nat.min Hu Hv) (Nat.min_id n)). Qed.
Lemma rscale_len c v n : length v = n -> length (rscale c v) = n.
Proof. intros H. etransitivity; [exact (vscale_length (K := Rring) c v)|exact H]. Qed.
Lemma rdot_self_nonneg v : 0 <= rdot v v.
Proof. induction v as [|a v IH]; [apply Rle_refl|]. change (0 <= a * a + rdot v v). pose proof (Rle_0_sqr a). unfold Rsqr in H. lra. Qed.
Lemma rdot_self_zero v : rdot v v = 0 -> v = repeat 0 (length v).
Proof.
  induction v as [|a v IH]; [reflexivity|]. change (a * a + rdot v v = 0 -> a :: v = 0 :: repeat 0 (length v)). intros H.
  pose proof (Rle_0_sqr a) as H1. unfold Rsqr in H1. pose proof (rdot_self_nonneg v). rewrite <- IH by lra. f_equal. assert (a * a = 0) by lra. apply Rmult_integral in H2. tauto.
Qed.
Lemma rv_ext n (u v : rv) : length u = n -> length v = n -> (forall i, (i < n)%nat -> nth i u 0 = nth i v 0) -> u = v.
Proof. intros Hu Hv H. apply (list_ext _ _ 0); [congruence|]. intros i Hi. apply H. lia. Qed.
Lemma nth_rplus u v i : length u = length v -> nth i (rplus u v) 0 = nth i u 0 + nth i v 0.
Proof.
  intros H. destruct (Nat.lt_ge_cases i (length u)) as [Hi|Hi].
  - exact (map2_nth Rplus u v i 0 0 0 Hi ltac:(lia)).
  - rewrite !nth_overflow; [lra|lia|lia|]. rewrite (rplus_len u v (length u)); auto.
Qed.
Lemma nth_rscale c v i : nth i (rscale c v) 0 = c * nth i v 0.
Proof. unfold rscale. rewrite <- (Rmult_0_r c) at 1. exact (map_nth (fun x => c * x) v 0 i). Qed.

Section RLS.
Variable n : nat.
Ltac len := repeat first [assumption | apply rplus_len | apply rscale_len].
Ltac lens := transitivity n; [len|symmetry; len].
Ltac dots := repeat first [rewrite rdot_scale_r | rewrite rdot_scale_l | rewrite rdot_plus_r by lens | rewrite rdot_plus_l by lens].
Ltac nths := repeat first [rewrite nth_rscale | rewrite nth_rplus by lens].
Variables delta lambda : R.
Hypothesis Hd : 0 < delta.
Hypothesis Hl : 0 < lambda.
Variable w0 : rv.
Hypothesis Hw0 : length w0 = n.

(** the weighted information operator, latest sample first *)
Fixpoint info (ss : list (rv * R)) (v : rv) : rv :=
  match ss with
  | [] => rscale delta v
  | (x, _) :: ss => rplus (rscale lambda (info ss v)) (rscale (rdot x v) x)
  end.
Fixpoint rhs (ss : list (rv * R)) : rv :=
  match ss with
  | [] => rscale delta w0
  | (x, y) :: ss => rplus (rscale lambda (rhs ss)) (rscale y x)
  end.
Definition sized (ss : list (rv * R)) : Prop := Forall (fun s => length (fst s) = n) ss.

Lemma info_len ss (v : rv) : sized ss -> length v = n -> length (info ss v) = n.
Proof. intros HS Hv. induction HS as [|[x y] ss Hx _ IH]; cbn [info]; [now apply rscale_len|]. apply rplus_len; now apply rscale_len. Qed.
Lemma rhs_len ss : sized ss -> length (rhs ss) = n.
Proof. intros HS. induction HS as [|[x y] ss Hx _ IH]; cbn [rhs]; [now apply rscale_len|]. apply rplus_len; now apply rscale_len. Qed.
Ltac len ::= repeat first [assumption | apply rplus_len | apply rscale_len | apply info_len | apply rhs_len].
Lemma info_plus ss u v : sized ss -> length u = n -> length v = n -> info ss (rplus u v) = rplus (info ss u) (info ss v).
Proof.
  intros HS Hu Hv. induction HS as [|[x y] ss Hx HS IH]; cbn [info].
  - exact (vscale_vadd (K := Rring) delta u v).
  - cbn [fst] in Hx. rewrite IH. apply (rv_ext n); repeat (apply rplus_len || apply rscale_len || apply info_len); auto.
    intros i Hi. nths.
    rewrite rdot_plus_r by congruence. ring.
Qed.
Lemma info_scale ss c v : sized ss -> length v = n -> info ss (rscale c v) = rscale c (info ss v).
Proof.
  intros HS Hv. induction HS as [|[x y] ss Hx HS IH]; cbn [info].
  - apply (rv_ext n); repeat apply rscale_len; auto. intros i Hi. rewrite !nth_rscale. ring.
  - cbn [fst] in Hx. rewrite IH. apply (rv_ext n); repeat (apply rplus_len || apply rscale_len || apply info_len); auto.
    intros i Hi. nths.
    rewrite rdot_scale_r. ring.
Qed.
Lemma info_sym ss u v : sized ss -> length u = n -> length v = n -> rdot u (info ss v) = rdot v (info ss u).
Proof.
  intros HS Hu Hv. induction HS as [|[x y] ss Hx HS IH]; cbn [info].
  - rewrite !rdot_scale_r, (rdot_comm u v). reflexivity.
  - cbn [fst] in Hx. rewrite !rdot_plus_r by (rewrite !(rscale_len _ _ n); auto using info_len). rewrite !rdot_scale_r, IH, (rdot_comm u x), (rdot_comm v x). ring.
Qed.
Lemma info_pos ss v : sized ss -> length v = n -> lambda ^ length ss * delta * rdot v v <= rdot v (info ss v).
Proof.
  intros HS Hv. induction HS as [|[x y] ss Hx HS IH]; cbn [info length pow].
  - rewrite rdot_scale_r. lra.
  - cbn [fst] in Hx. rewrite rdot_plus_r by (rewrite !(rscale_len _ _ n); auto using info_len). rewrite !rdot_scale_r, (rdot_comm v x).
    pose proof (Rle_0_sqr (rdot x v)) as H1. unfold Rsqr in H1. pose proof (Rmult_le_compat_l lambda _ _ (Rlt_le _ _ Hl) IH). lra.
Qed.
Lemma info_zero ss v : sized ss -> length v = n -> rdot v (info ss v) <= 0 -> v = repeat 0 n.
Proof.
  intros HS Hv H. pose proof (info_pos ss v HS Hv) as HP. rewrite <- Hv. apply rdot_self_zero. pose proof (rdot_self_nonneg v) as H0.
  pose proof (pow_lt lambda (length ss) Hl) as H1. pose proof (Rmult_lt_0_compat _ _ H1 Hd) as H2.
  destruct (Rle_lt_or_eq_dec _ _ H0) as [H3|H3]; [|now symmetry]. pose proof (Rmult_lt_0_compat _ _ H2 H3). lra.
Qed.

(** the cost, latest sample first, and its closed form for samples in the order of processing *)
Fixpoint costr (ss : list (rv * R)) (v : rv) : R :=
  match ss with
  | [] => delta * rdot (rminus v w0) (rminus v w0)
  | (x, y) :: ss => lambda * costr ss v + (y - rdot v x) * (y - rdot v x)
  end.
Lemma nth_rminus u v i : length u = length v -> nth i (rminus u v) 0 = nth i u 0 - nth i v 0.
Proof.
  intros H. destruct (Nat.lt_ge_cases i (length u)) as [Hi|Hi].
  - exact (map2_nth Rminus u v i 0 0 0 Hi ltac:(lia)).
  - rewrite !nth_overflow; [lra|lia|lia|]. etransitivity; [apply Nat.eq_le_incl, (vsub_length (K := Rring) u v)|]. etransitivity; [apply Nat.le_min_l|exact Hi].
Qed.
Lemma rminus_len u v : length u = n -> length v = n -> length (rminus u v) = n.
Proof. intros Hu Hv. etransitivity; [exact (vsub_length (K := Rring) u v)|]. exact (eq_trans (f_equal2 Nat.min Hu Hv) (Nat.min_id n)). Qed.
Lemma rminus_alt u v : length u = n -> length v = n -> rminus u v = rplus u (rscale (-1) v).
Proof.
  intros Hu Hv. apply (rv_ext n); [now apply rminus_len|apply rplus_len; auto using rscale_len|]. intros i _.
  rewrite nth_rminus, nth_rplus, nth_rscale by (rewrite ?(rscale_len _ _ n); congruence). ring.
Qed.
Lemma costr_quad ss (v : rv) : sized ss -> length v = n ->
  exists k, (forall u : rv, length u = n -> costr ss u = rdot u (info ss u) - 2 * rdot u (rhs ss) + k).
Proof.
  intros HS _. induction HS as [|[x y] ss Hx HS (k & IH)]; cbn [costr info rhs].
  - exists (delta * rdot w0 w0). intros u Hu. rewrite rminus_alt by auto.
    dots. rewrite (rdot_comm w0 u). ring.
  - cbn [fst] in Hx. exists (lambda * k + y * y). intros u Hu. rewrite (IH u Hu).
    dots. rewrite (rdot_comm x u). ring.
Qed.
Lemma costr_min ss (w v : rv) : sized ss -> length w = n -> length v = n -> info ss w = rhs ss ->
  costr ss v = costr ss w + rdot (rminus v w) (info ss (rminus v w)).
Proof.
  intros HS Hw Hv HE. destruct (costr_quad ss v HS Hv) as (k & H). rewrite !H by assumption. rewrite <- HE.
  rewrite rminus_alt by assumption. rewrite info_plus, info_scale by auto using rscale_len.
  assert (L1 : length (rscale (-1) w) = n) by auto using rscale_len. assert (L2 : length (info ss w) = n) by auto using info_len. assert (L3 : length (info ss v) = n) by auto using info_len.
  dots.
  rewrite (info_sym ss w v) by assumption. ring.
Qed.

(** one step *)
Definition vnext (V : list rv) (alpha g : rv) : list rv := map2 (fun gi r => map2 (fun v aj => (v - gi * aj) / lambda) r alpha) g V.
Definition isinv (ss : list (rv * R)) (V : list rv) : Prop :=
  wfm (K := Rring) n n V /\ (forall v : rv, length v = n -> info ss (rmv V v) = v) /\ forall u v : rv, length u = n -> length v = n -> rdot u (rmv V v) = rdot v (rmv V u).

Lemma rmv_len (V : list rv) v : length V = n -> length (rmv V v) = n.
Proof. intros H. exact (eq_trans (mv_length (K := Rring) V v) H). Qed.
Lemma rmv_vnext (V : list rv) (alpha g v : rv) : wfm (K := Rring) n n V -> length alpha = n -> length g = n -> length v = n ->
  rmv (vnext V alpha g) v = rscale (/ lambda) (rplus (rmv V v) (rscale (- rdot alpha v) g)).
Proof.
  intros [HV1' HV2'] Ha Hg Hv. assert (HV1 : @length rv V = n) by exact HV1'. assert (HV2 : Forall (fun r : rv => length r = n) V) by exact HV2'. clear HV1' HV2'. apply (rv_ext n).
  - apply rmv_len. unfold vnext. rewrite map2_length, HV1. lia.
  - apply rscale_len, rplus_len; [now apply rmv_len|now apply rscale_len].
  - intros i Hi. rewrite nth_rscale, nth_rplus, nth_rscale by (rewrite rmv_len, (rscale_len _ _ n); auto).
    unfold rmv, mv. rewrite (nth_indep _ 0 (rdot [] v)) by (rewrite map_length; unfold vnext; rewrite map2_length, HV1; lia).
    etransitivity; [exact (map_nth (fun r => rdot r v) (vnext V alpha g) [] i)|].
    unfold vnext. rewrite (map2_nth _ g V i 0 [] []) by first [exact (eq_ind_r (fun z => (i < z)%nat) Hi Hg) | exact (eq_ind_r (fun z => (i < z)%nat) Hi HV1)].
    assert (HR : length (nth i V []) = n) by (apply (proj1 (Forall_forall _ _) HV2), nth_In; rewrite HV1; lia).
    match goal with |- _ = / lambda * (?z + _) => assert (EV : z = rdot (nth i V []) v) end.
    { rewrite (nth_indep _ 0 (rdot [] v)) by (rewrite map_length; exact (eq_ind_r (fun z => (i < z)%nat) Hi HV1)). exact (map_nth (fun r => rdot r v) V [] i). }
    rewrite EV. clear EV.
    generalize (nth i g 0). intros gi. revert HR Ha Hv. generalize (nth i V []) as r. clear -Hl. intros r Hr Ha Hv.
    revert n alpha v Hr Ha Hv. induction r as [|a r IH]; intros [|m] [|b alpha] [|c v] Hr Ha Hv; try discriminate.
    + change (0 = / lambda * (0 + - 0 * gi)). ring.
    + change ((a - gi * b) / lambda * c + rdot (map2 (fun v aj => (v - gi * aj) / lambda) r alpha) v = / lambda * (a * c + rdot r v + - (b * c + rdot alpha v) * gi)).
      rewrite (IH m alpha v) by (cbn [length] in *; lia). field. lra.
Qed.

Lemma isinv_step ss (V : list rv) (x : rv) y : sized ss -> isinv ss V -> length x = n ->
  let alpha := rmv V x in
  let den := lambda + rdot x alpha in
  let g := map (fun a => a / den) alpha in
  0 < den /\ isinv ((x, y) :: ss) (vnext V alpha g) /\
  (forall w : rv, length w = n -> info ss w = rhs ss -> info ((x, y) :: ss) (rplus w (rscale (y - rdot w x) g)) = rhs ((x, y) :: ss)).
Proof.
  intros HS (HV & HI & HY) Hx. cbv zeta. set (alpha := rmv V x). set (den := lambda + rdot x alpha). set (g := map _ alpha).
  assert (HV1 : @length rv V = n) by apply HV. assert (HV2 : Forall (fun r : rv => length r = n) V) by apply HV.
  assert (Ha : length alpha = n) by (apply rmv_len, HV1).
  assert (Hden : 0 < den).
  { unfold den. pose proof (info_pos ss alpha HS Ha) as HP. rewrite (HI x Hx : info ss alpha = x) in HP. rewrite (rdot_comm alpha x) in HP.
    pose proof (rdot_self_nonneg alpha) as H0. pose proof (pow_lt lambda (length ss) Hl) as H1. pose proof (Rmult_le_pos _ _ (Rlt_le _ _ (Rmult_lt_0_compat _ _ H1 Hd)) H0). lra. }
  assert (EG : g = rscale (/ den) alpha) by (unfold g, rscale, vscale; apply map_ext; intros a; cbn; unfold Rdiv; ring).
  assert (Hg : length g = n) by (rewrite EG; now apply rscale_len).
  assert (EPg : info ss g = rscale (/ den) x) by (rewrite EG, info_scale by assumption; unfold alpha; now rewrite HI).
  assert (Exg : rdot x g = (den - lambda) / den) by (rewrite EG, rdot_scale_r; unfold den; field; fold den; lra).
  assert (Esy : forall v, length v = n -> rdot x (rmv V v) = rdot alpha v) by (intros v Hv; rewrite HY by assumption; apply rdot_comm).
  split; [exact Hden|]. split; [split; [|split]|].
  - split; [unfold vnext; rewrite map2_length, HV1; lia|]. unfold vnext. apply Forall_forall. intros r Hr.
    apply (In_nth _ _ []) in Hr. destruct Hr as (i & Hi & <-). rewrite map2_length, HV1, Hg, Nat.min_id in Hi.
    rewrite (map2_nth _ g V i 0 [] []) by (try rewrite HV1; lia). etransitivity; [apply map2_length|].
    assert (HR : length (nth i V []) = n) by (apply (proj1 (Forall_forall _ _) HV2), nth_In; rewrite HV1; lia).
    exact (eq_trans (f_equal2 Nat.min HR Ha) (Nat.min_id n)).
  - intros v Hv. rewrite rmv_vnext by assumption. cbn [info].
    assert (LV : length (rmv V v) = n) by (apply rmv_len, HV1).
    rewrite info_scale by (try assumption; apply rplus_len; auto using rscale_len). rewrite info_plus, info_scale, HI, EPg by auto using rscale_len.
    rewrite rdot_scale_r, rdot_plus_r by (rewrite (rscale_len _ _ n); congruence). rewrite Esy, rdot_scale_r, Exg by assumption.
    apply (rv_ext n); [repeat (apply rplus_len || apply rscale_len); auto|assumption|]. intros i Hi.
    nths. field. lra.
  - intros u v Hu Hv. rewrite !rmv_vnext by assumption.
    assert (LV : length (rmv V v) = n) by (apply rmv_len, HV1). assert (LU : length (rmv V u) = n) by (apply rmv_len, HV1).
    rewrite !rdot_scale_r, !rdot_plus_r by (rewrite (rscale_len _ _ n); congruence). rewrite HY by assumption. rewrite !rdot_scale_r, EG, !rdot_scale_r.
    rewrite (rdot_comm u alpha), (rdot_comm v alpha). ring.
  - intros w Hw HE. cbn [info rhs].
    rewrite info_plus, info_scale, HE, EPg by auto using rscale_len.
    rewrite rdot_plus_r by (rewrite (rscale_len _ _ n); congruence). rewrite rdot_scale_r, Exg, (rdot_comm x w).
    assert (LR : length (rhs ss) = n) by auto using rhs_len.
    apply (rv_ext n); repeat (apply rplus_len || apply rscale_len); auto. intros i Hi.
    nths. field. lra.
Qed.
Lemma isinv_init : isinv [] (map (map (fun v => v / delta)) (eye (K := Rring) n)).
Proof.
  assert (E : forall v : rv, length v = n -> rmv (map (map (fun v => v / delta)) (eye (K := Rring) n)) v = rscale (/ delta) v).
  { intros v Hv. transitivity (rscale (/ delta) (rmv (eye (K := Rring) n) v)); [|f_equal; exact (mv_eye (K := Rring) n v Hv)].
    unfold rmv, mv, rscale, vscale. rewrite !map_map. apply map_ext. intros r. clear Hv. revert v. induction r as [|a r IH]; intros [|b v]; try (cbn; lra).
    change (a / delta * b + dot (K := Rring) (map (fun v => v / delta) r) v = / delta * (a * b + dot (K := Rring) r v)). rewrite IH. change (rmul Rring) with Rmult. field. lra. }
  split; [|split].
  - destruct (eye_wf (K := Rring) n) as [W1 W2]. split; [now rewrite map_length|]. apply Forall_map. eapply Forall_impl; [|exact W2]. intros r Hr. cbv beta. now rewrite map_length.
  - intros v Hv. rewrite E by assumption. cbn [info]. apply (rv_ext n); repeat apply rscale_len; auto. intros i _. rewrite !nth_rscale. field. lra.
  - intros u v Hu Hv. rewrite !E by assumption. rewrite !rdot_scale_r, (rdot_comm u v). reflexivity.
Qed.
End RLS.

(** *** the filter state as one vector *)
Definition flat (h : list rv) (o : R) : rv := concat h ++ [o].
Definition sample (x : list rv) : rv := concat x ++ [1].

Lemma concat_len {A} M K (x : list (list A)) : length x = M -> Forall (fun r => length r = K) x -> length (concat x) = (M * K)%nat.
Proof. intros <- H. induction H as [|r x Hr _ IH]; [reflexivity|]. cbn [concat length]. rewrite app_length, IH, Hr. reflexivity. Qed.
Lemma flat_len M K h o : wfm (K := Rring) M K h -> length (flat h o) = (M * K + 1)%nat.
Proof. intros [H1 H2]. unfold flat. rewrite app_length. rewrite (concat_len M K) by assumption. reflexivity. Qed.
Lemma concat_map2 {A B D} (f : A -> B -> D) x y : Forall2 (fun r s => length r = length s) x y ->
  concat (map2 (map2 f) x y) = map2 f (concat x) (concat y).
Proof.
  intros H. induction H as [|r s x y Hrs _ IH]; [reflexivity|]. cbn [map2 concat]. rewrite IH. clear IH.
  revert s Hrs. induction r as [|a r IH]; intros [|b s] Hrs; try discriminate; [reflexivity|]. cbn [map2 app]. rewrite IH by (now injection Hrs). reflexivity.
Qed.
Definition shape {A} (M K : nat) (x : list (list A)) : Prop := length x = M /\ Forall (fun r => length r = K) x.
Lemma shape_map2 {A B D} (f : A -> B -> D) M K x y : shape M K x -> shape M K y -> shape M K (map2 (map2 f) x y).
Proof.
  intros [H1 H2] [H3 H4]. split; [rewrite map2_length, H1, H3; apply Nat.min_id|].
  apply Forall_forall. intros r Hr. apply (In_nth _ _ []) in Hr. destruct Hr as (i & Hi & <-). rewrite map2_length in Hi.
  rewrite (map2_nth _ _ _ i [] [] []) by lia. rewrite map2_length.
  rewrite (proj1 (Forall_forall _ _) H2 (nth i x [])) by (apply nth_In; lia).
  rewrite (proj1 (Forall_forall _ _) H4 (nth i y [])) by (apply nth_In; lia). apply Nat.min_id.
Qed.
Lemma wf_forall2 M K (x y : list rv) : wfm (K := Rring) M K x -> wfm (K := Rring) M K y -> Forall2 (fun r s => length r = length s) x y.
Proof.
  intros [H1 H2] [H3 H4]. assert (E : length x = length y) by (etransitivity; [exact H1|symmetry; exact H3]). clear H1 H3.
  revert y E H4. induction x as [|r x IH]; intros [|s y] E H4; try discriminate; constructor.
  - inversion H2; inversion H4; subst. cbn in *. congruence.
  - apply IH; [now inversion H2|now injection E|now inversion H4].
Qed.
Definition resh {A} (M K : nat) (v : list A) : list (list A) := map (fun m => firstn K (skipn (m * K) v)) (seq 0 M).
Lemma concat_resh {A} M K (v : list A) : length v = (M * K)%nat -> concat (resh M K v) = v.
Proof.
  unfold resh. intros H. assert (G : forall j, (j <= M)%nat -> concat (map (fun m => firstn K (skipn (m * K) v)) (seq 0 j)) = firstn (j * K) v).
  { induction j as [|j IH]; intros Hj; [reflexivity|]. rewrite seq_S, map_app, concat_app, IH by lia. cbn [map concat plus]. rewrite app_nil_r.
    replace (S j * K)%nat with (j * K + K)%nat by lia. rewrite <- (firstn_skipn (j * K) v) at 3. rewrite firstn_app. rewrite firstn_firstn, firstn_length.
    rewrite Nat.min_r by lia. rewrite Nat.min_l by (rewrite H; nia). f_equal. f_equal. lia. }
  rewrite G by lia. apply firstn_all2. lia.
Qed.
Lemma resh_wf {A} M K (v : list A) : length v = (M * K)%nat -> length (resh M K v) = M /\ Forall (fun r => length r = K) (resh M K v).
Proof.
  intros H. unfold resh. split; [now rewrite map_length, seq_length|]. apply Forall_map, Forall_forall. intros m Hm. apply in_seq in Hm.
  rewrite firstn_length, skipn_length, H. nia.
Qed.
Lemma concat_reshape M K (v : rv) : length v = (M * K)%nat -> concat (reshape (F := Rfield) M K v) = v.
Proof. exact (concat_resh M K v). Qed.
Lemma reshape_wf M K (v : rv) : length v = (M * K)%nat -> wfm (K := Rring) M K (reshape (F := Rfield) M K v).
Proof. exact (resh_wf M K v). Qed.
Lemma map2_rplus (f : R -> R -> R) c (u v : rv) : (forall a b, f a b = a + b * c) -> map2 f u v = rplus u (rscale c v).
Proof.
  intros Hf. revert v. induction u as [|a u IH]; intros [|b v]; try reflexivity. change (f a b :: map2 f u v = a + c * b :: rplus u (rscale c v)). rewrite IH, Hf. f_equal. ring.
Qed.

Lemma rdot_snoc (u v : rv) a b : length u = length v -> rdot (u ++ [a]) (v ++ [b]) = rdot u v + a * b.
Proof.
  revert v. induction u as [|c u IH]; intros [|d v] E; try discriminate.
  - change (a * b + 0 = 0 + a * b). ring.
  - change (c * d + rdot (u ++ [a]) (v ++ [b]) = c * d + rdot u v + a * b). rewrite IH by (now injection E). ring.
Qed.
Lemma flat_sample M K h o x : wfm (K := Rring) M K h -> wfm (K := Rring) M K x -> tdot (F := Rfield) h x + o = rdot (flat h o) (sample x).
Proof.
  intros [H1 H2] [H3 H4]. unfold tdot. cbn [sconj Rfield]. rewrite map_id. unfold flat, sample. rewrite rdot_snoc.
  - rewrite Rmult_1_r. reflexivity.
  - etransitivity; [exact (concat_len M K h H1 H2)|symmetry; exact (concat_len M K x H3 H4)].
Qed.
Lemma removelast_last {A} (g : list A) d : g <> [] -> removelast g ++ [last g d] = g.
Proof. intros H. symmetry. now apply app_removelast_last. Qed.
Lemma removelast_len {A} (g : list A) n : length g = S n -> length (removelast g) = n.
Proof. intros H. destruct g as [|a g]; [discriminate|]. assert (E := removelast_last (a :: g) a ltac:(discriminate)). apply (f_equal (@length A)) in E. rewrite app_length, H in E. cbn [length] in E. lia. Qed.

(** a real filter for one reference, as constructed or trained by lms or rls *)
Definition rst (h : list rv) (hm : list (list rv)) (o : R) (om : rv) (vv : option (list rv)) : @afst Rfield := @mkAF Rfield [h] hm (Off2 [o]) om vv.

Lemma rls_step_R M K (lambda : R) (h : list rv) hm o om vv (V : list rv) (x : list rv) (y : R) : wfm (K := Rring) M K h -> wfm (K := Rring) M K x -> wfm (K := Rring) (M * K + 1) (M * K + 1) V ->
  let xf := sample x in
  let alpha := rmv V xf in
  let g := map (fun a => a / (lambda + rdot xf alpha)) alpha in
  exists h' o', rls_step (F := Rfield) M K 1 lambda (rst h hm o om vv) V x [y] = Ok (rst h' hm o' om vv, vnext lambda V alpha g)
    /\ wfm (K := Rring) M K h' /\ flat h' o' = rplus (flat h o) (rscale (y - rdot (flat h o) xf) g).
Proof.
  intros Hh Hx HV. cbv zeta. set (xf := sample x). set (alpha := rmv V xf). set (g := map _ alpha).
  set (e := y - (tdot (F := Rfield) h x + o)).
  assert (Hg : length g = S (M * K)) by (unfold g; rewrite map_length; etransitivity; [apply rmv_len, HV|lia]).
  exists (map2 (map2 (fun a b => a + b * e)) h (reshape (F := Rfield) M K (removelast g))), (o + last g 0 * e).
  assert (HR : wfm (K := Rring) M K (reshape (F := Rfield) M K (removelast g))) by (apply reshape_wf, removelast_len; exact Hg).
  split; [|split].
  - unfold rls_step, resid, call. cbn [a_off a_h Nat.eqb]. cbn [seq map length bind map2 nth]. cbn [sconj Rfield]. cbn [Nat.leb].
    unfold xf, alpha, g, e, sample, rmv, rdot, vnext. rewrite !map_id. reflexivity.
  - exact (shape_map2 _ M K h _ Hh HR).
  - unfold flat at 1. rewrite concat_map2 by (eapply wf_forall2; eassumption). rewrite concat_reshape by (now apply removelast_len).
    replace (y - rdot (flat h o) xf) with e by (unfold e, xf; now rewrite (flat_sample M K)).
    rewrite (map2_rplus _ e) by reflexivity. unfold flat.
    rewrite <- (removelast_last g 0) at 3 by (intros HN; rewrite HN in Hg; discriminate).
    assert (E : length (concat h) = length (removelast g)) by (rewrite (removelast_len g _ Hg), (concat_len M K); [reflexivity|apply Hh|apply Hh]).
    revert E. generalize (concat h) (removelast g) (last g 0). clear. intros u v l E. revert v E.
    induction u as [|a u IH]; intros [|b v] E; try discriminate.
    + change ([o + l * e] = [o + e * l]). f_equal. ring.
    + change (a + e * b :: (rplus u (rscale e v) ++ [o + l * e]) = a + e * b :: rplus (u ++ [o]) (rscale e (v ++ [l]))). now rewrite IH by (now injection E).
Qed.
