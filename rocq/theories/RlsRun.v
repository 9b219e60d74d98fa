(** AdaptiveFIRFilter.rls: whole runs. *)
From Coq Require Import List Lia Arith Bool ZArith Reals Lra Permutation.
From Coquelicot Require Import Complex.
From Verif Require Import Base LinAlg BatchProofs FirExtras Zpk Adaptive AdaptiveProofs.
Import ListNotations.
Open Scope R_scope.

(** *** specification: exponentially weighted, regularised least squares *)
(** A sample: the value of tap (m, k) and the reference value. *)
Definition rsample : Type := (nat -> nat -> R) * R.
Fixpoint rsum (n : nat) (f : nat -> R) : R := match n with O => 0 | S n => rsum n f + f n end.
Definition fir_out (M K : nat) (h : list (list R)) (o : R) (x : nat -> nat -> R) : R :=
  rsum M (fun m => rsum K (fun k => nth k (nth m h []) 0 * x m k)) + o.
Definition fir_dist2 (M K : nat) (h h' : list (list R)) (o o' : R) : R :=
  rsum M (fun m => rsum K (fun k => (nth k (nth m h []) 0 - nth k (nth m h' []) 0) ^ 2)) + (o - o') ^ 2.
Definition ls_cost (M K : nat) (delta lambda : R) (h0 : list (list R)) (o0 : R) (ss : list rsample) (h : list (list R)) (o : R) : R :=
  delta * lambda ^ length ss * fir_dist2 M K h h0 o o0
  + rsum (length ss) (fun i => lambda ^ (length ss - 1 - i) * (snd (nth i ss (fun _ _ => 0, 0)) - fir_out M K h o (fst (nth i ss (fun _ _ => 0, 0)))) ^ 2).
(** tap (m, k) of the window that starts at [t]; the window is not transposed when K = M *)
Definition tap (M K : nat) (x : list (list R)) (t m k : nat) : R :=
  if Nat.eqb K M then nth k (nth (t + m) x []) 0 else nth m (nth (t + k) x []) 0.
(** sample indices in the order in which the epochs process them *)
Fixpoint order (perms : list (option (list nat))) (idx : list nat) : list nat :=
  match perms with
  | [] => []
  | p :: perms => let idx := match p with Some p => map (fun i => nth i idx O) p | None => idx end in idx ++ order perms idx
  end.

(** *** sums *)
Lemma rsum_ext n f g : (forall i, (i < n)%nat -> f i = g i) -> rsum n f = rsum n g.
Proof. induction n; intros H; cbn; [reflexivity|]. rewrite IHn by (intros; apply H; lia). now rewrite H by lia. Qed.
Lemma rsum_S_l n f : rsum (S n) f = f O + rsum n (fun i => f (S i)).
Proof. induction n; cbn; [lra|]. cbn in IHn. rewrite IHn. lra. Qed.
Lemma rsum_scale n c f : rsum n (fun i => c * f i) = c * rsum n f.
Proof. induction n; cbn; [lra|]. rewrite IHn. lra. Qed.
Lemma rdot_rsum K (a b : rv) : length a = K -> length b = K -> rdot a b = rsum K (fun k => nth k a 0 * nth k b 0).
Proof.
  intros Ha Hb. subst K. revert b Hb. induction a as [|x a IH]; intros [|y b] Hb; try discriminate; [reflexivity|].
  cbn [length]. rewrite rsum_S_l. change (x * y + rdot a b = x * y + rsum (length a) (fun k => nth k a 0 * nth k b 0)). now rewrite IH by (now injection Hb).
Qed.
Lemma rdot_app (a b c d : rv) : length a = length c -> rdot (a ++ b) (c ++ d) = rdot a c + rdot b d.
Proof.
  revert c. induction a as [|x a IH]; intros [|y c] H; try discriminate; [change (rdot b d = 0 + rdot b d); ring|].
  change (x * y + rdot (a ++ b) (c ++ d) = x * y + rdot a c + rdot b d). rewrite IH by (now injection H). ring.
Qed.
Lemma rdot_concat M K (a b : list rv) : shape M K a -> shape M K b ->
  rdot (concat a) (concat b) = rsum M (fun m => rsum K (fun k => nth k (nth m a []) 0 * nth k (nth m b []) 0)).
Proof.
  intros [H1 H2] [H3 H4]. revert M b H1 H3 H4. induction a as [|r a IH]; intros M [|s b] H1 H3 H4; cbn [length] in *; try lia.
  - subst M. reflexivity.
  - destruct M as [|M]; [lia|]. inversion H2; inversion H4; subst. cbn [concat]. rewrite rdot_app by congruence. rewrite rsum_S_l. cbn [nth].
    rewrite (IH ltac:(assumption) M b) by (auto; lia). f_equal. now apply rdot_rsum.
Qed.
Lemma shape_wfm M K (x : list rv) : shape M K x <-> wfm (K := Rring) M K x.
Proof. split; intros H; exact H. Qed.

Lemma fir_out_flat M K h o x : shape M K h -> shape M K x ->
  rdot (flat h o) (sample x) = fir_out M K h o (fun m k => nth k (nth m x []) 0).
Proof.
  intros Hh Hx. unfold flat, sample, fir_out. rewrite rdot_snoc; [rewrite (rdot_concat M K) by assumption; ring|].
  rewrite (concat_len M K h), (concat_len M K x); [reflexivity|apply Hx|apply Hx|apply Hh|apply Hh].
Qed.
Lemma map2_concat_minus M K (a b : list rv) : shape M K a -> shape M K b -> rminus (concat a) (concat b) = concat (map2 (map2 Rminus) a b).
Proof. intros Ha Hb. symmetry. apply concat_map2. exact (wf_forall2 M K a b Ha Hb). Qed.
Lemma fir_dist2_flat M K h h' o o' : shape M K h -> shape M K h' ->
  rdot (rminus (flat h o) (flat h' o')) (rminus (flat h o) (flat h' o')) = fir_dist2 M K h h' o o'.
Proof.
  intros Hh Hh'.
  assert (E : rminus (flat h o) (flat h' o') = flat (map2 (map2 Rminus) h h') (o - o')).
  { unfold flat. rewrite <- (map2_concat_minus M K) by assumption.
    assert (EL : length (concat h) = length (concat h')) by (rewrite (concat_len M K h), (concat_len M K h'); [reflexivity|apply Hh'|apply Hh'|apply Hh|apply Hh]).
    revert EL. generalize (concat h) (concat h'). clear. induction l as [|a l IH]; intros [|b m] E; try discriminate; [reflexivity|].
    change (a - b :: rminus (l ++ [o]) (m ++ [o']) = a - b :: (rminus l m ++ [o - o'])). now rewrite IH by (now injection E). }
  assert (HS : shape M K (map2 (map2 Rminus) h h')) by (now apply shape_map2).
  rewrite E. unfold flat. rewrite rdot_snoc by reflexivity. rewrite (rdot_concat M K) by assumption. unfold fir_dist2. f_equal; [|ring].
  apply rsum_ext. intros m Hm. apply rsum_ext. intros k Hk.
  assert (L1 : length (nth m h []) = K) by (apply (proj1 (Forall_forall _ _) (proj2 Hh)), nth_In; rewrite (proj1 Hh); assumption).
  assert (L2 : length (nth m h' []) = K) by (apply (proj1 (Forall_forall _ _) (proj2 Hh')), nth_In; rewrite (proj1 Hh'); assumption).
  rewrite (map2_nth _ h h' m [] [] []) by (rewrite ?(proj1 Hh), ?(proj1 Hh'); assumption).
  rewrite (map2_nth Rminus _ _ k 0 0 0) by (rewrite ?L1, ?L2; assumption). ring.
Qed.

(** *** samples: windows against taps *)
Definition wsample (xy : list rv * R) : rsample := (fun m k => nth k (nth m (fst xy) []) 0, snd xy).
Definition vsample (xy : list rv * R) : rv * R := (sample (fst xy), snd xy).

Lemma ls_cost_costr M K delta lambda h0 o0 (ss : list (list rv * R)) h o : 0 < lambda -> shape M K h0 -> shape M K h -> Forall (fun s => shape M K (fst s)) ss ->
  ls_cost M K delta lambda h0 o0 (map wsample ss) h o = costr delta lambda (flat h0 o0) (map vsample (rev ss)) (flat h o).
Proof.
  intros Hl Hh0 Hh HS. induction ss as [|s ss IH] using rev_ind.
  - cbn. unfold ls_cost. cbn. rewrite (fir_dist2_flat M K) by assumption. ring.
  - apply Forall_app in HS. destruct HS as [HS Hs]. specialize (IH HS). inversion Hs as [|? ? Hs' _]; subst. clear Hs.
    rewrite rev_app_distr. cbn [rev app map costr]. unfold vsample at 1. rewrite <- IH. unfold ls_cost. rewrite map_app, app_length. cbn [map length].
    rewrite Nat.add_1_r. cbn [rsum pow]. rewrite app_nth2 by lia. rewrite Nat.sub_diag. cbn [nth].
    replace (S (length (map wsample ss)) - 1 - length (map wsample ss))%nat with O by lia. cbn [pow].
    rewrite (rsum_ext _ _ (fun i => lambda * (lambda ^ (length (map wsample ss) - 1 - i) * (snd (nth i (map wsample ss) (fun _ _ => 0, 0)) - fir_out M K h o (fst (nth i (map wsample ss) (fun _ _ => 0, 0)))) ^ 2))).
    + rewrite rsum_scale. rewrite fir_out_flat with (M := M) (K := K) by assumption. cbn [pow]. change (snd (wsample s)) with (snd s). change (fst (wsample s)) with (fun m k : nat => nth k (nth m (fst s) []) 0). ring.
    + intros i Hi. rewrite app_nth1 by assumption. replace (S (length (map wsample ss)) - 1 - i)%nat with (S (length (map wsample ss) - 1 - i)) by lia. cbn [pow]. ring.
Qed.

Lemma flat_inj M K h h' o o' : shape M K h -> shape M K h' -> flat h o = flat h' o' -> h = h' /\ o = o'.
Proof.
  intros [H1 H2] [H3 H4] E. apply app_inj_tail in E. destruct E as [E Eo]. split; [|exact Eo]. clear Eo.
  revert M h' H1 H3 H4 E. induction h as [|r h IH]; intros M [|r' h'] H1 H3 H4 E; cbn [length] in *; try lia; [reflexivity|].
  inversion H2; inversion H4; subst. cbn [concat] in E. assert (E1 : r = r' /\ concat h = concat h').
  { assert (EL : length r = length r') by congruence. clear - E EL. revert r' EL E. induction r as [|a r IH]; intros [|b r'] EL E; try discriminate; [now split|].
    injection E as -> E. destruct (IH r' ltac:(now injection EL) E) as [-> ->]. now split. }
  destruct E1 as [-> E1]. f_equal. apply (IH ltac:(assumption) (length h)); auto; lia.
Qed.
Lemma sample_len M K x : shape M K x -> length (sample x) = (M * K + 1)%nat.
Proof. intros H. unfold sample. rewrite app_length, (concat_len M K x) by apply H. reflexivity. Qed.

(** *** runs *)
Section Run.
Variables M K : nat.
Let n := (M * K + 1)%nat.
Variables delta lambda : R.
Hypothesis Hd : 0 < delta.
Hypothesis Hl : 0 < lambda.
Variable h0 : list rv.
Variable o0 : R.
Hypothesis Hh0 : shape M K h0.

(** after the windows and references [ss] (in order): filter solves the normal equations, V inverts the information matrix *)
Definition fitted (ss : list (list rv * R)) (h : list rv) (o : R) (V : list rv) : Prop :=
  shape M K h /\ Forall (fun s => shape M K (fst s)) ss /\
  isinv n delta lambda (map vsample (rev ss)) V /\ info delta lambda (map vsample (rev ss)) (flat h o) = rhs delta lambda (flat h0 o0) (map vsample (rev ss)).

Lemma sized_map ss : Forall (fun s => shape M K (fst s)) ss -> sized n (map vsample (rev ss)).
Proof.
  intros H. unfold sized. apply Forall_forall. intros s Hs. apply in_map_iff in Hs. destruct Hs as (t & <- & Ht). apply in_rev in Ht.
  apply sample_len. exact (proj1 (Forall_forall _ _) H t Ht).
Qed.
Lemma fitted_init : fitted [] h0 o0 (map (map (fun v => v / delta)) (eye (K := Rring) n)).
Proof. split; [exact Hh0|]. split; [constructor|]. split; [now apply isinv_init|reflexivity]. Qed.
Lemma rls_run_R ss h hm o om vv V (xs : list (list rv)) (ys : list R) : fitted ss h o V -> length xs = length ys -> Forall (shape M K) xs ->
  exists h' o' V', rls_run (F := Rfield) M K 1 lambda (rst h hm o om vv) V xs (map (fun y => [y]) ys) = Ok (rst h' hm o' om vv, V')
    /\ fitted (ss ++ combine xs ys) h' o' V'.
Proof.
  revert ss h o V ys. induction xs as [|x xs IH]; intros ss h o V [|y ys] HF HE HX; try discriminate.
  - exists h, o, V. split; [reflexivity|]. cbn [combine]. now rewrite app_nil_r.
  - inversion HX as [|? ? Hx HX']; subst. destruct HF as (Hh & HS & HV & HN).
    destruct (rls_step_R M K lambda h hm o om vv V x y Hh Hx (proj1 HV)) as (h' & o' & E & Hh' & EF).
    destruct (isinv_step n delta lambda Hd Hl (flat h0 o0) (flat_len M K h0 o0 Hh0) (map vsample (rev ss)) V (sample x) y (sized_map ss HS) HV (sample_len M K x Hx)) as (Hden & HV' & HN').
    assert (HF' : fitted (ss ++ [(x, y)]) h' o' (vnext lambda V (rmv V (sample x)) (map (fun a => a / (lambda + rdot (sample x) (rmv V (sample x)))) (rmv V (sample x))))).
    { split; [exact Hh'|]. split; [apply Forall_app; split; [exact HS|apply Forall_cons; [exact Hx|apply Forall_nil]]|].
      rewrite rev_app_distr. cbn [rev app map]. split; [exact HV'|]. rewrite EF. apply HN'; [|exact HN]. exact (flat_len M K h o Hh). }
    destruct (IH _ _ _ _ ys HF' ltac:(now injection HE) HX') as (h2 & o2 & V2 & E2 & HF2).
    exists h2, o2, V2. split.
    + cbn [rls_run map]. rewrite E. cbn [bind]. exact E2.
    + rewrite <- app_assoc in HF2. exact HF2.
Qed.
Lemma fitted_min ss h o V : fitted ss h o V ->
  forall h' o', shape M K h' -> ls_cost M K delta lambda h0 o0 (map wsample ss) h o <= ls_cost M K delta lambda h0 o0 (map wsample ss) h' o'
    /\ (ls_cost M K delta lambda h0 o0 (map wsample ss) h' o' <= ls_cost M K delta lambda h0 o0 (map wsample ss) h o -> h' = h /\ o' = o).
Proof.
  intros (Hh & HS & HV & HN) h' o' Hh'. rewrite !(ls_cost_costr M K) by assumption.
  pose proof (sized_map ss HS) as HZ.
  assert (L : length (flat h o) = n) by exact (flat_len M K h o Hh).
  assert (L' : length (flat h' o') = n) by exact (flat_len M K h' o' Hh').
  assert (L0 : length (flat h0 o0) = n) by exact (flat_len M K h0 o0 Hh0).
  assert (LD : length (rminus (flat h' o') (flat h o)) = n) by (now apply rminus_len).
  rewrite (costr_min n delta lambda (flat h0 o0) L0 (map vsample (rev ss)) (flat h o) (flat h' o') HZ L L' HN).
  pose proof (info_pos n delta lambda Hl (map vsample (rev ss)) _ HZ LD) as HP.
  pose proof (rdot_self_nonneg (rminus (flat h' o') (flat h o))) as H0.
  assert (HC : 0 <= lambda ^ length (map vsample (rev ss)) * delta * rdot (rminus (flat h' o') (flat h o)) (rminus (flat h' o') (flat h o))).
  { apply Rmult_le_pos; [|exact H0]. apply Rlt_le, Rmult_lt_0_compat; [now apply pow_lt|exact Hd]. }
  split; [lra|]. intros HQ.
  assert (EZ : rminus (flat h' o') (flat h o) = repeat 0 n) by (apply (info_zero n delta lambda Hd Hl (map vsample (rev ss)) _ HZ LD); lra).
  apply (flat_inj M K); [exact Hh'|exact Hh|]. apply (rv_ext n); [exact L'|exact L|]. intros i Hi.
  assert (EN : nth i (rminus (flat h' o') (flat h o)) 0 = 0) by (rewrite EZ; apply nth_repeat).
  pose proof (nth_rminus n (flat h0 o0) L0 (flat h' o') (flat h o) i (eq_trans L' (eq_sym L))) as EM. lra.
Qed.
End Run.

(** *** predictions and loss with one real reference *)
Lemma map_seq_nth {A B} (f : A -> B) (l : list A) d : map (fun i => f (nth i l d)) (seq 0 (length l)) = map f l.
Proof.
  induction l as [|a l IH]; [reflexivity|]. cbn [length seq map nth]. f_equal. rewrite <- seq_shift, map_map. exact IH.
Qed.
Lemma call_R h hm o om vv (xs : list (list rv)) :
  call (F := Rfield) 1 (rst h hm o om vv) xs = Ok [map (fun x => tdot (F := Rfield) h x + o) xs].
Proof. unfold call. cbn. f_equal. f_equal. exact (map_seq_nth (fun x => tdot (F := Rfield) h x + o) xs []). Qed.
Lemma resid_R h hm o om vv (xs : list (list rv)) (ys : list R) : length ys = length xs ->
  resid (F := Rfield) 1 (rst h hm o om vv) xs [ys] = Ok [map2 (fun y x => y - (tdot (F := Rfield) h x + o)) ys xs].
Proof.
  intros E. unfold resid. rewrite call_R. cbn [bind map2]. f_equal. f_equal.
  assert (G : vsub (K := Rring) ys (map (fun x => tdot (F := Rfield) h x + o) xs) = map2 (fun y x => y - (tdot (F := Rfield) h x + o)) ys xs).
  { clear E. revert ys. induction xs as [|x xs IH]; intros [|y ys]; try reflexivity. cbn. f_equal. apply IH. }
  destruct ys as [|y [|y2 ys]]; [exact G| |exact G]. destruct xs as [|x [|x2 xs]]; try discriminate. reflexivity.
Qed.
Lemma ofnat_INR T : ofnat (F := Rfield) T = INR T.
Proof. induction T; [reflexivity|]. rewrite S_INR. cbn [ofnat]. rewrite IHT. reflexivity. Qed.
Lemma dot_self_map2 (f : R -> list rv -> R) (ys : list R) (xs : list (list rv)) T : length ys = T -> length xs = T ->
  rdot (map2 f ys xs) (map2 f ys xs) = rsum T (fun t => f (nth t ys 0) (nth t xs []) ^ 2).
Proof.
  intros Hy Hx. rewrite (rdot_rsum T) by (rewrite map2_length, Hy, Hx; apply Nat.min_id).
  apply rsum_ext. intros t Ht. rewrite (map2_nth f ys xs t 0 [] 0) by (rewrite ?Hy, ?Hx; assumption). ring.
Qed.
Lemma loss_R M K h hm o om vv (xs : list (list rv)) (ys : list R) T : shape M K h -> Forall (shape M K) xs ->
  length xs = T -> length ys = T -> (0 < T)%nat ->
  loss (F := Rfield) 1 (rst h hm o om vv) xs [ys]
  = Ok [rsum T (fun t => (nth t ys 0 - fir_out M K h o (fun m k => nth k (nth m (nth t xs []) []) 0)) ^ 2) / INR T].
Proof.
  intros Hh HX Hx Hy HT.
  assert (Eb0 : Nat.eqb (length xs) 0 = false) by (apply Nat.eqb_neq; rewrite Hx; lia).
  unfold loss. rewrite resid_R by (now rewrite Hx). cbn [bind].
  match goal with |- context [Nat.eqb ?a 0] => assert (Eb : Nat.eqb a 0 = false) by exact Eb0; rewrite Eb end.
  f_equal. cbn [map]. f_equal. cbn [sdiv sconj]. rewrite map_id.
  assert (E1 : ofnat (F := Rfield) (length xs) = INR T) by (rewrite ofnat_INR; exact (f_equal INR Hx)).
  transitivity (rdot (map2 (fun y x => y - (tdot (F := Rfield) h x + o)) ys xs) (map2 (fun y x => y - (tdot (F := Rfield) h x + o)) ys xs) / INR T).
  - exact (f_equal (fun z => rdot (map2 (fun y x => y - (tdot (F := Rfield) h x + o)) ys xs) (map2 (fun y x => y - (tdot (F := Rfield) h x + o)) ys xs) / z) E1).
  - f_equal. rewrite (dot_self_map2 _ ys xs T Hy Hx). apply rsum_ext. intros t Ht. f_equal. f_equal.
    assert (HxT : shape M K (nth t xs [])) by (apply (proj1 (Forall_forall _ _) HX), nth_In; exact (eq_ind_r (fun z => (t < z)%nat) Ht Hx)).
    rewrite <- fir_out_flat by assumption. exact (flat_sample M K h o (nth t xs []) Hh HxT).
Qed.

(** *** epochs *)
Definition valid_perms (T : nat) (perms : list (option (list nat))) : Prop := forall p, In (Some p) perms -> Permutation p (seq 0 T).

Section Epochs.
Variables M K : nat.
Variable T : nat.
Variable W : nat -> list rv.
Variable Y : nat -> R.
Hypothesis HW : forall i, (i < T)%nat -> shape M K (W i).
Definition okidx (idx : list nat) : Prop := length idx = T /\ Forall (fun i => (i < T)%nat) idx.

Lemma okidx_perm idx p : okidx idx -> Permutation p (seq 0 T) -> okidx (map (fun i => nth i idx O) p).
Proof.
  intros [H1 H2] HP. split.
  - rewrite map_length, (Permutation_length HP). apply seq_length.
  - apply Forall_forall. intros i Hi. apply in_map_iff in Hi. destruct Hi as (j & <- & Hj).
    apply (proj1 (Forall_forall _ _) H2), nth_In. rewrite H1. apply (Permutation_in _ HP) in Hj. apply in_seq in Hj. lia.
Qed.
Lemma perm_gen {A} (f : nat -> A) d idx p : okidx idx -> Permutation p (seq 0 T) ->
  map (fun i => nth i (map f idx) d) p = map f (map (fun i => nth i idx O) p).
Proof.
  intros [H1 H2] HP. rewrite map_map. apply map_ext_in. intros i Hi.
  apply (Permutation_in _ HP) in Hi. apply in_seq in Hi. rewrite nth_indep with (d' := f O) by (rewrite map_length, H1; lia). apply map_nth.
Qed.
Lemma columns_R (l : list R) : columns (F := Rfield) (length l) [l] = map (fun y => [y]) l.
Proof. exact (map_seq_nth (fun y => [y]) l 0). Qed.
Lemma okidx_shape idx : okidx idx -> Forall (shape M K) (map W idx).
Proof.
  intros [_ H]. apply Forall_forall. intros w Hw. apply in_map_iff in Hw. destruct Hw as (i & <- & Hi). apply HW.
  exact (proj1 (Forall_forall _ _) H i Hi).
Qed.
Lemma combine_map {A B D} (f : A -> B) (g : A -> D) l : combine (map f l) (map g l) = map (fun i => (f i, g i)) l.
Proof. induction l; cbn; congruence. Qed.

Variables delta lambda : R.
Hypothesis Hd : 0 < delta.
Hypothesis Hl : 0 < lambda.
Variable h0 : list rv.
Variable o0 : R.
Hypothesis Hh0 : shape M K h0.

Lemma rls_epochs_R perms : valid_perms T perms -> forall ss h hm o om vv V idx, okidx idx -> fitted M K delta lambda h0 o0 ss h o V ->
  exists h' o' V' idx', rls_epochs (F := Rfield) M K 1 perms lambda (rst h hm o om vv) V (map W idx) [map Y idx]
      = Ok (rst h' hm o' om vv, V', map W idx', [map Y idx'])
    /\ okidx idx' /\ (Permutation idx (seq 0 T) -> Permutation idx' (seq 0 T))
    /\ fitted M K delta lambda h0 o0 (ss ++ map (fun i => (W i, Y i)) (order perms idx)) h' o' V'.
Proof.
  induction perms as [|p perms IH]; intros HP ss h hm o om vv V idx HI HF.
  - exists h, o, V, idx. split; [reflexivity|]. split; [exact HI|]. split; [auto|]. cbn. now rewrite app_nil_r.
  - set (idx1 := match p with Some p => map (fun i => nth i idx O) p | None => idx end).
    assert (HI1 : okidx idx1) by (subst idx1; destruct p as [p|]; [apply okidx_perm; [exact HI|apply HP; now left]|exact HI]).
    assert (HP1 : Permutation idx (seq 0 T) -> Permutation idx1 (seq 0 T)).
    { subst idx1. destruct p as [p|]; [|auto]. intros HPI. rewrite (Permutation_map (fun i => nth i idx O) (HP p (or_introl eq_refl))).
      rewrite <- (proj1 HI). pose proof (map_seq_nth (fun i : nat => i) idx O) as E. rewrite map_id in E. rewrite E. now rewrite (proj1 HI). }
    assert (EX : match p with Some p => perm_x (F := Rfield) p (map W idx) | None => map W idx end = map W idx1).
    { subst idx1. destruct p as [p|]; [|reflexivity]. exact (perm_gen W [] idx p HI (HP p (or_introl eq_refl))). }
    assert (EY : match p with Some p => perm_y (F := Rfield) p [map Y idx] | None => [map Y idx] end = [map Y idx1]).
    { subst idx1. destruct p as [p|]; [|reflexivity]. unfold perm_y. cbn [map]. f_equal. exact (perm_gen Y 0 idx p HI (HP p (or_introl eq_refl))). }
    destruct (rls_run_R M K delta lambda Hd Hl h0 o0 Hh0 ss h hm o om vv V (map W idx1) (map Y idx1) HF) as (h1 & o1 & V1 & E1 & HF1).
    { now rewrite !map_length. }
    { now apply okidx_shape. }
    rewrite combine_map in HF1.
    destruct (IH ltac:(intros q Hq; apply HP; now right) _ h1 hm o1 om vv V1 idx1 HI1 HF1) as (h2 & o2 & V2 & idx2 & E2 & HI2 & HP2 & HF2).
    exists h2, o2, V2, idx2. split; [|split; [exact HI2|split; [auto|]]].
    + cbn [rls_epochs]. 
      transitivity (bind (rls_run (F := Rfield) M K 1 lambda (rst h hm o om vv) V (map W idx1) (columns (F := Rfield) (length (map W idx1)) [map Y idx1]))
        (fun '(st, V) => rls_epochs (F := Rfield) M K 1 perms lambda st V (map W idx1) [map Y idx1])).
      { rewrite <- EX, <- EY. reflexivity. }
      assert (EC : columns (F := Rfield) (length (map W idx1)) [map Y idx1] = map (fun y => [y]) (map Y idx1)).
      { rewrite map_length. rewrite <- (map_length Y idx1). apply columns_R. }
      rewrite EC. refine (eq_trans (f_equal (fun z => bind z _) E1) _). exact E2.
    + cbn [order]. fold idx1. rewrite map_app, app_assoc. exact HF2.
Qed.
End Epochs.

(** *** the whole call *)
Definition nsamples (K : nat) (delay : Z) (x : list (list R)) (y : list R) : nat := min (length x - Z.to_nat delay - K) (length y).
Definition obs (M K : nat) (delay : Z) (x : list (list R)) (y : list R) (i : nat) : rsample := (tap M K x (Z.to_nat delay + i), nth i y 0).

Lemma firstn_map_seq {A} (f : nat -> A) n k : firstn n (map f (seq 0 k)) = map f (seq 0 (min n k)).
Proof. 
  rewrite firstn_map. f_equal. generalize 0%nat. revert k. induction n; intros k a; [reflexivity|]. destruct k; [reflexivity|]. cbn [seq firstn Nat.min]. now rewrite IHn.
Qed.
Lemma firstn_map_nth (l : list R) n : (n <= length l)%nat -> firstn n l = map (fun i => nth i l 0) (seq 0 n).
Proof.
  intros H. pose proof (map_seq_nth (fun y : R => y) l 0) as E. rewrite map_id in E. rewrite <- E at 1. rewrite firstn_map_seq.
  now rewrite Nat.min_l.
Qed.
Lemma batch_R M K delay (x : list (list R)) (y : list R) : (0 <= delay)%Z -> (Z.to_nat delay + K <= length x)%nat ->
  let T := nsamples K delay x y in
  _batch (F := Rfield) M K x [y] delay = Ok (map (window (F := Rfield) M K (skipn (Z.to_nat delay) x)) (seq 0 T), [map (fun i => nth i y 0) (seq 0 T)]).
Proof.
  intros HD HK T. unfold _batch. rewrite (proj2 (Z.ltb_ge _ _) HD). unfold batch.
  assert (EL : length (skipn (Z.to_nat delay) x) = (length x - Z.to_nat delay)%nat) by apply skipn_length.
  assert (EB : Nat.ltb (length (skipn (Z.to_nat delay) x)) K = false) by (apply Nat.ltb_ge; lia).
  match goal with |- context [Nat.ltb ?a K] => assert (EB' : Nat.ltb a K = false) by exact EB; rewrite EB' end. cbn [bind nth].
  assert (EM : min (length (map (window (F := Rfield) M K (skipn (Z.to_nat delay) x)) (seq 0 (length (skipn (Z.to_nat delay) x) - K)))) (length y) = T).
  { rewrite map_length, seq_length. unfold T, nsamples. rewrite EL. reflexivity. }
  match goal with |- context [firstn (min ?a ?b)] => assert (EM' : min a b = T) by exact EM; rewrite EM' end.
  f_equal. f_equal.
  - refine (eq_trans (firstn_map_seq _ _ _) _). f_equal. f_equal.
    assert (G : min T (length (skipn (Z.to_nat delay) x) - K) = T) by (rewrite EL; unfold T, nsamples; lia). exact G.
  - cbn [map]. f_equal. apply firstn_map_nth. unfold T, nsamples. lia.
Qed.
Lemma window_tap M K (x : list (list R)) d i m k : (m < M)%nat -> (k < K)%nat -> (d + i + K <= length x)%nat ->
  nth k (nth m (window (F := Rfield) M K (skipn d x) i) []) 0 = tap M K x (d + i) m k.
Proof.
  intros Hm Hk HL. unfold tap.
  assert (EL : (i + K <= length (skipn d x))%nat) by (rewrite skipn_length; lia).
  destruct (Nat.eqb_spec K M) as [->|HN].
  - refine (eq_trans (window_square (F := Rfield) M (skipn d x) i m k EL Hm) _).
    exact (f_equal (fun z => nth k z 0) (eq_trans (nth_skipn (i + m) d x []) (f_equal (fun z => nth z x []) (Nat.add_assoc d i m)))).
  - refine (eq_trans (window_entry (F := Rfield) M K (skipn d x) i m k HN EL Hm Hk) _).
    exact (f_equal (fun z => nth m z 0) (eq_trans (nth_skipn (i + k) d x []) (f_equal (fun z => nth z x []) (Nat.add_assoc d i k)))).
Qed.
Lemma fir_out_ext M K h o x x' : (forall m k, (m < M)%nat -> (k < K)%nat -> x m k = x' m k) -> fir_out M K h o x = fir_out M K h o x'.
Proof. intros H. unfold fir_out. f_equal. apply rsum_ext. intros m Hm. apply rsum_ext. intros k Hk. now rewrite H. Qed.
Definition same_sample (M K : nat) (s s' : rsample) : Prop := snd s = snd s' /\ forall m k, (m < M)%nat -> (k < K)%nat -> fst s m k = fst s' m k.
Lemma ls_cost_ext M K delta lambda h0 o0 ss ss' h o : Forall2 (same_sample M K) ss ss' ->
  ls_cost M K delta lambda h0 o0 ss h o = ls_cost M K delta lambda h0 o0 ss' h o.
Proof.
  intros H. unfold ls_cost. assert (EL : length ss = length ss') by (induction H; cbn; congruence). rewrite EL. f_equal.
  apply rsum_ext. intros i Hi. f_equal. 
  assert (G : same_sample M K (nth i ss (fun _ _ => 0, 0)) (nth i ss' (fun _ _ => 0, 0))).
  { clear EL. revert i Hi. induction H; intros i Hi; cbn in Hi; [lia|]. destruct i; [assumption|]. apply IHForall2. lia. }
  destruct G as [-> G]. now rewrite (fir_out_ext M K h o _ _ G).
Qed.

Lemma order_lt T perms : valid_perms T perms -> forall idx, okidx T idx -> Forall (fun i => (i < T)%nat) (order perms idx).
Proof.
  induction perms as [|p perms IH]; intros HP idx HI; cbn [order]; [constructor|].
  assert (HI' : okidx T (match p with Some p => map (fun i => nth i idx O) p | None => idx end)).
  { destruct p as [p|]; [apply okidx_perm; [exact HI|apply HP; now left]|exact HI]. }
  apply Forall_app. split; [apply HI'|]. apply IH; [|exact HI']. intros q Hq. apply HP. now right.
Qed.
Lemma okidx_seq T : okidx T (seq 0 T).
Proof. split; [apply seq_length|]. apply Forall_forall. intros i Hi. apply in_seq in Hi. lia. Qed.

Section Call.
Variables M K : nat.
Variables (delta lambda : R) (delay : Z) (x : list (list R)) (y : list R) (perms : list (option (list nat))).
Hypothesis Hd : 0 < delta.
Hypothesis Hl : 0 < lambda.
Hypothesis HD : (0 <= delay)%Z.
Hypothesis Hx : Forall (fun r => length r = M) x.
Let T := nsamples K delay x y.
Hypothesis HT : (0 < T)%nat.
Hypothesis HP : valid_perms T perms.
Let W := window (F := Rfield) M K (skipn (Z.to_nat delay) x).
Let Y := fun i => nth i y 0.

Lemma T_bound i : (i < T)%nat -> (Z.to_nat delay + i + K <= length x)%nat.
Proof. subst T. unfold nsamples. lia. Qed.
Lemma W_shape i : (i < T)%nat -> shape M K (W i).
Proof.
  intros Hi. apply (window_wf (F := Rfield)).
  - split; [reflexivity|]. apply Forall_forall. intros r Hr. apply (proj1 (Forall_forall _ _) Hx).
    rewrite <- (firstn_skipn (Z.to_nat delay) x). apply in_or_app. now right.
  - assert (G : (i + K <= length (skipn (Z.to_nat delay) x))%nat) by (rewrite skipn_length; apply T_bound in Hi; lia). exact G.
Qed.
Lemma W_obs i : (i < T)%nat -> same_sample M K (wsample (W i, Y i)) (obs M K delay x y i).
Proof.
  intros Hi. split; [reflexivity|]. intros m k Hm Hk. cbn [wsample obs fst]. apply window_tap; [assumption|assumption|now apply T_bound].
Qed.
Lemma obs_list l : Forall (fun i => (i < T)%nat) l -> Forall2 (same_sample M K) (map wsample (map (fun i => (W i, Y i)) l)) (map (obs M K delay x y) l).
Proof. induction 1; cbn [map]; constructor; [now apply W_obs|assumption]. Qed.

Lemma rls_R (delta' : R) ss h0 o0 h hm o om vv V : shape M K h0 -> fitted M K delta lambda h0 o0 ss h o V ->
  match vv with Some V' => V' | None => map (map (fun v => v / delta')) (eye (K := Rring) (M * K + 1)) end = V ->
  exists h' o' V' l, rls (F := Rfield) M K 1 perms delta' lambda delay (rst h hm o om vv) x [y] = Ok (rst h' hm o' om (Some V'), [l])
    /\ fitted M K delta lambda h0 o0 (ss ++ map (fun i => (W i, Y i)) (order perms (seq 0 T))) h' o' V'
    /\ l = rsum T (fun t => (nth t y 0 - fir_out M K h' o' (fst (obs M K delay x y t))) ^ 2) / INR T.
Proof.
  intros Hh0 HF HV.
  assert (HK : (Z.to_nat delay + K <= length x)%nat) by (pose proof (T_bound 0 HT); lia).
  destruct (rls_epochs_R M K T W Y W_shape delta lambda Hd Hl h0 o0 Hh0 perms HP ss h hm o om vv V (seq 0 T) (okidx_seq T) HF)
    as (h' & o' & V' & idx' & E & HI & HPI & HF').
  specialize (HPI (Permutation_refl _)).
  exists h', o', V'. eexists. split; [|split; [exact HF'|]].
  - unfold rls. rewrite (batch_R M K delay x y HD HK). cbn [bind]. 
    assert (E' : rls_epochs (F := Rfield) M K 1 perms lambda (rst h hm o om vv) (match vv with Some V' => V' | None => map (map (fun v => v / delta')) (eye (K := Rring) (M * K + 1)) end) (map W (seq 0 T)) [map Y (seq 0 T)] = Ok (rst h' hm o' om vv, V', map W idx', [map Y idx'])) by exact (eq_ind_r (fun z : list rv => rls_epochs (F := Rfield) M K 1 perms lambda (rst h hm o om vv) z (map W (seq 0 T)) [map Y (seq 0 T)] = Ok (rst h' hm o' om vv, V', map W idx', [map Y idx'])) E HV).
    match goal with |- bind ?a _ = _ => assert (E2 : a = Ok (rst h' hm o' om vv, V', map W idx', [map Y idx'])) by exact E'; rewrite E2 end.
    cbn [bind].
    assert (EL : loss (F := Rfield) 1 (rst h' hm o' om (Some V')) (map W idx') [map Y idx']
      = Ok [rsum T (fun t => (nth t (map Y idx') 0 - fir_out M K h' o' (fun m k => nth k (nth m (nth t (map W idx') []) []) 0)) ^ 2) / INR T]).
    { apply loss_R; [apply HF'|apply (okidx_shape M K T); [exact W_shape|exact HI]|rewrite map_length; apply HI|rewrite map_length; apply HI|exact HT]. }
    match goal with |- bind ?a _ = _ => assert (E3 : a = Ok [rsum T (fun t => (nth t (map Y idx') 0 - fir_out M K h' o' (fun m k => nth k (nth m (nth t (map W idx') []) []) 0)) ^ 2) / INR T]) by exact EL; rewrite E3 end.
    reflexivity.
  - f_equal.
    assert (G : forall (f : nat -> R) l, rsum (length l) (fun t => f (nth t l O)) = fold_right Rplus 0 (map f l)).
    { intros f l. clear. induction l as [|a l IH]; [reflexivity|]. cbn [length map fold_right]. rewrite rsum_S_l. cbn [nth]. now rewrite IH. }
    set (f := fun i => (Y i - fir_out M K h' o' (fst (obs M K delay x y i))) ^ 2).
    transitivity (rsum (length idx') (fun t => f (nth t idx' O))).
    + rewrite (proj1 HI). apply rsum_ext. intros t Ht. subst f. cbn beta.
      assert (Hi : (nth t idx' O < T)%nat) by (apply (proj1 (Forall_forall _ _) (proj2 HI)), nth_In; rewrite (proj1 HI); exact Ht).
      assert (E1 : nth t (map Y idx') 0 = Y (nth t idx' O)) by (rewrite nth_indep with (d' := Y O) by (rewrite map_length, (proj1 HI); exact Ht); apply map_nth).
      assert (E2 : nth t (map W idx') [] = W (nth t idx' O)) by (rewrite nth_indep with (d' := W O) by (rewrite map_length, (proj1 HI); exact Ht); apply map_nth).
      rewrite E1, E2. f_equal. f_equal. apply fir_out_ext. exact (proj2 (W_obs _ Hi)).
    + rewrite G. rewrite <- (seq_length T 0) at 1.
      transitivity (rsum (length (seq 0 T)) (fun t => f (nth t (seq 0 T) O))).
      * rewrite G. clear - HPI. generalize (Permutation_map f HPI). generalize (map f idx') (map f (seq 0 T)). induction 1; cbn; lra.
      * apply rsum_ext. intros t Ht. rewrite seq_length in Ht. now rewrite seq_nth by exact Ht.
Qed.
End Call.

(** the filter minimises the cost over everything processed so far, and nothing else does *)
Definition unique_min (M K : nat) (cost : list (list R) -> R -> R) (h : list (list R)) (o : R) : Prop :=
  forall h' o', wfm (K := Rring) M K h' -> cost h o <= cost h' o' /\ (cost h' o' <= cost h o -> h' = h /\ o' = o).

Lemma rls_fresh M K perms delta lambda delay h hm o om x y : 0 < delta -> 0 < lambda -> (0 <= delay)%Z ->
  wfm (K := Rring) M K h -> Forall (fun r => length r = M) x -> (0 < nsamples K delay x y)%nat -> valid_perms (nsamples K delay x y) perms ->
  exists h' o' V, rls (F := Rfield) M K 1 perms delta lambda delay (mkAF (F := Rfield) [h] hm (Off2 [o]) om None) x [y]
      = Ok (mkAF (F := Rfield) [h'] hm (Off2 [o']) om (Some V),
            [rsum (nsamples K delay x y) (fun t => (nth t y 0 - fir_out M K h' o' (tap M K x (Z.to_nat delay + t))) ^ 2) / INR (nsamples K delay x y)])
    /\ wfm (K := Rring) M K h'
    /\ unique_min M K (ls_cost M K delta lambda h o (map (obs M K delay x y) (order perms (seq 0 (nsamples K delay x y))))) h' o'.
Proof.
  intros Hd Hl HD Hh Hx HT HP.
  destruct (rls_R M K delta lambda delay x y perms Hd Hl HD Hx HT HP delta [] h o h hm o om None _ Hh (fitted_init M K delta lambda Hd h o Hh) eq_refl)
    as (h' & o' & V & l & E & HF & El).
  exists h', o', V. subst l. split; [exact E|]. split; [apply HF|]. intros h2 o2 Hh2.
  pose proof (fitted_min M K delta lambda Hd Hl h o Hh _ _ _ _ HF h2 o2 Hh2) as G. cbn [app] in G.
  assert (HO : Forall2 (same_sample M K) (map wsample (map (fun i => (window (F := Rfield) M K (skipn (Z.to_nat delay) x) i, nth i y 0)) (order perms (seq 0 (nsamples K delay x y)))))
    (map (obs M K delay x y) (order perms (seq 0 (nsamples K delay x y))))).
  { apply obs_list; try assumption. apply order_lt; [exact HP|apply okidx_seq]. }
  rewrite <- !(fun h o => ls_cost_ext M K delta lambda _ _ _ _ h o HO). exact G.
Qed.
Lemma rls_again M K perms perms2 delta delta2 lambda delay delay2 h hm o om x y x2 y2 : 0 < delta -> 0 < lambda -> (0 <= delay)%Z -> (0 <= delay2)%Z ->
  wfm (K := Rring) M K h -> Forall (fun r => length r = M) x -> Forall (fun r => length r = M) x2 ->
  (0 < nsamples K delay x y)%nat -> valid_perms (nsamples K delay x y) perms ->
  (0 < nsamples K delay2 x2 y2)%nat -> valid_perms (nsamples K delay2 x2 y2) perms2 ->
  exists st l h' o' V l', rls (F := Rfield) M K 1 perms delta lambda delay (mkAF (F := Rfield) [h] hm (Off2 [o]) om None) x [y] = Ok (st, l)
    /\ rls (F := Rfield) M K 1 perms2 delta2 lambda delay2 st x2 [y2] = Ok (mkAF (F := Rfield) [h'] hm (Off2 [o']) om (Some V), l')
    /\ unique_min M K (ls_cost M K delta lambda h o (map (obs M K delay x y) (order perms (seq 0 (nsamples K delay x y)))
                                                     ++ map (obs M K delay2 x2 y2) (order perms2 (seq 0 (nsamples K delay2 x2 y2))))) h' o'.
Proof.
  intros Hd Hl HD HD2 Hh Hx Hx2 HT HP HT2 HP2.
  destruct (rls_R M K delta lambda delay x y perms Hd Hl HD Hx HT HP delta [] h o h hm o om None _ Hh (fitted_init M K delta lambda Hd h o Hh) eq_refl)
    as (h1 & o1 & V1 & l1 & E1 & HF1 & _).
  destruct (rls_R M K delta lambda delay2 x2 y2 perms2 Hd Hl HD2 Hx2 HT2 HP2 delta2 _ h o h1 hm o1 om (Some V1) V1 Hh HF1 eq_refl)
    as (h2 & o2 & V2 & l2 & E2 & HF2 & _).
  exists (rst h1 hm o1 om (Some V1)), [l1], h2, o2, V2, [l2]. split; [exact E1|]. split; [exact E2|]. intros h3 o3 Hh3.
  pose proof (fitted_min M K delta lambda Hd Hl h o Hh _ _ _ _ HF2 h3 o3 Hh3) as G. cbn [app] in G. rewrite map_app in G.
  assert (HO : Forall2 (same_sample M K) (map wsample (map (fun i => (window (F := Rfield) M K (skipn (Z.to_nat delay) x) i, nth i y 0)) (order perms (seq 0 (nsamples K delay x y)))))
    (map (obs M K delay x y) (order perms (seq 0 (nsamples K delay x y))))).
  { apply obs_list; try assumption. apply order_lt; [exact HP|apply okidx_seq]. }
  assert (HO2 : Forall2 (same_sample M K) (map wsample (map (fun i => (window (F := Rfield) M K (skipn (Z.to_nat delay2) x2) i, nth i y2 0)) (order perms2 (seq 0 (nsamples K delay2 x2 y2)))))
    (map (obs M K delay2 x2 y2) (order perms2 (seq 0 (nsamples K delay2 x2 y2))))).
  { apply obs_list; try assumption. apply order_lt; [exact HP2|apply okidx_seq]. }
  rewrite <- !(fun h o => ls_cost_ext M K delta lambda _ _ _ _ h o (Forall2_app HO HO2)). exact G.
Qed.
