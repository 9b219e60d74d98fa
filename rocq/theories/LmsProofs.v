(** AdaptiveFIRFilter.gradient and lms, one real reference. *)
From Coq Require Import List Lia Arith Bool ZArith Reals Lra Permutation.
From Coquelicot Require Import Complex.
From Verif Require Import Base LinAlg BatchProofs FirExtras Zpk Adaptive AdaptiveProofs RlsRun.
Import ListNotations.
Open Scope R_scope.

Lemma cauchy_schwarz (a b : rv) : length a = length b -> rdot a b * rdot a b <= rdot a a * rdot b b.
Proof.
  intros E. pose proof (rdot_self_nonneg b) as Hb.
  destruct (Req_dec (rdot b b) 0) as [Z|NZ].
  - apply rdot_self_zero in Z.
    assert (G : forall (l : rv) n, rdot l (repeat 0 n) = 0).
    { induction l as [|x l IH]; intros [|n]; try reflexivity. change (x * 0 + rdot l (repeat 0 n) = 0). rewrite IH. ring. }
    rewrite Z at 1 2. rewrite !G. rewrite Rmult_0_l. apply Rmult_le_pos; apply rdot_self_nonneg.
  - set (c := rdot b b) in *. set (p := rdot a b).
    assert (L : length (rscale (- p) b) = length (rscale c a)) by (rewrite (rscale_len (- p) b _ eq_refl), (rscale_len c a _ eq_refl); now symmetry).
    pose proof (rdot_self_nonneg (rplus (rscale c a) (rscale (- p) b))) as H.
    rewrite rdot_plus_r in H by (now symmetry). rewrite !rdot_plus_l in H by (now symmetry). rewrite !rdot_scale_l, !rdot_scale_r in H.
    rewrite (rdot_comm b a) in H. fold c p in H. set (q := rdot a a) in *.
    assert (HC : 0 < c) by lra. assert (HH : 0 <= c * (q * c - p * p)) by nra.
    destruct (Rle_or_lt (p * p) (q * c)) as [?|HX]; [assumption|]. exfalso. nra.
Qed.

Section Quadratic.
Variable n : nat.
Definition sse (ss : list (rv * R)) (w : rv) : R := fold_right (fun s a => (snd s - rdot w (fst s)) ^ 2 + a) 0 ss.
Definition sacc (ss : list (rv * R)) (w : rv) : rv := fold_right (fun s a => rplus (rscale (snd s - rdot w (fst s)) (fst s)) a) (repeat 0 n) ss.
Definition sq (ss : list (rv * R)) (d : rv) : R := fold_right (fun s a => rdot d (fst s) ^ 2 + a) 0 ss.
Definition energy (ss : list (rv * R)) : R := fold_right (fun s a => rdot (fst s) (fst s) + a) 0 ss.
Lemma sacc_len ss w : sized n ss -> length (sacc ss w) = n.
Proof.
  intros H. induction H as [|[x y] ss Hx HS IH]; cbn; [apply repeat_length|]. apply rplus_len; [apply rscale_len; exact Hx|exact IH].
Qed.
Lemma rdot_zeros (d : rv) k : rdot d (repeat 0 k) = 0.
Proof. revert k. induction d as [|x d IH]; intros [|k]; try reflexivity. change (x * 0 + rdot d (repeat 0 k) = 0). rewrite IH. ring. Qed.
Lemma sse_plus ss w d : sized n ss -> length w = n -> length d = n ->
  sse ss (rplus w d) = sse ss w - 2 * rdot d (sacc ss w) + sq ss d.
Proof.
  intros HS Hw Hd. induction HS as [|[x y] ss Hx HS IH].
  - cbn. rewrite rdot_zeros. ring.
  - unfold sse, sacc, sq in *. cbn [fold_right fst snd]. rewrite IH. cbn [fst] in Hx.
    rewrite rdot_plus_l by congruence. rewrite rdot_plus_r.
    + rewrite rdot_scale_r. ring.
    + rewrite (rscale_len _ x n Hx). symmetry. exact (sacc_len ss w HS).
Qed.
Lemma sq_scale ss c d : sq ss (rscale c d) = c ^ 2 * sq ss d.
Proof. induction ss as [|[x y] ss IH]; unfold sq in *; cbn [fold_right fst]; [ring|]. rewrite IH, rdot_scale_l. ring. Qed.
Lemma sq_energy ss d : sized n ss -> length d = n -> sq ss d <= rdot d d * energy ss.
Proof.
  intros HS Hd. induction HS as [|[x y] ss Hx HS IH]; unfold sq, energy in *; cbn [fold_right fst]; [lra|].
  pose proof (cauchy_schwarz d x ltac:(cbn in Hx; congruence)) as HC. nra.
Qed.
Lemma energy_nonneg ss : 0 <= energy ss.
Proof. induction ss as [|[x y] ss IH]; unfold energy in *; cbn [fold_right fst]; [lra|]. pose proof (rdot_self_nonneg x). lra. Qed.
Lemma sse_perm ss ss' w : Permutation ss ss' -> sse ss w = sse ss' w.
Proof. unfold sse. induction 1; cbn [fold_right]; lra. Qed.
Lemma energy_perm ss ss' : Permutation ss ss' -> energy ss = energy ss'.
Proof. unfold energy. induction 1; cbn [fold_right]; lra. Qed.

(** one plain gradient step *)
Lemma descent ss (w : rv) T lr : sized n ss -> length w = n -> (0 < T)%nat -> 0 <= lr -> lr * (energy ss / INR T) <= 2 ->
  let g := rscale (- / INR T) (sacc ss w) in
  sse ss (rplus w (rscale (- lr) g)) <= sse ss w /\ (0 < lr -> lr * (energy ss / INR T) < 2 -> rdot g g <> 0 -> sse ss (rplus w (rscale (- lr) g)) < sse ss w).
Proof.
  intros HS Hw HT Hlr HE g.
  assert (HN : 0 < INR T) by (now apply lt_0_INR).
  assert (Lg : length g = n) by (apply rscale_len; now apply sacc_len).
  assert (EA : sacc ss w = rscale (- INR T) g).
  { subst g. apply (rv_ext n); [now apply sacc_len|apply rscale_len, rscale_len; now apply sacc_len|]. intros i _. rewrite !nth_rscale. field. lra. }
  rewrite sse_plus by (auto; now apply rscale_len). rewrite EA, rdot_scale_l, rdot_scale_r, sq_scale.
  pose proof (sq_energy ss g HS Lg) as HQ. pose proof (rdot_self_nonneg g) as HG. set (G := rdot g g) in *. set (Q := sq ss g) in *.
  pose proof (energy_nonneg ss) as HE0. set (E := energy ss) in *.
  assert (HB : (- lr) ^ 2 * Q <= lr * (lr * (E / INR T)) * (INR T * G)).
  { replace (lr * (lr * (E / INR T)) * (INR T * G)) with (lr ^ 2 * (G * E)) by (field; lra). replace ((- lr) ^ 2) with (lr ^ 2) by ring.
    apply Rmult_le_compat_l; [apply pow2_ge_0|exact HQ]. }
  set (c := lr * (E / INR T)) in *. assert (HNG : 0 <= INR T * G) by (apply Rmult_le_pos; lra).
  split.
  - assert (HC : lr * c * (INR T * G) <= lr * 2 * (INR T * G)) by (apply Rmult_le_compat_r; [exact HNG|apply Rmult_le_compat_l; lra]). nra.
  - intros Hp Hs Hz. assert (HG' : 0 < INR T * G) by (apply Rmult_lt_0_compat; lra).
    assert (HC : lr * c * (INR T * G) < lr * 2 * (INR T * G)) by (apply Rmult_lt_compat_r; [exact HG'|apply Rmult_lt_compat_l; lra]). nra.
Qed.
End Quadratic.

(** *** the model's gradient *)
Lemma combine_cons {A B} (a : A) (b : B) l m : combine (a :: l) (b :: m) = (a, b) :: combine l m. Proof. reflexivity. Qed.
Lemma concat_repeat_zero M K : concat (repeat (repeat 0 K) M) = repeat 0 (M * K).
Proof. induction M; cbn; [reflexivity|]. rewrite IHM. rewrite <- repeat_app. reflexivity. Qed.
Lemma concat_scale c (m : list rv) : concat (map (rscale c) m) = rscale c (concat m).
Proof. unfold rscale, vscale. now rewrite concat_map. Qed.
Lemma scale_shape M K c (m : list rv) : shape M K m -> shape M K (map (rscale c) m).
Proof.
  intros [H1 H2]. split; [now rewrite map_length|]. apply Forall_forall. intros r Hr. apply in_map_iff in Hr. destruct Hr as (s & <- & Hs).
  apply rscale_len. exact (proj1 (Forall_forall _ _) H2 s Hs).
Qed.
Lemma wsum_R M K (ws : rv) (xs : list (list rv)) : Forall (shape M K) xs ->
  shape M K (wsum (F := Rfield) M K ws xs) /\
  concat (wsum (F := Rfield) M K ws xs) = fold_right (fun wx a => rplus (rscale (fst wx) (concat (snd wx))) a) (repeat 0 (M * K)) (combine ws xs).
Proof.
  revert ws. induction xs as [|x xs IH]; intros ws HX.
  - assert (E : wsum (F := Rfield) M K ws [] = repeat (repeat 0 K) M) by (destruct ws; reflexivity). split.
    + refine (eq_ind_r (fun z => shape M K z) _ E). split; [apply repeat_length|]. apply Forall_forall. intros r Hr. apply repeat_spec in Hr. subst r. apply repeat_length.
    + refine (eq_trans (f_equal (@concat R) E) _). destruct ws; apply concat_repeat_zero.
  - destruct ws as [|w ws].
    + cbn [combine fold_right]. split; [|apply concat_repeat_zero]. split; [apply repeat_length|]. apply Forall_forall. intros r Hr. apply repeat_spec in Hr. subst r. apply repeat_length.
    + inversion HX as [|? ? Hx HX']; subst. destruct (IH ws HX') as [S1 S2].
      change (wsum (F := Rfield) M K (w :: ws) (x :: xs)) with (map2 (map2 Rplus) (map (rscale w) x) (wsum (F := Rfield) M K ws xs)).
      pose proof (scale_shape M K w x Hx) as SX. split; [now apply shape_map2|].
      rewrite concat_map2 by (exact (wf_forall2 M K _ _ SX S1)). cbn [combine fold_right fst snd]. rewrite concat_scale. 
      exact (f_equal (rplus (rscale w (concat x))) S2).
Qed.

Lemma vopp_scale (v : rv) : vopp (K := Rring) v = rscale (-1) v.
Proof. unfold vopp, rscale, vscale. apply map_ext. intros a. cbn. ring. Qed.
Lemma vsample_sized M K xs ys : Forall (shape M K) xs -> sized (M * K + 1) (map vsample (combine xs ys)).
Proof.
  intros HX. apply Forall_forall. intros s Hs. apply in_map_iff in Hs. destruct Hs as ([x y] & <- & Hs). apply in_combine_l in Hs.
  exact (sample_len M K x (proj1 (Forall_forall _ _) HX x Hs)).
Qed.
Lemma rplus_app (a b c d : rv) : length a = length c -> rplus (a ++ b) (c ++ d) = rplus a c ++ rplus b d.
Proof.
  revert c. induction a as [|x a IH]; intros [|y c] E; try discriminate; [reflexivity|]. change (x + y :: rplus (a ++ b) (c ++ d) = x + y :: (rplus a c ++ rplus b d)).
  now rewrite IH by (now injection E).
Qed.
Lemma rscale_app c (a b : rv) : rscale c (a ++ b) = rscale c a ++ rscale c b.
Proof. unfold rscale, vscale. apply map_app. Qed.

Lemma gradient_R M K h hm o om vv (xs : list (list rv)) (ys : list R) T : shape M K h -> Forall (shape M K) xs ->
  length xs = T -> length ys = T -> (0 < T)%nat ->
  exists gh go, gradient (F := Rfield) M K 1 (rst h hm o om vv) xs [ys] = Ok ([gh], [go]) /\ shape M K gh
    /\ flat gh go = rscale (- / INR T) (sacc (M * K + 1) (map vsample (combine xs ys)) (flat h o)).
Proof.
  intros Hh HX Hx Hy HT. unfold gradient. rewrite resid_R by (exact (eq_trans Hy (eq_sym Hx))). cbn [bind map].
  set (es := map2 (fun y x => y - (tdot (F := Rfield) h x + o)) ys xs).
  assert (Ees : map (sconj Rfield) es = es) by apply map_id. 
  assert (Les : length es = T) by (exact (eq_trans (map2_length _ ys xs) (eq_trans (f_equal2 Nat.min Hy Hx) (Nat.min_id T)))).
  assert (EB : negb (forallb (fun r : rv => Nat.eqb (length r) (length xs)) [es]) = false).
  { cbn. assert (E1 : Nat.eqb (length es) (length xs) = true) by (apply Nat.eqb_eq; congruence). now rewrite E1. }
  match goal with |- context [map (sconj Rfield) ?e] => assert (Ees' : map (sconj Rfield) e = es) by exact Ees; rewrite !Ees' end.
  match goal with |- context [negb ?b] => assert (EB' : negb b = false) by exact EB; rewrite EB' end.
  assert (EN : ofnat (F := Rfield) (length xs) = INR T) by (rewrite ofnat_INR; exact (f_equal INR Hx)).
  do 2 eexists. split; [reflexivity|].
  set (ws := map (fun v => sdiv Rfield v (ofnat (length xs))) es).
  destruct (wsum_R M K ws xs HX) as [S1 S2].
  assert (EO : mopp (K := Rring) (wsum (F := Rfield) M K ws xs) = map (rscale (-1)) (wsum (F := Rfield) M K ws xs)).
  { unfold mopp. apply map_ext. intros v. apply vopp_scale. }
  split.
  - refine (eq_ind_r (fun z => shape M K z) _ EO). now apply scale_shape.
  - unfold flat at 1. refine (eq_trans (f_equal (fun z : list rv => concat z ++ _) EO) _). rewrite concat_scale.
    refine (eq_trans (f_equal (fun z : rv => rscale (-1) z ++ _) S2) _).
    assert (EW : ws = map (fun v => v * / INR T) es) by (subst ws; apply map_ext; intros v; exact (f_equal (fun z => v / z) EN)).
    rewrite EW. clearbody ws. clear EW S1 S2 EO ws Ees' EB EB' Ees.
    assert (EF : - (fold_right Rplus 0 es / ofnat (F := Rfield) (length xs)) = - (fold_right Rplus 0 es * / INR T)) by exact (f_equal (fun z => - (fold_right Rplus 0 es / z)) EN).
    refine (eq_trans (f_equal (fun z : R => _ ++ [z]) EF) _). clear EF EN.
    assert (HT0 : INR T <> 0) by (apply not_0_INR; lia). clear HT.
    subst es. clear Les. rewrite <- Hx in Hy. clear Hx. generalize dependent (/ INR T). clear HT0. intros c.
    revert ys Hy. induction xs as [|x xs IH]; intros [|y ys] Hy; try discriminate.
    + cbn [combine map2 map fold_right sacc]. replace (M * K + 1)%nat with (M * K + 1)%nat by reflexivity. rewrite repeat_app. rewrite rscale_app. f_equal.
      * apply (rv_ext (M * K)); [apply rscale_len, repeat_length|apply rscale_len, repeat_length|]. intros i _. rewrite !nth_rscale. rewrite nth_repeat. ring.
      * cbn. f_equal. ring.
    + inversion HX as [|? ? Hx HX']; subst. specialize (IH HX' ys ltac:(now injection Hy)).
      cbn [combine map2 map fold_right fst snd]. unfold sacc in *. cbn [fold_right vsample fst snd].
      set (e := y - (tdot (F := Rfield) h x + o)) in *.
      assert (EE : y - rdot (flat h o) (sample x) = e) by (unfold e; f_equal; symmetry; exact (flat_sample M K h o x Hh Hx)).
      rewrite EE. clear EE. clearbody e.
      set (A := fold_right (fun wx a => rplus (rscale (fst wx) (concat (snd wx))) a) (repeat 0 (M * K)) (combine (map (fun v => v * c) (map2 (fun y x => y - (tdot (F := Rfield) h x + o)) ys xs)) xs)) in *.
      set (Bf := fold_right Rplus 0 (map2 (fun y x => y - (tdot (F := Rfield) h x + o)) ys xs)) in *.
      set (D := fold_right (fun s a => rplus (rscale (snd s - rdot (flat h o) (fst s)) (fst s)) a) (repeat 0 (M * K + 1)) (map vsample (combine xs ys))) in *.
      assert (LD : length D = (M * K + 1)%nat) by exact (sacc_len (M * K + 1) _ (flat h o) (vsample_sized M K xs ys HX')).
      assert (LC : length (concat x) = (M * K)%nat) by (apply concat_len; apply Hx).
      assert (LA : length A = (M * K)%nat).
      { assert (EL : length (rscale (-1) A ++ [- (Bf * c)]) = length (rscale (- c) D)) by exact (f_equal (@length R) IH).
        rewrite app_length, (rscale_len _ A _ eq_refl), (rscale_len _ D _ LD) in EL. cbn in EL. lia. }
      assert (EZ : rscale (- c) (rplus (rscale e (sample x)) D) = rplus (rscale (- c * e) (sample x)) (rscale (- c) D)).
      { apply (rv_ext (M * K + 1)).
        - apply rscale_len, rplus_len; [apply rscale_len; exact (sample_len M K x Hx)|exact LD].
        - apply rplus_len; apply rscale_len; [exact (sample_len M K x Hx)|exact LD].
        - intros i _. rewrite nth_rscale, !nth_rplus, !nth_rscale; [ring| |]; rewrite ?(rscale_len _ _ _ eq_refl), LD; now rewrite (sample_len M K x Hx). }
      rewrite EZ. refine (eq_trans _ (f_equal (rplus (rscale (- c * e) (sample x))) IH)).
      unfold sample. rewrite rscale_app, rplus_app.
      * f_equal.
        -- apply (rv_ext (M * K)).
           ++ apply rscale_len, rplus_len; [now apply rscale_len|exact LA].
           ++ apply rplus_len; now apply rscale_len.
           ++ intros i _. rewrite nth_rscale, !nth_rplus, !nth_rscale; [ring| |]; rewrite ?(rscale_len _ _ _ eq_refl); congruence.
        -- cbn. f_equal. ring.
      * rewrite !(rscale_len _ _ _ eq_refl). congruence.
Qed.

(** *** specification: mean squared error *)
Definition mse (M K T : nat) (s : nat -> rsample) (h : list (list R)) (o : R) : R :=
  rsum T (fun t => (snd (s t) - fir_out M K h o (fst (s t))) ^ 2) / INR T.
(** mean squared norm of the windows extended with the constant one *)
Definition mean_energy (M K T : nat) (s : nat -> rsample) : R :=
  rsum T (fun t => rsum M (fun m => rsum K (fun k => fst (s t) m k ^ 2)) + 1) / INR T.
Definition datum (xs : list (list (list R))) (ys : list R) (t : nat) : rsample := (fun m k => nth k (nth m (nth t xs []) []) 0, nth t ys 0).
Definition shift_by (s : R) (h dh : list (list R)) : list (list R) := map2 (map2 (fun a b => a + s * b)) h dh.
Definition inner (M K : nat) (g h : list (list R)) : R := rsum M (fun m => rsum K (fun k => nth k (nth m g []) 0 * nth k (nth m h []) 0)).

Lemma sse_rsum M K h o : shape M K h -> forall xs ys T, Forall (shape M K) xs -> length xs = T -> length ys = T ->
  sse (map vsample (combine xs ys)) (flat h o) = rsum T (fun t => (snd (datum xs ys t) - fir_out M K h o (fst (datum xs ys t))) ^ 2).
Proof.
  intros Hh xs. induction xs as [|x xs IH]; intros [|y ys] T HX Hx Hy; cbn [length] in *; subst T; try discriminate; [reflexivity|].
  inversion HX as [|? ? H1 H2]; subst. rewrite rsum_S_l. cbn [combine map]. unfold sse in *. cbn [fold_right].
  rewrite (IH ys (length xs) H2 eq_refl ltac:(now injection Hy)). cbn [vsample fst snd]. rewrite (fir_out_flat M K) by assumption. reflexivity.
Qed.
Lemma rdot_sample M K x : shape M K x -> rdot (sample x) (sample x) = rsum M (fun m => rsum K (fun k => nth k (nth m x []) 0 ^ 2)) + 1.
Proof.
  intros Hx. unfold sample. rewrite rdot_snoc by reflexivity. rewrite (rdot_concat M K) by assumption. f_equal; [|ring].
  apply rsum_ext. intros m _. apply rsum_ext. intros k _. ring.
Qed.
Lemma energy_rsum M K : forall xs ys T, Forall (shape M K) xs -> length xs = T -> length ys = T ->
  energy (map vsample (combine xs ys)) / INR T = mean_energy M K T (datum xs ys).
Proof.
  intros xs ys T HX Hx Hy. unfold mean_energy. f_equal. revert ys T HX Hx Hy.
  induction xs as [|x xs IH]; intros [|y ys] T HX Hx Hy; cbn [length] in *; subst T; try discriminate; [reflexivity|].
  inversion HX as [|? ? H1 H2]; subst. rewrite rsum_S_l. cbn [combine map]. unfold energy in *. cbn [fold_right].
  rewrite (IH ys (length xs) H2 eq_refl ltac:(now injection Hy)). cbn [vsample fst snd]. rewrite (rdot_sample M K) by assumption. reflexivity.
Qed.
Lemma flat_shift M K s h o dh dd : shape M K h -> shape M K dh -> flat (shift_by s h dh) (o + s * dd) = rplus (flat h o) (rscale s (flat dh dd)).
Proof.
  intros Hh Hd. unfold flat, shift_by. rewrite rscale_app, rplus_app.
  - f_equal. rewrite concat_map2 by (exact (wf_forall2 M K h dh Hh Hd)). generalize (concat h) (concat dh). clear.
    induction l as [|a l IH]; intros [|b m]; try reflexivity. change (a + s * b :: map2 (fun a b => a + s * b) l m = a + s * b :: rplus l (rscale s m)). now rewrite IH.
  - rewrite (rscale_len _ _ _ eq_refl). rewrite (concat_len M K h), (concat_len M K dh); [reflexivity|apply Hd|apply Hd|apply Hh|apply Hh].
Qed.
Lemma flat_inner M K g go h o : shape M K g -> shape M K h -> rdot (flat g go) (flat h o) = inner M K g h + go * o.
Proof.
  intros Hg Hh. unfold flat. rewrite rdot_snoc; [now rewrite (rdot_concat M K) by assumption|].
  rewrite (concat_len M K g), (concat_len M K h); [reflexivity|apply Hh|apply Hh|apply Hg|apply Hg].
Qed.
Lemma gradient_derivative M K h hm o om vv (xs : list (list (list R))) (ys : list R) T : wfm (K := Rring) M K h -> Forall (wfm (K := Rring) M K) xs ->
  length xs = T -> length ys = T -> (0 < T)%nat ->
  loss (F := Rfield) 1 (mkAF (F := Rfield) [h] hm (Off2 [o]) om vv) xs [ys] = Ok [mse M K T (datum xs ys) h o] /\
  exists gh go, gradient (F := Rfield) M K 1 (mkAF (F := Rfield) [h] hm (Off2 [o]) om vv) xs [ys] = Ok ([gh], [go]) /\ wfm (K := Rring) M K gh /\
    forall dh dd, wfm (K := Rring) M K dh ->
      derivable_pt_lim (fun s => mse M K T (datum xs ys) (shift_by s h dh) (o + s * dd)) 0 (2 * (inner M K gh dh + go * dd)).
Proof.
  intros Hh HX Hx Hy HT. split; [exact (loss_R M K h hm o om vv xs ys T Hh HX Hx Hy HT)|].
  destruct (gradient_R M K h hm o om vv xs ys T Hh HX Hx Hy HT) as (gh & go & E & Hg & EG). exists gh, go. split; [exact E|]. split; [exact Hg|].
  intros dh dd Hdh.
  assert (HN : INR T <> 0) by (apply not_0_INR; lia).
  pose proof (vsample_sized M K xs ys HX) as HZ.
  assert (EQ : forall s, mse M K T (datum xs ys) (shift_by s h dh) (o + s * dd)
    = (sse (map vsample (combine xs ys)) (flat h o) - 2 * s * rdot (flat dh dd) (sacc (M * K + 1) (map vsample (combine xs ys)) (flat h o)) + s ^ 2 * sq (map vsample (combine xs ys)) (flat dh dd)) / INR T).
  { intros s. unfold mse. f_equal. rewrite <- (sse_rsum M K (shift_by s h dh) (o + s * dd)); [|now apply shape_map2|exact HX|exact Hx|exact Hy].
    rewrite (flat_shift M K) by assumption. rewrite (sse_plus (M * K + 1) _ _ _ HZ); [|exact (flat_len M K h o Hh)|apply rscale_len; exact (flat_len M K dh dd Hdh)].
    rewrite rdot_scale_l, sq_scale. ring. }
  rewrite <- (flat_inner M K gh go dh dd Hg Hdh). rewrite EG, rdot_scale_l, (rdot_comm _ (flat dh dd)).
  set (a := sse (map vsample (combine xs ys)) (flat h o)) in *. set (b := rdot (flat dh dd) _) in *. set (c := sq _ _) in *.
  intros eps He. 
  assert (Hc : 0 < eps * Rabs (INR T) / (1 + Rabs c)).
  { apply Rdiv_lt_0_compat; [apply Rmult_lt_0_compat; [exact He|now apply Rabs_pos_lt]|pose proof (Rabs_pos c); lra]. }
  exists (mkposreal _ Hc). intros t Ht Hlt. cbn in Hlt. rewrite !EQ.
  replace (((a - 2 * (0 + t) * b + (0 + t) ^ 2 * c) / INR T - (a - 2 * 0 * b + 0 ^ 2 * c) / INR T) / t - 2 * (- / INR T * b)) with (t * c / INR T) by (field; auto).
  unfold Rdiv. rewrite !Rabs_mult, Rabs_inv.
  assert (HA : 0 < Rabs (INR T)) by (now apply Rabs_pos_lt).
  apply (Rmult_lt_reg_r (Rabs (INR T)) _ _ HA). rewrite Rmult_assoc, Rinv_l, Rmult_1_r by lra.
  apply (Rmult_lt_compat_r (1 + Rabs c)) in Hlt; [|pose proof (Rabs_pos c); lra].
  replace (eps * Rabs (INR T) / (1 + Rabs c) * (1 + Rabs c)) with (eps * Rabs (INR T)) in Hlt by (field; pose proof (Rabs_pos c); lra).
  pose proof (Rabs_pos c). pose proof (Rabs_pos t). nra.
Qed.

(** *** lms *)
Lemma zip_lms (lr : R) n (a b c : rv) : length a = n -> length b = n -> length c = n ->
  map2 Rminus a (map2 (fun m g => m * 0 + lr * g) b c) = rplus a (rscale (- lr) c).
Proof.
  revert b c n. induction a as [|x a IH]; intros [|y b] [|z c] n Ha Hb Hc; cbn [length] in *; try lia; [reflexivity|].
  cbn [map2]. change (rplus (x :: a) (rscale (- lr) (z :: c))) with (x + - lr * z :: rplus a (rscale (- lr) c)).
  rewrite (IH b c (n - 1)%nat) by lia. f_equal. ring.
Qed.
Lemma lms_step_R M K lr h hm o om vv (xs : list (list rv)) (ys : list R) T : shape M K h -> shape M K hm -> Forall (shape M K) xs ->
  length xs = T -> length ys = T -> (0 < T)%nat ->
  exists h' hm' o' om', lms_step (F := Rfield) M K 1 lr 0 (rst h [hm] o [om] vv) xs [ys] = Ok (rst h' [hm'] o' [om'] vv)
    /\ shape M K h' /\ shape M K hm'
    /\ flat h' o' = rplus (flat h o) (rscale (- lr) (rscale (- / INR T) (sacc (M * K + 1) (map vsample (combine xs ys)) (flat h o)))).
Proof.
  intros Hh Hm HX Hx Hy HT. destruct (gradient_R M K h [hm] o [om] vv xs ys T Hh HX Hx Hy HT) as (gh & go & E & Hg & EG).
  unfold lms_step. rewrite E. cbn [bind rst a_hm a_h a_off a_offm a_V]. unfold mat_axpy. cbn [map2].
  do 4 eexists. split; [reflexivity|].
  assert (SM : shape M K (map2 (map2 (fun m g => m * 0 + lr * g)) hm gh)) by (now apply shape_map2).
  split; [exact (shape_map2 Rminus M K h _ Hh SM)|]. split; [exact SM|].
  rewrite <- EG. 
  change (flat (map2 (map2 Rminus) h (map2 (map2 (fun m g => m * 0 + lr * g)) hm gh)) (o - (om * 0 + lr * go)) = rplus (flat h o) (rscale (- lr) (flat gh go))).
  unfold flat. rewrite concat_map2 by (exact (wf_forall2 M K h _ Hh SM)). rewrite concat_map2 by (exact (wf_forall2 M K hm gh Hm Hg)).
  assert (L1 : length (concat h) = (M * K)%nat) by (apply concat_len; apply Hh).
  assert (L2 : length (concat hm) = (M * K)%nat) by (apply concat_len; apply Hm).
  assert (L3 : length (concat gh) = (M * K)%nat) by (apply concat_len; apply Hg).
  rewrite rscale_app, rplus_app by (exact (eq_trans L1 (eq_sym (rscale_len _ _ _ L3)))). f_equal.
  - exact (zip_lms lr (M * K) (concat h) (concat hm) (concat gh) L1 L2 L3).
  - cbn. f_equal. ring.
Qed.

Lemma lms_batches_full M K fuel lr bs st (xs : list (list rv)) (ys : list R) T : length xs = T -> length ys = T -> (0 < T)%nat -> (T <= bs)%nat -> (0 < fuel)%nat ->
  lms_batches (F := Rfield) M K 1 fuel lr 0 bs st xs [ys] = bind (lms_step (F := Rfield) M K 1 lr 0 st xs [ys]) (fun st => Ok st).
Proof.
  intros Hx Hy HT Hb Hf. destruct fuel as [|fuel]; [lia|].
  assert (E1 : firstn bs xs = xs) by (apply firstn_all2; lia). assert (E2 : skipn bs xs = []) by (apply skipn_all2; lia).
  assert (E3 : firstn bs ys = ys) by (apply firstn_all2; lia).
  destruct xs as [|x xs]; [cbn in Hx; lia|].
  change (lms_batches (F := Rfield) M K 1 (S fuel) lr 0 bs st (x :: xs) [ys]) with
    (bind (lms_step (F := Rfield) M K 1 lr 0 st (firstn bs (x :: xs)) (map (firstn bs) [ys]))
       (fun st => lms_batches (F := Rfield) M K 1 fuel lr 0 bs st (skipn bs (x :: xs)) (map (skipn bs) [ys]))).
  rewrite E1, E2. cbn [map]. 
  refine (eq_trans (f_equal (fun z => bind (lms_step M K 1 lr 0 st (x :: xs) [z]) _) E3) _).
  assert (G : forall r, bind r (fun st => lms_batches (F := Rfield) M K 1 fuel lr 0 bs st [] [skipn bs ys]) = bind r (fun st => Ok st)).
  { intros [st'|ex]; [|reflexivity]. destruct fuel; reflexivity. }
  exact (G _).
Qed.

Section LmsEpochs.
Variables M K : nat.
Variable T : nat.
Variable W : nat -> list rv.
Variable Y : nat -> R.
Hypothesis HW : forall i, (i < T)%nat -> shape M K (W i).
Hypothesis HT : (0 < T)%nat.
Variables (lr : R) (bs : nat).
Hypothesis Hlr : 0 <= lr.
Hypothesis Hbs : (T <= bs)%nat.
Let data := map vsample (map (fun i => (W i, Y i)) (seq 0 T)).
Hypothesis HE : lr * (energy data / INR T) <= 2.

Lemma lms_epochs_R perms : valid_perms T perms -> forall h hm o om vv idx, shape M K h -> shape M K hm -> okidx T idx -> Permutation idx (seq 0 T) ->
  exists h' hm' o' om' idx', lms_epochs (F := Rfield) M K 1 perms lr 0 bs (rst h [hm] o [om] vv) (map W idx) [map Y idx]
      = Ok (rst h' [hm'] o' [om'] vv, map W idx', [map Y idx'])
    /\ shape M K h' /\ shape M K hm' /\ okidx T idx' /\ Permutation idx' (seq 0 T)
    /\ sse data (flat h' o') <= sse data (flat h o)
    /\ (perms <> [] -> 0 < lr -> lr * (energy data / INR T) < 2 ->
        rdot (sacc (M * K + 1) data (flat h o)) (sacc (M * K + 1) data (flat h o)) <> 0 -> sse data (flat h' o') < sse data (flat h o)).
Proof.
  induction perms as [|p perms IH]; intros HP h hm o om vv idx Hh Hm HI HPI.
  - exists h, hm, o, om, idx. repeat (split; [first [reflexivity|assumption|lra]|]). intros H. now elim H.
  - set (idx1 := match p with Some p => map (fun i => nth i idx O) p | None => idx end).
    assert (HI1 : okidx T idx1) by (subst idx1; destruct p as [p|]; [apply okidx_perm; [exact HI|apply HP; now left]|exact HI]).
    assert (HP1 : Permutation idx1 (seq 0 T)).
    { subst idx1. destruct p as [p|]; [|auto]. rewrite (Permutation_map (fun i => nth i idx O) (HP p (or_introl eq_refl))).
      rewrite <- (proj1 HI). pose proof (map_seq_nth (fun i : nat => i) idx O) as E. rewrite map_id in E. rewrite E. now rewrite (proj1 HI). }
    assert (EX : match p with Some p => perm_x (F := Rfield) p (map W idx) | None => map W idx end = map W idx1).
    { subst idx1. destruct p as [p|]; [|reflexivity]. exact (perm_gen T W [] idx p HI (HP p (or_introl eq_refl))). }
    assert (EY : match p with Some p => perm_y (F := Rfield) p [map Y idx] | None => [map Y idx] end = [map Y idx1]).
    { subst idx1. destruct p as [p|]; [|reflexivity]. unfold perm_y. cbn [map]. f_equal. exact (perm_gen T Y 0 idx p HI (HP p (or_introl eq_refl))). }
    assert (LX : length (map W idx1) = T) by (rewrite map_length; apply HI1).
    assert (LY : length (map Y idx1) = T) by (rewrite map_length; apply HI1).
    assert (HX1 : Forall (shape M K) (map W idx1)) by (now apply (okidx_shape M K T)).
    destruct (lms_step_R M K lr h hm o om vv (map W idx1) (map Y idx1) T Hh Hm HX1 LX LY HT) as (h1 & hm1 & o1 & om1 & E1 & Hh1 & Hm1 & EF).
    rewrite combine_map in EF. set (data1 := map vsample (map (fun i => (W i, Y i)) idx1)) in *.
    assert (PD : Permutation data1 data) by (apply Permutation_map, Permutation_map; exact HP1).
    assert (HZ : sized (M * K + 1) data1).
    { subst data1. rewrite <- combine_map. now apply vsample_sized. }
    assert (HE1 : lr * (energy data1 / INR T) <= 2) by (rewrite (energy_perm _ _ PD); exact HE).
    destruct (descent (M * K + 1) data1 (flat h o) T lr HZ (flat_len M K h o Hh) HT Hlr HE1) as [D1 D2].
    rewrite <- EF, !(sse_perm _ _ _ PD) in D1.
    destruct (IH ltac:(intros q Hq; apply HP; now right) h1 hm1 o1 om1 vv idx1 Hh1 Hm1 HI1 HP1) as (h2 & hm2 & o2 & om2 & idx2 & E2 & Hh2 & Hm2 & HI2 & HP2 & D3 & _).
    exists h2, hm2, o2, om2, idx2. split; [|repeat (split; [first [assumption|lra]|])].
    + cbn [lms_epochs].
      assert (Eb : Nat.eqb bs 0 = false) by (apply Nat.eqb_neq; lia). rewrite Eb.
      transitivity (bind (lms_batches (F := Rfield) M K 1 (length (map W idx1)) lr 0 bs (rst h [hm] o [om] vv) (map W idx1) [map Y idx1])
        (fun st => lms_epochs (F := Rfield) M K 1 perms lr 0 bs st (map W idx1) [map Y idx1])).
      { rewrite <- EX, <- EY. reflexivity. }
      rewrite (lms_batches_full M K _ lr bs _ (map W idx1) (map Y idx1) T LX LY HT Hbs) by (rewrite LX; exact HT).
      rewrite E1. cbn [bind]. exact E2.
    + intros _ Hp Hs Hz. apply (Rle_lt_trans _ _ _ D3). rewrite <- EF, !(sse_perm _ _ _ PD) in D2. apply D2; [exact Hp|now rewrite (energy_perm _ _ PD)|].
      assert (HN : INR T <> 0) by (apply not_0_INR; lia).
      assert (EA : rdot (sacc (M * K + 1) data1 (flat h o)) (sacc (M * K + 1) data1 (flat h o)) = rdot (sacc (M * K + 1) data (flat h o)) (sacc (M * K + 1) data (flat h o))).
      { assert (HZd : sized (M * K + 1) data) by (unfold sized; rewrite <- PD; exact HZ).
        assert (G : sacc (M * K + 1) data1 (flat h o) = sacc (M * K + 1) data (flat h o)); [|now rewrite G].
        apply (rv_ext (M * K + 1)); [now apply sacc_len|now apply sacc_len|]. intros i _.
        assert (GG : forall l l' : list (rv * R), sized (M * K + 1) l -> Permutation l l' -> nth i (sacc (M * K + 1) l (flat h o)) 0 = nth i (sacc (M * K + 1) l' (flat h o)) 0).
        { clear. intros l l' HS P.
          assert (N : forall s l0, sized (M * K + 1) (s :: l0) -> nth i (sacc (M * K + 1) (s :: l0) (flat h o)) 0 = (snd s - rdot (flat h o) (fst s)) * nth i (fst s) 0 + nth i (sacc (M * K + 1) l0 (flat h o)) 0).
          { intros s l0 Hs. inversion Hs; subst. unfold sacc. cbn [fold_right]. fold (sacc (M * K + 1) l0 (flat h o)). rewrite nth_rplus, nth_rscale; [reflexivity|].
            rewrite (rscale_len _ _ _ eq_refl). rewrite sacc_len by assumption. assumption. }
          induction P.
          - reflexivity.
          - rewrite !N; [|unfold sized in *; rewrite <- P; exact HS|exact HS]. f_equal. apply IHP. now inversion HS.
          - assert (HS2 : sized (M * K + 1) (x :: y :: l)) by (inversion HS as [|? ? A1 A2]; inversion A2; repeat constructor; assumption).
            inversion HS; inversion HS2; subst. rewrite !N by assumption. ring.
          - rewrite IHP1 by exact HS. apply IHP2. unfold sized in *. rewrite <- P1. exact HS. }
        now apply GG. }
      rewrite rdot_scale_l, rdot_scale_r, EA. intros H0. apply Hz. apply (Rmult_eq_reg_l (- / INR T * (- / INR T))).
      * rewrite Rmult_0_r, <- H0. ring.
      * assert (HI0 : / INR T <> 0) by (now apply Rinv_neq_0_compat). intros H. apply HI0. nra.
Qed.
End LmsEpochs.

Lemma combine_obs_datum M K x y delay T : T = nsamples K delay x y ->
  forall t, (t < T)%nat -> datum (map (window (F := Rfield) M K (skipn (Z.to_nat delay) x)) (seq 0 T)) (map (fun i => nth i y 0) (seq 0 T)) t
   = wsample (window (F := Rfield) M K (skipn (Z.to_nat delay) x) t, nth t y 0).
Proof.
  intros _ t Ht. unfold datum, wsample. cbn [fst snd]. f_equal.
  - assert (E : nth t (map (window (F := Rfield) M K (skipn (Z.to_nat delay) x)) (seq 0 T)) [] = window (F := Rfield) M K (skipn (Z.to_nat delay) x) t).
    { rewrite nth_indep with (d' := window (F := Rfield) M K (skipn (Z.to_nat delay) x) O) by (rewrite map_length, seq_length; exact Ht). rewrite map_nth. now rewrite seq_nth. }
    exact (f_equal (fun z : list rv => fun m k => nth k (nth m z []) 0) E).
  - rewrite nth_indep with (d' := nth O y 0) by (rewrite map_length, seq_length; exact Ht). rewrite (map_nth (fun i => nth i y 0)). now rewrite seq_nth.
Qed.
Lemma mse_ext M K T s s' h o : (forall t, (t < T)%nat -> same_sample M K (s t) (s' t)) -> mse M K T s h o = mse M K T s' h o.
Proof.
  intros H. unfold mse. f_equal. apply rsum_ext. intros t Ht. destruct (H t Ht) as [-> G]. now rewrite (fir_out_ext M K h o _ _ G).
Qed.
Lemma mean_energy_ext M K T s s' : (forall t, (t < T)%nat -> same_sample M K (s t) (s' t)) -> mean_energy M K T s = mean_energy M K T s'.
Proof.
  intros H. unfold mean_energy. f_equal. apply rsum_ext. intros t Ht. destruct (H t Ht) as [_ G]. f_equal. apply rsum_ext. intros m Hm. apply rsum_ext. intros k Hk. now rewrite G.
Qed.

Lemma sq_nonneg ss d : 0 <= sq ss d.
Proof. induction ss as [|s ss IH]; unfold sq in *; cbn [fold_right]; [lra|]. pose proof (pow2_ge_0 (rdot d (fst s))). lra. Qed.
Lemma rplus_rminus n (w v : rv) : length w = n -> length v = n -> rplus w (rplus v (rscale (-1) w)) = v.
Proof.
  intros Hw Hv. assert (HS : length (rscale (-1) w) = n) by (now apply rscale_len).
  assert (HP : length (rplus v (rscale (-1) w)) = n) by (now apply rplus_len).
  apply (rv_ext n); [now apply rplus_len|exact Hv|]. intros i _. rewrite !nth_rplus, nth_rscale by congruence. ring.
Qed.

Lemma lms_full M K perms lr bs delay h hm o om vv (x : list (list R)) (y : list R) : let T := nsamples K delay x y in let s := obs M K delay x y in
  wfm (K := Rring) M K h -> wfm (K := Rring) M K hm -> Forall (fun r => length r = M) x -> (0 <= delay)%Z -> (0 < T)%nat -> (T <= bs)%nat -> valid_perms T perms ->
  0 <= lr -> lr * mean_energy M K T s <= 2 ->
  exists h' hm' o' om', lms (F := Rfield) M K 1 perms lr 0 bs delay (mkAF (F := Rfield) [h] [hm] (Off2 [o]) [om] vv) x [y]
      = Ok (mkAF (F := Rfield) [h'] [hm'] (Off2 [o']) [om'] vv, [mse M K T s h' o'])
    /\ wfm (K := Rring) M K h' /\ mse M K T s h' o' <= mse M K T s h o
    /\ (perms <> [] -> 0 < lr -> lr * mean_energy M K T s < 2 ->
        mse M K T s h' o' < mse M K T s h o \/ forall h2 o2, wfm (K := Rring) M K h2 -> mse M K T s h o <= mse M K T s h2 o2).
Proof.
  intros T s Hh Hm Hx HD HT Hbs HP Hlr HE.
  assert (HK : (Z.to_nat delay + K <= length x)%nat) by (pose proof HT as HT'; subst T; unfold nsamples in HT'; lia).
  set (W := window (F := Rfield) M K (skipn (Z.to_nat delay) x)). set (Y := fun i => nth i y 0).
  assert (HW : forall i, (i < T)%nat -> shape M K (W i)) by (intros i Hi; now apply (W_shape M K delay x y)).
  assert (HS : forall t, (t < T)%nat -> same_sample M K (datum (map W (seq 0 T)) (map Y (seq 0 T)) t) (s t)).
  { intros t Ht. subst W Y. rewrite (combine_obs_datum M K x y delay T eq_refl t Ht). now apply W_obs. }
  assert (HN : 0 < INR T) by (now apply lt_0_INR).
  set (data := map vsample (map (fun i => (W i, Y i)) (seq 0 T))).
  assert (HX : Forall (shape M K) (map W (seq 0 T))) by (apply (okidx_shape M K T); [exact HW|apply okidx_seq]).
  assert (LX : length (map W (seq 0 T)) = T) by (now rewrite map_length, seq_length).
  assert (LY : length (map Y (seq 0 T)) = T) by (now rewrite map_length, seq_length).
  assert (EM : forall h' o', shape M K h' -> mse M K T s h' o' = sse data (flat h' o') / INR T).
  { intros h' o' Hh'. rewrite <- (mse_ext M K T _ s h' o' HS). unfold mse. f_equal. subst data. rewrite <- combine_map. symmetry. now apply sse_rsum. }
  assert (EE : energy data / INR T = mean_energy M K T s).
  { rewrite <- (mean_energy_ext M K T _ s HS). subst data. rewrite <- combine_map. now apply energy_rsum. }
  rewrite <- EE in *.
  destruct (lms_epochs_R M K T W Y HW HT lr bs Hlr Hbs HE perms HP h hm o om vv (seq 0 T) Hh Hm (okidx_seq T) (Permutation_refl _))
    as (h' & hm' & o' & om' & idx' & E & Hh' & Hm' & HI & HPI & D1 & D2). fold data in D1, D2.
  exists h', hm', o', om'. split; [|split; [exact Hh'|split]].
  - unfold lms. rewrite (batch_R M K delay x y HD HK). cbn [bind].
    match goal with |- bind ?a _ = _ => assert (E2 : a = Ok (rst h' [hm'] o' [om'] vv, map W idx', [map Y idx'])) by exact E; rewrite E2 end. cbn [bind].
    assert (EL : loss (F := Rfield) 1 (rst h' [hm'] o' [om'] vv) (map W idx') [map Y idx'] = Ok [mse M K T s h' o']).
    { rewrite (loss_R M K h' [hm'] o' [om'] vv (map W idx') (map Y idx') T Hh'); [|apply (okidx_shape M K T); [exact HW|exact HI]|rewrite map_length; apply HI|rewrite map_length; apply HI|exact HT].
      f_equal. f_equal. rewrite (EM h' o' Hh'). f_equal.
      transitivity (sse (map vsample (combine (map W idx') (map Y idx'))) (flat h' o')).
      - symmetry. apply sse_rsum; [exact Hh'|apply (okidx_shape M K T); [exact HW|exact HI]|rewrite map_length; apply HI|rewrite map_length; apply HI].
      - rewrite combine_map. apply sse_perm. apply Permutation_map, Permutation_map. exact HPI. }
    match goal with |- bind ?a _ = _ => assert (E3 : a = Ok [mse M K T s h' o']) by exact EL; rewrite E3 end. reflexivity.
  - rewrite !EM by assumption. apply Rmult_le_compat_r; [now apply Rlt_le, Rinv_0_lt_compat|exact D1].
  - intros HP0 Hp Hs. destruct (Req_dec (rdot (sacc (M * K + 1) data (flat h o)) (sacc (M * K + 1) data (flat h o))) 0) as [Z|NZ].
    + right. intros h2 o2 Hh2. rewrite !EM by assumption. apply Rmult_le_compat_r; [now apply Rlt_le, Rinv_0_lt_compat|].
      assert (HZ : sized (M * K + 1) data) by (subst data; rewrite <- combine_map; now apply vsample_sized).
      pose proof (flat_len M K h o Hh) as L1. pose proof (flat_len M K h2 o2 Hh2) as L2.
      rewrite <- (rplus_rminus (M * K + 1) (flat h o) (flat h2 o2) L1 L2).
      rewrite (sse_plus (M * K + 1) data _ _ HZ L1) by (apply rplus_len; [exact L2|now apply rscale_len]).
      apply rdot_self_zero in Z. rewrite Z, rdot_zeros. pose proof (sq_nonneg data (rplus (flat h2 o2) (rscale (-1) (flat h o)))). lra.
    + left. rewrite !EM by assumption. apply Rmult_lt_compat_r; [now apply Rinv_0_lt_compat|]. now apply D2.
Qed.
