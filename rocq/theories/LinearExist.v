(** Every linear differential equation with a continuous drive has a solution on [0, T]. *)
From Coq Require Import List Arith Lia Bool Reals Lra ZArith FunctionalExtensionality.
From Coquelicot Require Import Coquelicot.
From Verif Require Import Base Integrators IntegratorsProofs LinearOde Optimal.
Import ListNotations.
Open Scope R_scope.

Section Exp.
Variables (N : nat) (A : nat -> nat -> R).
(** A^k *)
Fixpoint mpow (k : nat) (i j : nat) : R := match k with 0%nat => if Nat.eqb i j then 1 else 0 | S k => rsum N (fun m => A i m * mpow k m j) end.
Lemma mpow_r k i j : (i < N)%nat -> (j < N)%nat -> mpow (S k) i j = rsum N (fun m => mpow k i m * A m j).
Proof.
  revert i j. induction k; intros i j Hi Hj.
  - cbn [mpow]. rewrite (rsum_ext N _ (fun m => if Nat.eqb m j then A i m else 0)) by (intros m _; destruct (Nat.eqb m j); ring).
    rewrite (rsum_ext N (fun m => _ * A m j) (fun m => if Nat.eqb m i then A m j else 0)) by (intros m _; rewrite (Nat.eqb_sym i m); destruct (Nat.eqb m i); ring).
    rewrite !Optimal.rsum_single by assumption. reflexivity.
  - change (mpow (S (S k)) i j) with (rsum N (fun m => A i m * mpow (S k) m j)).
    rewrite (rsum_ext N (fun m => A i m * mpow (S k) m j) (fun m => rsum N (fun l => A i m * (mpow k m l * A l j)))).
    + rewrite rsum_swap. apply rsum_ext. intros l Hl. cbn [mpow]. rewrite Rmult_comm, <- rsum_scale. apply rsum_ext. intros; ring.
    + intros m Hm. rewrite IHk by assumption. now rewrite rsum_scale.
Qed.
Definition total_abs : R := 1 + rsum N (fun i => rsum N (fun j => Rabs (A i j))).
Lemma total_pos : 0 < total_abs.
Proof. unfold total_abs. assert (0 <= rsum N (fun i => rsum N (fun j => Rabs (A i j)))); [|lra]. apply rsum_nonneg. intros. apply rsum_nonneg. intros. apply Rabs_pos. Qed.
Lemma rsum_abs n f : Rabs (rsum n f) <= rsum n (fun i => Rabs (f i)).
Proof. induction n; [unfold rsum; cbn; rewrite Rabs_R0; lra|]. rewrite !rsum_S. eapply Rle_trans; [apply Rabs_triang|]. apply Rplus_le_compat_r, IHn. Qed.
Lemma rsum_member n f i : (forall j, (j < n)%nat -> 0 <= f j) -> (i < n)%nat -> f i <= rsum n f.
Proof.
  induction n; intros H Hi; [lia|]. rewrite rsum_S. assert (0 <= f n) by (apply H; lia). destruct (Nat.eq_dec i n) as [->|].
  - assert (0 <= rsum n f); [apply rsum_nonneg; intros; apply H; lia|lra].
  - specialize (IHn ltac:(intros; apply H; lia) ltac:(lia)). lra.
Qed.
Lemma mpow_bound k i j : (i < N)%nat -> Rabs (mpow k i j) <= total_abs ^ k.
Proof.
  revert i. induction k; intros i Hi. { cbn [mpow pow]. destruct (Nat.eqb i j); [rewrite Rabs_R1; lra|rewrite Rabs_R0; lra]. }
  cbn [mpow pow]. eapply Rle_trans; [apply rsum_abs|]. apply Rle_trans with (rsum N (fun m => total_abs ^ k * Rabs (A i m))).
  - apply rsum_le. intros m Hm. rewrite Rabs_mult, Rmult_comm. apply Rmult_le_compat_r; [apply Rabs_pos|]. apply IHk. exact Hm.
  - rewrite rsum_scale, Rmult_comm. apply Rmult_le_compat_r; [apply pow_le; left; apply total_pos|]. unfold total_abs.
    assert (X := rsum_member N (fun i => rsum N (fun j => Rabs (A i j))) i ltac:(intros; apply rsum_nonneg; intros; apply Rabs_pos) Hi). cbv beta in X. lra.
Qed.
Definition coef (i j k : nat) : R := mpow k i j / INR (fact k).
Lemma fact_pos k : 0 < INR (fact k).
Proof. apply lt_0_INR, lt_O_fact. Qed.
Lemma term_le_exp y k : 0 <= y -> y ^ k / INR (fact k) <= exp y.
Proof.
  intros Hy. eapply Rle_trans; [|apply (exp_ge_taylor y k Hy)]. destruct k; [cbn; lra|]. rewrite tech5.
  assert (0 <= sum_f_R0 (fun k => y ^ k / INR (fact k)) k); [|lra]. apply cond_pos_sum. intros n. apply Rmult_le_pos; [now apply pow_le|left; apply Rinv_0_lt_compat, fact_pos].
Qed.
Lemma coef_radius i j x : (i < N)%nat -> Rbar_lt (Rabs x) (CV_radius (coef i j)).
Proof.
  intros Hi. apply Rbar_lt_le_trans with (Rabs x + 1); [cbn; lra|]. apply CV_radius_bounded. exists (exp (total_abs * (Rabs x + 1))). intros n.
  assert (Ha := total_pos). assert (Hx := Rabs_pos x). unfold coef. rewrite Rabs_mult, Rabs_div by (apply Rgt_not_eq, fact_pos).
  rewrite <- RPow_abs, (Rabs_pos_eq (Rabs x + 1)), (Rabs_pos_eq (INR (fact n))) by (lra || (left; apply fact_pos)).
  eapply Rle_trans; [|apply (term_le_exp _ n); nra]. rewrite Rpow_mult_distr. unfold Rdiv. rewrite Rmult_assoc, (Rmult_comm (/ _)), <- Rmult_assoc.
  apply Rmult_le_compat_r; [left; apply Rinv_0_lt_compat, fact_pos|]. apply Rmult_le_compat_r; [apply pow_le; lra|]. now apply mpow_bound.
Qed.
(** exp (A t) *)
Definition mexp (i j : nat) (t : R) : R := PSeries (coef i j) t.
Lemma mexp_0 i j : mexp i j 0 = if Nat.eqb i j then 1 else 0.
Proof. unfold mexp. rewrite PSeries_0. unfold coef. cbn [mpow fact]. cbn [INR]. destruct (Nat.eqb i j); field. Qed.
Lemma PSeries_rsum n (c : nat -> R) (a : nat -> nat -> R) x : (forall m, (m < n)%nat -> ex_pseries (a m) x) ->
  ex_pseries (fun k => rsum n (fun m => c m * a m k)) x /\ PSeries (fun k => rsum n (fun m => c m * a m k)) x = rsum n (fun m => c m * PSeries (a m) x).
Proof.
  induction n; intros H.
  - split; [|apply PSeries_const_0]. apply CV_radius_inside. change (fun k => rsum 0 (fun m => c m * a m k)) with (fun _ : nat => 0). rewrite CV_radius_const_0. exact I.
  - destruct IHn as [E1 E2]; [intros; apply H; lia|]. assert (E3 : ex_pseries (PS_scal (c n) (a n)) x) by (apply ex_pseries_scal; [apply Rmult_comm|apply H; lia]).
    assert (X : (fun k => rsum (S n) (fun m => c m * a m k)) = PS_plus (fun k => rsum n (fun m => c m * a m k)) (PS_scal (c n) (a n))) by (apply functional_extensionality; intros k; now rewrite rsum_S).
    rewrite X. split; [now apply ex_pseries_plus|]. rewrite PSeries_plus, PSeries_scal, E2, rsum_S by assumption. reflexivity.
Qed.
Lemma mexp_deriv i j t : (i < N)%nat -> derivable_pt_lim (mexp i j) t (rsum N (fun m => A i m * mexp m j t)).
Proof.
  intros Hi. apply is_derive_Reals. unfold mexp. destruct (PSeries_rsum N (A i) (fun m => coef m j) t) as [_ E]; [intros m Hm; apply CV_radius_inside, coef_radius; exact Hm|]. rewrite <- E.
  assert (X : (fun k => rsum N (fun m => A i m * coef m j k)) = PS_derive (coef i j)).
  { apply functional_extensionality. intros k. unfold PS_derive, coef. cbn [mpow]. rewrite fact_simpl, mult_INR. assert (Hf := fact_pos k). assert (Hn : INR (S k) <> 0) by (apply not_0_INR; lia).
    transitivity (rsum N (fun m => A i m * mpow k m j) * / INR (fact k)); [|field; split; [lra|exact Hn]].
    rewrite Rmult_comm, <- rsum_scale. apply rsum_ext. intros; field; lra. }
  rewrite X. apply is_derive_PSeries. now apply coef_radius.
Qed.
Lemma mexp_deriv_r i j t : (i < N)%nat -> (j < N)%nat -> derivable_pt_lim (mexp i j) t (rsum N (fun m => mexp i m t * A m j)).
Proof.
  intros Hi Hj. apply is_derive_Reals. unfold mexp. destruct (PSeries_rsum N (fun m => A m j) (fun m => coef i m) t) as [_ E]; [intros m Hm; apply CV_radius_inside, coef_radius; exact Hi|].
  rewrite (rsum_ext N _ (fun m => A m j * PSeries (coef i m) t)) by (intros; ring). rewrite <- E.
  assert (X : (fun k => rsum N (fun m => A m j * coef i m k)) = PS_derive (coef i j)).
  { apply functional_extensionality. intros k. unfold PS_derive, coef. rewrite mpow_r by assumption. rewrite fact_simpl, mult_INR. assert (Hf := fact_pos k). assert (Hn : INR (S k) <> 0) by (apply not_0_INR; lia).
    transitivity (rsum N (fun m => mpow k i m * A m j) * / INR (fact k)); [|field; split; [lra|exact Hn]].
    rewrite Rmult_comm, <- rsum_scale. apply rsum_ext. intros; field; lra. }
  rewrite X. apply is_derive_PSeries. now apply coef_radius.
Qed.
Lemma mexp_cont i j t : (i < N)%nat -> continuity_pt (mexp i j) t.
Proof. intros Hi. apply derivable_continuous_pt. eexists. apply mexp_deriv. exact Hi. Qed.
Lemma neg_deriv f t l : derivable_pt_lim f (- t) l -> derivable_pt_lim (fun s => f (- s)) t (- l).
Proof.
  intros H. replace (- l) with (l * - (1)) by ring. apply (derivable_pt_lim_comp (fun s => - s) f); [|exact H]. apply (derivable_pt_lim_opp (fun s => s)). apply derivable_pt_lim_id.
Qed.
Lemma zero_deriv f t : (forall s, derivable_pt_lim f s 0) -> f t = f 0.
Proof.
  intros H. assert (pr : derivable f) by (intros s; exists 0; apply H). apply (null_derivative_1 f pr). intros s. apply derive_pt_eq_0, H.
Qed.
(** exp (- A t) exp (A t) = 1 *)
Lemma mexp_inv i j t : (i < N)%nat -> (j < N)%nat -> rsum N (fun m => mexp i m (- t) * mexp m j t) = if Nat.eqb i j then 1 else 0.
Proof.
  intros Hi Hj. rewrite (zero_deriv (fun t => rsum N (fun m => mexp i m (- t) * mexp m j t)) t).
  - rewrite (rsum_ext N _ (fun m => if Nat.eqb m j then (if Nat.eqb i m then 1 else 0) else 0)).
    + now rewrite (Optimal.rsum_single N (fun m => if Nat.eqb i m then 1 else 0)).
    + intros m _. rewrite Ropp_0, !mexp_0. destruct (Nat.eqb m j); destruct (Nat.eqb i m); ring.
  - intros s. assert (D : derivable_pt_lim (fun t => rsum N (fun m => mexp i m (- t) * mexp m j t)) s
      (rsum N (fun m => - rsum N (fun k => mexp i k (- s) * A k m) * mexp m j s + mexp i m (- s) * rsum N (fun k => A m k * mexp k j s)))).
    { apply derivable_rsum. intros m Hm. apply (derivable_pt_lim_mult (fun t => mexp i m (- t)) (mexp m j)); [apply neg_deriv, mexp_deriv_r; assumption|now apply mexp_deriv]. }
    replace 0 with (rsum N (fun m => - rsum N (fun k => mexp i k (- s) * A k m) * mexp m j s + mexp i m (- s) * rsum N (fun k => A m k * mexp k j s))); [exact D|].
    rewrite rsum_add. rewrite (rsum_ext N (fun m => mexp i m (- s) * _) (fun m => rsum N (fun k => mexp i m (- s) * A m k * mexp k j s))) by (intros; rewrite <- rsum_scale; apply rsum_ext; intros; ring).
    rewrite (rsum_swap N N (fun m k => mexp i m (- s) * A m k * mexp k j s)), <- rsum_add. apply rsum_zero. intros m Hm.
    rewrite (rsum_ext N (fun k => mexp i k (- s) * A k m * mexp m j s) (fun k => mexp m j s * (mexp i k (- s) * A k m))) by (intros; ring). rewrite rsum_scale. ring.
Qed.
End Exp.

Section Exist.
Variables (N : nat) (A : nat -> nat -> R) (T : R).
Hypothesis HT : 0 <= T.
Lemma sol_exists (b : nat -> R -> R) (y0 : nat -> R) : (forall n t, (n < N)%nat -> 0 <= t <= T -> continuity_pt (b n) t) ->
  exists z, sol N A T b z /\ forall n, (n < N)%nat -> z n 0 = y0 n.
Proof.
  intros Hb. set (f := fun n t => rsum N (fun k => mexp N A n k (- t) * b k t)).
  assert (Cf : forall n t, (n < N)%nat -> 0 <= t <= T -> continuity_pt (f n) t).
  { intros n t Hn Ht. apply continuity_rsum. intros k Hk. apply (continuity_pt_mult (fun t => mexp N A n k (- t)) (b k)); [|now apply Hb].
    apply (continuity_pt_comp (fun t => - t) (mexp N A n k)); [apply (continuity_pt_opp (fun t => t)), derivable_continuous_pt, derivable_pt_id|now apply mexp_cont]. }
  assert (exists J : nat -> R -> R, forall n, (n < N)%nat -> pw T (J n) (f n)) as [J HJ].
  { clear - Cf HT. assert (G : forall k, (k <= N)%nat -> exists J : nat -> R -> R, forall n, (n < k)%nat -> pw T (J n) (f n)).
    { induction k; intros Hk; [exists (fun _ _ => 0); intros; lia|]. destruct IHk as [J HJ]; [lia|]. destruct (integral_cont T (f k) HT) as (I & (F & ex & C & D & _) & _); [intros; apply Cf; auto; lia|].
      exists (fun n => if Nat.eqb n k then F else J n). intros n Hn. destruct (Nat.eqb_spec n k) as [->|]; [split; [exact C|now exists ex]|apply HJ; lia]. }
    apply (G N). lia. }
  set (z := fun i t => rsum N (fun n => mexp N A i n t * (J n t + (y0 n - J n 0)))). exists z. split.
  - split.
    + intros i t Hi Ht. apply continuity_rsum. intros n Hn. apply (continuity_pt_mult (mexp N A i n) (fun t => J n t + (y0 n - J n 0))); [now apply mexp_cont|].
      apply (continuity_pt_plus (J n) (fun _ => y0 n - J n 0)); [apply (HJ n Hn); exact Ht|apply continuity_pt_const; now intros ? ?].
    + assert (exists ex, forall n t, (n < N)%nat -> 0 < t < T -> ~ In t ex -> derivable_pt_lim (J n) t (f n t)) as [ex HD].
      { clear - HJ. assert (G : forall k, (k <= N)%nat -> exists ex, forall n t, (n < k)%nat -> 0 < t < T -> ~ In t ex -> derivable_pt_lim (J n) t (f n t)).
        { induction k; intros Hk; [exists []; intros; lia|]. destruct IHk as [e1 H1]; [lia|]. destruct (HJ k ltac:(lia)) as (_ & e2 & H2). exists (e1 ++ e2). intros n t Hn Ht Hi.
          destruct (Nat.eq_dec n k) as [->|]; [apply H2|apply H1]; auto; try lia; intros X; apply Hi, in_or_app; auto. }
        apply (G N). lia. }
      exists ex. intros i t Hi Ht Hn.
      assert (D : derivable_pt_lim (z i) t (rsum N (fun n => rsum N (fun m => A i m * mexp N A m n t) * (J n t + (y0 n - J n 0)) + mexp N A i n t * (f n t + 0)))).
      { apply derivable_rsum. intros n Hn'. apply (derivable_pt_lim_mult (mexp N A i n) (fun t => J n t + (y0 n - J n 0))); [now apply mexp_deriv|].
        apply (derivable_pt_lim_plus (J n) (fun _ => y0 n - J n 0)); [now apply HD|apply derivable_pt_lim_const]. }
      replace (rsum N (fun k => A i k * z k t) + b i t) with (rsum N (fun n => rsum N (fun m => A i m * mexp N A m n t) * (J n t + (y0 n - J n 0)) + mexp N A i n t * (f n t + 0))); [exact D|].
      rewrite rsum_add. f_equal.
      * rewrite (rsum_ext N _ (fun n => rsum N (fun m => A i m * (mexp N A m n t * (J n t + (y0 n - J n 0)))))) by (intros; rewrite Rmult_comm, <- rsum_scale; apply rsum_ext; intros; ring).
        rewrite rsum_swap. apply rsum_ext. intros m Hm. now rewrite rsum_scale.
      * rewrite (rsum_ext N _ (fun n => rsum N (fun k => mexp N A i n t * mexp N A n k (- t) * b k t))) by (intros; rewrite Rplus_0_r; unfold f; rewrite <- rsum_scale; apply rsum_ext; intros; ring).
        rewrite rsum_swap. rewrite (rsum_ext N _ (fun k => if Nat.eqb k i then b k t else 0)).
        -- now rewrite (Optimal.rsum_single N (fun k => b k t)).
        -- intros k Hk. rewrite (rsum_ext N _ (fun n => b k t * (mexp N A i n (- - t) * mexp N A n k (- t)))) by (intros; rewrite Ropp_involutive; ring).
           rewrite rsum_scale, mexp_inv by assumption. rewrite (Nat.eqb_sym k i). destruct (Nat.eqb i k); ring.
  - intros i Hi. unfold z. rewrite (rsum_ext N _ (fun n => if Nat.eqb n i then y0 n else 0)).
    + now rewrite (Optimal.rsum_single N y0).
    + intros n _. rewrite mexp_0, (Nat.eqb_sym i n). destruct (Nat.eqb n i); ring.
Qed.
End Exist.
