(** Linear systems of differential equations on [0, T]: superposition and uniqueness.  A solution is continuous and satisfies the
    equation except at finitely many times, so that the right-hand side may jump. *)
From Coq Require Import List Arith Lia Bool Reals Lra.
From Verif Require Import Base LinAlg FirExtras AnalogSystem IntegratorsProofs Stability.
Import ListNotations.
Open Scope R_scope.

Lemma rsum_scale n c f : rsum n (fun i => c * f i) = c * rsum n f.
Proof. induction n; [rewrite !rsum_0; lra|]. rewrite !rsum_S, IHn. lra. Qed.
Lemma rsum_le n f g : (forall i, (i < n)%nat -> f i <= g i) -> rsum n f <= rsum n g.
Proof. induction n; intros H; [rewrite !rsum_0; lra|]. rewrite !rsum_S. assert (A := H n (Nat.lt_succ_diag_r n)). assert (B := IHn (fun i Hi => H i (Nat.lt_lt_succ_r _ _ Hi))). lra. Qed.
Lemma rsum_swap n m f : rsum n (fun i => rsum m (fun j => f i j)) = rsum m (fun j => rsum n (fun i => f i j)).
Proof.
  induction n. { rewrite rsum_0. symmetry. apply rsum_zero. intros. apply rsum_0. }
  rewrite rsum_S, IHn, <- rsum_add. apply rsum_ext. intros j _. now rewrite rsum_S.
Qed.
Lemma rsum_abs n f : Rabs (rsum n f) <= rsum n (fun i => Rabs (f i)).
Proof. induction n; [rewrite !rsum_0, Rabs_R0; lra|]. rewrite !rsum_S. assert (A := Rabs_triang (rsum n f) (f n)). lra. Qed.

Lemma continuity_rsum n (f : nat -> R -> R) t : (forall i, (i < n)%nat -> continuity_pt (f i) t) -> continuity_pt (fun s => rsum n (fun i => f i s)) t.
Proof.
  induction n; intros H. { apply continuity_pt_const. intros x y. reflexivity. }
  assert (P : continuity_pt ((fun s => rsum n (fun i => f i s)) + f n)%F t) by (apply continuity_pt_plus; auto).
  eapply continuity_pt_locally_ext with (a := 1) (f := ((fun s => rsum n (fun i => f i s)) + f n)%F); [lra| |exact P].
  intros y _. unfold plus_fct. now rewrite rsum_S.
Qed.
Lemma derivable_ext (f g : R -> R) x l : (forall y, f y = g y) -> derivable_pt_lim f x l -> derivable_pt_lim g x l.
Proof. intros H D eps He. destruct (D eps He) as [d Hd]. exists d. intros h H1 H2. rewrite <- !H. auto. Qed.
Lemma derivable_rsum n (f : nat -> R -> R) (d : nat -> R) t : (forall i, (i < n)%nat -> derivable_pt_lim (f i) t (d i)) ->
  derivable_pt_lim (fun s => rsum n (fun i => f i s)) t (rsum n d).
Proof.
  induction n; intros H. { rewrite rsum_0. apply (derivable_pt_lim_const 0). }
  rewrite rsum_S. apply derivable_ext with (f := ((fun s => rsum n (fun i => f i s)) + f n)%F); [intros y; unfold plus_fct; now rewrite rsum_S|].
  apply derivable_pt_lim_plus; auto.
Qed.

(** *** Monotonicity with exceptional points *)
Lemma nonincreasing (ex : list R) : forall (f f' : R -> R) (a b : R), a <= b ->
  (forall t, a <= t <= b -> continuity_pt f t) ->
  (forall t, a < t < b -> ~ In t ex -> derivable_pt_lim f t (f' t) /\ f' t <= 0) -> f b <= f a.
Proof.
  induction ex as [|c ex IH]; intros f f' a b Hab Hc Hd.
  - destruct (Req_dec a b) as [->|]; [lra|]. assert (Hlt : a < b) by lra.
    assert (pr1 : forall c, a < c < b -> derivable_pt f c) by (intros c Hcc; eexists; apply Hd; [exact Hcc|auto]).
    assert (pr2 : forall c, a < c < b -> derivable_pt id c) by (intros; apply derivable_pt_id).
    destruct (MVT f id a b pr1 pr2 Hlt) as (c & Hcc & Heq); [exact Hc|intros; apply derivable_continuous_pt, derivable_pt_id|].
    destruct (Hd c Hcc (fun x => x)) as [D1 D2].
    assert (E1 : derive_pt f c (pr1 c Hcc) = f' c) by (apply derive_pt_eq_0; exact D1).
    assert (E2 : derive_pt id c (pr2 c Hcc) = 1) by (apply derive_pt_eq_0, derivable_pt_lim_id).
    rewrite E1, E2 in Heq. unfold id in Heq. nra.
  - destruct (Rle_dec c a) as [L|L]; [|destruct (Rle_dec b c) as [L'|L']].
    + apply IH with (f' := f'); auto. intros t Ht Hn. apply Hd; [exact Ht|]. intros [<-|]; [lra|auto].
    + apply IH with (f' := f'); auto. intros t Ht Hn. apply Hd; [exact Ht|]. intros [<-|]; [lra|auto].
    + apply Rle_trans with (f c); apply IH with (f' := f'); try lra; intros t Ht; try (apply Hc; lra); intros Hn; (apply Hd; [lra|intros [<-|]; [lra|auto]]).
Qed.

Lemma comparison_ex (ex : list R) (g g' : R -> R) (rho T : R) :
  (forall t, 0 <= t <= T -> continuity_pt g t) ->
  (forall t, 0 < t < T -> ~ In t ex -> derivable_pt_lim g t (g' t) /\ g' t - rho * g t <= 0) -> g 0 <= 0 ->
  forall t, 0 <= t <= T -> g t <= 0.
Proof.
  intros Hc Hd H0 t Ht. set (E := fun s => exp (- rho * s)).
  assert (DE : forall s, derivable_pt_lim E s (- rho * E s)).
  { intros s. unfold E. replace (- rho * exp (- rho * s)) with (exp (- rho * s) * (- rho * 1)) by ring.
    apply (derivable_pt_lim_comp (fun s => - rho * s) exp).
    - apply (derivable_pt_lim_scal id (- rho) s 1). apply derivable_pt_lim_id.
    - apply derivable_pt_lim_exp. }
  assert (M : (E * g)%F t <= (E * g)%F 0).
  { apply nonincreasing with (ex := ex) (f' := fun c => - rho * E c * g c + E c * g' c); [lra| |].
    - intros s Hs. apply continuity_pt_mult; [|apply Hc; lra]. apply derivable_continuous_pt. eexists. apply DE.
    - intros s Hs Hn. destruct (Hd s ltac:(lra) Hn) as [D1 D2]. split; [apply derivable_pt_lim_mult; auto|].
      assert (0 < E s) by apply exp_pos. nra. }
  unfold mult_fct in M. unfold E at 2 in M. rewrite Rmult_0_r, exp_0 in M. assert (0 < E t) by apply exp_pos. nra.
Qed.

(** *** Solutions *)
Section Sol.
Variable (N : nat) (A : nat -> nat -> R) (T : R).

Definition sol (b z : nat -> R -> R) : Prop :=
  (forall n t, (n < N)%nat -> 0 <= t <= T -> continuity_pt (z n) t) /\
  exists ex, forall n t, (n < N)%nat -> 0 < t < T -> ~ In t ex -> derivable_pt_lim (z n) t (rsum N (fun k => A n k * z k t) + b n t).

Lemma sol_ext b b' z : (forall n t, (n < N)%nat -> 0 < t < T -> b n t = b' n t) -> sol b z -> sol b' z.
Proof. intros H [C [ex D]]. split; [exact C|]. exists ex. intros n t Hn Ht Hi. rewrite <- H by assumption. auto. Qed.
Lemma sol_ext_z b z z' : (forall n t, z n t = z' n t) -> sol b z -> sol b z'.
Proof.
  intros H [C [ex D]]. split.
  - intros n t Hn Ht. apply continuity_pt_locally_ext with (f := z n) (a := 1); [lra|auto|auto].
  - exists ex. intros n t Hn Ht Hi. apply derivable_ext with (f := z n); [auto|].
    rewrite (rsum_ext _ _ (fun k => A n k * z k t)) by (intros; now rewrite H). auto.
Qed.

Lemma sol_comb c b1 z1 b2 z2 : sol b1 z1 -> sol b2 z2 -> sol (fun n t => b1 n t + c * b2 n t) (fun n t => z1 n t + c * z2 n t).
Proof.
  intros [C1 [e1 D1]] [C2 [e2 D2]]. split.
  - intros n t Hn Ht. apply (continuity_pt_plus (z1 n) (mult_real_fct c (z2 n))); [auto|]. apply continuity_pt_scal; auto.
  - exists (e1 ++ e2). intros n t Hn Ht Hi.
    replace (rsum N (fun k => A n k * (z1 k t + c * z2 k t)) + (b1 n t + c * b2 n t))
       with ((rsum N (fun k => A n k * z1 k t) + b1 n t) + c * (rsum N (fun k => A n k * z2 k t) + b2 n t)).
    + apply (derivable_pt_lim_plus (z1 n) (mult_real_fct c (z2 n))).
      * apply D1; auto. intros X. apply Hi, in_or_app. now left.
      * apply derivable_pt_lim_scal. apply D2; auto. intros X. apply Hi, in_or_app. now right.
    + rewrite (rsum_ext _ (fun k => A n k * (z1 k t + c * z2 k t)) (fun k => A n k * z1 k t + c * (A n k * z2 k t))) by (intros; ring).
      rewrite rsum_add, rsum_scale. ring.
Qed.

Lemma sol_zero : sol (fun _ _ => 0) (fun _ _ => 0).
Proof.
  split.
  - intros n t _ _. apply continuity_pt_const. intros x y. reflexivity.
  - exists []. intros n t Hn Ht _. rewrite rsum_zero by (intros; ring). rewrite Rplus_0_r. apply (derivable_pt_lim_const 0).
Qed.

Lemma sol_sum m (c : nat -> R) (b z : nat -> nat -> R -> R) : (forall i, (i < m)%nat -> sol (b i) (z i)) ->
  sol (fun n t => rsum m (fun i => c i * b i n t)) (fun n t => rsum m (fun i => c i * z i n t)).
Proof.
  induction m; intros H; [apply sol_zero|].
  apply sol_ext_z with (z := fun n t => rsum m (fun i => c i * z i n t) + c m * z m n t); [intros; now rewrite rsum_S|].
  apply sol_ext with (b := fun n t => rsum m (fun i => c i * b i n t) + c m * b m n t); [intros; now rewrite rsum_S|].
  apply sol_comb; auto.
Qed.

(** *** Uniqueness *)
Lemma unique b z1 z2 : sol b z1 -> sol b z2 -> (forall n, (n < N)%nat -> z1 n 0 = z2 n 0) ->
  forall n t, (n < N)%nat -> 0 <= t <= T -> z1 n t = z2 n t.
Proof.
  intros S1 S2 H0 n t Hn Ht.
  destruct (sol_comb (-1) _ _ _ _ S1 S2) as [C [ex D]]. set (w := fun n t => z1 n t + -1 * z2 n t) in *.
  change (forall n t, (n < N)%nat -> 0 <= t <= T -> continuity_pt (w n) t) in C.
  assert (D' : forall n t, (n < N)%nat -> 0 < t < T -> ~ In t ex -> derivable_pt_lim (w n) t (rsum N (fun k => A n k * w k t))).
  { intros n0 t0 H1 H2 H3. specialize (D n0 t0 H1 H2 H3). replace (rsum N (fun k => A n0 k * w k t0)) with (rsum N (fun k => A n0 k * w k t0) + (b n0 t0 + -1 * b n0 t0)) by ring. exact D. }
  set (g := fun t => rsum N (fun n => w n t * w n t)).
  set (g' := fun t => rsum N (fun n => rsum N (fun k => A n k * w k t) * w n t + w n t * rsum N (fun k => A n k * w k t))).
  set (rho := 2 * rsum N (fun n => rsum N (fun k => Rabs (A n k)))).
  assert (G : g t <= 0).
  { apply comparison_ex with (ex := ex) (g' := g') (rho := rho) (T := T); auto.
    - intros s Hs. unfold g. apply continuity_rsum. intros i Hi. apply (continuity_pt_mult (w i) (w i)); auto.
    - intros s Hs Hi. split.
      + unfold g, g'. apply derivable_rsum. intros i Hi'. apply (derivable_pt_lim_mult (w i) (w i)); auto.
      + enough (g' s <= rho * g s) by lra.
        assert (Gn : forall i, (i < N)%nat -> w i s * w i s <= g s).
        { intros i Hi'. unfold g. apply Rle_trans with (rsum N (fun j => if Nat.eqb j i then w j s * w j s else 0)).
          - rewrite rsum_single by exact Hi'. lra.
          - apply rsum_le. intros j _. destruct (Nat.eqb j i); nra. }
        unfold g', rho. rewrite Rmult_assoc, (Rmult_comm (rsum N _)), <- Rmult_assoc, <- rsum_scale.
        apply rsum_le. intros i Hi'. rewrite <- (rsum_scale N (2 * g s)).
        replace (rsum N (fun k => A i k * w k s) * w i s + w i s * rsum N (fun k => A i k * w k s)) with (rsum N (fun k => (2 * w i s) * (A i k * w k s))) by (rewrite rsum_scale; ring).
        apply rsum_le. intros k Hk.
        assert (P := Gn i Hi'). assert (Q := Gn k Hk). set (x := w i s) in *. set (y := w k s) in *. set (a := A i k).
        replace (2 * x * (a * y)) with (a * (2 * x * y)) by ring.
        apply Rle_trans with (Rabs a * (x * x + y * y)); [|assert (0 <= Rabs a) by apply Rabs_pos; nra].
        apply Rle_trans with (Rabs (a * (2 * x * y))); [apply Rle_abs|]. rewrite Rabs_mult. apply Rmult_le_compat_l; [apply Rabs_pos|].
        apply Rabs_le. assert (U := Rle_0_sqr (x + y)). assert (V := Rle_0_sqr (x - y)). unfold Rsqr in U, V. split; lra.
    - unfold g. rewrite rsum_zero; [lra|]. intros i Hi'. unfold w. rewrite H0 by exact Hi'. ring. }
  assert (w n t * w n t <= 0).
  { apply Rle_trans with (g t); [|exact G]. unfold g. apply Rle_trans with (rsum N (fun j => if Nat.eqb j n then w j t * w j t else 0)).
    - rewrite rsum_single by exact Hn. lra.
    - apply rsum_le. intros j _. destruct (Nat.eqb j n); nra. }
  assert (w n t = 0) by nra. unfold w in *. lra.
Qed.
End Sol.

(** *** The same for right-hand sides as in the simulators *)
Definition solves_pw (f : R -> list R -> result (list R)) (T : R) (y0 : list R) (y : R -> list R) : Prop :=
  y 0 = y0 /\ (forall t, 0 <= t <= T -> length (y t) = length y0) /\
  (forall n t, 0 <= t <= T -> continuity_pt (fun s => nth n (y s) 0) t) /\
  exists ex, forall t, 0 < t < T -> ~ In t ex -> exists v, f t (y t) = Ok v /\ length v = length y0 /\
    forall n, (n < length y0)%nat -> derivable_pt_lim (fun s => nth n (y s) 0) t (nth n v 0).

Lemma solves_pw_of f T y0 y : solves f 0 T y0 y -> solves_pw f T y0 y.
Proof. intros (H1 & H2 & H3 & H4). split; [exact H1|]. split; [exact H2|]. split; [exact H3|]. exists []. auto. Qed.

Lemma sol_of_solves N A (f : R -> list R -> result (list R)) b T y0 y :
  (forall t x, 0 < t < T -> length x = N -> f t x = Ok (map (fun n => rsum N (fun k => A n k * nth k x 0) + b n t) (seq 0 N))) ->
  length y0 = N -> solves_pw f T y0 y -> sol N A T b (fun n t => nth n (y t) 0).
Proof.
  intros Hf L0 (_ & Ly & C & ex & D). split; [intros n t _; apply C|]. exists ex. intros n t Hn Ht Hi.
  destruct (D t Ht Hi) as (v & Ev & Lv & Dv). rewrite Hf in Ev by (auto; rewrite Ly; lra || auto). apply Ok_inj in Ev. subst v.
  rewrite L0 in Dv. specialize (Dv n Hn). rewrite nth_seq_R in Dv by exact Hn. exact Dv.
Qed.

Lemma solves_of_sol N A (f : R -> list R -> result (list R)) b T (y0 : list R) z :
  (forall t x, 0 < t < T -> length x = N -> f t x = Ok (map (fun n => rsum N (fun k => A n k * nth k x 0) + b n t) (seq 0 N))) ->
  length y0 = N -> (forall n, (n < N)%nat -> z n 0 = nth n y0 0) -> sol N A T b z ->
  solves_pw f T y0 (fun t => map (fun n => z n t) (seq 0 N)).
Proof.
  intros Hf L0 Hz [C [ex D]]. split; [|split; [|split]].
  - apply list_ext with (d := 0); [now rewrite map_length, seq_length|]. intros n Hn. rewrite map_length, seq_length in Hn. rewrite nth_seq_R by exact Hn. auto.
  - intros. now rewrite map_length, seq_length.
  - intros n t Ht. destruct (Nat.lt_ge_cases n N) as [L|L].
    + apply continuity_pt_locally_ext with (f := z n) (a := 1); [lra| |auto]. intros s _. now rewrite nth_seq_R.
    + apply continuity_pt_const. intros s s'. rewrite !nth_overflow by (rewrite map_length, seq_length; exact L). reflexivity.
  - exists ex. intros t Ht Hi. eexists. split; [apply Hf; [exact Ht|now rewrite map_length, seq_length]|]. split; [now rewrite map_length, seq_length|].
    intros n Hn. rewrite L0 in Hn. rewrite nth_seq_R by exact Hn. apply derivable_ext with (f := z n); [intros s; now rewrite nth_seq_R|].
    rewrite (rsum_ext _ _ (fun k => A n k * z k t)); [auto|]. intros k Hk. now rewrite nth_seq_R.
Qed.
