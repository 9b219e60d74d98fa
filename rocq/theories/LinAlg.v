(** Vectors as lists, matrices as lists of rows, over an arbitrary commutative ring (Leibniz equality).
    This file is the numpy-array vocabulary shared by the models: [np.dot], [+], [-], unary minus, [np.zeros], [np.eye]. *)
From Coq Require Import List Lia Arith Ring Bool.
From Verif Require Import Base.
Import ListNotations.

Fixpoint map2 {A B C} (f : A -> B -> C) (l1 : list A) (l2 : list B) : list C :=
  match l1, l2 with
  | x :: r1, y :: r2 => f x y :: map2 f r1 r2
  | _, _ => []
  end.

Lemma map2_length {A B C} (f : A -> B -> C) l1 l2 : length (map2 f l1 l2) = min (length l1) (length l2).
Proof. revert l2; induction l1; intros [|y l2]; simpl; auto. Qed.

Lemma map2_nth {A B C} (f : A -> B -> C) l1 l2 i da db dc :
  i < length l1 -> i < length l2 -> nth i (map2 f l1 l2) dc = f (nth i l1 da) (nth i l2 db).
Proof.
  revert l2 i; induction l1 as [|x l1 IH]; intros [|y l2] i H1 H2; simpl in *; try lia.
  destruct i; [reflexivity|]. apply IH; lia.
Qed.

Lemma map2_ext {A B C} (f g : A -> B -> C) l1 l2 : (forall a b, f a b = g a b) -> map2 f l1 l2 = map2 g l1 l2.
Proof. intros H. revert l2; induction l1; intros [|y l2]; simpl; auto. now rewrite H, IHl1. Qed.

(** Commutative rings with Leibniz equality, as a first-class record (instances at the end of the file). *)
Record cring := mkCring {
  car :> Type;
  r0 : car; r1 : car;
  radd : car -> car -> car; rmul : car -> car -> car; rsub : car -> car -> car;
  ropp : car -> car;
  rth : ring_theory r0 r1 radd rmul rsub ropp (@eq car)
}.

Declare Scope cring_scope.
Delimit Scope cring_scope with K.
Notation "0" := (r0 _) : cring_scope.
Notation "1" := (r1 _) : cring_scope.
Infix "+" := (radd _) : cring_scope.
Infix "*" := (rmul _) : cring_scope.
Infix "-" := (rsub _) : cring_scope.
Notation "- x" := (ropp _ x) : cring_scope.

Section Ring.
Context {K : cring}.
Add Ring Kring : (rth K).
Local Open Scope cring_scope.

Notation vec := (list K).
Notation mat := (list (list K)).

Definition vzero (n : nat) : vec := repeat 0 n.
Definition vadd : vec -> vec -> vec := map2 (radd K).
Definition vsub : vec -> vec -> vec := map2 (rsub K).
Definition vopp : vec -> vec := map (ropp K).
Definition vscale (c : K) : vec -> vec := map (rmul K c).

Fixpoint dot (u v : vec) : K :=
  match u, v with
  | x :: u, y :: v => x * y + dot u v
  | _, _ => 0
  end.

(** [np.dot(A, v)] *)
Definition mv (A : mat) (v : vec) : vec := map (fun r => dot r v) A.

(** row vector times matrix with [p] columns *)
Fixpoint vm (p : nat) (r : vec) (B : mat) : vec :=
  match r, B with
  | x :: r, b :: B => vadd (vscale x b) (vm p r B)
  | _, _ => vzero p
  end.

(** [np.dot(A, B)], B with [p] columns *)
Definition mm (p : nat) (A B : mat) : mat := map (fun r => vm p r B) A.

Definition mopp : mat -> mat := map vopp.
Definition madd : mat -> mat -> mat := map2 vadd.
Definition mscale (c : K) : mat -> mat := map (vscale c).

Definition wfm (m n : nat) (A : mat) : Prop := length A = m /\ Forall (fun r => length r = n) A.

(** unit vector and identity *)
Definition unitv (n i : nat) : vec := map (fun j => if Nat.eqb i j then 1 else 0) (seq 0 n).
Definition eye (n : nat) : mat := map (unitv n) (seq 0 n).

(** iterate a matrix on a vector: [A^i v] *)
Fixpoint mpow (A : mat) (i : nat) (v : vec) : vec :=
  match i with O => v | S i => mv A (mpow A i v) end.

(** scalar and vector finite sums *)
Fixpoint ksum (n : nat) (f : nat -> K) : K := match n with O => 0 | S n => ksum n f + f n end.
Fixpoint vsum (N n : nat) (f : nat -> vec) : vec := match n with O => vzero N | S n => vadd (vsum N n f) (f n) end.

(** *** lengths *)
Lemma vzero_length n : length (vzero n) = n. Proof. apply repeat_length. Qed.
Lemma vadd_length u v : length (vadd u v) = min (length u) (length v). Proof. apply map2_length. Qed.
Lemma vsub_length u v : length (vsub u v) = min (length u) (length v). Proof. apply map2_length. Qed.
Lemma vopp_length v : length (vopp v) = length v. Proof. apply map_length. Qed.
Lemma vscale_length c v : length (vscale c v) = length v. Proof. apply map_length. Qed.
Lemma mv_length A v : length (mv A v) = length A. Proof. apply map_length. Qed.
Lemma unitv_length n i : length (unitv n i) = n. Proof. unfold unitv. now rewrite map_length, seq_length. Qed.
Lemma mpow_length A i v : length v = length A -> length (mpow A i v) = length A.
Proof. destruct i; simpl; auto. intros _. apply mv_length. Qed.
Lemma vsum_length N n f : (forall i, (i < n)%nat -> length (f i) = N) -> length (vsum N n f) = N.
Proof.
  induction n; intros H; simpl; [apply vzero_length|]. rewrite vadd_length, IHn, H by (auto; intros; apply H; lia). apply Nat.min_id.
Qed.
Lemma vm_length p r B : Forall (fun b => length b = p) B -> length (vm p r B) = p.
Proof.
  intros H; revert r; induction H as [|b B Hb HB IH]; intros [|x r]; simpl; try apply vzero_length.
  rewrite vadd_length, vscale_length, IH, Hb. apply Nat.min_id.
Qed.
Lemma mm_wf m n p A B : wfm m n A -> wfm n p B -> wfm m p (mm p A B).
Proof.
  intros [HA _] [_ HB]. split; [unfold mm; now rewrite map_length|]. apply Forall_map. apply Forall_forall.
  intros r _. now apply vm_length.
Qed.
Lemma eye_wf n : wfm n n (eye n).
Proof.
  split; [unfold eye; now rewrite map_length, seq_length|]. apply Forall_map, Forall_forall. intros; apply unitv_length.
Qed.
Lemma mopp_wf m n A : wfm m n A -> wfm m n (mopp A).
Proof.
  intros [H1 H2]. split; [unfold mopp; now rewrite map_length|]. apply Forall_map. eapply Forall_impl; [|exact H2].
  intros r; cbv beta; intros <-. apply vopp_length.
Qed.

(** *** vector algebra *)
Lemma vadd_comm u v : vadd u v = vadd v u.
Proof. unfold vadd. revert v; induction u; intros [|y v]; simpl; auto. f_equal; [ring|auto]. Qed.
Lemma vadd_assoc u v w : vadd u (vadd v w) = vadd (vadd u v) w.
Proof. unfold vadd. revert v w; induction u; intros [|y v] [|z w]; simpl; auto. f_equal; [ring|auto]. Qed.
Lemma vadd_0_l n v : length v = n -> vadd (vzero n) v = v.
Proof. intros <-. unfold vadd, vzero. induction v; simpl; auto. f_equal; [ring|auto]. Qed.
Lemma vadd_0_r n v : length v = n -> vadd v (vzero n) = v.
Proof. intros. rewrite vadd_comm. now apply vadd_0_l. Qed.
Lemma vsub_vadd u v : vsub u v = vadd u (vopp v).
Proof. unfold vsub, vadd, vopp. revert v; induction u; intros [|y v]; simpl; auto. f_equal; [ring|auto]. Qed.
Lemma vadd_vopp v : vadd v (vopp v) = vzero (length v).
Proof. unfold vadd, vopp, vzero. induction v; simpl; auto. f_equal; [ring|auto]. Qed.
Lemma vopp_vadd u v : vopp (vadd u v) = vadd (vopp u) (vopp v).
Proof. unfold vadd, vopp. revert v; induction u; intros [|y v]; simpl; auto. f_equal; [ring|auto]. Qed.
Lemma vopp_vopp v : vopp (vopp v) = v.
Proof. unfold vopp. induction v; simpl; auto. f_equal; [ring|auto]. Qed.
Lemma vopp_vzero n : vopp (vzero n) = vzero n.
Proof. unfold vopp, vzero. induction n; simpl; auto. f_equal; [ring|auto]. Qed.
Lemma vscale_vadd c u v : vscale c (vadd u v) = vadd (vscale c u) (vscale c v).
Proof. unfold vadd, vscale. revert v; induction u; intros [|y v]; simpl; auto. f_equal; [ring|auto]. Qed.
Lemma vscale_vzero c n : vscale c (vzero n) = vzero n.
Proof. unfold vscale, vzero. induction n; simpl; auto. f_equal; [ring|auto]. Qed.
Lemma vscale_1 v : vscale 1 v = v.
Proof. unfold vscale. induction v; simpl; auto. f_equal; [ring|auto]. Qed.
Lemma vscale_0 v : vscale 0 v = vzero (length v).
Proof. unfold vscale, vzero. induction v; simpl; auto. f_equal; [ring|auto]. Qed.
Lemma vscale_mul a b v : vscale (a * b) v = vscale a (vscale b v).
Proof. unfold vscale. induction v; simpl; auto. f_equal; [ring|auto]. Qed.
Lemma vscale_add a b v : vscale (a + b) v = vadd (vscale a v) (vscale b v).
Proof. unfold vscale, vadd. induction v; simpl; auto. f_equal; [ring|auto]. Qed.
Lemma vopp_vscale v : vopp v = vscale (ropp K 1) v.
Proof. unfold vopp, vscale. induction v; simpl; auto. f_equal; [ring|auto]. Qed.
Lemma vsub_self v : vsub v v = vzero (length v).
Proof. rewrite vsub_vadd. apply vadd_vopp. Qed.
Lemma vadd_swap4 a b c d : vadd (vadd a b) (vadd c d) = vadd (vadd a c) (vadd b d).
Proof.
  rewrite vadd_assoc, <- (vadd_assoc a b c), (vadd_comm b c), (vadd_assoc a c b), <- vadd_assoc. reflexivity.
Qed.

(** *** dot *)
Lemma dot_nil_r u : dot u [] = 0. Proof. destruct u; reflexivity. Qed.
Lemma dot_comm u v : dot u v = dot v u.
Proof. revert v; induction u; intros [|y v]; simpl; auto. rewrite IHu. ring. Qed.
Lemma dot_vadd_r r u v : length u = length v -> dot r (vadd u v) = dot r u + dot r v.
Proof.
  unfold vadd. revert u v; induction r; intros [|x u] [|y v] H; simpl in *; try discriminate; try ring.
  rewrite IHr by lia. ring.
Qed.
Lemma dot_vadd_l r u v : length u = length v -> dot (vadd u v) r = dot u r + dot v r.
Proof. intros. rewrite !(dot_comm _ r). now apply dot_vadd_r. Qed.
Lemma dot_vscale_r c r v : dot r (vscale c v) = c * dot r v.
Proof. unfold vscale. revert v; induction r; intros [|y v]; simpl; try ring. rewrite IHr. ring. Qed.
Lemma dot_vscale_l c r v : dot (vscale c r) v = c * dot r v.
Proof. rewrite !(dot_comm _ v). apply dot_vscale_r. Qed.
Lemma dot_vopp_r r v : dot r (vopp v) = - dot r v.
Proof. rewrite vopp_vscale, dot_vscale_r. ring. Qed.
Lemma dot_vopp_l r v : dot (vopp r) v = - dot r v.
Proof. rewrite vopp_vscale, dot_vscale_l. ring. Qed.
Lemma dot_vzero_r r n : dot r (vzero n) = 0.
Proof. unfold vzero. revert n; induction r; intros [|n]; simpl; try ring. rewrite IHr. ring. Qed.
Lemma dot_vzero_l r n : dot (vzero n) r = 0.
Proof. rewrite dot_comm. apply dot_vzero_r. Qed.
Lemma dot_app u1 u2 v1 v2 : length u1 = length v1 -> dot (u1 ++ u2) (v1 ++ v2) = dot u1 v1 + dot u2 v2.
Proof.
  revert v1; induction u1; intros [|y v1] H; simpl in *; try discriminate; [ring|]. rewrite IHu1 by lia. ring.
Qed.

(** *** mv *)
Lemma mv_vadd A u v : length u = length v -> mv A (vadd u v) = vadd (mv A u) (mv A v).
Proof.
  intros H. induction A as [|a A IH]; [reflexivity|]. change (dot a (vadd u v) :: mv A (vadd u v) = (dot a u + dot a v) :: vadd (mv A u) (mv A v)).
  rewrite IH, dot_vadd_r by assumption. reflexivity.
Qed.
Lemma mv_vscale A c v : mv A (vscale c v) = vscale c (mv A v).
Proof. induction A; simpl; auto. f_equal; [apply dot_vscale_r|apply IHA]. Qed.
Lemma mv_vopp A v : mv A (vopp v) = vopp (mv A v).
Proof. rewrite !vopp_vscale. apply mv_vscale. Qed.
Lemma mv_vsub A u v : length u = length v -> mv A (vsub u v) = vsub (mv A u) (mv A v).
Proof. intros H. rewrite !vsub_vadd, mv_vadd, mv_vopp by (now rewrite vopp_length). reflexivity. Qed.
Lemma mv_vzero A n : mv A (vzero n) = vzero (length A).
Proof. induction A; simpl; auto. rewrite dot_vzero_r, IHA. reflexivity. Qed.
Lemma mv_mopp A v : mv (mopp A) v = vopp (mv A v).
Proof. induction A; simpl; auto. f_equal; [apply dot_vopp_l|apply IHA]. Qed.
Lemma mv_mscale c A v : mv (mscale c A) v = vscale c (mv A v).
Proof. induction A; simpl; auto. f_equal; [apply dot_vscale_l|apply IHA]. Qed.
Lemma mv_madd m n A B v : wfm m n A -> wfm m n B -> mv (madd A B) v = vadd (mv A v) (mv B v).
Proof.
  intros [H1 H2] [H3 H4]. subst m. revert B H3 H4. induction H2 as [|a A Ha HA IH]; intros [|b B] H3 H4; simpl in *; try discriminate; auto.
  inversion H4; subst. change (dot (vadd a b) v :: mv (madd A B) v = (dot a v + dot b v) :: vadd (mv A v) (mv B v)).
  f_equal; [apply dot_vadd_l; congruence|apply IH; auto].
Qed.
Lemma dot_vm p r B v : Forall (fun b => length b = p) B -> dot (vm p r B) v = dot r (mv B v).
Proof.
  intros HB; revert r. induction HB as [|b B Hb HB IH]; intros [|x r]; simpl; try apply dot_vzero_l.
  rewrite dot_vadd_l by (rewrite vscale_length, vm_length by assumption; congruence).
  now rewrite dot_vscale_l, IH.
Qed.
Lemma mv_mm n p A B v : wfm n p B -> mv (mm p A B) v = mv A (mv B v).
Proof. intros [_ HB]. unfold mv at 1, mm. rewrite map_map. apply map_ext. intros r. now apply dot_vm. Qed.

Lemma mpow_S_r A i v : mpow A (S i) v = mpow A i (mv A v).
Proof. induction i; simpl; auto. now rewrite <- IHi. Qed.
Lemma mpow_add A i j v : mpow A (i + j) v = mpow A i (mpow A j v).
Proof. induction i; simpl; auto. now rewrite IHi. Qed.
Lemma mpow_vadd A i u v : length u = length v -> mpow A i (vadd u v) = vadd (mpow A i u) (mpow A i v).
Proof.
  intros H. induction i; simpl; auto. rewrite IHi. apply mv_vadd. destruct i; simpl; [assumption|now rewrite !mv_length].
Qed.
Lemma mpow_vzero A i n : length A = n -> mpow A i (vzero n) = vzero n.
Proof. intros H. induction i; simpl; auto. now rewrite IHi, mv_vzero, H. Qed.

(** *** dot with unit vectors, identity *)
Lemma nth_unitv n i j : (j < n)%nat -> nth j (unitv n i) 0 = if Nat.eqb i j then 1 else 0.
Proof.
  intros H. unfold unitv. rewrite (nth_indep _ 0 (if Nat.eqb i O then 1 else 0)) by (now rewrite map_length, seq_length).
  rewrite (map_nth (fun j => if Nat.eqb i j then 1 else 0)), seq_nth by assumption. reflexivity.
Qed.

Lemma dot_ksum u v : length u = length v -> dot u v = ksum (length u) (fun i => nth i u 0 * nth i v 0).
Proof.
  revert v; induction u as [|x u IH] using rev_ind; intros v H.
  - destruct v; [reflexivity|discriminate].
  - destruct v as [|y v _] using rev_ind; [rewrite app_length in H; simpl in H; lia|].
    rewrite !app_length in H; simpl in H. rewrite app_length; simpl. rewrite Nat.add_1_r. cbn [ksum].
    rewrite dot_app by lia. simpl. rewrite IH by lia.
    assert (E : forall i, (i < length u)%nat -> nth i (u ++ [x]) 0 * nth i (v ++ [y]) 0 = nth i u 0 * nth i v 0).
    { intros i Hi. rewrite !app_nth1 by lia. reflexivity. }
    rewrite !app_nth2 by lia. replace (length u - length v)%nat with O by lia. rewrite Nat.sub_diag. simpl.
    f_equal; [|ring]. clear - E. induction (length u); simpl; auto. rewrite IHn by (intros; apply E; lia). now rewrite E by lia.
Qed.

Lemma ksum_ext n f g : (forall i, (i < n)%nat -> f i = g i) -> ksum n f = ksum n g.
Proof. induction n; simpl; intros H; auto. rewrite IHn by (intros; apply H; lia). now rewrite H by lia. Qed.
Lemma ksum_zero n f : (forall i, (i < n)%nat -> f i = 0) -> ksum n f = 0.
Proof. induction n; simpl; intros H; auto. rewrite IHn by (intros; apply H; lia). rewrite H by lia. ring. Qed.
Lemma ksum_add n f g : ksum n (fun i => f i + g i) = ksum n f + ksum n g.
Proof. induction n; simpl; [ring|]. rewrite IHn. ring. Qed.
Lemma ksum_scale n c f : ksum n (fun i => c * f i) = c * ksum n f.
Proof. induction n; simpl; [ring|]. rewrite IHn. ring. Qed.
Lemma ksum_single n j c : (j < n)%nat -> ksum n (fun i => if Nat.eqb i j then c i else 0) = c j.
Proof.
  induction n; intros H; [lia|]. simpl. destruct (Nat.eqb_spec n j).
  - subst. rewrite ksum_zero; [ring|]. intros i Hi. destruct (Nat.eqb_spec i j); [lia|reflexivity].
  - rewrite IHn by lia. ring.
Qed.
Lemma ksum_S_l n f : ksum (S n) f = f O + ksum n (fun i => f (S i)).
Proof. induction n; simpl in *; [ring|]. rewrite IHn. ring. Qed.
Lemma ksum_rev n f : ksum n f = ksum n (fun i => f (n - 1 - i)%nat).
Proof.
  revert f. induction n as [|m IHm]; intros g; [reflexivity|]. rewrite ksum_S_l.
  change (ksum (S m) (fun i => g (S m - 1 - i)%nat)) with (ksum m (fun i => g (S m - 1 - i)%nat) + g (S m - 1 - m)%nat).
  replace (S m - 1 - m)%nat with O by lia. rewrite IHm.
  rewrite (ksum_ext m (fun i => g (S (m - 1 - i))) (fun i => g (S m - 1 - i)%nat)) by (intros; f_equal; lia). ring.
Qed.
Lemma ksum_app n m f : ksum (n + m) f = ksum n f + ksum m (fun i => f (n + i)%nat).
Proof. induction m; [rewrite Nat.add_0_r; simpl; ring|]. rewrite Nat.add_succ_r. simpl. rewrite IHm. ring. Qed.
Lemma ksum_swap n m f : ksum n (fun i => ksum m (fun j => f i j)) = ksum m (fun j => ksum n (fun i => f i j)).
Proof.
  induction n; simpl; [symmetry; apply ksum_zero; auto|]. rewrite IHn, <- ksum_add. reflexivity.
Qed.

Lemma dot_unitv n i v : (i < n)%nat -> length v = n -> dot (unitv n i) v = nth i v 0.
Proof.
  intros Hi Hv. rewrite dot_ksum by (now rewrite unitv_length). rewrite unitv_length.
  rewrite (ksum_ext _ _ (fun j => if Nat.eqb j i then nth j v 0 else 0)); [now rewrite ksum_single|].
  intros j Hj. rewrite nth_unitv by assumption. rewrite (Nat.eqb_sym j i). destruct (Nat.eqb i j); ring.
Qed.

Lemma mv_eye n v : length v = n -> mv (eye n) v = v.
Proof.
  intros H. unfold mv, eye. rewrite map_map. transitivity (map (fun i => nth i v 0) (seq O n)); [|rewrite <- H; apply map_nth_seq].
  apply map_ext_in. intros i Hi. apply in_seq in Hi. apply dot_unitv; [lia|assumption].
Qed.

(** *** vector sums *)
Lemma vsum_ext N n f g : (forall i, (i < n)%nat -> f i = g i) -> vsum N n f = vsum N n g.
Proof. induction n; simpl; intros H; auto. rewrite IHn by (intros; apply H; lia). now rewrite H by lia. Qed.
Lemma vsum_zero N n f : (forall i, (i < n)%nat -> f i = vzero N) -> vsum N n f = vzero N.
Proof.
  induction n; simpl; intros H; auto. rewrite IHn by (intros; apply H; lia). rewrite H by lia. apply vadd_0_l, vzero_length.
Qed.
Lemma vsum_S_l N n f : (forall i, (i <= n)%nat -> length (f i) = N) -> vsum N (S n) f = vadd (f O) (vsum N n (fun i => f (S i))).
Proof.
  induction n; intros H.
  - cbn [vsum]. rewrite vadd_0_l, vadd_0_r by (apply H; lia). reflexivity.
  - change (vsum N (S (S n)) f) with (vadd (vsum N (S n) f) (f (S n))). rewrite IHn by (intros; apply H; lia).
    cbn [vsum]. now rewrite vadd_assoc.
Qed.
Lemma vsum_app N n m f : (forall i, (i < n + m)%nat -> length (f i) = N) ->
  vsum N (n + m) f = vadd (vsum N n f) (vsum N m (fun i => f (n + i)%nat)).
Proof.
  induction m; intros H.
  - rewrite Nat.add_0_r. simpl. rewrite vadd_0_r; auto. apply vsum_length. intros; apply H; lia.
  - rewrite Nat.add_succ_r. cbn [vsum]. rewrite IHm by (intros; apply H; lia). now rewrite vadd_assoc.
Qed.
Lemma vsum_add N n f g : vsum N n (fun i => vadd (f i) (g i)) = vadd (vsum N n f) (vsum N n g).
Proof.
  induction n; simpl; [symmetry; apply vadd_0_l, vzero_length|]. rewrite IHn. apply vadd_swap4.
Qed.
Lemma mv_vsum A N n f : (forall i, (i < n)%nat -> length (f i) = N) -> mv A (vsum N n f) = vsum (length A) n (fun i => mv A (f i)).
Proof.
  induction n; intros H; simpl; [apply mv_vzero|].
  rewrite mv_vadd by (rewrite vsum_length; [symmetry; apply H; lia|intros; apply H; lia]).
  rewrite IHn by (intros; apply H; lia). reflexivity.
Qed.
Lemma vsum_rev N n f : (forall i, (i < n)%nat -> length (f i) = N) -> vsum N n f = vsum N n (fun i => f (n - 1 - i)%nat).
Proof.
  revert f. induction n as [|m IHm]; intros g Hg; [reflexivity|]. rewrite vsum_S_l by (intros; apply Hg; lia).
  change (vsum N (S m) (fun i => g (S m - 1 - i)%nat)) with (vadd (vsum N m (fun i => g (S m - 1 - i)%nat)) (g (S m - 1 - m)%nat)).
  replace (S m - 1 - m)%nat with O by lia. rewrite vadd_comm. f_equal.
  rewrite IHm by (intros; apply Hg; lia). apply vsum_ext. intros i Hi. f_equal. lia.
Qed.
Lemma vsum_vopp N n f : vopp (vsum N n f) = vsum N n (fun i => vopp (f i)).
Proof. induction n; simpl; [apply vopp_vzero|]. now rewrite vopp_vadd, IHn. Qed.
Lemma vsum_vscale N n c f : vscale c (vsum N n f) = vsum N n (fun i => vscale c (f i)).
Proof. induction n; simpl; [apply vscale_vzero|]. now rewrite vscale_vadd, IHn. Qed.
End Ring.

Notation vec K := (list (car K)).
Notation mat K := (list (list (car K))).

(** Instances. *)
From Coq Require Import ZArith QArith Qcanon.
Definition Zring : cring := mkCring Z 0%Z 1%Z Z.add Z.mul Z.sub Z.opp Zth.
Definition Qcring : cring := mkCring Qc 0%Qc 1%Qc Qcplus Qcmult Qcminus Qcopp Qcrt.
