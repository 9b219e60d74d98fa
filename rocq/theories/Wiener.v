(** Matrix identities behind the estimator: two solutions of the Riccati equations turn the difference of the forward and the
    backward filter into the adjoint state of a linear quadratic problem.  Vectors and matrices are functions on indices; only
    indices below the dimension matter. *)
From Coq Require Import List Arith Lia.
From Verif Require Import Base LinAlg.
Import ListNotations.

Section W.
Context {K : cring}.
Add Ring Kring : (rth K).
Local Notation "0" := (r0 K).
Local Notation "1" := (r1 K).
Local Infix "+" := (radd K).
Local Infix "*" := (rmul K).
Local Notation "- x" := (ropp K x).
Local Infix "-" := (rsub K).

(** [M x], [M1 M2] *)
Definition op (n : nat) (M : nat -> nat -> K) (x : nat -> K) (i : nat) : K := ksum n (fun j => M i j * x j).
Definition mul (n : nat) (M1 M2 : nat -> nat -> K) (i j : nat) : K := ksum n (fun k => M1 i k * M2 k j).

Lemma op_ext n M x y i : (forall j, (j < n)%nat -> x j = y j) -> op n M x i = op n M y i.
Proof. intros H. apply ksum_ext. intros j Hj. now rewrite H. Qed.
Lemma op_add n M x y i : op n M (fun j => x j + y j) i = op n M x i + op n M y i.
Proof. unfold op. rewrite <- ksum_add. apply ksum_ext. intros; ring. Qed.
Lemma op_scale n M c x i : op n M (fun j => c * x j) i = c * op n M x i.
Proof. unfold op. rewrite <- ksum_scale. apply ksum_ext. intros; ring. Qed.
Lemma op_sub n M x y i : op n M (fun j => x j - y j) i = op n M x i - op n M y i.
Proof.
  rewrite (op_ext n M (fun j => x j - y j) (fun j => x j + (- (1)) * y j)) by (intros; ring).
  rewrite op_add, op_scale. ring.
Qed.
Lemma op_mul n k M1 M2 x i : op n (mul k M1 M2) x i = op k M1 (op n M2 x) i.
Proof.
  unfold op, mul. transitivity (ksum n (fun j => ksum k (fun l => M1 i l * (M2 l j * x j)))).
  - apply ksum_ext. intros j _. transitivity (x j * ksum k (fun l => M1 i l * M2 l j)); [ring|]. rewrite <- ksum_scale. apply ksum_ext. intros; ring.
  - rewrite ksum_swap. apply ksum_ext. intros l _. now rewrite ksum_scale.
Qed.
(** <x, M y> = <M^T x, y> *)
Lemma op_adj n m M x y : ksum n (fun i => x i * op m M y i) = ksum m (fun j => op n (fun j i => M i j) x j * y j).
Proof.
  unfold op. transitivity (ksum n (fun i => ksum m (fun j => x i * (M i j * y j)))); [apply ksum_ext; intros; now rewrite ksum_scale|].
  rewrite ksum_swap. apply ksum_ext. intros j _. transitivity (y j * ksum n (fun i => M i j * x i)); [|ring].
  rewrite <- ksum_scale. apply ksum_ext. intros; ring.
Qed.

Section Smoother.
Variable N : nat.
Variables A Q Kc Vf Vb : nat -> nat -> K.
Let V i j := Vf i j + Vb i j.
Let AT i j := A j i.

(** A V + V A^T + Q - V Kc V = 0 and -A V - V A^T + Q - V Kc V = 0 *)
Definition ric_fwd : Prop := forall i j, (i < N)%nat -> (j < N)%nat ->
  mul N A Vf i j + mul N Vf AT i j + Q i j - mul N Vf (mul N Kc Vf) i j = 0.
Definition ric_bwd : Prop := forall i j, (i < N)%nat -> (j < N)%nat ->
  - mul N A Vb i j - mul N Vb AT i j + Q i j - mul N Vb (mul N Kc Vb) i j = 0.

Lemma op_V x i : op N V x i = op N Vf x i + op N Vb x i.
Proof. unfold op, V. rewrite <- ksum_add. apply ksum_ext. intros; ring. Qed.

Lemma op_lin4 a b c d (M1 M2 M3 M4 : nat -> nat -> K) x i :
  ksum N (fun j => (a * M1 i j + b * M2 i j + c * M3 i j + d * M4 i j) * x j) =
  a * op N M1 x i + b * op N M2 x i + c * op N M3 x i + d * op N M4 x i.
Proof.
  unfold op. rewrite <- !ksum_scale, <- !ksum_add. apply ksum_ext. intros; ring.
Qed.

Lemma ric_fwd_op x i : ric_fwd -> (i < N)%nat ->
  op N A (op N Vf x) i + op N Vf (op N AT x) i + op N Q x i - op N Vf (op N Kc (op N Vf x)) i = 0.
Proof.
  intros H Hi. transitivity (ksum N (fun j => (1 * mul N A Vf i j + 1 * mul N Vf AT i j + 1 * Q i j + (- (1)) * mul N Vf (mul N Kc Vf) i j) * x j)).
  - rewrite op_lin4, !op_mul.
    rewrite (op_ext N Vf (op N (mul N Kc Vf) x) (op N Kc (op N Vf x))) by (intros; apply op_mul). ring.
  - apply ksum_zero. intros j Hj. specialize (H i j Hi Hj).
    transitivity ((mul N A Vf i j + mul N Vf AT i j + Q i j - mul N Vf (mul N Kc Vf) i j) * x j); [ring|]. rewrite H. ring.
Qed.

Lemma ric_bwd_op x i : ric_bwd -> (i < N)%nat ->
  - op N A (op N Vb x) i - op N Vb (op N AT x) i + op N Q x i - op N Vb (op N Kc (op N Vb x)) i = 0.
Proof.
  intros H Hi. transitivity (ksum N (fun j => ((- (1)) * mul N A Vb i j + (- (1)) * mul N Vb AT i j + 1 * Q i j + (- (1)) * mul N Vb (mul N Kc Vb) i j) * x j)).
  - rewrite op_lin4, !op_mul.
    rewrite (op_ext N Vb (op N (mul N Kc Vb) x) (op N Kc (op N Vb x))) by (intros; apply op_mul). ring.
  - apply ksum_zero. intros j Hj. specialize (H i j Hi Hj).
    transitivity ((- mul N A Vb i j - mul N Vb AT i j + Q i j - mul N Vb (mul N Kc Vb) i j) * x j); [ring|]. rewrite H. ring.
Qed.

(** [V] has trivial kernel *)
Definition inj_V : Prop := forall x, (forall i, (i < N)%nat -> op N V x i = 0) -> forall i, (i < N)%nat -> x i = 0.

(** [dmf], [dmb], [dp] stand for derivatives, or for [lambda] times the vector *)
Lemma smoother mf mb p dmf dmb dp g : ric_fwd -> ric_bwd -> inj_V ->
  (forall i, (i < N)%nat -> dmf i = op N A mf i - op N Vf (op N Kc mf) i + g i) ->
  (forall i, (i < N)%nat -> dmb i = op N A mb i + op N Vb (op N Kc mb) i + g i) ->
  (forall i, (i < N)%nat -> mb i - mf i = op N V p i) -> (forall i, (i < N)%nat -> dmb i - dmf i = op N V dp i) ->
  let m i := mf i + op N Vf p i in
  (forall i, (i < N)%nat -> dp i = op N Kc m i - op N AT p i) /\
  (forall i, (i < N)%nat -> dmf i + op N Vf dp i = op N A m i + op N Q p i + g i).
Proof.
  intros RF RB IV Hf Hb Hp Hdp m.
  assert (Emf : forall i, (i < N)%nat -> mf i = m i - op N Vf p i) by (intros; unfold m; ring).
  assert (Emb : forall i, (i < N)%nat -> mb i = m i + op N Vb p i).
  { intros i Hi. transitivity (mf i + (mb i - mf i)); [ring|]. rewrite Hp, op_V by exact Hi. unfold m. ring. }
  assert (Edp : forall i, (i < N)%nat -> dp i = op N Kc m i - op N AT p i).
  { intros i Hi. assert (Z : dp i - (op N Kc m i - op N AT p i) = 0).
    { apply (IV (fun i => dp i - (op N Kc m i - op N AT p i))); [|exact Hi]. clear i Hi. intros i Hi. rewrite op_sub, op_sub, <- Hdp, Hf, Hb by exact Hi.
      rewrite (op_ext N A mf (fun i => m i - op N Vf p i)) by exact Emf. rewrite (op_ext N A mb (fun i => m i + op N Vb p i)) by exact Emb.
      rewrite (op_ext N Vf (op N Kc mf) (fun i => op N Kc m i - op N Kc (op N Vf p) i)).
      2:{ intros j Hj. rewrite <- op_sub. apply op_ext. exact Emf. }
      rewrite (op_ext N Vb (op N Kc mb) (fun i => op N Kc m i + op N Kc (op N Vb p) i)).
      2:{ intros j Hj. rewrite <- op_add. apply op_ext. exact Emb. }
      rewrite !op_sub, !op_add, !op_V.
      pose proof (ric_fwd_op p i RF Hi) as F. pose proof (ric_bwd_op p i RB Hi) as B.
      transitivity ((op N A (op N Vf p) i + op N Vf (op N AT p) i + op N Q p i - op N Vf (op N Kc (op N Vf p)) i) -
                    (- op N A (op N Vb p) i - op N Vb (op N AT p) i + op N Q p i - op N Vb (op N Kc (op N Vb p)) i)); [ring|].
      rewrite F, B. ring. }
    transitivity ((dp i - (op N Kc m i - op N AT p i)) + (op N Kc m i - op N AT p i)); [ring|]. rewrite Z. ring. }
  split; [exact Edp|]. intros i Hi. rewrite Hf by exact Hi.
  rewrite (op_ext N Vf dp (fun i => op N Kc m i - op N AT p i)) by exact Edp.
  rewrite (op_ext N A mf (fun i => m i - op N Vf p i)) by exact Emf.
  rewrite (op_ext N Vf (op N Kc mf) (fun i => op N Kc m i - op N Kc (op N Vf p) i)).
  2:{ intros j Hj. rewrite <- op_sub. apply op_ext. exact Emf. }
  rewrite !op_sub. pose proof (ric_fwd_op p i RF Hi) as F.
  transitivity (op N A m i + op N Q p i + g i - (op N A (op N Vf p) i + op N Vf (op N AT p) i + op N Q p i - op N Vf (op N Kc (op N Vf p)) i)); [ring|].
  rewrite F. ring.
Qed.
End Smoother.
End W.
