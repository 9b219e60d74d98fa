(** C122: the symbolic differential equations of an analog system. *)
From Coq Require Import List Arith Bool ZArith Reals Lia Lra.
From Verif Require Import Base LinAlg FirExtras AnalogSystem AnalogProofs IntegratorsProofs Stability LinearOde PreSim SymbolicOde.
Import ListNotations.
Open Scope R_scope.

(** *** Meaning of equations: [x k] is the function written x_(k+1) in the equations, [v] the input *)
Definition value (x : nat -> R -> R) (v : R -> R) (t : R) (s : symbol) : R := match s with X k => x (k - 1)%nat t | Input => v t end.
Definition evaluate (x : nat -> R -> R) (v : R -> R) (t : R) (e : expr) : R := fold_right (fun p a => fst p * value x v t (snd p) + a) 0 e.
Definition holds (x : nat -> R -> R) (v : R -> R) (t : R) (e : equation) : Prop := derivable_pt_lim (x (of e - 1)%nat) t (evaluate x v t (rhs e)).
(** the state vector, and a vector with the single entry [a] at [j] *)
Definition vector (n : nat) (x : nat -> R) : list R := map x (seq 0 n).
Definition single (n j : nat) (a : R) : list R := map (fun i => if Nat.eqb i j then a else 0) (seq 0 n).
(** what the simulators integrate *)
Definition moves (s : asys Rring) (x : nat -> R -> R) (u c : list R) (t : R) : Prop :=
  exists d : list R, derivative s (vector (sN s) (fun n => x n t)) u c = Ok d /\ forall n, (n < sN s)%nat -> derivable_pt_lim (x n) t (nth n d 0).

(** *** Proofs *)
Lemma evaluate_app x v t a b : evaluate x v t (a ++ b) = evaluate x v t a + evaluate x v t b.
Proof. induction a as [|p a IH]; unfold evaluate in *; cbn [app fold_right]; [symmetry; apply Rplus_0_l|]. rewrite IH. symmetry. apply Rplus_assoc. Qed.
Lemma evaluate_row x v t (f : nat -> R) n : evaluate x v t (map (fun k => (f k, X (k + 1))) (seq 0 n)) = rsum n (fun k => f k * x k t).
Proof.
  unfold rsum. generalize (seq 0 n). induction l as [|k l IH]; [reflexivity|]. cbn [map fold_right evaluate fst snd value]. unfold evaluate in IH. rewrite IH. now replace (k + 1 - 1)%nat with k by lia.
Qed.
Lemma rows_ok s b dim d : (forall n, drive s b dim n = Ok (d n)) -> forall ns, rows_loop s b dim ns = Ok (map (fun n => mkEq (n + 1) (map (fun nn => (ent (aA s) n nn, X (nn + 1))) (seq 0 (sN s)) ++ d n)) ns).
Proof. intros H. induction ns as [|n ns IH]; [reflexivity|]. cbn [rows_loop map]. unfold equation_row. rewrite H. cbn [bind]. rewrite IH. reflexivity. Qed.
Lemma sp_col_spec m dim : sp_col m dim = if ((- Z.of_nat (cols m) <=? dim) && (dim <? Z.of_nat (cols m)))%Z then Ok (Z.to_nat (dim mod Z.of_nat (cols m))) else Exn IndexError.
Proof.
  unfold sp_col. destruct (Z.ltb_spec dim 0) as [H|H].
  - destruct (Z.leb_spec (- Z.of_nat (cols m)) dim) as [H1|H1]; destruct (Z.ltb_spec dim (Z.of_nat (cols m))) as [H2|H2]; try lia; destruct (Z.leb_spec 0 (dim + Z.of_nat (cols m))); destruct (Z.ltb_spec (dim + Z.of_nat (cols m)) (Z.of_nat (cols m))); try lia; cbn [andb]; try reflexivity.
    f_equal. f_equal. apply Z.mod_unique_pos with (q := (-1)%Z); lia.
  - destruct (Z.leb_spec (- Z.of_nat (cols m)) dim) as [H1|H1]; destruct (Z.ltb_spec dim (Z.of_nat (cols m))) as [H2|H2]; try lia; destruct (Z.leb_spec 0 dim); try lia; cbn [andb]; try reflexivity.
    now rewrite Z.mod_small by lia.
Qed.
Lemma vector_length n x : length (vector n x) = n.
Proof. unfold vector. now rewrite map_length, seq_length. Qed.
Lemma vector_nth n x i : (i < n)%nat -> nth i (vector n x) 0 = x i.
Proof. intros H. unfold vector. rewrite (nth_indep _ 0 (x O)) by (now rewrite map_length, seq_length). rewrite map_nth, seq_nth by exact H. reflexivity. Qed.
Lemma single_length n j a : length (single n j a) = n.
Proof. unfold single. now rewrite map_length, seq_length. Qed.
Lemma row_single m n j a (f : nat -> R) : (j < m)%nat -> n = m -> rsum m (fun k => f k * nth k (single n j a) 0) = f j * a.
Proof.
  intros H ->. rewrite (rsum_ext _ _ (fun k => if Nat.eqb k j then f k * a else 0)); [now apply (rsum_single m j (fun k => f k * a))|]. intros i Hi. rewrite (vector_nth m (fun i => if Nat.eqb i j then a else 0)) by exact Hi. destruct (Nat.eqb i j); ring.
Qed.
Lemma row_zero m n (f : nat -> R) : rsum m (fun k => f k * nth k (repeat 0 n) 0) = 0.
Proof. apply rsum_zero. intros i _. rewrite nth_repeat. ring. Qed.

(** the derivative, entry by entry *)
Lemma derivative_entries (s : asys Rring) g (x u c : list R) : valid s -> aG s = Some g -> length x = sN s -> length u = sL s -> length c = sM s ->
  derivative s x u c = Ok (map (fun n => rsum (sN s) (fun k => ent (aA s) n k * nth k x 0) + rsum (sL s) (fun k => ent (aB s) n k * nth k u 0) + rsum (sM s) (fun k => ent g n k * nth k c 0)) (seq 0 (sN s))).
Proof.
  intros V G Hx Hu Hc. unfold derivative. unfold sM in *. rewrite G in *. assert (VA := v_A _ V). assert (VB := v_B _ V). assert (VG := v_G _ V). rewrite G in VG.
  rewrite (bind_eq _ _ _ (dotv_R (aA s) x ltac:(rewrite VA; symmetry; exact Hx))). rewrite (bind_eq _ _ _ (dotv_R (aB s) u ltac:(symmetry; exact Hu))). cbn [dotv_opt].
  rewrite (bind_eq _ _ _ (dotv_R g c ltac:(symmetry; exact Hc))). rewrite VA, VB, VG. fold (sN s). rewrite !vadd_seq. reflexivity.
Qed.
Lemma moves_iff s g x (u c : list R) t : valid s -> aG s = Some g -> length u = sL s -> length c = sM s ->
  (moves s x u c t <-> forall n, (n < sN s)%nat -> derivable_pt_lim (x n) t (rsum (sN s) (fun k => ent (aA s) n k * x k t) + rsum (sL s) (fun k => ent (aB s) n k * nth k u 0) + rsum (sM s) (fun k => ent g n k * nth k c 0))).
Proof.
  intros V G Hu Hc. unfold moves. rewrite (derivative_entries s g _ u c V G (vector_length _ _) Hu Hc). 
  assert (E : forall n, (n < sN s)%nat -> forall l, nth n (vector (sN s) (fun n => rsum (sN s) (fun k => ent (aA s) n k * nth k (vector (sN s) (fun n => x n t)) 0) + l n)) 0 = rsum (sN s) (fun k => ent (aA s) n k * x k t) + l n).
  { intros n Hn l. rewrite vector_nth by exact Hn. f_equal. apply rsum_ext. intros i Hi. now rewrite vector_nth by exact Hi. }
  split.
  - intros (d & Hd & D) n Hn. apply Ok_inj in Hd. specialize (D n Hn). rewrite <- Hd in D. specialize (E n Hn (fun n => rsum (sL s) (fun k => ent (aB s) n k * nth k u 0) + rsum (sM s) (fun k => ent g n k * nth k c 0))). cbv beta in E.
    replace (_ + _ + _) with (rsum (sN s) (fun k => ent (aA s) n k * x k t) + (rsum (sL s) (fun k => ent (aB s) n k * nth k u 0) + rsum (sM s) (fun k => ent g n k * nth k c 0))) by ring. rewrite <- E.
    match goal with |- derivable_pt_lim _ _ ?a => match type of D with derivable_pt_lim _ _ ?b => replace a with b; [exact D|] end end. f_equal. unfold vector. apply map_ext. intros i. ring.
  - intros D. eexists. split; [reflexivity|]. intros n Hn. specialize (D n Hn). specialize (E n Hn (fun n => rsum (sL s) (fun k => ent (aB s) n k * nth k u 0) + rsum (sM s) (fun k => ent g n k * nth k c 0))). cbv beta in E.
    match goal with |- derivable_pt_lim _ _ ?a => match type of D with derivable_pt_lim _ _ ?b => replace a with b; [exact D|] end end. rewrite Rplus_assoc, <- E. f_equal. unfold vector. apply map_ext. intros i. ring.
Qed.

Lemma last_function (s : asys Rring) (es : list equation) : (0 < sN s)%nat -> match sN s with O => Exn GenericException | S n => Ok (es, X (n + 1)) end = Ok (es, X (sN s)).
Proof. intros H. destruct (sN s) as [|N]; [lia|]. now replace (N + 1)%nat with (S N) by lia. Qed.
(** The equations for input or control number dim (negative: counted from the end) hold exactly if the states move as derivative says, with that input or control alone. *)
Theorem C122_equations : forall s g dim input_signal, valid s -> aG s = Some g -> (0 < sN s)%nat ->
  let count := if input_signal : bool then sL s else sM s in
  if ((- Z.of_nat count <=? dim) && (dim <? Z.of_nat count))%Z
  then exists es, symbolic_differential_equations s dim input_signal = Ok (es, X (sN s)) /\ map of es = seq 1 (sN s) /\
       let j := Z.to_nat (dim mod Z.of_nat count) in
       forall x v t, Forall (holds x v t) es <-> moves s x (if input_signal then single (sL s) j (v t) else repeat 0 (sL s)) (if input_signal then repeat 0 (sM s) else single (sM s) j (v t)) t
  else symbolic_differential_equations s dim input_signal = Exn IndexError.
Proof.
  intros s g dim b V G H0 count. unfold symbolic_differential_equations.
  set (m := if b then aB s else g). assert (Hm : cols m = count) by (unfold m, count; destruct b; [reflexivity|unfold sM; now rewrite G]).
  assert (DR : forall n, drive s b dim n = bind (sp_col m dim) (fun j => Ok [(ent m n j, Input)])) by (intros n; unfold drive, m; destruct b; [reflexivity|now rewrite G]).
  assert (SC := sp_col_spec m dim). rewrite Hm in SC. destruct ((- Z.of_nat count <=? dim)%Z && (dim <? Z.of_nat count)%Z)%bool eqn:R.
  - set (j := Z.to_nat (dim mod Z.of_nat count)) in *. rewrite (rows_ok s b dim (fun n => [(ent m n j, Input)])) by (intros n; now rewrite DR, SC). cbn [bind].
    assert (Hj : (j < count)%nat). { apply andb_prop in R. destruct R as [R1 R2]. apply Z.leb_le in R1. apply Z.ltb_lt in R2. assert (B := Z.mod_pos_bound dim (Z.of_nat count) ltac:(lia)). unfold j. lia. }
    rewrite last_function by exact H0. eexists. split; [reflexivity|]. split.
    + rewrite map_map. cbn [of]. clear. generalize (sN s). intros n. rewrite <- seq_shift. apply map_ext. intros; lia.
    + intros x v t. rewrite (moves_iff s g) by (destruct b; rewrite ?repeat_length, ?single_length; auto). rewrite Forall_map, Forall_forall.
      assert (EV : forall n, (n < sN s)%nat -> evaluate x v t (map (fun nn => (ent (aA s) n nn, X (nn + 1))) (seq 0 (sN s)) ++ [(ent m n j, Input)]) =
        rsum (sN s) (fun k => ent (aA s) n k * x k t) + rsum (sL s) (fun k => ent (aB s) n k * nth k (if b then single (sL s) j (v t) else repeat 0 (sL s)) 0) + rsum (sM s) (fun k => ent g n k * nth k (if b then repeat 0 (sM s) else single (sM s) j (v t)) 0)).
      { intros n Hn. rewrite evaluate_app, (evaluate_row x v t (fun k => ent (aA s) n k)). unfold evaluate at 1. cbn [fold_right fst snd value]. unfold m, count in *. destruct b.
        - rewrite (row_single _ _ _ _ (fun k => ent (aB s) n k)) by auto. rewrite (row_zero _ _ (fun k => ent g n k)). cbn [car Rring]. ring.
        - rewrite (row_single _ _ _ _ (fun k => ent g n k)) by auto. rewrite (row_zero _ _ (fun k => ent (aB s) n k)). cbn [car Rring]. ring. }
      split; intros H n Hn.
      * rewrite <- EV by exact Hn. specialize (H n ltac:(apply in_seq; lia)). unfold holds in H. cbn [of SymbolicOde.rhs] in H. now replace (n + 1 - 1)%nat with n in H by lia.
      * apply in_seq in Hn. unfold holds. cbn [of SymbolicOde.rhs]. rewrite EV by lia. replace (n + 1 - 1)%nat with n by lia. apply H. lia.
  - destruct (sN s) as [|N] eqn:EN; [lia|]. cbn [seq rows_loop]. unfold equation_row. rewrite DR, SC. reflexivity.
Qed.
Print Assumptions C122_equations.

(** Without Gamma the equations of a control are those of no input at all, and derivative raises. *)
Theorem C122_no_gamma : forall s dim, valid s -> aG s = None -> (0 < sN s)%nat -> exists es, symbolic_differential_equations s dim false = Ok (es, X (sN s)) /\
  (forall x v t, Forall (holds x v t) es <-> forall n, (n < sN s)%nat -> derivable_pt_lim (x n) t (rsum (sN s) (fun k => ent (aA s) n k * x k t))) /\
  forall (x u c : list R), length x = sN s -> length u = sL s -> derivative s x u c = Exn TypeError.
Proof.
  intros s dim V G H0. unfold symbolic_differential_equations. rewrite (rows_ok s false dim (fun _ => [])) by (intros n; unfold drive; now rewrite G). cbn [bind].
  rewrite last_function by exact H0. eexists. split; [reflexivity|]. split; [|intros x u c Hx Hu; exact (derivative_none (K := Rring) s x u c V G Hx Hu)].
  intros x v t. rewrite Forall_map, Forall_forall. split; intros H n Hn.
  - specialize (H n ltac:(apply in_seq; lia)). unfold holds in H. cbn [of SymbolicOde.rhs] in H. rewrite app_nil_r, (evaluate_row x v t (fun k => ent (aA s) n k)) in H. now replace (n + 1 - 1)%nat with n in H by lia.
  - apply in_seq in Hn. unfold holds. cbn [of SymbolicOde.rhs]. rewrite app_nil_r, (evaluate_row x v t (fun k => ent (aA s) n k)). replace (n + 1 - 1)%nat with n by lia. apply H. lia.
Qed.
Print Assumptions C122_no_gamma.

(** *** Superposition: the system is solved by solving for each input and each control by itself *)
(** [x] satisfies the equations with input [v] on [0, T], but for finitely many times *)
Definition satisfies (T : R) (N : nat) (es : list equation) (x : nat -> R -> R) (v : R -> R) : Prop :=
  (forall n t, (n < N)%nat -> 0 <= t <= T -> continuity_pt (x n) t) /\ exists ex, forall t, 0 < t < T -> ~ In t ex -> Forall (holds x v t) es.
Definition follows (T : R) (s : asys Rring) (x : nat -> R -> R) (u c : nat -> R -> R) : Prop :=
  (forall n t, (n < sN s)%nat -> 0 <= t <= T -> continuity_pt (x n) t) /\ exists ex, forall t, 0 < t < T -> ~ In t ex -> moves s x (vector (sL s) (fun l => u l t)) (vector (sM s) (fun m => c m t)) t.

Lemma satisfies_sol T s g dim b es f x v : valid s -> aG s = Some g -> (0 < sN s)%nat -> (dim < if b : bool then sL s else sM s)%nat ->
  symbolic_differential_equations s (Z.of_nat dim) b = Ok (es, f) -> satisfies T (sN s) es x v ->
  sol (sN s) (ent (aA s)) T (fun n t => ent (if b then aB s else g) n dim * v t) x.
Proof.
  intros V G H0 Hd E [C (ex & D)]. split; [exact C|]. exists ex. intros n t Hn Ht Hi. specialize (D t Ht Hi).
  assert (Q := C122_equations s g (Z.of_nat dim) b V G H0). cbv zeta in Q. set (cnt := if b then sL s else sM s) in *.
  assert (R : ((- Z.of_nat cnt <=? Z.of_nat dim)%Z && (Z.of_nat dim <? Z.of_nat cnt)%Z)%bool = true) by (apply andb_true_intro; split; [apply Z.leb_le|apply Z.ltb_lt]; lia). rewrite R in Q.
  destruct Q as (es' & E' & _ & Q). assert (es' = es) by congruence. subst es'. apply Q in D. rewrite Z.mod_small, Nat2Z.id in D by lia. rewrite (moves_iff s g) in D by (destruct b; rewrite ?repeat_length, ?single_length; auto).
  specialize (D n Hn). unfold cnt in *. destruct b.
  - rewrite (row_single _ _ _ _ (fun k => ent (aB s) n k)) in D by auto. rewrite (row_zero _ _ (fun k => ent g n k)) in D. cbn [car Rring] in *. now rewrite Rplus_0_r in D.
  - rewrite (row_single _ _ _ _ (fun k => ent g n k)) in D by auto. rewrite (row_zero _ _ (fun k => ent (aB s) n k)) in D. cbn [car Rring] in *. now rewrite Rplus_0_r in D.
Qed.

Lemma follows_sol T s g x u c : valid s -> aG s = Some g -> follows T s x u c <-> sol (sN s) (ent (aA s)) T (fun n t => rsum (sL s) (fun l => ent (aB s) n l * u l t) + rsum (sM s) (fun m => ent g n m * c m t)) x.
Proof.
  intros V G.
  assert (E : forall t n, rsum (sL s) (fun k => ent (aB s) n k * nth k (vector (sL s) (fun l => u l t)) 0) + rsum (sM s) (fun k => ent g n k * nth k (vector (sM s) (fun l => c l t)) 0) = rsum (sL s) (fun l => ent (aB s) n l * u l t) + rsum (sM s) (fun m => ent g n m * c m t)).
  { intros t n. f_equal; apply rsum_ext; intros i Hi; now rewrite vector_nth. }
  split; intros [C (ex & D)]; (split; [exact C|]); exists ex.
  - intros n t Hn Ht Hi. specialize (D t Ht Hi). rewrite (moves_iff s g) in D by (auto using vector_length). specialize (D n Hn). rewrite Rplus_assoc, E in D. exact D.
  - intros t Ht Hi. rewrite (moves_iff s g) by (auto using vector_length). intros n Hn. rewrite Rplus_assoc, E. auto.
Qed.
Theorem C122_superposition : forall T s g ein ect fin fct (xin xct : nat -> nat -> R -> R) (u c : nat -> R -> R), valid s -> aG s = Some g -> (0 < sN s)%nat ->
  (forall l, (l < sL s)%nat -> symbolic_differential_equations s (Z.of_nat l) true = Ok (ein l, fin l) /\ satisfies T (sN s) (ein l) (xin l) (u l)) ->
  (forall m, (m < sM s)%nat -> symbolic_differential_equations s (Z.of_nat m) false = Ok (ect m, fct m) /\ satisfies T (sN s) (ect m) (xct m) (c m)) ->
  let x n t := rsum (sL s) (fun l => xin l n t) + rsum (sM s) (fun m => xct m n t) in
  follows T s x u c /\ forall y, follows T s y u c -> (forall n, (n < sN s)%nat -> y n 0 = x n 0) -> forall n t, (n < sN s)%nat -> 0 <= t <= T -> y n t = x n t.
Proof.
  intros T s g ein ect fin fct xin xct u c V G H0 Hin Hct x.
  assert (SX : sol (sN s) (ent (aA s)) T (fun n t => rsum (sL s) (fun l => ent (aB s) n l * u l t) + rsum (sM s) (fun m => ent g n m * c m t)) x).
  { assert (S1 : sol (sN s) (ent (aA s)) T (fun n t => rsum (sL s) (fun l => 1 * (ent (aB s) n l * u l t))) (fun n t => rsum (sL s) (fun l => 1 * xin l n t))).
    { apply (sol_sum _ _ _ (sL s) (fun _ => 1) (fun l n t => ent (aB s) n l * u l t) xin). intros l Hl. destruct (Hin l Hl) as [E SS]. exact (satisfies_sol T s g l true _ _ _ _ V G H0 Hl E SS). }
    assert (S2 : sol (sN s) (ent (aA s)) T (fun n t => rsum (sM s) (fun l => 1 * (ent g n l * c l t))) (fun n t => rsum (sM s) (fun l => 1 * xct l n t))).
    { apply (sol_sum _ _ _ (sM s) (fun _ => 1) (fun l n t => ent g n l * c l t) xct). intros l Hl. destruct (Hct l Hl) as [E SS]. exact (satisfies_sol T s g l false _ _ _ _ V G H0 Hl E SS). }
    assert (SC := sol_comb _ _ _ 1 _ _ _ _ S1 S2). eapply sol_ext_z; [|eapply sol_ext; [|exact SC]].
    - intros n t. unfold x. cbv beta. rewrite Rmult_1_l. f_equal; apply rsum_ext; intros; ring.
    - intros n t _ _. cbv beta. rewrite Rmult_1_l. f_equal; apply rsum_ext; intros; ring. }
  split; [now apply (follows_sol T s g x u c V G)|]. intros y Hy Y0 n t Hn Ht. apply (follows_sol T s g y u c V G) in Hy. exact (unique _ _ _ _ _ _ Hy SX Y0 n t Hn Ht).
Qed.
Print Assumptions C122_superposition.

(** *** One integrator with an input and a control: x' = u + 2 s; a ramp for the input, another for the control *)
Definition ex_sys : asys Rring := mkAS (K := Rring) (mk2 (K := Rring) 1 1 (fun _ _ => 0)) (mk2 (K := Rring) 1 1 (fun _ _ => 1)) (mk2 (K := Rring) 1 1 (fun _ _ => 1)) (Some (mk2 (K := Rring) 1 1 (fun _ _ => 2))) (Some (mk2 (K := Rring) 1 1 (fun _ _ => 1))) (mk2 (K := Rring) 1 1 (fun _ _ => 0)) (mk2 (K := Rring) 1 1 (fun _ _ => 0)) (mk2 (K := Rring) 1 1 (fun _ _ => 0)).
Example C122_ex : valid ex_sys /\ symbolic_differential_equations ex_sys 0 true = Ok ([mkEq 1 [(0, X 1); (1, Input)]], X 1) /\ symbolic_differential_equations ex_sys (-1) false = Ok ([mkEq 1 [(0, X 1); (2, Input)]], X 1) /\
  symbolic_differential_equations ex_sys 1 true = Exn IndexError /\
  satisfies 1 1 [mkEq 1 [(0, X 1); (1, Input)]] (fun _ t => 3 * t) (fun _ => 3) /\ satisfies 1 1 [mkEq 1 [(0, X 1); (2, Input)]] (fun _ t => -2 * t) (fun _ => -1).
Proof.
  assert (D : forall a t, derivable_pt_lim (fun t => a * t) t a).
  { intros a t. assert (Q := derivable_pt_lim_scal id a t 1 (derivable_pt_lim_id t)). rewrite Rmult_1_r in Q. exact Q. }
  assert (C : forall a t, continuity_pt (fun t => a * t) t) by (intros a t; apply derivable_continuous_pt; exists a; apply D).
  split; [constructor; cbn; auto|]. repeat (split; [reflexivity|]). split; (split; [intros; apply C|]); exists []; intros t _ _; constructor; [|constructor| |constructor]; unfold holds; cbn [SymbolicOde.rhs of evaluate fold_right fst snd value]; cbv beta.
  - replace (0 * (3 * t) + (1 * 3 + 0)) with 3 by ring. apply D.
  - replace (0 * (-2 * t) + (2 * -1 + 0)) with (-2) by ring. apply D.
Qed.

(** The documentation promises the functions for which the equations relate; only the last is returned. *)
Theorem C122_functions_refuted : exists s es f k, valid s /\ symbolic_differential_equations s 0 true = Ok (es, f) /\ In k (map of es) /\ X k <> f.
Proof.
  exists (mkAS (K := Rring) (mk2 (K := Rring) 2 2 (fun _ _ => 0)) (mk2 (K := Rring) 2 1 (fun _ _ => 1)) (mk2 (K := Rring) 1 2 (fun _ _ => 1)) (Some (mk2 (K := Rring) 2 1 (fun _ _ => 2))) (Some (mk2 (K := Rring) 1 2 (fun _ _ => 1))) (mk2 (K := Rring) 1 1 (fun _ _ => 0)) (mk2 (K := Rring) 1 1 (fun _ _ => 0)) (mk2 (K := Rring) 1 1 (fun _ _ => 0))).
  eexists _, _, 1%nat. split; [constructor; cbn; auto|]. split; [reflexivity|]. split; [cbn; auto|discriminate].
Qed.
Print Assumptions C122_functions_refuted.
