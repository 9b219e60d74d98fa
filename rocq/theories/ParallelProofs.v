(** ParallelEstimator against BatchEstimator. *)
From Coq Require Import List Lia Arith Bool ZArith Reals Lra.
From Flocq Require Import Core.
From Coquelicot Require Import Complex.
From Verif Require Import Base LinAlg FirExtras Estimators BatchProofs BatchRun Zpk Parallel.
Import ListNotations.
Open Scope R_scope.

Definition sgn (x : R) : R := if Req_bool x 0 then -1 else 1.
(** the value a sample is taken for: any non-zero entry counts as 1 *)
Definition truthy (s : list R) : list R := map (fun x => if Req_bool x 0 then 0 else 1) s.
Lemma pm1_truthy (s : list R) : pm1 (K := Rring) (truthy s) = map sgn s.
Proof. unfold pm1, truthy. rewrite map_map. apply map_ext. intros x. unfold sgn. cbn. destruct (Req_bool x 0); ring. Qed.
Lemma truthy_zero M : truthy (repeat 0 M) = repeat 0 M.
Proof. unfold truthy. induction M; [reflexivity|]. cbn. rewrite Req_bool_true by reflexivity. now rewrite IHM. Qed.

Lemma row_map {A B} (f : A -> B) M x : row M (map f x) = bind (row M x) (fun r => Ok (map f r)).
Proof.
  unfold row. rewrite map_length. destruct (Nat.eqb (length x) M); [reflexivity|]. destruct x as [|a [|b x]]; try reflexivity. cbn. f_equal.
  induction M; [reflexivity|]. cbn. now rewrite IHM.
Qed.
Lemma row_len {A} M (x r : list A) : row M x = Ok r -> length r = M.
Proof.
  unfold row. destruct (Nat.eqb_spec (length x) M) as [<-|]; [intros [= <-]; reflexivity|]. destruct x as [|a [|b x]]; try discriminate. intros [= <-]. apply repeat_length.
Qed.

(** *** complex copies of real vectors *)
Lemma cv_dot (r x : list R) : RtoC (dot (K := Rring) r x) = dot (K := Cring) (cv r) (cv x).
Proof.
  revert x; induction r as [|a r IH]; intros [|b x]; try reflexivity. change (RtoC (a * b + dot (K := Rring) r x) = Cplus (Cmult (RtoC a) (RtoC b)) (dot (K := Cring) (cv r) (cv x))).
  rewrite <- IH. now rewrite RtoC_plus, RtoC_mult.
Qed.
Lemma cv_mv (A : list (list R)) (x : list R) : cv (mv (K := Rring) A x) = mv (K := Cring) (cmat A) (cv x).
Proof. induction A as [|r A IH]; [reflexivity|]. change (RtoC (dot (K := Rring) r x) :: cv (mv (K := Rring) A x) = dot (K := Cring) (cv r) (cv x) :: mv (K := Cring) (cmat A) (cv x)). now rewrite IH, cv_dot. Qed.
Lemma cv_vadd (x y : list R) : cv (vadd (K := Rring) x y) = vadd (K := Cring) (cv x) (cv y).
Proof. revert y; induction x as [|a x IH]; intros [|b y]; try reflexivity. change (RtoC (a + b) :: cv (vadd (K := Rring) x y) = Cplus (RtoC a) (RtoC b) :: vadd (K := Cring) (cv x) (cv y)). now rewrite IH, RtoC_plus. Qed.
Lemma cv_len x : length (cv x) = length x. Proof. apply map_length. Qed.
Lemma cmat_wf m n A : wfm (K := Rring) m n A -> wfm (K := Cring) m n (cmat A).
Proof. intros [H1 H2]. split; [unfold cmat; now rewrite map_length|]. apply Forall_map. eapply Forall_impl; [|exact H2]. intros r Hr. cbv beta. now rewrite cv_len. Qed.
Lemma cv_vzero n : cv (vzero (K := Rring) n) = vzero (K := Cring) n.
Proof. induction n; [reflexivity|]. change (RtoC 0 :: cv (vzero (K := Rring) n) = RtoC 0 :: vzero (K := Cring) n). now rewrite IHn. Qed.

Lemma nth_map2 {A B D} (f : A -> B -> D) x y i da db dd : (i < length x)%nat -> (i < length y)%nat -> nth i (map2 f x y) dd = f (nth i x da) (nth i y db).
Proof. revert y i; induction x as [|a x IH]; intros [|b y] [|i] H1 H2; cbn in *; try lia; [reflexivity|]. apply IH; lia. Qed.

(** the diagonal matrix *)
Definition diagc (a : list C) : list (list C) := map (fun i => vscale (K := Cring) (nth i a (RtoC 0)) (unitv (K := Cring) (length a) i)) (seq 0 (length a)).

(** [Q] and [Qi] are inverse to each other and [A Q = Q diag a] *)
Definition diagonalises (N : nat) (A : list (list R)) (a : list C) (Q Qi : list (list C)) : Prop :=
  length a = N /\ wfm (K := Cring) N N Q /\ wfm (K := Cring) N N Qi /\
  mm (K := Cring) N Q Qi = eye (K := Cring) N /\ mm (K := Cring) N Qi Q = eye (K := Cring) N /\
  mm (K := Cring) N (cmat A) Q = mm (K := Cring) N Q (diagc a).

Section Diag.
Variables (N : nat) (A : list (list R)) (a : list C) (Q Qi : list (list C)).
Hypothesis HA : wfm (K := Rring) N N A.
Hypothesis HD : diagonalises N A a Q Qi.

Lemma mv_diagc (x : list C) : length x = N -> mv (K := Cring) (diagc a) x = map2 Cmult a x.
Proof.
  destruct HD as (Ha & _). intros Hx. apply (list_ext _ _ (RtoC 0)).
  - unfold mv, diagc. rewrite !map_length, seq_length. rewrite map2_length. lia.
  - intros i Hi. unfold mv, diagc in *. rewrite map_map in *. rewrite map_length, seq_length in Hi. rewrite nth_map_seq by assumption. cbn [plus].
    rewrite (nth_map2 _ _ _ _ (RtoC 0) (RtoC 0)) by lia.
    transitivity (Cmult (nth i a (RtoC 0)) (dot (K := Cring) (unitv (K := Cring) (length a) i) x)).
    + generalize (unitv (K := Cring) (length a) i) (nth i a (RtoC 0)). intros u c. revert x Hx. clear. 
      intros x _. revert x; induction u as [|b u IH]; intros [|y x]; cbn; try (symmetry; apply Cmult_0_r). 
      change (Cplus (Cmult (Cmult c b) y) (dot (K := Cring) (vscale (K := Cring) c u) x) = Cmult c (Cplus (Cmult b y) (dot (K := Cring) u x))).
      rewrite IH. ring.
    + rewrite (dot_unitv (K := Cring) (length a) i x Hi (eq_trans Hx (eq_sym Ha))). reflexivity.
Qed.
Lemma mv_inv (x : list C) : length x = N -> mv (K := Cring) Q (mv (K := Cring) Qi x) = x.
Proof.
  destruct HD as (Ha & HQ & HQi & H1 & H2 & H3). intros Hx. rewrite <- (mv_mm (K := Cring) N N Q Qi x HQi), H1. now apply mv_eye.
Qed.
(** in the eigenbasis the matrix acts entrywise *)
Lemma eig_step (x : list R) : length x = N ->
  mv (K := Cring) Qi (cv (mv (K := Rring) A x)) = map2 Cmult a (mv (K := Cring) Qi (cv x)).
Proof.
  pose proof HD as (Ha & HQ & HQi & H1 & H2 & H3). intros Hx. rewrite cv_mv.
  assert (HW : wfm (K := Cring) N N (diagc a)).
  { split; [unfold diagc; now rewrite map_length, seq_length|]. unfold diagc. apply Forall_map, Forall_forall. intros i _. now rewrite vscale_length, unitv_length. }
  rewrite <- (mv_inv (cv x)) at 1 by (now rewrite cv_len).
  rewrite <- (mv_mm (K := Cring) N N (cmat A) Q _ HQ), H3, (mv_mm (K := Cring) N N Q (diagc a) _ HW).
  rewrite <- (mv_mm (K := Cring) N N Qi Q _ HQ), H2. rewrite mv_eye.
  - apply mv_diagc. exact (eq_trans (mv_length (K := Cring) _ _) (proj1 HQi)).
  - exact (eq_trans (mv_length (K := Cring) _ _) (proj1 HW)).
Qed.
End Diag.

(** *** one eigenvalue chain of the parallel estimator *)
Lemma feed_dot (M : nat) (b : list C) (s : list R) (m : C) : length b = M -> length s = M ->
  feed M b s m = Cplus m (dot (K := Cring) b (cv (map sgn s))).
Proof.
  intros Hb Hs. unfold feed.
  assert (G : forall j, (j <= M)%nat ->
    fold_left (fun mean i => if Req_bool (nth i s 0) 0 then (mean - nth i b (RtoC 0))%C else (mean + nth i b (RtoC 0))%C) (seq 0 j) m
    = Cplus m (dot (K := Cring) (firstn j b) (firstn j (cv (map sgn s))))).
  { induction j as [|j IH]; intros Hj; [cbn; now rewrite Cplus_0_r|].
    rewrite seq_S, fold_left_app, IH by lia. cbn [fold_left plus].
    rewrite (firstn_S_nth j b (RtoC 0)) by lia. rewrite (firstn_S_nth j (cv (map sgn s)) (RtoC (sgn 0))) by (rewrite cv_len, map_length; lia).
    assert (E : forall (u v : list C) x y, length u = length v -> dot (K := Cring) (u ++ [x]) (v ++ [y]) = Cplus (dot (K := Cring) u v) (Cmult x y)).
    { clear. induction u as [|a u IH]; intros [|c v] x y H; try discriminate.
      - cbn. rewrite Cplus_0_r, Cplus_0_l. reflexivity.
      - change (Cplus (Cmult a c) (dot (K := Cring) (u ++ [x]) (v ++ [y])) = Cplus (Cplus (Cmult a c) (dot (K := Cring) u v)) (Cmult x y)).
        rewrite IH by (now injection H). ring. }
    rewrite E by (rewrite !firstn_length, cv_len, map_length; lia). unfold cv. rewrite map_map. rewrite (map_nth (fun x => RtoC (sgn x))).
    assert (ES : RtoC (sgn (nth j s 0)) = if Req_bool (nth j s 0) 0 then Copp (RtoC 1) else RtoC 1).
    { unfold sgn. destruct (Req_bool (nth j s 0) 0); apply injective_projections; cbn; ring. }
    rewrite ES. destruct (Req_bool (nth j s 0) 0).
    - unfold Cminus. rewrite Cplus_assoc. f_equal. ring.
    - rewrite Cplus_assoc. f_equal. ring. }
  rewrite (G M (le_n _)). rewrite !firstn_all2 by (rewrite ?cv_len, ?map_length; lia). reflexivity.
Qed.

Section Chain.
Variables (N M L : nat) (q : pcoef) (K1 K2 : nat).
Let K3 := (K1 + K2)%nat.

Lemma add_row_nth w n k m est : (k < length est)%nat ->
  nth k (add_row L w n k m est) [] = map (fun l => nth l (nth k est []) 0 + fst (Cmult (nth n (nth l w []) (RtoC 0)) m)) (seq 0 L).
Proof. intros H. unfold add_row. now rewrite nth_upd_same. Qed.

Lemma p_forward_spec buf n est (gs : nat -> C) :
  (forall k, (k < K1)%nat -> gs (S k) = feed M (nth n (pfb q) []) (nth k buf []) (Cmult (nth n (pfa q) (RtoC 0)) (gs k))) ->
  length est = K1 ->
  exists est', p_forward M L q K1 buf n est (gs O) = (est', gs K1) /\ length est' = K1 /\
    forall k, (k < K1)%nat -> nth k est' [] = map (fun l => nth l (nth k est []) 0 + fst (Cmult (nth n (nth l (pfw q) []) (RtoC 0)) (gs k))) (seq 0 L).
Proof.
  intros Hg Hl. unfold p_forward.
  assert (G : forall j, (j <= K1)%nat -> exists est',
    fold_left (fun '(est, mean) k1 => (add_row L (pfw q) n k1 mean est, feed M (nth n (pfb q) []) (nth k1 buf []) (nth n (pfa q) (RtoC 0) * mean)%C)) (seq 0 j) (est, gs O) = (est', gs j)
    /\ length est' = K1 /\ (forall k, (k < j)%nat -> nth k est' [] = map (fun l => nth l (nth k est []) 0 + fst (Cmult (nth n (nth l (pfw q) []) (RtoC 0)) (gs k))) (seq 0 L))
    /\ (forall k, (j <= k)%nat -> nth k est' [] = nth k est [])).
  { induction j as [|j IH]; intros Hj; [exists est; repeat split; auto; lia|].
    destruct (IH ltac:(lia)) as (e & E1 & E2 & E3 & E4). rewrite seq_S, fold_left_app, E1. cbn [fold_left plus].
    exists (add_row L (pfw q) n j (gs j) e). split; [rewrite Hg by lia; reflexivity|]. split; [unfold add_row; now rewrite upd_length|]. split.
    - intros k Hk. destruct (Nat.eq_dec k j) as [->|Hne]; [rewrite add_row_nth by lia; now rewrite E4 by lia|].
      unfold add_row. rewrite nth_upd_other by lia. apply E3. lia.
    - intros k Hk. unfold add_row. rewrite nth_upd_other by lia. apply E4. lia. }
  destruct (G K1 (le_n _)) as (e & E1 & E2 & E3 & _). exists e. auto.
Qed.

Lemma p_backward_spec buf n est (hs : nat -> C) :
  (forall k, (k < K3)%nat -> hs k = feed M (nth n (pbb q) []) (nth k buf []) (Cmult (nth n (pba q) (RtoC 0)) (hs (S k)))) -> hs K3 = RtoC 0 ->
  length est = K1 ->
  exists est', fst (p_backward M L q K1 K2 buf n est) = est' /\ length est' = K1 /\
    forall k, (k < K1)%nat -> nth k est' [] = map (fun l => nth l (nth k est []) 0 + fst (Cmult (nth n (nth l (pbw q) []) (RtoC 0)) (hs k))) (seq 0 L).
Proof.
  intros Hg H0 Hl. unfold p_backward. fold K3.
  assert (G : forall j, (j <= K3)%nat -> exists est',
    fold_left (fun '(est, mean) k3 => let mean := feed M (nth n (pbb q) []) (nth k3 buf []) (nth n (pba q) (RtoC 0) * mean)%C in
      (if Nat.ltb k3 K1 then add_row L (pbw q) n k3 mean est else est, mean)) (rev (seq (K3 - j) j)) (est, RtoC 0) = (est', hs (K3 - j)%nat)
    /\ length est' = K1 /\ (forall k, (K3 - j <= k < K1)%nat -> nth k est' [] = map (fun l => nth l (nth k est []) 0 + fst (Cmult (nth n (nth l (pbw q) []) (RtoC 0)) (hs k))) (seq 0 L))
    /\ (forall k, (k < K3 - j)%nat -> nth k est' [] = nth k est [])).
  { induction j as [|j IH]; intros Hj.
    - exists est. rewrite Nat.sub_0_r. repeat split; [cbn; now rewrite H0|assumption|unfold K3 in *; intros; lia].
    - destruct (IH ltac:(lia)) as (e & E1 & E2 & E3 & E4). cbv zeta in E1. cbn [seq rev]. replace (S (K3 - S j)) with (K3 - j)%nat by lia.
      rewrite fold_left_app, E1. cbn [fold_left]. cbv zeta.
      replace (K3 - j)%nat with (S (K3 - S j)) by lia. rewrite <- Hg by lia.
      eexists. split; [reflexivity|]. set (i := (K3 - S j)%nat) in *.
      destruct (Nat.ltb_spec i K1) as [Hlt|Hge].
      + split; [unfold add_row; now rewrite upd_length|]. split.
        * intros k Hk. destruct (Nat.eq_dec k i) as [->|Hne]; [rewrite add_row_nth by lia; now rewrite E4 by lia|].
          unfold add_row. rewrite nth_upd_other by lia. apply E3. lia.
        * intros k Hk. unfold add_row. rewrite nth_upd_other by lia. apply E4. lia.
      + split; [assumption|]. split; [intros; lia|]. intros k Hk. apply E4. lia. }
  destruct (G K3 (le_n _)) as (e & E1 & E2 & E3 & _). rewrite Nat.sub_diag in *. exists e. split; [exact (f_equal fst E1)|]. split; [assumption|]. intros k Hk. apply E3. lia.
Qed.

Lemma p_loop_spec buf mean (g h : nat -> nat -> C) : length mean = N ->
  (forall n, (n < N)%nat -> g n O = nth n mean (RtoC 0)) ->
  (forall n k, (n < N)%nat -> (k < K1)%nat -> g n (S k) = feed M (nth n (pfb q) []) (nth k buf []) (Cmult (nth n (pfa q) (RtoC 0)) (g n k))) ->
  (forall n k, (n < N)%nat -> (k < K3)%nat -> h n k = feed M (nth n (pbb q) []) (nth k buf []) (Cmult (nth n (pba q) (RtoC 0)) (h n (S k)))) ->
  (forall n, (n < N)%nat -> h n K3 = RtoC 0) ->
  exists est, p_loop N M L q K1 K2 buf mean = (est, map (fun n => g n K1) (seq 0 N)) /\ length est = K1 /\
    forall k, (k < K1)%nat -> nth k est [] = map (fun l => ksum (K := Rring) N (fun n =>
       fst (Cmult (nth n (nth l (pfw q) []) (RtoC 0)) (g n k)) + fst (Cmult (nth n (nth l (pbw q) []) (RtoC 0)) (h n k)))) (seq 0 L).
Proof.
  intros Hm Hg0 Hg Hh Hh0. unfold p_loop.
  assert (G : forall j, (j <= N)%nat -> exists est mean',
    fold_left (fun '(est, mean) n => let '(est, m) := p_forward M L q K1 buf n est (nth n mean (RtoC 0)) in (fst (p_backward M L q K1 K2 buf n est), upd n m mean))
      (seq 0 j) (repeat (repeat 0 L) K1, mean) = (est, mean') /\ length est = K1 /\ length mean' = N /\
    (forall n, (n < j)%nat -> nth n mean' (RtoC 0) = g n K1) /\ (forall n, (j <= n)%nat -> nth n mean' (RtoC 0) = nth n mean (RtoC 0)) /\
    forall k, (k < K1)%nat -> nth k est [] = map (fun l => ksum (K := Rring) j (fun n =>
       fst (Cmult (nth n (nth l (pfw q) []) (RtoC 0)) (g n k)) + fst (Cmult (nth n (nth l (pbw q) []) (RtoC 0)) (h n k)))) (seq 0 L)).
  { induction j as [|j IH]; intros Hj.
    - exists (repeat (repeat 0 L) K1), mean. split; [reflexivity|]. split; [apply repeat_length|]. split; [assumption|]. split; [lia|]. split; [auto|].
      intros k Hk. rewrite (nth_repeat_lt _ _ _ _ Hk). cbn [ksum]. clear. generalize 0%nat. induction L as [|L' IH]; intros a; [reflexivity|]. cbn. now rewrite (IH (S a)).
    - destruct (IH ltac:(lia)) as (e & me & E1 & E2 & E3 & E4 & E5 & E6). rewrite seq_S, fold_left_app, E1. cbn [fold_left plus].
      rewrite E5 by lia. rewrite <- Hg0 by lia.
      destruct (p_forward_spec buf j e (g j) ltac:(intros; apply Hg; lia) E2) as (e1 & F1 & F2 & F3). rewrite F1.
      destruct (p_backward_spec buf j e1 (h j) ltac:(intros; apply Hh; lia) ltac:(apply Hh0; lia) F2) as (e2 & B1 & B2 & B3). rewrite B1.
      exists e2, (upd j (g j K1) me). split; [reflexivity|]. split; [assumption|]. split; [now rewrite upd_length|]. split; [|split].
      + intros n Hn. destruct (Nat.eq_dec n j) as [->|Hne]; [apply nth_upd_same; lia|]. rewrite nth_upd_other by lia. apply E4. lia.
      + intros n Hn. rewrite nth_upd_other by lia. apply E5. lia.
      + intros k Hk. rewrite B3, F3, E6 by lia. apply map_ext_in. intros l Hl. apply in_seq in Hl.
        rewrite !nth_map_seq by lia. cbn [plus ksum]. cbn [radd car Rring]. now rewrite Rplus_assoc. }
  destruct (G N (le_n _)) as (e & me & E1 & E2 & E3 & E4 & E5 & E6). exists e. rewrite E1. split; [|auto]. f_equal.
  apply (list_ext _ _ (RtoC 0)); [now rewrite map_length, seq_length|]. intros i Hi. rewrite E4, nth_map_seq by lia. reflexivity.
Qed.
End Chain.

(** one step in the eigenbasis *)
Lemma nth_mvc (A : list (list C)) (x : list C) n : (n < length A)%nat -> nth n (mv (K := Cring) A x) (RtoC 0) = dot (K := Cring) (nth n A []) x.
Proof. intros H. unfold mv. rewrite (nth_indep _ _ (dot (K := Cring) [] x)) by (now rewrite map_length). exact (map_nth (fun r => dot (K := Cring) r x) A [] n). Qed.
Lemma eig_feed N M A B a Q Qi (x s : list R) n : wfm (K := Rring) N N A -> wfm (K := Rring) N M B -> diagonalises N A a Q Qi ->
  length x = N -> length s = M -> (n < N)%nat ->
  nth n (mv (K := Cring) Qi (cv (vadd (K := Rring) (mv (K := Rring) A x) (mv (K := Rring) B (map sgn s))))) (RtoC 0)
  = feed M (nth n (mm (K := Cring) M Qi (cmat B)) []) s (Cmult (nth n a (RtoC 0)) (nth n (mv (K := Cring) Qi (cv x)) (RtoC 0))).
Proof.
  intros HA HB HD Hx Hs Hn. pose proof HD as (Ha & HQ & HQi & _).
  assert (HW : wfm (K := Cring) N M (mm (K := Cring) M Qi (cmat B))) by (eapply mm_wf; [exact HQi|now apply cmat_wf]).
  destruct HW as [W1 W2].
  rewrite feed_dot; [|refine (proj1 (Forall_forall _ _) W2 _ _); apply nth_In; exact (eq_ind_r (fun z => (n < z)%nat) Hn W1)|assumption].
  rewrite <- nth_mvc by exact (eq_ind_r (fun z => (n < z)%nat) Hn W1).
  rewrite (mv_mm (K := Cring) N M _ _ _ (cmat_wf _ _ _ HB)), <- cv_mv.
  rewrite cv_vadd. rewrite mv_vadd by (rewrite !cv_len, !(mv_length (K := Rring)); etransitivity; [apply HA|symmetry; apply HB]).
  rewrite (eig_step N A a Q Qi HD x Hx). unfold vadd. 
  assert (L1 : length (mv (K := Cring) Qi (cv x)) = N) by exact (eq_trans (mv_length (K := Cring) _ _) (proj1 HQi)).
  assert (L2 : length (mv (K := Cring) Qi (cv (mv (K := Rring) B (map sgn s)))) = N) by exact (eq_trans (mv_length (K := Cring) _ _) (proj1 HQi)).
  assert (L3 : length (map2 Cmult a (mv (K := Cring) Qi (cv x))) = N).
  { etransitivity; [apply map2_length|]. rewrite Ha. etransitivity; [apply f_equal; exact L1|]. apply Nat.min_id. }
  etransitivity; [apply (nth_map2 (radd Cring) (map2 Cmult a (mv (K := Cring) Qi (cv x))) (mv (K := Cring) Qi (cv (mv (K := Rring) B (map sgn s)))) n (RtoC 0) (RtoC 0) (RtoC 0))|].
  - exact (eq_ind_r (fun z => (n < z)%nat) Hn L3).
  - exact (eq_ind_r (fun z => (n < z)%nat) Hn L2).
  - change (radd Cring) with Cplus. f_equal. apply nth_map2; [lia|exact (eq_ind_r (fun z => (n < z)%nat) Hn L1)].
Qed.

(** *** BatchEstimator computing one batch from any state *)
Section GenBatch.
Context {K : cring}.
Notation vec := (list K).
Variable c : @coef K.
Variables K1 K2 : nat.
Hypothesis HK1 : (1 <= K1)%nat.

Fixpoint Gm (buf : list vec) (m0 : vec) (k : nat) : vec :=
  match k with O => m0 | S k => vadd (mv (cAf c) (Gm buf m0 k)) (mv (cBf c) (nth k buf [])) end.
Definition Hm (buf : list vec) (k : nat) : vec :=
  fold_right (fun k m => vadd (mv (cAb c) m) (mv (cBb c) (nth k buf []))) (vzero (cN c)) (seq k (K1 + K2 - k)).
Lemma Hm_step buf k : (k < K1 + K2)%nat -> Hm buf k = vadd (mv (cAb c) (Hm buf (S k))) (mv (cBb c) (nth k buf [])).
Proof. intros H. unfold Hm. replace (K1 + K2 - k)%nat with (S (K1 + K2 - S k)) by lia. reflexivity. Qed.
Lemma Hm_end buf : Hm buf (K1 + K2) = vzero (cN c).
Proof. unfold Hm. now rewrite Nat.sub_diag. Qed.

Lemma b_compute_gen st : b_cnt st = (K1 + K2)%nat -> length (b_mean st) = (K1 + 1)%nat -> length (b_est st) = K1 ->
  nth K1 (b_mean st) [] = vzero (cN c) ->
  exists mean est, b_compute c K1 K2 st
    = Ok (mkB (b_src st) (b_iter st) (b_ptr st) (b_stop st) (roll K1 (b_buf st)) K2 mean est)
  /\ length mean = (K1 + 1)%nat /\ length est = K1 /\ nth 0 mean [] = Gm (b_buf st) (nth 0 (b_mean st) []) K1 /\ nth K1 mean [] = vzero (cN c)
  /\ forall k, (k < K1)%nat -> nth k est [] = mv (cWT c) (vsub (Hm (b_buf st) k) (Gm (b_buf st) (nth 0 (b_mean st) []) k)).
Proof.
  intros Hc Hlm Hle HKm. unfold b_compute. rewrite Hc, Nat.ltb_irrefl.
  rewrite b_lookahead_spec by lia. rewrite HKm.
  set (mean1 := upd K1 _ _).
  assert (HL1 : length mean1 = (K1 + 1)%nat) by (unfold mean1; now rewrite upd_length).
  assert (E1K : nth K1 mean1 [] = Hm (b_buf st) K1).
  { unfold mean1, Hm. rewrite nth_upd_same by lia. now replace (K1 + K2 - K1)%nat with K2 by lia. }
  assert (E10 : nth 0 mean1 [] = nth 0 (b_mean st) []) by (unfold mean1; rewrite nth_upd_other by lia; reflexivity).
  unfold b_forward. destruct (fold_left _ (seq 0 K1) _) as [mean2 tf] eqn:EF.
  pose proof (b_forward_spec c K1 K2 HK1 _ _ HL1 K1 (le_n _) _ _ EF) as HF. cbv zeta in HF. set (G := fix G (k : nat) : vec := _) in HF.
  assert (EG : forall k, G k = Gm (b_buf st) (nth 0 (b_mean st) []) k).
  { induction k as [|k IHk]; cbn [G Gm]; [exact E10|]. now rewrite IHk. }
  destruct HF as (HL2 & HG2 & HK2' & HT). specialize (HT eq_refl). rewrite EG in HT. subst tf.
  pose proof (b_backward_spec c K1 K2 HK1 (b_buf st) K1 0 mean2 (b_est st) ltac:(lia) HL2 Hle) as HB. cbv zeta in HB.
  unfold b_backward. destruct (fold_left _ (rev (seq 0 K1)) _) as [mean3 est].
  cbn [fst snd] in HB. destruct HB as (B1 & B2 & B3 & B4 & B5).
  eexists _, est. split.
  - do 2 f_equal. lia.
  - rewrite !upd_length. split; [assumption|]. split; [assumption|]. split; [|split].
    + rewrite nth_upd_other by lia. apply nth_upd_same. lia.
    + apply nth_upd_same. rewrite upd_length. lia.
    + intros k Hk. rewrite B5 by lia. rewrite HK2', E1K. rewrite HG2 by lia. rewrite EG. f_equal. f_equal.
      unfold Hm at 2. replace (K1 + K2 - k)%nat with ((K1 - k) + K2)%nat by lia. rewrite seq_app, fold_right_app. f_equal.
      unfold Hm. f_equal. f_equal; lia.
Qed.
End GenBatch.

Lemma fst_dot (u v : list C) N : length u = N -> length v = N ->
  fst (dot (K := Cring) u v) = ksum (K := Rring) N (fun n => fst (Cmult (nth n u (RtoC 0)) (nth n v (RtoC 0)))).
Proof.
  intros Hu Hv. etransitivity; [apply f_equal; apply (dot_ksum (K := Cring)); exact (eq_trans Hu (eq_sym Hv))|].
  change (fst (ksum (K := Cring) (length u) (fun i => Cmult (nth i u (RtoC 0)) (nth i v (RtoC 0)))) = ksum (K := Rring) N (fun n => fst (Cmult (nth n u (RtoC 0)) (nth n v (RtoC 0))))).
  rewrite Hu. generalize N. clear. induction N as [|n IH]; [reflexivity|]. cbn [ksum]. rewrite <- IH. reflexivity.
Qed.

Section Refine.
Variable c : @coef Rring.
Variables (fa ba : list C) (Qf Qfi Qb Qbi : list (list C)).
Hypothesis Hwf : coef_wf c.
Hypothesis HDf : diagonalises (cN c) (cAf c) fa Qf Qfi.
Hypothesis HDb : diagonalises (cN c) (cAb c) ba Qb Qbi.
Let N := cN c.
Let M := cM c.
Let L := cL c.
Let q := mkPC fa ba (mm (K := Cring) M Qfi (cmat (cBf c))) (mm (K := Cring) M Qbi (cmat (cBb c)))
    (mopp (K := Cring) (mm (K := Cring) N (cmat (cWT c)) Qf)) (mm (K := Cring) N (cmat (cWT c)) Qb).

(** W (Q (Qi x)) = W x *)
Lemma weigh A a Q Qi (x : list R) l : diagonalises N A a Q Qi -> length x = N -> (l < L)%nat ->
  dot (K := Cring) (nth l (mm (K := Cring) N (cmat (cWT c)) Q) []) (mv (K := Cring) Qi (cv x)) = RtoC (nth l (mv (K := Rring) (cWT c) x) 0).
Proof.
  intros HD Hx Hl. pose proof HD as (Ha & HQ & HQi & _). destruct Hwf as (_ & _ & _ & _ & HW).
  assert (HM : wfm (K := Cring) L N (mm (K := Cring) N (cmat (cWT c)) Q)) by (eapply mm_wf; [apply cmat_wf; exact HW|exact HQ]).
  rewrite <- nth_mvc by exact (eq_ind_r (fun z => (l < z)%nat) Hl (proj1 HM)).
  rewrite (mv_mm (K := Cring) N N _ _ _ HQ), (mv_inv N A a Q Qi HD) by (now rewrite cv_len).
  rewrite <- cv_mv. unfold cv. rewrite (nth_indep _ _ (RtoC 0)).
  - exact (map_nth RtoC _ 0 l).
  - rewrite map_length. exact (eq_ind_r (fun z => (l < z)%nat) Hl (eq_trans (mv_length (K := Rring) _ _) (proj1 HW))).
Qed.

Section Sizes.
Variables K1 K2 : nat.
Hypothesis HK1 : (1 <= K1)%nat.
Let K3 := (K1 + K2)%nat.

Lemma Gm_len buf m0 k : length m0 = N -> length (Gm (K := Rring) c buf m0 k) = N.
Proof.
  intros H. destruct Hwf as (H1 & H2 & H3 & H4 & H5). destruct k; [exact H|]. cbn [Gm].
  etransitivity; [apply vadd_length|]. rewrite !mv_length, (proj1 H1), (proj1 H3). apply Nat.min_id.
Qed.
Lemma Hm_len buf k : length (Hm (K := Rring) c K1 K2 buf k) = N.
Proof.
  destruct Hwf as (H1 & H2 & H3 & H4 & H5). unfold Hm. destruct (seq k _) as [|i s]; cbn [fold_right]; [apply vzero_length|].
  etransitivity; [apply vadd_length|]. rewrite !mv_length, (proj1 H2), (proj1 H4). apply Nat.min_id.
Qed.

Definition bufrel (cnt : nat) (pb : list (list R)) (bb : list (list R)) : Prop :=
  length pb = K3 /\ length bb = K3 /\
  forall i, (i < cnt)%nat -> length (nth i pb []) = M /\ nth i bb [] = map sgn (nth i pb []).

Lemma p_loop_gen (pb bb : list (list R)) (m0 : list R) : bufrel K3 pb bb -> length m0 = N ->
  exists est, p_loop N M L q K1 K2 pb (mv (K := Cring) Qfi (cv m0)) = (est, mv (K := Cring) Qfi (cv (Gm (K := Rring) c bb m0 K1))) /\ length est = K1 /\
    forall k, (k < K1)%nat -> nth k est [] = mv (K := Rring) (cWT c) (vsub (K := Rring) (Hm (K := Rring) c K1 K2 bb k) (Gm (K := Rring) c bb m0 k)).
Proof.
  intros (B1 & B2 & B3) Hm0. pose proof Hwf as (H1 & H2 & H3 & H4 & H5).
  assert (LQf : forall x, length (mv (K := Cring) Qfi x) = N) by (intros; exact (eq_trans (mv_length (K := Cring) _ _) (proj1 (proj1 (proj2 (proj2 HDf)))))).
  assert (LQb : forall x, length (mv (K := Cring) Qbi x) = N) by (intros; exact (eq_trans (mv_length (K := Cring) _ _) (proj1 (proj1 (proj2 (proj2 HDb)))))).
  destruct (p_loop_spec N M L q K1 K2 pb (mv (K := Cring) Qfi (cv m0))
    (fun n k => nth n (mv (K := Cring) Qfi (cv (Gm (K := Rring) c bb m0 k))) (RtoC 0))
    (fun n k => nth n (mv (K := Cring) Qbi (cv (Hm (K := Rring) c K1 K2 bb k))) (RtoC 0))) as (est & E1 & E2 & E3).
  - apply LQf.
  - reflexivity.
  - intros n k Hn Hk. cbn [Gm]. destruct (B3 k ltac:(unfold K3; lia)) as [B4 B5].
    refine (eq_trans (f_equal (fun z : list R => nth n (mv (K := Cring) Qfi (cv (vadd (K := Rring) (mv (K := Rring) (cAf c) (Gm (K := Rring) c bb m0 k)) (mv (K := Rring) (cBf c) z)))) (RtoC 0)) B5) _).
    apply (eig_feed N M (cAf c) (cBf c) fa Qf Qfi); auto. now apply Gm_len.
  - intros n k Hn Hk. rewrite Hm_step by assumption. destruct (B3 k Hk) as [B4 B5].
    refine (eq_trans (f_equal (fun z : list R => nth n (mv (K := Cring) Qbi (cv (vadd (K := Rring) (mv (K := Rring) (cAb c) (Hm (K := Rring) c K1 K2 bb (S k))) (mv (K := Rring) (cBb c) z)))) (RtoC 0)) B5) _).
    apply (eig_feed N M (cAb c) (cBb c) ba Qb Qbi); auto. apply Hm_len.
  - intros n Hn. rewrite Hm_end, cv_vzero. rewrite (mv_vzero (K := Cring)). 
    unfold vzero. apply nth_repeat.
  - exists est. split; [|split; [exact E2|]].
    + rewrite E1. apply (f_equal (@pair (list (list R)) (list C) est)). apply (list_ext _ _ (RtoC 0)); [rewrite map_length, seq_length; symmetry; apply LQf|].
      intros i Hi. rewrite map_length, seq_length in Hi. now rewrite nth_map_seq by assumption.
    + intros k Hk. rewrite E3 by assumption. apply (list_ext _ _ 0).
      * rewrite map_length, seq_length. symmetry. exact (eq_trans (mv_length (K := Rring) _ _) (proj1 H5)).
      * intros l Hl. rewrite map_length, seq_length in Hl. rewrite nth_map_seq by assumption. cbn [plus].
        assert (LW : forall Q, wfm (K := Cring) N N Q -> wfm (K := Cring) L N (mm (K := Cring) N (cmat (cWT c)) Q)) by (intros Q HQ; eapply mm_wf; [apply cmat_wf; exact H5|exact HQ]).
        set (u1 := nth l (pfw q) []). set (u2 := nth l (pbw q) []).
        set (v1 := mv (K := Cring) Qfi (cv (Gm (K := Rring) c bb m0 k)) : list C). set (v2 := mv (K := Cring) Qbi (cv (Hm (K := Rring) c K1 K2 bb k)) : list C).
        refine (eq_trans (ksum_add (K := Rring) N (fun n => fst (Cmult (nth n u1 (RtoC 0)) (nth n v1 (RtoC 0)))) (fun n => fst (Cmult (nth n u2 (RtoC 0)) (nth n v2 (RtoC 0))))) _).
        rewrite <- (fst_dot u1 v1 N), <- (fst_dot u2 v2 N). unfold u1, u2, v1, v2.
        2: { apply (proj1 (Forall_forall _ _) (proj2 (LW Qb (proj1 (proj2 HDb))))). apply nth_In. cbn [q pbw]. exact (eq_ind_r (fun z => (l < z)%nat) Hl (proj1 (LW Qb (proj1 (proj2 HDb))))). }
        2: apply LQb.
        2: { apply (proj1 (Forall_forall _ _) (proj2 (mopp_wf _ _ _ (LW Qf (proj1 (proj2 HDf)))))). apply nth_In. cbn [q pfw]. exact (eq_ind_r (fun z => (l < z)%nat) Hl (proj1 (mopp_wf _ _ _ (LW Qf (proj1 (proj2 HDf)))))). }
        2: apply LQf.
        cbn [q pfw pbw].
        rewrite (weigh (cAb c) ba Qb Qbi) by (auto; apply Hm_len).
        assert (EN : dot (K := Cring) (nth l (mopp (K := Cring) (mm (K := Cring) N (cmat (cWT c)) Qf)) []) (mv (K := Cring) Qfi (cv (Gm (K := Rring) c bb m0 k)))
          = Copp (RtoC (nth l (mv (K := Rring) (cWT c) (Gm (K := Rring) c bb m0 k)) 0))).
        { rewrite <- (weigh (cAf c) fa Qf Qfi) by (auto; apply Gm_len; auto).
          rewrite <- !nth_mvc; [|exact (eq_ind_r (fun z => (l < z)%nat) Hl (proj1 (LW Qf (proj1 (proj2 HDf)))))|exact (eq_ind_r (fun z => (l < z)%nat) Hl (proj1 (mopp_wf _ _ _ (LW Qf (proj1 (proj2 HDf))))))].
          rewrite (mv_mopp (K := Cring)). unfold vopp. generalize (mv (K := Cring) (mm (K := Cring) N (cmat (cWT c)) Qf) (mv (K := Cring) Qfi (cv (Gm (K := Rring) c bb m0 k)))).
          intros z. replace (RtoC 0) with (Copp (RtoC 0)) at 1 by (apply injective_projections; cbn; ring). exact (map_nth Copp z (RtoC 0) l). }
        refine (eq_trans (f_equal (fun z => Rplus (fst z) _) EN) _). clear EN.
        rewrite (mv_vsub (K := Rring)) by (rewrite Hm_len; symmetry; apply Gm_len; auto).
        etransitivity; [|symmetry; apply (nth_map2 Rminus _ _ l 0 0 0)].
        -- cbn [fst RtoC Copp radd Rring]. cbn. lra.
        -- exact (eq_ind_r (fun z => (l < z)%nat) Hl (eq_trans (mv_length (K := Rring) _ _) (proj1 H5))).
        -- exact (eq_ind_r (fun z => (l < z)%nat) Hl (eq_trans (mv_length (K := Rring) _ _) (proj1 H5))).
Qed.

(** *** lockstep *)
Definition srcrel (ps bs : @source Rring) : Prop := s_items bs = map truthy (s_items ps) /\ s_end bs = s_end ps.
Record rel (p : pst) (b : @bst Rring) : Prop := mkRel {
  r_src : srcrel (p_src p) (b_src b);
  r_iter : p_iter p = b_iter b; r_ptr : p_ptr p = b_ptr b; r_stop : p_stop p = b_stop b; r_cnt : p_cnt p = b_cnt b;
  r_le : (b_cnt b <= K3)%nat;
  r_buf : bufrel (b_cnt b) (p_buf p) (b_buf b);
  r_mean : p_mean p = mv (K := Cring) Qfi (cv (nth 0 (b_mean b) []));
  r_m0 : length (nth 0 (b_mean b) []) = N;
  r_lm : length (b_mean b) = (K1 + 1)%nat;
  r_mK : nth K1 (b_mean b) [] = vzero (K := Rring) N;
  r_est : p_est p = b_est b;
  r_le2 : length (b_est b) = K1 }.

Lemma src_next_rel ps bs : srcrel ps bs ->
  match src_next ps, src_next bs with
  | (Ok x, ps'), (Ok y, bs') => y = truthy x /\ srcrel ps' bs'
  | (Exn e, ps'), (Exn e', bs') => e = e' /\ srcrel ps' bs'
  | _, _ => False
  end.
Proof.
  destruct ps as [pi pe], bs as [bi be]. intros [H1 H2]. cbn in H1, H2. subst. unfold src_next. cbn [s_items s_end].
  destruct pi as [|x pi]; cbn [map]; [destruct pe; repeat split|]. repeat split.
Qed.

Lemma input_rel p b s : rel p b ->
  match p_input M K1 K2 p s, b_input c K1 K2 b (truthy s) with
  | Ok (f, p'), Ok (f', b') => f = f' /\ rel p' b'
  | Exn e, Exn e' => e = e'
  | _, _ => False
  end.
Proof.
  intros H. unfold p_input, b_input. rewrite (r_cnt _ _ H). destruct (Nat.eqb_spec (b_cnt b) (K1 + K2)) as [|Hc]; [reflexivity|].
  rewrite pm1_truthy. 
  pose proof (row_map sgn M s) as HR. unfold M in HR |- *. 
  destruct (row (cM c) s) as [r|e] eqn:ER; cbn [bind] in HR |- *.
  2: { match goal with |- context [bind ?r _] => assert (HR2 : r = Exn e) by exact HR end. rewrite HR2. reflexivity. }
  match goal with |- context [bind ?z _] => assert (HR2 : z = Ok (map sgn r)) by exact HR end. rewrite HR2. cbn [bind].
  split; [reflexivity|]. destruct H as [Hs Hi Hp Ht Hn Hl (B1 & B2 & B3) Hm H0 Hlm HK He Hle]. unfold K3 in *. constructor; cbn; auto; [lia|].
  split; [now rewrite upd_length|]. split; [exact (eq_trans (upd_length _ _ _) B2)|]. intros i Hi'. destruct (Nat.eq_dec i (b_cnt b)) as [->|Hne].
  - rewrite nth_upd_same by (rewrite B1; lia). split; [exact (row_len _ _ _ ER)|]. apply nth_upd_same. refine (eq_ind_r (fun z => (_ < z)%nat) _ B2). lia.
  - rewrite nth_upd_other by lia. destruct (B3 i ltac:(lia)) as [B4 B5]. split; [exact B4|]. refine (eq_trans _ B5). apply nth_upd_other. lia.
Qed.

Lemma fill_rel : forall fuel p b, rel p b ->
  fst (p_fill M K1 K2 fuel p) = fst (b_fill c K1 K2 fuel b) /\ rel (snd (p_fill M K1 K2 fuel p)) (snd (b_fill c K1 K2 fuel b)).
Proof.
  induction fuel as [|fuel IH]; intros p b H; [split; [reflexivity|exact H]|]. cbn [p_fill b_fill].
  pose proof (src_next_rel _ _ (r_src _ _ H)) as HN.
  destruct (src_next (p_src p)) as [rp ps], (src_next (b_src b)) as [rb bs].
  assert (HR : forall stop, rel (mkP ps (p_iter p) (p_ptr p) stop (p_buf p) (p_cnt p) (p_mean p) (p_est p)) (mkB bs (b_iter b) (b_ptr b) stop (b_buf b) (b_cnt b) (b_mean b) (b_est b))).
  { intros stop. destruct rp, rb; try contradiction; destruct HN as [_ HN]; destruct H; constructor; cbn; auto. }
  assert (GO : forall stop s, 
    let P := match p_input M K1 K2 (mkP ps (p_iter p) (p_ptr p) stop (p_buf p) (p_cnt p) (p_mean p) (p_est p)) s with
        | Exn e => (Exn e, mkP ps (p_iter p) (p_ptr p) stop (p_buf p) (p_cnt p) (p_mean p) (p_est p))
        | Ok (full, st'') => if full then (Ok tt, st'') else p_fill M K1 K2 fuel st'' end in
    let B := match b_input c K1 K2 (mkB bs (b_iter b) (b_ptr b) stop (b_buf b) (b_cnt b) (b_mean b) (b_est b)) (truthy s) with
        | Exn e => (Exn e, mkB bs (b_iter b) (b_ptr b) stop (b_buf b) (b_cnt b) (b_mean b) (b_est b))
        | Ok (full, st'') => if full then (Ok tt, st'') else b_fill c K1 K2 fuel st'' end in
    fst P = fst B /\ rel (snd P) (snd B)).
  { intros stop s. cbv zeta. pose proof (input_rel _ _ s (HR stop)) as HI.
    destruct (p_input _ _ _ _ _) as [[f p']|e], (b_input _ _ _ _ _) as [[f' b']|e']; try contradiction.
    - destruct HI as [<- HI]. destruct f; [split; [reflexivity|exact HI]|]. now apply IH.
    - subst e'. split; [reflexivity|apply HR]. }
  destruct rp as [x|e], rb as [y|e']; try contradiction.
  - destruct HN as [-> _]. rewrite (r_stop _ _ H). apply GO.
  - destruct HN as [<- _]. pose proof (GO true (repeat 0 M)) as G0. rewrite truthy_zero in G0.
    destruct e; try (split; [reflexivity|]; rewrite (r_stop _ _ H); apply HR). exact G0.
Qed.

Lemma nth_roll {A} (l : list A) i d : length l = K3 -> (i < K2)%nat -> nth i (roll K1 l) d = nth (K1 + i) l d.
Proof.
  intros HL Hi. unfold roll. rewrite HL, Nat.mod_small by (unfold K3; lia).
  rewrite app_nth1 by (rewrite skipn_length; unfold K3 in *; lia).
  rewrite <- (firstn_skipn K1 l) at 2. rewrite app_nth2 by (rewrite firstn_length; lia). f_equal. rewrite firstn_length. unfold K3 in *. lia.
Qed.
Lemma roll_length {A} (l : list A) : length (roll K1 l) = length l.
Proof. unfold roll. rewrite app_length, skipn_length, firstn_length. pose proof (Nat.mod_upper_bound K1 (length l)). destruct (length l); [cbn; lia|]. lia. Qed.

Lemma compute_rel p b : rel p b ->
  match p_compute N M L q K1 K2 p, b_compute c K1 K2 b with
  | Ok p', Ok b' => rel p' b'
  | Exn e, Exn e' => e = e'
  | _, _ => False
  end.
Proof.
  intros H. pose proof H as [Hs Hi Hp Ht Hn Hl HB Hm H0 Hlm HK He Hle].
  destruct (Nat.eq_dec (b_cnt b) K3) as [Hc|Hc].
  - destruct (b_compute_gen c K1 K2 HK1 b Hc Hlm Hle HK) as (mean & est & E1 & E2 & E3 & E4 & E5 & E6). rewrite E1.
    unfold p_compute. rewrite Hn. replace (b_cnt b <? K1 + K2)%nat with false by (symmetry; apply Nat.ltb_ge; unfold K3 in *; lia).
    rewrite Hc in HB. destruct (p_loop_gen (p_buf p) (b_buf b) (nth 0 (b_mean b) []) HB H0) as (pe & F1 & F2 & F3).
    rewrite Hm. match goal with |- context [let '(_, _) := ?z in _] => assert (F1' : z = (pe, mv (K := Cring) Qfi (cv (Gm (K := Rring) c (b_buf b) (nth 0 (b_mean b) []) K1)))) by exact F1 end. rewrite F1'.
    destruct HB as (B1 & B2 & B3).
    constructor; cbn [p_src p_iter p_ptr p_stop p_buf p_cnt p_mean p_est b_src b_iter b_ptr b_stop b_buf b_cnt b_mean b_est]; auto.
    + rewrite Hc. unfold K3. lia.
    + unfold K3; lia.
    + split; [now rewrite roll_length|]. split; [exact (eq_trans (roll_length _) B2)|]. intros i Hi2.
      destruct (B3 (K1 + i)%nat ltac:(unfold K3; lia)) as [B4 B5]. rewrite nth_roll by assumption. split; [exact B4|]. refine (eq_trans _ B5). apply nth_roll; assumption.
    + rewrite E4. reflexivity.
    + rewrite E4. apply Gm_len. exact H0.
    + apply (list_ext _ _ []); [exact (eq_trans F2 (eq_sym E3))|]. intros k Hk. rewrite F2 in Hk. rewrite F3 by assumption. symmetry. apply E6. assumption.
  - unfold p_compute, b_compute. rewrite Hn. replace (b_cnt b <? K1 + K2)%nat with true by (symmetry; apply Nat.ltb_lt; unfold K3 in *; lia). reflexivity.
Qed.

Variable limit : Z.
Lemma next_rel : forall fuel p b, rel p b ->
  fst (p_next_fuel N M L q K1 K2 limit fuel p) = fst (b_next_fuel c K1 K2 limit fuel b)
  /\ rel (snd (p_next_fuel N M L q K1 K2 limit fuel p)) (snd (b_next_fuel c K1 K2 limit fuel b)).
Proof.
  induction fuel as [|fuel IH]; intros p b H; [split; [reflexivity|exact H]|]. cbn [p_next_fuel b_next_fuel].
  rewrite (r_iter _ _ H). destruct (limit <? b_iter b)%Z; [split; [reflexivity|exact H]|].
  cbv zeta. cbn [p_src p_iter p_ptr p_stop p_buf p_cnt p_mean p_est b_src b_iter b_ptr b_stop b_buf b_cnt b_mean b_est].
  rewrite (r_ptr _ _ H). destruct (b_ptr b <? K1)%nat eqn:EP.
  - split; [cbn [fst]; now rewrite (r_est _ _ H)|]. destruct H. constructor; cbn; auto.
  - rewrite (r_stop _ _ H). destruct (b_stop b) eqn:ES.
    { split; [reflexivity|]. destruct H. constructor; cbn; auto. }
    assert (H' : rel (mkP (p_src p) (b_iter b + 1) (b_ptr b) false (p_buf p) (p_cnt p) (p_mean p) (p_est p)) (mkB (b_src b) (b_iter b + 1) (b_ptr b) false (b_buf b) (b_cnt b) (b_mean b) (b_est b))).
    { destruct H. constructor; cbn; auto. }
    pose proof (fill_rel (S (K1 + K2)) _ _ H') as [F1 F2].
    destruct (p_fill _ _ _ _ _) as [rp p'], (b_fill _ _ _ _ _) as [rb b']. cbn [fst snd] in F1, F2. subst rp.
    destruct rb as [u|e]; [|split; [reflexivity|exact F2]].
    pose proof (compute_rel _ _ F2) as HC.
    destruct (p_compute _ _ _ _ _ _ _) as [p2|e], (b_compute _ _ _ _) as [b2|e']; try contradiction.
    + apply IH. destruct HC. constructor; cbn; auto.
    + subst e'. split; [reflexivity|exact F2].
Qed.

Lemma init_rel src : rel (p_init N M L K1 K2 src) (b_init c K1 K2 (mkSrc (K := Rring) (map truthy (s_items src)) (s_end src))).
Proof.
  constructor; cbn; auto.
  - split; reflexivity.
  - lia.
  - split; [apply repeat_length|]. split; [apply repeat_length|]. intros; lia.
  - rewrite Nat.add_1_r. cbn [repeat nth]. rewrite cv_vzero. rewrite (mv_vzero (K := Cring)). 
    transitivity (vzero (K := Cring) N); [reflexivity|]. f_equal. symmetry. exact (proj1 (proj1 (proj2 (proj2 HDf)))).
  - rewrite Nat.add_1_r. cbn [repeat nth]. exact (vzero_length (K := Rring) _).
  - apply repeat_length.
  - apply nth_repeat_lt. lia.
  - apply repeat_length.
Qed.

Theorem parallel_batch src n :
  fst (calls (p_next N M L q K1 K2 limit) n (p_init N M L K1 K2 src))
  = fst (calls (b_next c K1 K2 limit) n (b_init c K1 K2 (mkSrc (K := Rring) (map truthy (s_items src)) (s_end src)))).
Proof.
  assert (G : forall n p b, rel p b -> fst (calls (p_next N M L q K1 K2 limit) n p) = fst (calls (b_next c K1 K2 limit) n b)).
  { clear n. induction n as [|n IH]; intros p b H; [reflexivity|]. cbn [calls]. pose proof (next_rel 2 p b H) as [H1 H2].
    unfold p_next, b_next. destruct (p_next_fuel _ _ _ _ _ _ _ _ _) as [rp p'], (b_next_fuel _ _ _ _ _ _) as [rb b']. cbn [fst snd] in H1, H2. subst rp.
    specialize (IH _ _ H2). unfold p_next, b_next in IH.
    destruct (calls _ n p') as [l1 s1], (calls _ n b') as [l2 s2]. cbn [fst] in *. now rewrite IH. }
  apply G, init_rel.
Qed.
End Sizes.
End Refine.
