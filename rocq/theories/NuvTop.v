(** The NUV estimator from its construction to its estimates. *)
From Coq Require Import List Arith Lia Bool Reals Lra ZArith.
From Flocq Require Import Core.
From Verif Require Import Base LinAlg FirExtras AnalogSystem AnalogProofs Signals DigitalControl Integrators IntegratorsProofs Simulator Stability LinearOde LinearExist PreSim Zpk FilterCoeff
  FilterCoeffProofs FilterOde FilterRun Estimators Optimal NuvAlg NuvCost NuvArrival Nuv NuvProofs NuvPass NuvRun NuvBatch NuvCoeff NuvCont NuvCarry.
Import ListNotations.
Open Scope R_scope.

(** *** Specification *)
(** the decision during sub-period i: every sample counts for [o] sub-periods *)
Definition decision (o : nat) (xs : list (list R)) (i m : nat) : R := 2 * nth m (nth (i / o) xs []) 0 - 1.
(** K samples of the outputs C^T x with a prior mean and covariance of the first state *)
Definition sampled_outputs (S : asys Rring) (K : nat) (m : nat -> R) (V : nat -> nat -> R) : window :=
  mkW (sN S) (sNt S) K (fun _ _ => 0) (fun _ _ => 0) (ent (aCT S)) m V (fun _ _ => 0).
(** no input explains the decisions at a lower cost, and only this input, continuous within the periods, does so at this cost *)
Definition least_energy (S : asys Rring) (d : dc) (T cov b : R) (w : window) (s1 s2 s : nat -> nat -> R) (u x : nat -> nat -> R -> R) : Prop :=
  exists I, trajectory S d T (w_K w) s u x /\ input_cost S T cov b w s1 s2 u x I /\
  (forall k l t, (Datatypes.S k < w_K w)%nat -> 0 <= t <= T -> continuity_pt (u k l) t) /\
  forall u' x' I', trajectory S d T (w_K w) s u' x' -> input_cost S T cov b w s1 s2 u' x' I' -> I <= I' /\
    (I' <= I -> (forall k n, (k < w_K w)%nat -> (n < w_N w)%nat -> x' k n 0 = x k n 0) /\ forall k, (Datatypes.S k < w_K w)%nat -> input_energy S T (fun l t => u' k l t - u k l t) 0).
(** n + 1 passes; after each one, the variances are fitted to the outputs found *)
Definition nuv_passes (S : asys Rring) (d : dc) (T cov b gamma eps : R) (n : nat) (w : window) (t1 t2 s : nat -> nat -> R) (v1 v2 : nat -> nat -> nat -> R) (u x : nat -> nat -> nat -> R -> R) : Prop :=
  (forall k r, (k < w_K w)%nat -> (r < w_P w)%nat -> v1 O k r = t1 k r /\ v2 O k r = t2 k r) /\
  forall i, (i <= n)%nat ->
    (forall k r, (k < w_K w)%nat -> (r < w_P w)%nat -> 0 < v1 i k r /\ 0 < v2 i k r) /\
    least_energy S d T cov b w (v1 i) (v2 i) s (u i) (x i) /\
    ((i < n)%nat -> fitted w b gamma eps (fun k n => x i k n 0) (v1 (Datatypes.S i)) (v2 (Datatypes.S i))).
(** deviation of the start from the prior, energy of the input, and a penalty on the outputs *)
Definition penalised (S : asys Rring) (T cov : R) (pen : R -> R) (w : window) (u x : nat -> nat -> R -> R) (I : R) : Prop :=
  exists a0 E, (forall n, (n < w_N w)%nat -> x O n 0 = w_m w n + rsum (w_N w) (fun j => w_V w n j * a0 j)) /\
    (forall k, (Datatypes.S k < w_K w)%nat -> input_energy S T (u k) (E k)) /\
    I = quad (w_N w) (w_V w) a0 + rsum (w_K w - 1) (fun k => E k / cov ^ 2) + rsum (w_K w) (fun k => rsum (w_P w) (fun r => pen (output w (fun k n => x k n 0) k r))).
(** 2 gamma times the distances from both bounds: for b >= 0, 4 gamma max (|y|, b) *)
Definition bounds_pen (b gamma y : R) : R := 2 * gamma * (Rabs (y - b) + Rabs (y + b)).
Definition huber_pen (b gamma eps y : R) : R := huber gamma eps (y - b) + huber gamma eps (y + b).
(** the estimator after n calls of next *)
Definition after_calls (inv : rmat -> result rmat) (c : nuv) (st0 : nst) (xs : list (list R)) (e : src_end) (n : nat) : nst :=
  snd (calls (n_next inv c) n (set_iterator st0 (mkSrc (K := Rring) xs e))).
Definition outcomes (inv : rmat -> result rmat) (c : nuv) (st0 : nst) (xs : list (list R)) (e : src_end) (n : nat) : list (result (list R)) :=
  fst (calls (n_next inv c) n (set_iterator st0 (mkSrc (K := Rring) xs e))).

(** *** Proofs *)
Lemma nth_stream o xs : (1 <= o)%nat -> forall i, (i < o * length xs)%nat -> nth i (stream o xs) [] = pmctl (nth (i / o) xs []).
Proof.
  intros Ho. unfold stream. induction xs as [|x xs IH]; intros i Hi; [cbn in Hi; lia|]. cbn [flat_map length] in *. destruct (lt_dec i o) as [H|H].
  - rewrite app_nth1 by (rewrite repeat_length; exact H). rewrite nth_repeat_lt by exact H. now rewrite Nat.div_small.
  - rewrite app_nth2; rewrite repeat_length; [|lia]. rewrite IH by nia. replace (i / o)%nat with (Datatypes.S ((i - o) / o)); [reflexivity|].
    replace i with ((i - o) + 1 * o)%nat at 2 by lia. rewrite Nat.div_add by lia. lia.
Qed.
Lemma nth_skipn' {A} (l : list A) t k d : nth k (skipn t l) d = nth (t + k) l d.
Proof. revert l. induction t; intros l; [reflexivity|]. destruct l; [destruct k; reflexivity|]. cbn. apply IHt. Qed.
Lemma nth_firstn' {A} (l : list A) n k d : (k < n)%nat -> nth k (firstn n l) d = nth k l d.
Proof. revert l k. induction n; intros l k H; [lia|]. destruct l; [reflexivity|]. destruct k; [reflexivity|]. cbn. apply IHn. lia. Qed.
Lemma decision_stream o xs M t K k m : (1 <= o)%nat -> Forall (fun x => length x = M) xs -> (t + K <= o * length xs)%nat -> (k < K)%nat -> (m < M)%nat ->
  fv (nth k (segment (stream o xs) t K) []) m = decision o xs (t + k) m.
Proof.
  intros Ho HF HL Hk Hm. unfold segment. rewrite nth_firstn' by exact Hk. rewrite nth_skipn', nth_stream by lia. unfold fv, pmctl, decision.
  assert (I : (( t + k) / o < length xs)%nat) by (apply Nat.div_lt_upper_bound; lia).
  rewrite (nth_map_lt _ _ m 0); [cbv beta; lra|]. rewrite Forall_forall in HF. rewrite (HF _ (nth_In _ _ I)). exact Hm.
Qed.
Lemma trajectory_ext S d T K s s' u x : (forall k m, (Datatypes.S k < K)%nat -> (m < sM S)%nat -> s k m = s' k m) -> trajectory S d T K s u x -> trajectory S d T K s' u x.
Proof.
  intros E H k Hk. destruct (H k Hk) as [D Q]. split; [|exact Q]. unfold driven in *. eapply sol_ext; [|exact D]. intros n t Hn Ht. cbv beta. f_equal. unfold ctl. apply rsum_ext. intros m Hm. now rewrite E.
Qed.

Lemma init_inv ivp expm S d cov b gamma K1 K2 iters Ts over c st0 : nuv_init ivp expm S d cov b gamma K1 K2 iters Ts over = Ok (c, st0) ->
  (1 <= K1)%Z /\ (0 <= K2)%Z /\ (1 <= over)%nat /\
  nS c = S /\ n_covU c = cov /\ n_bound c = b /\ n_gamma c = gamma /\ nK1 c = Z.to_nat K1 /\ nK2 c = Z.to_nat K2 /\ n_iter c = iters /\ n_over c = over /\
  nTs c = (match Ts with Some t => if Req_bool t 0 then ck_T (d_clk d) / INR over else t / INR over | None => ck_T (d_clk d) / INR over end) /\
  nuv_coefficients ivp expm S d cov (nTs c) = Ok (nAf c, nBf c, nVu c) /\
  st0 = mkN None (nK1 c) false (repeat (repeat 0 (sM S)) (nK3 c)) 0 (repeat 0 (sN S)) (scalem (10 ^ 12) (eye2 (K := Rring) (sN S) (sN S))) (repeat 1 (sNt S)) (repeat 1 (sNt S)) (repeat (repeat 0 (sL S)) (nK1 c)).
Proof.
  unfold nuv_init. destruct (Z.ltb_spec K1 1); [discriminate|]. destruct (Z.ltb_spec K2 0); [discriminate|]. destruct (Nat.eqb_spec over 0); [discriminate|].
  set (T := match Ts with Some t => _ | None => _ end). destruct (nuv_coefficients ivp expm S d cov T) as [[[Af Bf] Vu]|] eqn:E; [|discriminate]. cbn [bind]. intros Q. apply Ok_inj in Q. inversion Q; subst; clear Q. cbn.
  split; [lia|]. split; [lia|]. split; [lia|]. do 9 (split; [reflexivity|]). split; [exact E|]. reflexivity.
Qed.

Lemma fin_choice {A} (P : nat -> A -> Prop) (a0 : A) n : (forall i, (i <= n)%nat -> exists a, P i a) -> exists f, forall i, (i <= n)%nat -> P i (f i).
Proof.
  intros H. assert (G : forall J, (J <= Datatypes.S n)%nat -> exists f, forall i, (i < J)%nat -> P i (f i)).
  { induction J; intros HJ; [exists (fun _ => a0); intros; lia|]. destruct IHJ as [f Hf]; [lia|]. destruct (H J ltac:(lia)) as [a Ha].
    exists (fun i => if Nat.eqb i J then a else f i). intros i Hi. destruct (Nat.eqb_spec i J) as [->|]; [exact Ha|apply Hf; lia]. }
  destruct (G (Datatypes.S n) (Nat.le_refl _)) as [f Hf]. exists f. intros i Hi. apply Hf. lia.
Qed.
Lemma output_ext w x x' k r : (forall n, (n < w_N w)%nat -> x k n = x' k n) -> output w x k r = output w x' k r.
Proof. intros H. unfold output. apply rsum_ext. intros n Hn. now rewrite H. Qed.
Lemma fitted_ext w b gamma eps x x' s1 s2 : (forall k n, (k < w_K w)%nat -> (n < w_N w)%nat -> x k n = x' k n) -> fitted w b gamma eps x s1 s2 -> fitted w b gamma eps x' s1 s2.
Proof. intros H F k r Hk Hr. rewrite <- (output_ext w x x') by (intros; auto). now apply F. Qed.

Section Core.
Variables (c : nuv) (d : dc) (ivp : (R -> list R -> result (list R)) -> R -> R -> list R -> result (list R)) (expm : rmat -> R -> result rmat) (inv : rmat -> result rmat).
Notation S := (nS c).
Notation N := (sN S).
Notation T := (nTs c).
Notation cov := (n_covU c).
Hypothesis NS : nuv_sound S d ivp expm.

Hypothesis FI : fits S d.
Hypothesis HC : nuv_coefficients ivp expm S d cov T = Ok (nAf c, nBf c, nVu c).
Hypothesis HT : 0 <= T <= ck_T (d_clk d).
Lemma top_sizes : sizes c.
Proof.
  constructor.
  - apply FI.
  - destruct (Af_flow S d ivp expm NS cov T _ _ _ HT HC) as (A1 & A2 & _). auto.
  - destruct (decided S d ivp expm NS FI cov T _ _ _ HT HC) as (A1 & A2 & _). auto.
  - apply (Vu_dims S d ivp expm cov T _ _ _ HC).
  - apply (Vu_symm S d ivp expm NS FI cov T _ _ _ HT HC).
  - apply (Vu_psd S d ivp expm NS FI cov T _ _ _ HT HC).
Qed.
Hypothesis Hcov : cov <> 0.
Variables (K : nat) (buf : list rvec) (m : rvec) (V : rmat) (s : nat -> nat -> R).
Hypothesis HK : (0 < K)%nat.
Hypothesis Hs : forall k j, (k < K)%nat -> (j < sM S)%nat -> fv (nth k buf []) j = s k j.
Hypothesis VS : symm N (ent V).
Hypothesis VP : psd N (ent V).
Let w := win c K buf m V.
(** one pass *)
Lemma pass_cont v1 v2 x p : least_squares w (n_bound c) v1 v2 x p -> exists u x',
  least_energy S d T cov (n_bound c) (sampled_outputs S K (fv m) (ent V)) v1 v2 s u x' /\ (forall k n, (k < K)%nat -> (n < N)%nat -> x' k n 0 = x k n) /\
  (forall k l, (Datatypes.S k < K)%nat -> u k l T = - (cov ^ 2 * rsum N (fun n => ent (aB S) n l * p (Datatypes.S k) n))).
Proof.
  intros (Pos & St & _). set (s' := fun k => fv (nth k buf [])).
  assert (WP1 : forall k r, (k < w_K w)%nat -> (r < w_P w)%nat -> 0 < v1 k r) by (intros; now apply Pos). assert (WP2 : forall k r, (k < w_K w)%nat -> (r < w_P w)%nat -> 0 < v2 k r) by (intros; now apply Pos).
  destruct (adjoints S d ivp expm NS FI cov T _ _ _ HT HC w eq_refl HK p) as [lam HL].
  destruct (best_exists S d ivp expm NS FI cov T _ _ _ HT HC w s' eq_refl eq_refl (fun k => eq_refl) eq_refl HK x p (proj1 St) lam HL) as (x' & Tr & X).
  exists (fun k => adjoint_input S cov (lam k)), x'. split; [|split; [exact X|]].
  - exists (total w (n_bound c) v1 v2 x (fun k n => - p k n)). split; [|split; [|split]].
    + apply (trajectory_ext S d T K s' s); [|exact Tr]. intros k j Hk Hj. apply Hs; [lia|exact Hj].
    + exact (best_cost S d ivp expm NS FI cov T _ _ _ HT HC Hcov w (n_bound c) v1 v2 s' eq_refl eq_refl HK x p lam HL St x' Tr X).
    + intros k l t Hk Ht. apply (continuity_pt_scal (fun t => rsum N (fun n => ent (aB S) n l * lam k n t)) (cov ^ 2)). apply rsum_cont. intros n Hn. apply (proj1 (proj1 (HL k Hk))); auto.
    + intros u2 x2 I2 T2 C2. apply (trajectory_ext S d T K s s') in T2; [|intros k j Hk Hj; symmetry; apply Hs; [lia|exact Hj]].
      destruct (cont_least S d ivp expm NS FI cov T _ _ _ HT HC Hcov w (n_bound c) v1 v2 s' eq_refl eq_refl (fun k => eq_refl) eq_refl VS VP HK WP1 WP2 x p (proj1 St) lam HL St u2 x2 I2 T2 C2) as [Y1 Y2].
      split; [exact Y1|]. intros Le. destruct (Y2 Le) as [Y3 Y4]. split; [|exact Y4]. intros k n Hk Hn. rewrite Y3 by assumption. symmetry. now apply X.
  - intros k l Hk. rewrite (adjoint_end S cov T _ (lam k) l (HL k Hk)). unfold apT. rewrite <- Ropp_mult_distr_r_reverse. f_equal. rewrite <- rsum_opp. apply rsum_ext. intros; ring.
Qed.
(** all passes *)
Lemma passes_cont n t1 t2 v1 v2 x p : reweighted w (n_bound c) (n_gamma c) min_sigma n t1 t2 v1 v2 x p -> exists u x',
  nuv_passes S d T cov (n_bound c) (n_gamma c) min_sigma n (sampled_outputs S K (fv m) (ent V)) t1 t2 s v1 v2 u x' /\
  (forall n0, (n0 < N)%nat -> x' n O n0 0 = x n O n0) /\
  forall k l, (Datatypes.S k < K)%nat -> u n k l T = - (cov ^ 2 * rsum N (fun n0 => ent (aB S) n0 l * p n (Datatypes.S k) n0)).
Proof.
  intros [R0 RW].
  destruct (fin_choice (fun i (a : (nat -> nat -> R -> R) * (nat -> nat -> R -> R)) => least_energy S d T cov (n_bound c) (sampled_outputs S K (fv m) (ent V)) (v1 i) (v2 i) s (fst a) (snd a) /\
     (forall k n, (k < K)%nat -> (n < N)%nat -> snd a k n 0 = x i k n) /\ (forall k l, (Datatypes.S k < K)%nat -> fst a k l T = - (cov ^ 2 * rsum N (fun n => ent (aB S) n l * p i (Datatypes.S k) n)))) (fun _ _ _ => 0, fun _ _ _ => 0) n) as [f Hf].
  { intros i Hi. destruct (RW i Hi) as [L _]. destruct (pass_cont _ _ _ _ L) as (u & x' & P1 & P2 & P3). exists (u, x'). auto. }
  exists (fun i => fst (f i)), (fun i => snd (f i)). split; [split; [exact R0|]|].
  - intros i Hi. destruct (Hf i Hi) as (P1 & P2 & P3). destruct (RW i Hi) as [L Ft]. split; [intros k r Hk Hr; now apply (proj1 L)|]. split; [exact P1|]. intros Hi'. specialize (Ft Hi').
    apply (fitted_ext (sampled_outputs S K (fv m) (ent V)) _ _ _ (x i)); [|exact Ft]. intros k n0 Hk Hn. symmetry. now apply P2.
  - destruct (Hf n (Nat.le_refl _)) as (P1 & P2 & P3). split; [intros n0 Hn; now apply P2|exact P3].
Qed.
End Core.

(** *** The passes improve on each other *)
Lemma passes_improve S d T cov b gamma eps n w t1 t2 s v1 v2 u x : 0 < gamma -> 0 < eps -> nuv_passes S d T cov b gamma eps n w t1 t2 s v1 v2 u x ->
  forall i, (i < n)%nat ->
  (exists I I', penalised S T cov (huber_pen b gamma eps) w (u i) (x i) I /\ penalised S T cov (huber_pen b gamma eps) w (u (Datatypes.S i)) (x (Datatypes.S i)) I' /\ I' <= I) /\
  (exists I I', penalised S T cov (bounds_pen b gamma) w (u i) (x i) I /\ penalised S T cov (bounds_pen b gamma) w (u (Datatypes.S i)) (x (Datatypes.S i)) I' /\
     I' <= I + 2 * gamma ^ 2 * eps * INR (w_K w * w_P w)).
Proof.
  intros Hg He [_ HP] i Hi. destruct (HP i ltac:(lia)) as (_ & (I & Tr & (a0 & E & X0 & HE & EI) & _ & _) & Ft). specialize (Ft Hi).
  destruct (HP (Datatypes.S i) ltac:(lia)) as (_ & (I' & Tr' & (a1 & E' & X1 & HE' & EI') & _ & Mn) & _).
  set (y := fun k n => x i k n 0) in *. set (y' := fun k n => x (Datatypes.S i) k n 0) in *. set (z1 := v1 (Datatypes.S i)) in *. set (z2 := v2 (Datatypes.S i)) in *.
  destruct (Mn (u i) (x i) (quad (w_N w) (w_V w) a0 + rsum (w_K w - 1) (fun k => E k / cov ^ 2) + misfit w b z1 z2 y) Tr) as [Le _]; [exists a0, E; auto|]. rewrite EI' in Le.
  assert (B := fitted_pos w b gamma eps y z1 z2 Ft).
  assert (R1 := robust_le w b gamma eps Hg He z1 z2 y' (fun _ _ => 0) B). assert (R2 := robust_eq w b gamma eps Hg He z1 z2 y (fun _ _ => 0) Ft). unfold robust, total in R1, R2.
  assert (Hb : rsum (w_K w) (fun k => rsum (w_P w) (fun r => huber_pen b gamma eps (output w y' k r))) - rsum (w_K w) (fun k => rsum (w_P w) (fun r => huber_pen b gamma eps (output w y k r))) <= misfit w b z1 z2 y' - misfit w b z1 z2 y) by (unfold huber_pen; lra).
  split.
  - eexists _, _. split; [exists a0, E; split; [exact X0|split; [exact HE|reflexivity]]|]. split; [exists a1, E'; split; [exact X1|split; [exact HE'|reflexivity]]|]. fold y y'. lra.
  - eexists _, _. split; [exists a0, E; split; [exact X0|split; [exact HE|reflexivity]]|]. split; [exists a1, E'; split; [exact X1|split; [exact HE'|reflexivity]]|]. fold y y'.
    assert (A1 : rsum (w_K w) (fun k => rsum (w_P w) (fun r => bounds_pen b gamma (output w y' k r))) <= rsum (w_K w) (fun k => rsum (w_P w) (fun r => huber_pen b gamma eps (output w y' k r)))).
    { apply rsum_le. intros k Hk. apply rsum_le. intros r Hr. unfold bounds_pen, huber_pen. assert (Y1 := huber_bounds gamma eps (output w y' k r - b) Hg He). assert (Y2 := huber_bounds gamma eps (output w y' k r + b) Hg He). lra. }
    assert (A2 : rsum (w_K w) (fun k => rsum (w_P w) (fun r => huber_pen b gamma eps (output w y k r))) <= rsum (w_K w) (fun k => rsum (w_P w) (fun r => bounds_pen b gamma (output w y k r))) + 2 * gamma ^ 2 * eps * INR (w_K w * w_P w)).
    { replace (2 * gamma ^ 2 * eps * INR (w_K w * w_P w)) with (rsum (w_K w) (fun _ => rsum (w_P w) (fun _ => 2 * gamma ^ 2 * eps))).
      - rewrite <- rsum_add. apply rsum_le. intros k Hk. rewrite <- rsum_add. apply rsum_le. intros r Hr. unfold bounds_pen, huber_pen. assert (Y1 := huber_bounds gamma eps (output w y k r - b) Hg He). assert (Y2 := huber_bounds gamma eps (output w y k r + b) Hg He). lra.
      - assert (Cn : forall m a, rsum m (fun _ => a) = INR m * a). { induction m; intros a; [rewrite rsum_0; cbn; ring|]. rewrite rsum_S, IHm, S_INR. ring. } rewrite !Cn, mult_INR. ring. }
    lra.
Qed.

(** *** The whole run *)
Lemma start_at c xs e : (1 <= nK1 c)%nat -> forall st0, st0 = mkN None (nK1 c) false (repeat (repeat 0 (sM (nS c))) (nK3 c)) 0 (repeat 0 (sN (nS c))) (scalem (10 ^ 12) (eye2 (K := Rring) (sN (nS c)) (sN (nS c)))) (repeat 1 (sNt (nS c))) (repeat 1 (sNt (nS c))) (repeat (repeat 0 (sL (nS c))) (nK1 c)) ->
  at_batch c xs e 0 (set_iterator st0 (mkSrc (K := Rring) xs e)).
Proof.
  intros H1 st0 ->. unfold set_iterator. cbn [n_src n_ptr n_stop n_m0 n_V0 n_s1 n_s2 n_est n_buf n_cnt]. constructor; cbn [n_src n_ptr n_stop n_m0 n_V0 n_s1 n_s2 n_est n_buf n_cnt]; auto.
  - cbn [consumed]. destruct (n_over c); [reflexivity|]. now rewrite Nat.div_0_l by lia.
  - constructor; cbn [n_src n_ptr n_stop n_m0 n_V0 n_s1 n_s2 n_est n_buf n_cnt]; rewrite ?repeat_length; auto.
    + intros i j Hi Hj. cbn. rewrite (Nat.eqb_sym i j). reflexivity.
    + intros q. unfold quad. apply rsum_nonneg. intros i Hi. rewrite (rsum_ext _ _ (fun j => if Nat.eqb j i then 10 ^ 12 * q i else 0)).
      * rewrite Optimal.rsum_single by exact Hi. rewrite (Rmult_comm (10 ^ 12)), <- Rmult_assoc. apply Rmult_le_pos; [apply Rle_0_sqr|apply pow_le; lra].
      * intros j Hj. cbv [scalem mapm eye2 ent]. cbn [rmul r1 r0 Rring]. rewrite (Nat.eqb_sym i j). destruct (Nat.eqb_spec j i) as [->|]; cbn; ring.
    + split; [apply repeat_length|]. apply Forall_forall. intros x Hx. apply repeat_spec in Hx. lra.
    + split; [apply repeat_length|]. apply Forall_forall. intros x Hx. apply repeat_spec in Hx. lra.
Qed.

Lemma nuv_estimates S d ivp expm inv cov b gamma K1 K2 iters Ts over c st0 :
  nuv_sound S d ivp expm -> exact_inv (sNt S) inv -> fits S d -> symmetric_outputs S ->
  nuv_init ivp expm S d cov b gamma K1 K2 iters Ts over = Ok (c, st0) -> 0 <= nTs c <= ck_T (d_clk d) -> cov <> 0 -> (iters <> O -> gamma <> 0) ->
  forall xs e, Forall (fun x => length x = sM S) xs -> (nK1 c mod over = 0)%nat -> (nK2 c mod over = 0)%nat ->
  forall j, (j * nK1 c + nK3 c <= over * length xs)%nat ->
  let st := after_calls inv c st0 xs e (j * nK1 c) in let st' := after_calls inv c st0 xs e (Datatypes.S j * nK1 c) in
  exists v1 v2 u x est,
    nuv_passes S d (nTs c) cov b gamma min_sigma iters (sampled_outputs S (nK3 c) (fv (n_m0 st)) (ent (n_V0 st))) (first_var (n_s1 st)) (first_var (n_s2 st))
      (fun k => decision over xs (j * nK1 c + k)) v1 v2 u x /\
    (forall i n, (i < nK1 c)%nat -> (j * nK1 c + i < n)%nat -> nth_error (outcomes inv c st0 xs e n) (j * nK1 c + i) = Some (Ok (est i))) /\
    (forall i, (i < nK1 c)%nat -> length (est i) = sL S) /\
    (forall i l, (Datatypes.S i < nK1 c)%nat -> (l < sL S)%nat -> nth l (est (Datatypes.S i)) 0 = u iters i l (nTs c) / cov) /\
    (exists q, (forall n, (n < sN S)%nat -> x iters O n 0 = fv (n_m0 st) n - ap (sN S) (ent (n_V0 st)) q n) /\
       forall l, (l < sL S)%nat -> nth l (est O) 0 = - (cov * rsum (sN S) (fun n => ent (aB S) n l * q n))) /\
    (forall r, (r < sNt S)%nat -> fv (n_s1 st') r = v1 iters (nK1 c - 1)%nat r /\ fv (n_s2 st') r = v2 iters (nK1 c - 1)%nat r) /\
    carried S d (nTs c) cov b (sampled_outputs S (nK3 c) (fv (n_m0 st)) (ent (n_V0 st))) (v1 iters) (v2 iters) (fun k => decision over xs (j * nK1 c + k)) (nK1 c - 1) (fv (n_m0 st')) (ent (n_V0 st')) /\
    (nK1 c = 1%nat -> n_m0 st' = n_m0 st /\ n_V0 st' = n_V0 st).
Proof.
  intros NS EI FI HS HI HT Hcov Hg xs e HF D1 D2 j HL st st'.
  destruct (init_inv _ _ _ _ _ _ _ _ _ _ _ _ _ _ HI) as (P1 & P2 & P3 & ES & Ec & Eb & Eg & E1 & E2 & Ei & Eo & _ & HC & E0). subst S cov b gamma iters over.
  assert (Z := top_sizes c d ivp expm NS FI HC HT). assert (K1p : (1 <= nK1 c)%nat) by (rewrite E1; lia). assert (K3p : (nK1 c <= nK3 c)%nat) by (unfold nK3; lia).
  destruct (run inv c EI Z HS K1p Hg P3 xs HF e D1 D2 _ (start_at c xs e K1p st0 E0) j HL) as (A1 & A2 & (w1 & w2 & B & C1 & C2) & OU).
  fold (after_calls inv c st0 xs e (j * nK1 c)) in A1, B, C1, C2. fold (after_calls inv c st0 xs e (Datatypes.S j * nK1 c)) in A2, B, C1, C2, OU. fold st in A1, B. fold st' in A2, B, C1, C2, OU.
  destruct (ba_sol _ _ _ _ _ _ _ _ _ _ _ B) as (v1 & v2 & x & p & RW & V1 & V2 & Es & Le).
  assert (R := at_ready _ _ _ _ _ A1).
  destruct (passes_cont c d ivp expm NS FI HC HT Hcov (nK3 c) (segment (stream (n_over c) xs) (j * nK1 c) (nK3 c)) (n_m0 st) (n_V0 st) (fun k => decision (n_over c) xs (j * nK1 c + k)) ltac:(lia)
    (fun k m Hk Hm => decision_stream (n_over c) xs (sM (nS c)) (j * nK1 c) (nK3 c) k m P3 HF HL Hk Hm) (r_s _ _ R) (r_p _ _ R) (n_iter c) _ _ v1 v2 x p RW) as (u & x' & Q1 & Q2 & Q3).
  exists v1, v2, u, x', (fun i => nth i (n_est st') []). split; [exact Q1|]. split; [exact OU|]. split; [exact Le|]. split; [|split; [|split; [|split]]].
  - intros i l Hi Hl. change (nth l (nth (Datatypes.S i) (n_est st') []) 0) with (fv (nth (Datatypes.S i) (n_est st') []) l). rewrite Es by assumption. rewrite Q3 by lia. field. exact Hcov.
  - exists (p (n_iter c) O). split.
    + intros n Hn. rewrite Q2 by exact Hn. destruct (proj2 RW (n_iter c) (Nat.le_refl _)) as [(_ & St & _) _]. destruct St as [[X0 _] _]. cbn [win w_N w_m w_V] in X0. rewrite X0 by exact Hn. unfold ap.
      rewrite (rsum_ext (sN (nS c)) (fun j0 => ent (n_V0 st) n j0 * - p (n_iter c) O j0) (fun j0 => - (ent (n_V0 st) n j0 * p (n_iter c) O j0))) by (intros; ring). rewrite rsum_opp. ring.
    + intros l Hl. apply (Es O l); [lia|exact Hl].
  - intros r Hr. rewrite V1, V2, C1, C2. split; reflexivity.
  - rewrite V1, V2. assert (Gd : forall (z : list rvec), length z = nK3 c -> Forall (good c) z -> forall k r, (k < nK1 c - 1)%nat -> (r < sNt (nS c))%nat -> 0 < sig z k r).
    { intros z L G k r Hk Hr. unfold sig. assert (X : good c (nth k z [])) by (rewrite Forall_forall in G; apply G, nth_In; lia). apply fv_pos; [apply X|]. rewrite (proj1 X). exact Hr. }
    set (buf := segment (stream (n_over c) xs) (j * nK1 c) (nK3 c)) in *.
    assert (Cy : carried (nS c) d (nTs c) (n_covU c) (n_bound c) (win c (nK3 c) buf (n_m0 st) (n_V0 st)) (sig w1) (sig w2) (fun k => fv (nth k buf [])) (nK1 c - 1) (fv (n_m0 st')) (ent (n_V0 st'))).
    { apply (carried_of (nS c) d ivp expm NS FI (n_covU c) (nTs c) _ _ _ HT HC Hcov (win c (nK3 c) buf (n_m0 st) (n_V0 st)) (n_bound c) (sig w1) (sig w2) (fun k => fv (nth k buf [])) (nK1 c - 1) eq_refl eq_refl (fun k => eq_refl) eq_refl (r_s _ _ R) (r_p _ _ R)).
      - apply Gd; [apply (ba_l1 _ _ _ _ _ _ _ _ _ _ _ B)|apply (ba_g1 _ _ _ _ _ _ _ _ _ _ _ B)].
      - apply Gd; [apply (ba_l2 _ _ _ _ _ _ _ _ _ _ _ B)|apply (ba_g2 _ _ _ _ _ _ _ _ _ _ _ B)].
      - apply (ba_s _ _ _ _ _ _ _ _ _ _ _ B).
      - apply (ba_adj _ _ _ _ _ _ _ _ _ _ _ B). }
    assert (Ds : forall k m, (Datatypes.S k < Datatypes.S (nK1 c - 1))%nat -> (m < sM (nS c))%nat -> fv (nth k buf []) m = decision (n_over c) xs (j * nK1 c + k) m).
    { intros k m Hk Hm. apply (decision_stream (n_over c) xs (sM (nS c)) (j * nK1 c) (nK3 c) k m P3 HF HL); [lia|exact Hm]. }
    destruct Cy as (c0 & Y1 & Y2). exists c0. split.
    + intros q. destruct (Y1 q) as (u1 & x1 & T1 & X1 & R1). exists u1, x1. split; [|split; [exact X1|exact R1]]. eapply trajectory_ext; [|exact T1]. exact Ds.
    + intros u1 x1 I q T1 R1. apply (Y2 u1 x1 I q); [|exact R1]. eapply trajectory_ext; [|exact T1]. intros k m Hk Hm. symmetry. now apply Ds.
  - apply (ba_1 _ _ _ _ _ _ _ _ _ _ _ B).
Qed.
(** the start *)
Lemma nuv_start ivp expm inv S d cov b gamma K1 K2 iters Ts over c st0 xs e : nuv_init ivp expm S d cov b gamma K1 K2 iters Ts over = Ok (c, st0) ->
  let st := after_calls inv c st0 xs e 0 in
  (forall n, (n < sN S)%nat -> fv (n_m0 st) n = 0) /\ (forall i j, (i < sN S)%nat -> (j < sN S)%nat -> ent (n_V0 st) i j = if Nat.eqb i j then 10 ^ 12 else 0) /\
  forall r, (r < sNt S)%nat -> fv (n_s1 st) r = 1 /\ fv (n_s2 st) r = 1.
Proof.
  intros HI st. destruct (init_inv _ _ _ _ _ _ _ _ _ _ _ _ _ _ HI) as (P1 & P2 & P3 & ES & Ec & Eb & Eg & E1 & E2 & Ei & Eo & _ & HC & E0). unfold st, after_calls. cbn [calls snd]. rewrite E0. cbn [set_iterator n_m0 n_V0 n_s1 n_s2].
  split; [intros n Hn; unfold fv; now apply nth_repeat_lt|]. split.
  - intros i j Hi Hj. cbv [scalem mapm eye2 ent]. cbn [r1 r0 Rring]. destruct (Nat.eqb i j); [apply Rmult_1_r|apply Rmult_0_r].
  - intros r Hr. unfold fv. rewrite !nth_repeat_lt by exact Hr. auto.
Qed.
