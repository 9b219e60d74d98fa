(** Batches and the protocol of the NUV estimator. *)
From Coq Require Import List Arith Lia Bool Reals Lra ZArith.
From Flocq Require Import Core.
From Verif Require Import Base LinAlg FirExtras AnalogSystem AnalogProofs Signals DigitalControl Integrators IntegratorsProofs Simulator Stability LinearOde PreSim Zpk FilterCoeff
  FilterCoeffProofs FilterRun Estimators BatchProofs BatchRun Optimal NuvAlg NuvCost NuvArrival Nuv NuvProofs NuvPass NuvRun.
Import ListNotations.
Open Scope R_scope.

(** *** Specification *)
(** positive variances, a path that is stationary for them, cheaper than every other one *)
Definition least_squares (w : window) (b : R) (s1 s2 : nat -> nat -> R) (x p : nat -> nat -> R) : Prop :=
  (forall k r, (k < w_K w)%nat -> (r < w_P w)%nat -> 0 < s1 k r /\ 0 < s2 k r) /\ stationary w b s1 s2 x p /\
  forall x' a', path w x' a' -> total w b s1 s2 x (fun k n => - p k n) <= total w b s1 s2 x' a' /\
    (total w b s1 s2 x' a' <= total w b s1 s2 x (fun k n => - p k n) -> forall k n, (k < w_K w)%nat -> (n < w_N w)%nat -> x' k n = x k n).
(** iteratively reweighted least squares: n + 1 passes, the first one with the variances t1, t2, the others with those fitted to the path
    before *)
Definition reweighted (w : window) (b gamma eps : R) (n : nat) (t1 t2 : nat -> nat -> R) (v1 v2 x p : nat -> nat -> nat -> R) : Prop :=
  (forall k r, (k < w_K w)%nat -> (r < w_P w)%nat -> v1 O k r = t1 k r /\ v2 O k r = t2 k r) /\
  forall i, (i <= n)%nat -> least_squares w b (v1 i) (v2 i) (x i) (p i) /\ ((i < n)%nat -> fitted w b gamma eps (x i) (v1 (Datatypes.S i)) (v2 (Datatypes.S i))).
(** the variances at the start of a batch: the given one for the first sample, 1 for the others *)
Definition first_var (t : rvec) (k r : nat) : R := match k with O => fv t r | _ => 1 end.
(** the decisions +1/-1, every sample [o] times *)
Definition pmctl (x : rvec) : rvec := map (fun v => v + v - 1) x.
Definition stream (o : nat) (xs : list rvec) : list rvec := flat_map (fun x => repeat (pmctl x) o) xs.
(** samples t .. t + n - 1 *)
Definition segment (l : list rvec) (t n : nat) : list rvec := firstn n (skipn t l).

Lemma nth_map_lt {A B} (f : A -> B) l k d d' : (k < length l)%nat -> nth k (map f l) d' = f (nth k l d).
Proof. intros H. rewrite (nth_indep _ d' (f d)) by now rewrite map_length. apply map_nth. Qed.
Lemma mapM_total {A B} (f : A -> result B) (g : A -> B) (P : A -> Prop) : (forall x, P x -> f x = Ok (g x)) -> forall l, Forall P l -> mapM f l = Ok (map g l).
Proof. intros H. induction l as [|x l IH]; intros F; [reflexivity|]. inversion F; subst. cbn. rewrite H by assumption. cbn. now rewrite IH. Qed.
Lemma upd_firstn {A} : forall (l : list A) i v, (i < length l)%nat -> firstn (Datatypes.S i) (upd i v l) = firstn i l ++ [v].
Proof. induction l as [|x l IH]; intros [|i] v H; cbn [length] in H; try lia; [reflexivity|]. cbn [upd firstn]. rewrite <- app_comm_cons. f_equal. apply IH. lia. Qed.
Lemma stream_length o xs : length (stream o xs) = (o * length xs)%nat.
Proof. induction xs as [|x xs IH]; [cbn; lia|]. change (stream o (x :: xs)) with (repeat (pmctl x) o ++ stream o xs). rewrite app_length, repeat_length, IH. cbn [length]. lia. Qed.
Lemma stream_app o xs ys : stream o (xs ++ ys) = stream o xs ++ stream o ys.
Proof. apply flat_map_app. Qed.
Lemma stream_firstn o n xs : stream o (firstn n xs) = firstn (o * n) (stream o xs).
Proof.
  revert n. induction xs as [|x xs IH]; intros [|n]; cbn [firstn]; [now rewrite firstn_nil|now rewrite firstn_nil|rewrite Nat.mul_0_r; reflexivity|].
  change (x :: firstn n xs) with ([x] ++ firstn n xs). change (x :: xs) with ([x] ++ xs). rewrite !stream_app, IH.
  rewrite firstn_app. assert (L : length (stream o [x]) = o) by (rewrite stream_length; cbn; lia). rewrite L.
  rewrite (firstn_all2 (n := (o * Datatypes.S n)%nat)) by nia. f_equal. f_equal. nia.
Qed.
Lemma stream_skipn o n xs : stream o (skipn n xs) = skipn (o * n) (stream o xs).
Proof.
  revert n. induction xs as [|x xs IH]; intros [|n]; cbn [skipn]; [now rewrite skipn_nil|now rewrite skipn_nil|rewrite Nat.mul_0_r; reflexivity|].
  change (x :: xs) with ([x] ++ xs). rewrite stream_app, IH. rewrite skipn_app. assert (L : length (stream o [x]) = o) by (rewrite stream_length; cbn; lia). rewrite L.
  rewrite (skipn_all2 (n := (o * Datatypes.S n)%nat)) by nia. cbn [app]. f_equal. nia.
Qed.
Lemma stream_rows o xs M : Forall (fun x => length x = M) xs -> Forall (fun x => @length R x = M) (stream o xs).
Proof.
  intros H. apply Forall_forall. intros y Hy. apply in_flat_map in Hy as (x & Hx & Hy). apply repeat_spec in Hy. subst. rewrite Forall_forall in H.
  unfold pmctl. rewrite map_length. now apply H.
Qed.

Lemma In_firstn {A} n (x : A) l : In x (firstn n l) -> In x l.
Proof. intros H. rewrite <- (firstn_skipn n l). apply in_or_app. now left. Qed.
Lemma In_skipn {A} n (x : A) l : In x (skipn n l) -> In x l.
Proof. intros H. rewrite <- (firstn_skipn n l). apply in_or_app. now right. Qed.
Lemma firstn_add {A} a b (l : list A) : firstn (a + b) l = firstn a l ++ firstn b (skipn a l).
Proof. revert l. induction a; intros l; [reflexivity|]. destruct l; [now rewrite !firstn_nil|]. cbn. f_equal. apply IHa. Qed.

Lemma nth_repeat_lt {A} (a d : A) n k : (k < n)%nat -> nth k (repeat a n) d = a.
Proof. revert k. induction n; intros k H; [lia|]. destruct k; cbn; [reflexivity|]. apply IHn. lia. Qed.
Section P.
Variable inv : rmat -> result rmat.
Variable c : nuv.
Hypothesis EI : exact_inv (sNt (nS c)) inv.
Hypothesis Z : sizes c.
Let S := nS c.
Let N := sN S.
Let P := sNt S.
Hypothesis HS : symmetric_outputs S.
Hypothesis HP1 : (1 <= nK1 c)%nat.
Hypothesis Hg : n_iter c <> O -> n_gamma c <> 0.
Let K1 := nK1 c.
Let K2 := nK2 c.
Let K3 := nK3 c.
Let o := n_over c.
Hypothesis Ho : (1 <= o)%nat.

(** *** One batch *)
Record batch (buf : list rvec) (m : rvec) (V : rmat) (t1 t2 : rvec) (est : list rvec) (m' : rvec) (V' : rmat) (s1 s2 : list rvec) : Prop := mkBatch {
  ba_m : length m' = N; ba_r : rows V' = N; ba_c : cols V' = N; ba_s : symm N (ent V'); ba_p : psd N (ent V');
  ba_g1 : Forall (good c) s1; ba_g2 : Forall (good c) s2; ba_l1 : length s1 = K3; ba_l2 : length s2 = K3; ba_l : length est = K1;
  ba_1 : K1 = 1%nat -> m' = m /\ V' = V;
  ba_adj : forall q, exists x p, adj_path (win c K3 buf m V) (n_bound c) (sig s1) (sig s2) (K1 - 1) x p /\ (forall n, (n < N)%nat -> p (K1 - 1)%nat n = - q n) /\
     forall n, (n < N)%nat -> x (K1 - 1)%nat n = fv m' n + ap N (ent V') q n;
  ba_sol : exists v1 v2 x p, reweighted (win c K3 buf m V) (n_bound c) (n_gamma c) min_sigma (n_iter c) (first_var t1) (first_var t2) v1 v2 x p /\
     v1 (n_iter c) = sig s1 /\ v2 (n_iter c) = sig s2 /\
     (forall k l, (k < K1)%nat -> (l < sL S)%nat -> fv (nth k est []) l = - (n_covU c * rsum N (fun n => ent (aB S) n l * p (n_iter c) k n))) /\
     (forall k, (k < K1)%nat -> length (nth k est []) = sL S) }.

Lemma estimate_total x : length x = N -> estimate c x = Ok (map (fun l => - (n_covU c * rsum N (fun n => ent (aB S) n l * fv x n))) (seq 0 (sL S))).
Proof.
  intros Lx. assert (RB : rows (aB S) = N) by apply Z. unfold estimate. fold S. rewrite dotv_R by (cbn; congruence). cbn [bind]. rewrite map_map. cbn [tr rows cols ent]. f_equal.
  apply map_ext. intros l. rewrite RB. reflexivity.
Qed.
Lemma good_ones : good c (repeat 1 (sNt S)).
Proof. split; [apply repeat_length|]. apply Forall_forall. intros x Hx. apply repeat_spec in Hx. lra. Qed.
Lemma facts_least_squares K buf s1 s2 m V l xs : (0 < K)%nat -> facts c K buf s1 s2 m V l xs -> fit_state c buf s1 s2 m V -> length buf = K ->
  least_squares (win c K buf m V) (n_bound c) (sig s1) (sig s2) (pass_x c l xs) (pass_p xs).
Proof.
  intros HK F FS LB. assert (St := facts_stationary c K buf s1 s2 m V l xs HK F).
  assert (Q : forall s : list rvec, length s = K -> Forall (good c) s -> forall k r, (k < K)%nat -> (r < P)%nat -> 0 < sig s k r).
  { intros s L G k r Hk Hr. unfold sig. assert (X : good c (nth k s [])) by (rewrite Forall_forall in G; apply G, nth_In; lia). apply fv_pos; [apply X|]. rewrite (proj1 X). exact Hr. }
  destruct FS as [H1 H2 H3 H4 H5 H6 H7 H8 H9 H10].
  assert (Q1 := Q s1 ltac:(congruence) H3). assert (Q2 := Q s2 ltac:(congruence) H4).
  split; [intros k r Hk Hr; split; [now apply Q1|now apply Q2]|]. split; [exact St|]. intros x' a' Pa. split.
  - apply (minimal (win c K buf m V) (n_bound c) (sig s1) (sig s2)); auto; try apply Z.
  - intros Le. apply (unique_min (win c K buf m V) (n_bound c) (sig s1) (sig s2)) with (a' := a') (p := pass_p xs); auto; try apply Z.
Qed.

(** between batches *)
Record ready (st : nst) : Prop := mkReady { r_buf : length (n_buf st) = K3; r_m : length (n_m0 st) = N; r_r : rows (n_V0 st) = N; r_c : cols (n_V0 st) = N;
  r_s : symm N (ent (n_V0 st)); r_p : psd N (ent (n_V0 st)); r_1 : good c (n_s1 st); r_2 : good c (n_s2 st) }.

Lemma compute_total st : ready st -> n_cnt st = K3 -> Forall (fun s => length s = sM S) (n_buf st) ->
  exists est m' V' s1 s2 buf', batch (n_buf st) (n_m0 st) (n_V0 st) (n_s1 st) (n_s2 st) est m' V' s1 s2 /\ length buf' = K3 /\ firstn K2 buf' = skipn K1 (n_buf st) /\
  compute_batch inv c st = Ok (mkN (n_src st) (n_ptr st) (n_stop st) buf' K2 m' V' (nth (K1 - 1) s1 []) (nth (K1 - 1) s2 []) est).
Proof.
  intros [H1 H2 H3 H4 H5 H6 H7 H8] HC HB. unfold compute_batch. fold K3. rewrite HC, Nat.ltb_irrefl. fold S.
  assert (K3p : (1 <= K3)%nat) by (unfold K3, nK3; lia). assert (K13 : (K1 <= K3)%nat) by (unfold K1, K3, nK3; lia). assert (K1p : (1 <= K1)%nat) by exact HP1.
  assert (LO : length (repeat (repeat 1 (sNt S)) (K3 - 1)) = (K3 - 1)%nat) by apply repeat_length.
  assert (GO : Forall (good c) (repeat (repeat 1 (sNt S)) (K3 - 1))) by (apply Forall_forall; intros x Hx; apply repeat_spec in Hx; subst; apply good_ones).
  set (ones := repeat (repeat 1 (sNt S)) (K3 - 1)) in *.
  assert (FS : fit_state c (n_buf st) (n_s1 st :: ones) (n_s2 st :: ones) (n_m0 st) (n_V0 st)).
  { constructor; auto; cbn [length]; lia. }
  destruct (iterate_chain inv c EI Z HS (n_iter c) (n_m0 st) (n_V0 st) (n_buf st) _ _ FS Hg) as (I1 & I2 & IC).
  destruct (IC (n_iter c) (Nat.le_refl _)) as (E & F & FS' & _). rewrite E. cbn [bind]. set (r := fun i => iterate inv c i (n_m0 st) (n_V0 st) (n_buf st) (n_s1 st :: ones) (n_s2 st :: ones)) in *. cbv beta in IC. fold (r O) in I1, I2. fold (r (n_iter c)) in F, FS' |- *.
  set (l := it_l (r (n_iter c))) in *. set (xs := it_x (r (n_iter c))) in *. set (s1 := it_1 (r (n_iter c))) in *. set (s2 := it_2 (r (n_iter c))) in *.
  rewrite H1 in F. assert (Ll := f_l _ _ _ _ _ _ _ _ _ F). assert (Lx := f_xs _ _ _ _ _ _ _ _ _ F).
  assert (LX : Forall (fun x => length x = N) (firstn K1 xs)).
  { apply Forall_forall. intros x Hx. apply In_nth with (d := []) in Hx as (k & Hk & <-). rewrite firstn_length in Hk.
    assert (Y : nth k (firstn K1 xs) [] = nth k xs []). { rewrite <- (firstn_skipn K1 xs) at 2. rewrite app_nth1 by (rewrite firstn_length; lia). reflexivity. }
    rewrite Y. destruct (f_k _ _ _ _ _ _ _ _ _ F k ltac:(lia)) as (_ & _ & _ & _ & _ & X). exact X. }
  fold K1. replace (mapM (estimate c) (firstn K1 xs)) with (Ok (map (fun x : rvec => map (fun l : nat => - (n_covU c * rsum N (fun n : nat => ent (aB S) n l * fv x n))) (seq 0 (sL S))) (firstn K1 xs))) by (symmetry; exact (mapM_total _ _ (fun x => length x = N) estimate_total _ LX)). cbn [bind].
  assert (EN : nth_error l (K1 - 1) = Some (nth (K1 - 1) l dnode)) by (apply nth_error_nth'; lia). rewrite EN.
  destruct (f_k _ _ _ _ _ _ _ _ _ F (K1 - 1)%nat ltac:(lia)) as (A1 & A2 & A3 & A4 & A5 & _).
  eexists _, _, _, s1, s2, (roll K1 (n_buf st)). split; [|split; [|split; [|replace (K3 - K1)%nat with K2 by (unfold K3, nK3, K1, K2; lia); reflexivity]]].
  - destruct FS' as [L1 L2 G1 G2 _ _ _ _ _ _]. constructor; auto; try congruence.
    + rewrite map_length, firstn_length. lia.
    + intros E1. rewrite E1. apply (f_0 _ _ _ _ _ _ _ _ _ F). lia.
    + intros q. apply (f_a _ _ _ _ _ _ _ _ _ F). lia.
    + exists (fun i => sig (it_1 (r i))), (fun i => sig (it_2 (r i))), (fun i => pass_x c (it_l (r i)) (it_x (r i))), (fun i => pass_p (it_x (r i))). split.
      * split.
        -- intros k rr Hk Hr. cbn [win w_K w_P] in Hk, Hr. rewrite I1, I2. destruct k; [split; reflexivity|]. unfold sig, first_var. cbn [nth]. unfold ones. rewrite nth_repeat_lt by lia.
           unfold fv. rewrite nth_repeat_lt by exact Hr. split; reflexivity.
        -- intros i Hi. destruct (IC i Hi) as (_ & Fi & FSi & Fti). rewrite H1 in Fi, Fti. split; [|exact Fti]. apply facts_least_squares; [lia|exact Fi|exact FSi|exact H1].
      * split; [reflexivity|]. split; [reflexivity|]. assert (X : forall k, (k < K1)%nat -> nth k (map (fun x : list R => map (fun l0 : nat => - (n_covU c * rsum N (fun n : nat => ent (aB S) n l0 * fv x n))) (seq 0 (sL S))) (firstn K1 xs)) [] =
            map (fun l0 : nat => - (n_covU c * rsum N (fun n : nat => ent (aB S) n l0 * fv (nth k xs []) n))) (seq 0 (sL S))).
        { intros k Hk. rewrite (nth_map_lt _ _ k []) by (rewrite firstn_length; lia). cbv beta.
          replace (nth k (firstn K1 xs) []) with (nth k xs []); [reflexivity|]. rewrite <- (firstn_skipn K1 xs) at 1. rewrite app_nth1 by (rewrite firstn_length; lia). reflexivity. }
        split; [|intros k Hk; rewrite X by exact Hk; now rewrite map_length, seq_length].
        intros k l0 Hk Hl. rewrite X by exact Hk. unfold fv at 1. rewrite (nth_map_lt _ _ l0 O) by now rewrite seq_length. rewrite seq_nth by exact Hl. reflexivity.
  - unfold roll. rewrite app_length, skipn_length, firstn_length. assert (K1 mod length (n_buf st) < length (n_buf st))%nat by (apply Nat.mod_upper_bound; lia). lia.
  - unfold roll. rewrite H1. destruct (Nat.eq_dec K2 0) as [E2|E2].
    + rewrite E2. symmetry. apply skipn_all2. unfold K2, K3, nK3, K1 in *. lia.
    + rewrite Nat.mod_small by (unfold K1, K2, K3, nK3 in *; lia). rewrite firstn_app, skipn_length. rewrite H1.
      rewrite (firstn_all2 (n := K2)) by (rewrite skipn_length; unfold K1, K2, K3, nK3 in *; lia).
      replace (K2 - (K3 - K1))%nat with O by (unfold K1, K2, K3, nK3; lia). apply app_nil_r.
Qed.

(** *** Reading *)
Lemma n_input_ok st s : (n_cnt st < K3)%nat -> length s = sM S ->
  n_input c st s = Ok (Nat.ltb (K3 - 1) (Datatypes.S (n_cnt st)),
     mkN (n_src st) (n_ptr st) (n_stop st) (upd (n_cnt st) (pmctl s) (n_buf st)) (Datatypes.S (n_cnt st)) (n_m0 st) (n_V0 st) (n_s1 st) (n_s2 st) (n_est st)).
Proof.
  intros Hc Hs. unfold n_input. fold K3 S. destruct (Nat.eqb_spec (n_cnt st) K3); [lia|]. assert (E0 : pm1 (K := Rring) s = pmctl s) by exact (pm1_ctl (K := Rring) s). rewrite E0.
  destruct (Nat.eqb_spec (sM S) 0) as [E|E].
  - cbn [bind]. replace (pmctl s) with (@nil R); [reflexivity|]. destruct s; [reflexivity|cbn in Hs; congruence].
  - rewrite row_ok; [reflexivity|]. unfold pmctl. now rewrite map_length.
Qed.
Lemma n_copies_ok : forall k full st s, (n_cnt st + k <= K3)%nat -> length s = sM S -> length (n_buf st) = K3 ->
  exists buf', length buf' = K3 /\ firstn (n_cnt st + k) buf' = firstn (n_cnt st) (n_buf st) ++ repeat (pmctl s) k /\
  n_copies c k full st s = (Ok (match k with O => full | _ => Nat.ltb (K3 - 1) (n_cnt st + k) end),
     mkN (n_src st) (n_ptr st) (n_stop st) buf' (n_cnt st + k) (n_m0 st) (n_V0 st) (n_s1 st) (n_s2 st) (n_est st)).
Proof.
  induction k; intros full st s Hc Hs LB.
  - exists (n_buf st). rewrite Nat.add_0_r. cbn [repeat n_copies]. rewrite app_nil_r. destruct st; auto.
  - cbn [n_copies]. rewrite n_input_ok by (assumption || lia). 
    set (st1 := mkN _ _ _ _ _ _ _ _ _ _). set (f1 := Nat.ltb _ (Datatypes.S (n_cnt st))).
    destruct (IHk f1 st1 s) as (buf' & L' & F' & E'); [unfold st1; cbn [n_cnt]; lia|exact Hs|unfold st1; cbn [n_buf]; rewrite upd_length; exact LB|]. unfold f1, st1 in *. clear f1 st1.
    rewrite E'. cbn [n_cnt n_src n_ptr n_stop n_m0 n_V0 n_s1 n_s2 n_est n_buf] in *. exists buf'. split; [exact L'|]. split.
    + replace (n_cnt st + Datatypes.S k)%nat with (Datatypes.S (n_cnt st) + k)%nat by lia. rewrite F'. rewrite upd_firstn by lia. rewrite <- app_assoc. reflexivity.
    + replace (Datatypes.S (n_cnt st) + k)%nat with (n_cnt st + Datatypes.S k)%nat by lia. f_equal. f_equal. destruct k; [|reflexivity]. now rewrite Nat.add_1_r.
Qed.
Lemma n_fill_ok : forall xs rest e fuel st, xs <> [] -> Forall (fun x => length x = sM S) xs -> length (n_buf st) = K3 -> (n_cnt st + o * length xs = K3)%nat -> (length xs <= fuel)%nat ->
  n_fill c fuel st (mkSrc (xs ++ rest) e) =
  (Ok tt, mkN (Some (mkSrc rest e)) (n_ptr st) (n_stop st) (firstn (n_cnt st) (n_buf st) ++ stream o xs) K3 (n_m0 st) (n_V0 st) (n_s1 st) (n_s2 st) (n_est st)).
Proof.
  induction xs as [|x xs IH]; intros rest e fuel st Hx HF LB HC Hf; [contradiction|]. clear Hx. inversion HF as [|? ? Hx HF']; subst. cbn [length] in HC, Hf.
  destruct fuel as [|fuel]; [lia|]. cbn [n_fill]. unfold src_next. cbn [s_items s_end app].
  edestruct (n_copies_ok o false (mkN (Some (mkSrc (xs ++ rest) e)) (n_ptr st) (n_stop st) (n_buf st) (n_cnt st) (n_m0 st) (n_V0 st) (n_s1 st) (n_s2 st) (n_est st)) x) as (buf' & L' & F' & E'); cbn [n_cnt n_buf]; [nia|exact Hx|exact LB|].
  fold o. rewrite E'. cbn [n_cnt n_src n_ptr n_stop n_m0 n_V0 n_s1 n_s2 n_est n_buf] in *. destruct o as [|o'] eqn:Eo; [lia|]. rewrite <- Eo in *. clear E'.
  destruct xs as [|x2 xs].
  - cbn [length] in HC. replace (n_cnt st + o)%nat with K3 in * by lia. destruct (Nat.ltb_spec (K3 - 1) K3); [|lia]. f_equal. f_equal.
    rewrite firstn_all2 in F' by lia. rewrite F'. unfold stream. cbn [flat_map]. now rewrite app_nil_r.
  - destruct (Nat.ltb_spec (K3 - 1) (n_cnt st + o)); [cbn [length] in HC; nia|].
    rewrite (IH rest e fuel); cbn [n_cnt n_src n_ptr n_stop n_m0 n_V0 n_s1 n_s2 n_est n_buf]; [|discriminate|exact HF'|exact L'|cbn [length] in *; nia|cbn [length] in *; lia].
    f_equal. f_equal. rewrite F'. change (x :: x2 :: xs) with ([x] ++ x2 :: xs). rewrite stream_app. unfold stream at 2. cbn [flat_map]. now rewrite app_nil_r, app_assoc.
Qed.

(** *** The run *)
Variable xs : list rvec.
Hypothesis Hxs : Forall (fun x => length x = sM S) xs.
Variable e : @src_end.
Hypothesis D1 : (K1 mod o = 0)%nat.
Hypothesis D2 : (K2 mod o = 0)%nat.
Definition consumed (j : nat) : nat := match j with O => O | _ => (j * K1 + K2)%nat end.
Record at_batch (j : nat) (st : nst) : Prop := mkAt {
  at_src : n_src st = Some (mkSrc (K := Rring) (skipn (consumed j / o) xs) e); at_ptr : n_ptr st = K1; at_stop : n_stop st = false;
  at_cnt : n_cnt st = (consumed j - j * K1)%nat; at_buf : firstn (n_cnt st) (n_buf st) = segment (stream o xs) (j * K1) (n_cnt st); at_ready : ready st }.
Lemma o_div a : (a mod o = 0)%nat -> (o * (a / o) = a)%nat.
Proof. intros H. rewrite (Nat.div_mod a o) at 2 by lia. lia. Qed.
Lemma consumed_mod j : (consumed j mod o = 0)%nat.
Proof.
  unfold consumed. destruct j; [apply Nat.mod_0_l; lia|]. rewrite Nat.add_mod by lia. rewrite (Nat.mul_mod (Datatypes.S j) K1) by lia. rewrite D1, D2, Nat.mul_0_r, Nat.mod_0_l by lia. apply Nat.mod_0_l. lia.
Qed.
(** the state after the first call of a batch *)
Lemma first_call j st : at_batch j st -> (j * K1 + K3 <= o * length xs)%nat ->
  exists est m' V' s1 s2 buf', batch (segment (stream o xs) (j * K1) K3) (n_m0 st) (n_V0 st) (n_s1 st) (n_s2 st) est m' V' s1 s2 /\ length buf' = K3 /\ firstn K2 buf' = segment (stream o xs) (Datatypes.S j * K1) K2 /\ n_next inv c st = (Ok (nth 0 est []), mkN (Some (mkSrc (K := Rring) (skipn (consumed (Datatypes.S j) / o) xs) e)) 1 false buf' K2 m' V' (nth (K1 - 1) s1 []) (nth (K1 - 1) s2 []) est).
Proof.
  intros [A1 A2 A3 A4 A5 A6] HL. assert (K1p : (1 <= K1)%nat) by exact HP1. assert (K3e : K3 = (K1 + K2)%nat) by reflexivity.
  set (n0 := ((consumed (Datatypes.S j) - consumed j) / o)%nat).
  assert (M1 := o_div _ (consumed_mod j)). assert (M2 := o_div _ (consumed_mod (Datatypes.S j))).
  assert (Hle : (consumed j <= consumed (Datatypes.S j))%nat) by (unfold consumed; destruct j; nia).
  assert (En : (o * n0 = consumed (Datatypes.S j) - consumed j)%nat).
  { apply o_div. rewrite <- M1, <- M2, <- Nat.mul_sub_distr_l. rewrite Nat.mul_comm. apply Nat.mod_mul. lia. }
  assert (Eq : (consumed (Datatypes.S j) / o = consumed j / o + n0)%nat) by nia.
  assert (CS : consumed (Datatypes.S j) = (j * K1 + K3)%nat) by (unfold consumed; nia).
  assert (Hc : (n_cnt st + o * n0 = K3)%nat) by (rewrite A4, En, CS; unfold consumed in *; destruct j; nia).
  assert (Hn0 : n0 <> O). { intros E0. rewrite E0 in En. unfold consumed in En, Hle. destruct j; nia. }
  set (ys := firstn n0 (skipn (consumed j / o) xs)).
  assert (Ly : length ys = n0). { unfold ys. rewrite firstn_length, skipn_length. nia. }
  assert (Sy : skipn (consumed j / o) xs = ys ++ skipn (consumed (Datatypes.S j) / o) xs).
  { rewrite Eq. unfold ys. rewrite <- (firstn_skipn n0 (skipn (consumed j / o) xs)) at 1. now rewrite skipn_skipn. }
  assert (Hys : Forall (fun x => length x = sM S) ys).
  { unfold ys. apply Forall_forall. intros x Hx. rewrite Forall_forall in Hxs. apply Hxs. apply (In_skipn (consumed j / o)). now apply (In_firstn n0). }
  assert (Sg : segment (stream o xs) (j * K1) K3 = firstn (n_cnt st) (n_buf st) ++ stream o ys).
  { rewrite A5. unfold ys. rewrite stream_firstn, stream_skipn, M1, En. unfold segment.
    replace K3 with (n_cnt st + (consumed (Datatypes.S j) - consumed j))%nat by (rewrite <- En; exact Hc).
    replace (consumed j) with (j * K1 + n_cnt st)%nat at 3 by (rewrite A4; unfold consumed; destruct j; nia).
    rewrite <- skipn_skipn. apply firstn_add. }
  destruct A6 as [R1 R2 R3 R4 R5 R6 R7 R8].
  unfold n_next. cbn [n_next_fuel]. rewrite A1, A2. fold K1. rewrite Nat.ltb_irrefl, A3, Sy. fold K3.
  rewrite n_fill_ok; [|intros E0; rewrite E0 in Ly; cbn in Ly; lia|exact Hys|exact R1|change (n_cnt st + o * @length rvec ys = K3)%nat; rewrite Ly; exact Hc|change (@length rvec ys <= Datatypes.S K3)%nat; rewrite Ly; nia]. rewrite <- Sg.
  set (st1 := mkN _ _ _ _ _ _ _ _ _ _).
  assert (LS : length (segment (stream o xs) (j * K1) K3) = K3) by (unfold segment; rewrite firstn_length, skipn_length, stream_length; nia).
  destruct (compute_total st1) as (est & m' & V' & s1 & s2 & buf' & B & L' & F' & E').
  { constructor; auto. } { reflexivity. }
  { cbn [st1 n_buf]. apply Forall_forall. intros x Hx. assert (X := stream_rows o xs (sM S) Hxs). rewrite Forall_forall in X. apply X. apply In_firstn, In_skipn in Hx. exact Hx. }
  rewrite E'. cbn [st1 n_src n_ptr n_stop n_m0 n_V0 n_s1 n_s2 n_est n_buf n_cnt] in *. rewrite A2. fold K1. rewrite Nat.sub_diag. cbn [n_next_fuel n_src n_ptr n_est].
  exists est, m', V', s1, s2, buf'. split; [exact B|]. split; [exact L'|]. split.
  - rewrite F'. unfold segment. rewrite skipn_firstn_comm, skipn_skipn. f_equal; [lia|]. f_equal. lia.
  - destruct (Nat.ltb_spec 0 K1); [rewrite A3; reflexivity|lia].
Qed.
Lemma next_calls : forall n st src, n_src st = Some src -> (n_ptr st + n = K1)%nat ->
  calls (n_next inv c) n st = (map (fun i => Ok (nth i (n_est st) [])) (seq (n_ptr st) n),
    mkN (n_src st) K1 (n_stop st) (n_buf st) (n_cnt st) (n_m0 st) (n_V0 st) (n_s1 st) (n_s2 st) (n_est st)).
Proof.
  induction n; intros st src Hs Hp.
  - cbn. rewrite Nat.add_0_r in Hp. rewrite <- Hp. now destruct st.
  - cbn [calls]. unfold n_next at 1. cbn [n_next_fuel]. rewrite Hs. destruct (Nat.ltb_spec (n_ptr st) (nK1 c)); [|unfold K1 in Hp; lia].
    set (st1 := mkN _ _ _ _ _ _ _ _ _ _). rewrite (IHn st1 src); [|reflexivity|cbn [st1 n_ptr]; lia]. cbn [st1 n_src n_ptr n_stop n_m0 n_V0 n_s1 n_s2 n_est n_buf n_cnt]. cbn [seq map]. reflexivity.
Qed.
Lemma batch_calls j st : at_batch j st -> (j * K1 + K3 <= o * length xs)%nat ->
  exists st' s1 s2, calls (n_next inv c) K1 st = (map (fun i => Ok (nth i (n_est st') [])) (seq 0 K1), st') /\ at_batch (Datatypes.S j) st' /\ batch (segment (stream o xs) (j * K1) K3) (n_m0 st) (n_V0 st) (n_s1 st) (n_s2 st) (n_est st') (n_m0 st') (n_V0 st') s1 s2 /\ n_s1 st' = nth (K1 - 1) s1 [] /\ n_s2 st' = nth (K1 - 1) s2 [].
Proof.
  intros HA HL. assert (K1p : (1 <= K1)%nat) by exact HP1. destruct (first_call j st HA HL) as (est & m' & V' & s1 & s2 & buf' & B & LB & FB & E).
  set (st1 := mkN _ _ _ _ _ _ _ _ _ _) in E.
  assert (EK : exists k1, K1 = Datatypes.S k1) by (exists (K1 - 1)%nat; lia). destruct EK as [k1 EK]. assert (C : calls (n_next inv c) K1 st = (Ok (nth 0 est []) :: fst (calls (n_next inv c) k1 st1), snd (calls (n_next inv c) k1 st1))).
  { replace (calls (n_next inv c) K1 st) with (calls (n_next inv c) (Datatypes.S k1) st) by now rewrite EK. cbn [calls]. rewrite E. now destruct (calls (n_next inv c) k1 st1). }
  rewrite (next_calls k1 st1 (mkSrc (K := Rring) (skipn (consumed (Datatypes.S j) / o) xs) e)) in C; [|reflexivity|cbn [st1 n_ptr]; lia]. cbn [st1 fst snd n_src n_ptr n_stop n_m0 n_V0 n_s1 n_s2 n_est n_buf n_cnt] in C.
  eexists _, s1, s2. split; [rewrite C; f_equal; rewrite EK; reflexivity|]. cbn [n_src n_ptr n_stop n_m0 n_V0 n_s1 n_s2 n_est n_buf n_cnt].
  assert (CS : (consumed (Datatypes.S j) - Datatypes.S j * K1 = K2)%nat) by (unfold consumed; lia).
  destruct B as [B1 B2 B3 B4 B5 B6 B7 B8 B9 B10 B11].
  split; [|split; [now constructor|split; reflexivity]]. constructor; cbn [n_src n_ptr n_stop n_m0 n_V0 n_s1 n_s2 n_est n_buf n_cnt]; auto.
  constructor; cbn [n_src n_ptr n_stop n_m0 n_V0 n_s1 n_s2 n_est n_buf n_cnt]; auto.
  - rewrite Forall_forall in B6. apply B6, nth_In. rewrite B8. unfold K3, nK3, K1 in *. lia.
  - rewrite Forall_forall in B7. apply B7, nth_In. rewrite B9. unfold K3, nK3, K1 in *. lia.
Qed.
Lemma calls_add {A B} (next : A -> B * A) : forall a b st, calls next (a + b) st = (fst (calls next a st) ++ fst (calls next b (snd (calls next a st))), snd (calls next b (snd (calls next a st)))).
Proof.
  induction a; intros b st; cbn [Nat.add calls fst snd app]; [now destruct (calls next b st)|]. destruct (next st) as [r st1]. rewrite IHa. destruct (calls next a st1) as [rs st2]. cbn [fst snd]. destruct (calls next b st2). reflexivity.
Qed.
Lemma calls_length {A B} (next : A -> B * A) : forall n st, length (fst (calls next n st)) = n.
Proof. induction n; intros st; [reflexivity|]. cbn [calls]. destruct (next st) as [r st1]. specialize (IHn st1). destruct (calls next n st1). cbn [fst length] in *. now rewrite IHn. Qed.
(** the whole run *)
Lemma run (st0 : nst) : at_batch 0 st0 -> forall j, (j * K1 + K3 <= o * length xs)%nat ->
  let st := snd (calls (n_next inv c) (j * K1) st0) in let st' := snd (calls (n_next inv c) (Datatypes.S j * K1) st0) in
  at_batch j st /\ at_batch (Datatypes.S j) st' /\
  (exists v1 v2, batch (segment (stream o xs) (j * K1) K3) (n_m0 st) (n_V0 st) (n_s1 st) (n_s2 st) (n_est st') (n_m0 st') (n_V0 st') v1 v2 /\ n_s1 st' = nth (K1 - 1) v1 [] /\ n_s2 st' = nth (K1 - 1) v2 []) /\
  forall i n, (i < K1)%nat -> (j * K1 + i < n)%nat -> nth_error (fst (calls (n_next inv c) n st0)) (j * K1 + i) = Some (Ok (nth i (n_est st') [])).
Proof.
  intros H0. set (sj := fun j => snd (calls (n_next inv c) (j * K1) st0)).
  assert (X : forall j, (j = O \/ ((j - 1) * K1 + K3 <= o * length xs)%nat) -> at_batch j (sj j)).
  { induction j; intros Hj; [exact H0|]. destruct Hj as [Hj|Hj]; [discriminate|]. cbn [Nat.sub] in Hj. rewrite Nat.sub_0_r in Hj.
    destruct (batch_calls j (sj j)) as (st' & s1 & s2 & E & A & _); [apply IHj; destruct j; [now left|right; cbn [Nat.sub]; nia]|exact Hj|].
    replace (sj (Datatypes.S j)) with st'; [exact A|]. unfold sj. replace (Datatypes.S j * K1)%nat with (j * K1 + K1)%nat by lia. rewrite calls_add. cbn [snd]. fold (sj j). rewrite E. reflexivity. }
  assert (Y : forall j, (j * K1 + K3 <= o * length xs)%nat -> exists s1 s2, fst (calls (n_next inv c) K1 (sj j)) = map (fun i => Ok (nth i (n_est (sj (Datatypes.S j))) [])) (seq 0 K1) /\ at_batch (Datatypes.S j) (sj (Datatypes.S j)) /\
     batch (segment (stream o xs) (j * K1) K3) (n_m0 (sj j)) (n_V0 (sj j)) (n_s1 (sj j)) (n_s2 (sj j)) (n_est (sj (Datatypes.S j))) (n_m0 (sj (Datatypes.S j))) (n_V0 (sj (Datatypes.S j))) s1 s2 /\
     n_s1 (sj (Datatypes.S j)) = nth (K1 - 1) s1 [] /\ n_s2 (sj (Datatypes.S j)) = nth (K1 - 1) s2 []).
  { intros j Hj. destruct (batch_calls j (sj j)) as (st' & s1 & s2 & E & A & B & S1 & S2); [apply X; destruct j; [now left|right; cbn [Nat.sub]; nia]|exact Hj|].
    assert (Q : sj (Datatypes.S j) = st'). { unfold sj. replace (Datatypes.S j * K1)%nat with (j * K1 + K1)%nat by lia. rewrite calls_add. cbn [snd]. fold (sj j). rewrite E. reflexivity. }
    rewrite Q. exists s1, s2. split; [now rewrite E|auto]. }
  assert (K1p : (1 <= K1)%nat) by exact HP1. intros j Hj. cbv zeta. change (snd (calls (n_next inv c) (j * K1) st0)) with (sj j). change (snd (calls (n_next inv c) (Datatypes.S j * K1) st0)) with (sj (Datatypes.S j)).
  destruct (Y j Hj) as (s1 & s2 & E & A & B & S1 & S2). split; [apply X; destruct j; [now left|right; cbn [Nat.sub]; nia]|]. split; [exact A|]. split; [exists s1, s2; auto|]. clear B S1 S2 s1 s2.
  intros i n Hi Hn. destruct (le_dec (j * K1 + K1) n) as [Hn'|Hn'].
  - replace n with (j * K1 + (K1 + (n - j * K1 - K1)))%nat by lia. rewrite calls_add. cbn [fst]. fold (sj j). rewrite nth_error_app2; rewrite calls_length; [|lia]. replace (j * K1 + i - j * K1)%nat with i by lia.
    rewrite calls_add. cbn [fst]. rewrite nth_error_app1; [|rewrite calls_length; exact Hi]. rewrite E. rewrite nth_error_map, nth_error_nth' with (d := O) by (rewrite seq_length; exact Hi). cbn [option_map]. now rewrite seq_nth.
  - assert (Ep : fst (calls (n_next inv c) (j * K1 + K1) st0) = fst (calls (n_next inv c) n st0) ++ fst (calls (n_next inv c) (j * K1 + K1 - n) (snd (calls (n_next inv c) n st0)))).
    { replace (j * K1 + K1)%nat with (n + (j * K1 + K1 - n))%nat at 1 by lia. rewrite calls_add. reflexivity. }
    assert (Q : nth_error (fst (calls (n_next inv c) (j * K1 + K1) st0)) (j * K1 + i) = Some (Ok (nth i (n_est (sj (Datatypes.S j))) []))).
    { rewrite calls_add. cbn [fst]. fold (sj j). rewrite nth_error_app2; rewrite calls_length; [|lia]. replace (j * K1 + i - j * K1)%nat with i by lia. rewrite E. rewrite nth_error_map, nth_error_nth' with (d := O) by (rewrite seq_length; exact Hi). cbn [option_map]. now rewrite seq_nth. }
    rewrite Ep in Q. rewrite nth_error_app1 in Q; [exact Q|]. rewrite calls_length. lia.
Qed.
(** *** The end of the source *)
Definition end_exn (e : src_end) : exn := match e with SrcGen x => x | SrcObj x => x end.
Definition after (e : src_end) : src_end := match e with SrcGen _ => SrcObj StopIteration | SrcObj x => SrcObj x end.
Lemma n_fill_short : forall ys f e fuel st, end_exn f <> RuntimeError -> e = f -> Forall (fun x => length x = sM S) ys -> length (n_buf st) = K3 -> (n_cnt st + o * length ys < K3)%nat -> (length ys < fuel)%nat ->
  exists buf', length buf' = K3 /\ n_fill c fuel st (mkSrc ys e) =
  (Exn (end_exn f), mkN (Some (mkSrc [] (after e))) (n_ptr st) (n_stop st) buf' (n_cnt st + o * length ys) (n_m0 st) (n_V0 st) (n_s1 st) (n_s2 st) (n_est st)).
Proof.
  induction ys as [|x ys IH]; intros f e' fuel st HE -> HF LB HC Hf; (destruct fuel as [|fuel]; [lia|]); cbn [n_fill]; unfold src_next; cbn [s_items s_end].
  - cbn [length]. rewrite Nat.mul_0_r, Nat.add_0_r. exists (n_buf st). split; [exact LB|]. destruct f as [x|x]; cbn [end_exn after] in *; destruct x; try contradiction; reflexivity.
  - cbn [length] in HC, Hf. inversion HF as [|? ? Hx HF']; subst.
    edestruct (n_copies_ok o false (mkN (Some (mkSrc ys f)) (n_ptr st) (n_stop st) (n_buf st) (n_cnt st) (n_m0 st) (n_V0 st) (n_s1 st) (n_s2 st) (n_est st)) x) as (buf' & L' & _ & E'); cbn [n_cnt n_buf]; [nia|exact Hx|exact LB|].
    fold o. rewrite E'. cbn [n_cnt n_src n_ptr n_stop n_m0 n_V0 n_s1 n_s2 n_est n_buf] in *. destruct o as [|o'] eqn:Eo; [lia|]. rewrite <- Eo in *. clear E'.
    destruct (Nat.ltb_spec (K3 - 1) (n_cnt st + o)); [nia|].
    edestruct (IH f f fuel (mkN (Some (mkSrc ys f)) (n_ptr st) (n_stop st) buf' (n_cnt st + o) (n_m0 st) (n_V0 st) (n_s1 st) (n_s2 st) (n_est st))) as (b2 & L2 & E2); cbn [n_cnt n_src n_ptr n_stop n_m0 n_V0 n_s1 n_s2 n_est n_buf] in *; auto; [nia|lia|].
    exists b2. split; [exact L2|]. rewrite E2. cbn [length]. rewrite Nat.mul_succ_r. replace (n_cnt st + o + o * length ys)%nat with (n_cnt st + (o * length ys + o))%nat by lia. reflexivity.
Qed.
Definition spent (st : nst) (x : src_end) : Prop := n_src st = Some (mkSrc (K := Rring) [] x) /\ n_ptr st = K1 /\ n_stop st = false /\ length (n_buf st) = K3 /\ (n_cnt st < K3)%nat.
Lemma next_short ys x st : end_exn x <> RuntimeError -> n_src st = Some (mkSrc (K := Rring) ys x) -> n_ptr st = K1 -> n_stop st = false -> Forall (fun x => length x = sM S) ys -> length (n_buf st) = K3 -> (n_cnt st + o * length ys < K3)%nat ->
  fst (n_next inv c st) = Exn (end_exn x) /\ spent (snd (n_next inv c st)) (after x).
Proof.
  intros HE A1 A2 A3 HF LB HC. unfold n_next. cbn [n_next_fuel]. rewrite A1, A2. fold K1. rewrite Nat.ltb_irrefl, A3. fold K3.
  destruct (n_fill_short ys x x (Datatypes.S K3) st HE eq_refl HF LB HC) as (buf' & L' & E); [nia|]. change (n_fill c (Datatypes.S K3) st (mkSrc (K := Rring) ys x)) with (n_fill c (Datatypes.S K3) st (mkSrc ys x)). rewrite E. cbn [fst snd]. split; [reflexivity|]. unfold spent. cbn [n_src n_ptr n_stop n_buf n_cnt]. auto 10.
Qed.
Lemma spent_calls x : end_exn x <> RuntimeError -> end_exn (after x) <> RuntimeError -> forall n st, spent st (after x) -> fst (calls (n_next inv c) n st) = repeat (Exn (end_exn (after x))) n.
Proof.
  intros HE HE'. assert (AA : after (after x) = after x) by now destruct x.
  induction n; intros st (B1 & B2 & B3 & B4 & B5); [reflexivity|]. cbn [calls].
  destruct (next_short [] (after x) st HE' B1 B2 B3 ltac:(constructor) B4 ltac:(cbn; lia)) as [E1 E2]. rewrite AA in E2. destruct (n_next inv c st) as [r st']. cbn [fst snd] in *. subst r.
  specialize (IHn st' E2). destruct (calls (n_next inv c) n st'). cbn [fst] in *. cbn [repeat]. now rewrite IHn.
Qed.
Lemma at_end j st : end_exn e <> RuntimeError -> at_batch j st -> (o * length xs < j * K1 + K3)%nat -> (consumed j <= o * length xs)%nat -> forall n,
  fst (calls (n_next inv c) (Datatypes.S n) st) = Exn (end_exn e) :: repeat (Exn (end_exn (after e))) n.
Proof.
  intros HE [A1 A2 A3 A4 A5 A6] HL HL' n. assert (M1 := o_div _ (consumed_mod j)).
  assert (L : (o * length (skipn (consumed j / o) xs) = o * length xs - consumed j)%nat) by (rewrite skipn_length; nia).
  destruct (next_short (skipn (consumed j / o) xs) e st HE A1 A2 A3) as [E1 E2].
  { apply Forall_forall. intros x Hx. rewrite Forall_forall in Hxs. apply Hxs. now apply (In_skipn (consumed j / o)). } { apply A6. }
  { change (n_cnt st + o * @length rvec (skipn (consumed j / o) xs) < K3)%nat. rewrite L, A4. unfold consumed in *. destruct j; nia. }
  cbn [calls]. destruct (n_next inv c st) as [r st']. cbn [fst snd] in *. subst r.
  assert (X := spent_calls e HE ltac:(destruct e; cbn in *; congruence) n st' E2). destruct (calls (n_next inv c) n st'). cbn [fst] in *. now rewrite X.
Qed.
(** the number of complete batches *)
Definition batches : nat := if Nat.ltb (o * length xs) K3 then O else Datatypes.S ((o * length xs - K3) / K1).
Lemma batches_spec j : (j < batches)%nat <-> (j * K1 + K3 <= o * length xs)%nat.
Proof.
  assert (K1p : (1 <= K1)%nat) by exact HP1. unfold batches. destruct (Nat.ltb_spec (o * length xs) K3); [split; intros; nia|].
  split; intros Hj.
  - assert (K1 * ((o * length xs - K3) / K1) <= o * length xs - K3)%nat by (apply Nat.mul_div_le; lia). nia.
  - apply Nat.lt_succ_r. apply Nat.div_le_lower_bound; [lia|]. nia.
Qed.
Lemma run_end st0 : end_exn e <> RuntimeError -> at_batch 0 st0 -> forall n, exists est, length est = (batches * K1)%nat /\
  fst (calls (n_next inv c) (batches * K1 + Datatypes.S n) st0) = map Ok est ++ Exn (end_exn e) :: repeat (Exn (end_exn (after e))) n.
Proof.
  intros HE H0 n. assert (K1p : (1 <= K1)%nat) by exact HP1.
  assert (G : forall J, (J <= batches)%nat -> exists est, length est = (J * K1)%nat /\ fst (calls (n_next inv c) (J * K1) st0) = map Ok est /\ at_batch J (snd (calls (n_next inv c) (J * K1) st0))).
  { induction J; intros HJ; [exists []; auto|]. destruct IHJ as (est & L & E & A); [lia|]. assert (HJ' : (J * K1 + K3 <= o * length xs)%nat) by (apply batches_spec; lia).
    destruct (batch_calls J _ A HJ') as (st' & s1 & s2 & C & A' & B & _). exists (est ++ map (fun i => nth i (n_est st') []) (seq 0 K1)). split; [rewrite app_length, map_length, seq_length; lia|].
    replace (Datatypes.S J * K1)%nat with (J * K1 + K1)%nat by lia. rewrite calls_add. rewrite C. cbn [fst snd]. rewrite E, map_app, map_map. auto. }
  destruct (G batches (Nat.le_refl _)) as (est & L & E & A). exists est. split; [exact L|]. rewrite calls_add. cbn [fst]. rewrite E. f_equal.
  apply (at_end batches); auto.
  - destruct (le_lt_dec (batches * K1 + K3) (o * length xs)) as [H|H]; [|exact H]. apply batches_spec in H. lia.
  - unfold consumed. destruct batches as [|b] eqn:Eb; [lia|]. assert (X : (b < batches)%nat) by lia. apply batches_spec in X. unfold K3, nK3 in X. fold K1 K2 in X. nia.
Qed.
(** a source object that keeps raising RuntimeError: zero samples fill the batch *)
Lemma n_fill_runtime : forall z ys fuel st, Forall (fun x => length x = sM S) ys -> length (n_buf st) = K3 -> (1 <= z)%nat -> (n_cnt st + o * (length ys + z) = K3)%nat -> (length ys + z <= fuel)%nat ->
  n_fill c fuel st (mkSrc ys (SrcObj RuntimeError)) =
  (Ok tt, mkN (Some (mkSrc [] (SrcObj RuntimeError))) (n_ptr st) true (firstn (n_cnt st) (n_buf st) ++ stream o (ys ++ repeat (repeat 0 (sM S)) z)) K3 (n_m0 st) (n_V0 st) (n_s1 st) (n_s2 st) (n_est st)).
Proof.
  assert (Z0 : forall z fuel st, length (n_buf st) = K3 -> (n_cnt st + o * Datatypes.S z = K3)%nat -> (Datatypes.S z <= fuel)%nat ->
    n_fill c fuel st (mkSrc [] (SrcObj RuntimeError)) =
    (Ok tt, mkN (Some (mkSrc [] (SrcObj RuntimeError))) (n_ptr st) true (firstn (n_cnt st) (n_buf st) ++ stream o (repeat (repeat 0 (sM S)) (Datatypes.S z))) K3 (n_m0 st) (n_V0 st) (n_s1 st) (n_s2 st) (n_est st))).
  { induction z; intros fuel st LB HC Hf; (destruct fuel as [|fuel]; [lia|]); cbn [n_fill]; unfold src_next; cbn [s_items s_end]; fold S;
      (edestruct (n_copies_ok o false (mkN (Some (mkSrc [] (SrcObj RuntimeError))) (n_ptr st) true (n_buf st) (n_cnt st) (n_m0 st) (n_V0 st) (n_s1 st) (n_s2 st) (n_est st)) (repeat 0 (sM S))) as (buf' & L' & F' & E'); cbn [n_cnt n_buf]; [nia|apply repeat_length|exact LB|]);
      fold o; rewrite E'; cbn [n_cnt n_src n_ptr n_stop n_m0 n_V0 n_s1 n_s2 n_est n_buf] in *; (destruct o as [|o'] eqn:Eo; [lia|]); rewrite <- Eo in *; clear E'.
    - destruct (Nat.ltb_spec (K3 - 1) (n_cnt st + o)); [|nia]. f_equal. replace (n_cnt st + o)%nat with K3 in * by nia. f_equal. rewrite firstn_all2 in F' by lia. rewrite F'. cbn [repeat stream flat_map]. now rewrite app_nil_r.
    - destruct (Nat.ltb_spec (K3 - 1) (n_cnt st + o)); [nia|]. rewrite IHz; cbn [n_cnt n_src n_ptr n_stop n_m0 n_V0 n_s1 n_s2 n_est n_buf]; [|exact L'|nia|lia].
      f_equal. f_equal. rewrite F'. cbn [repeat stream flat_map]. now rewrite <- app_assoc. }
  intros z ys. revert z. induction ys as [|x ys IH]; intros z fuel st HF LB Hz HC Hf.
  - cbn [app length] in *. destruct z; [lia|]. apply Z0; [exact LB|exact HC|lia].
  - inversion HF as [|? ? Hx HF']; subst. cbn [length] in HC, Hf. destruct fuel as [|fuel]; [lia|]. cbn [n_fill]. unfold src_next. cbn [s_items s_end].
    edestruct (n_copies_ok o false (mkN (Some (mkSrc ys (SrcObj RuntimeError))) (n_ptr st) (n_stop st) (n_buf st) (n_cnt st) (n_m0 st) (n_V0 st) (n_s1 st) (n_s2 st) (n_est st)) x) as (buf' & L' & F' & E'); cbn [n_cnt n_buf]; [nia|exact Hx|exact LB|].
    fold o. rewrite E'. cbn [n_cnt n_src n_ptr n_stop n_m0 n_V0 n_s1 n_s2 n_est n_buf] in *. destruct o as [|o'] eqn:Eo; [lia|]. rewrite <- Eo in *. clear E'.
    destruct (Nat.ltb_spec (K3 - 1) (n_cnt st + o)); [nia|]. rewrite (IH z); cbn [n_cnt n_src n_ptr n_stop n_m0 n_V0 n_s1 n_s2 n_est n_buf]; [|exact HF'|exact L'|exact Hz|nia|lia].
    f_equal. f_equal. rewrite F'. cbn [app stream flat_map]. now rewrite <- app_assoc.
Qed.
Lemma stop_calls : forall n st src, n_src st = Some src -> n_ptr st = K1 -> n_stop st = true -> fst (calls (n_next inv c) n st) = repeat (Exn StopIteration) n.
Proof.
  induction n; intros st src A1 A2 A3; [reflexivity|]. cbn [calls]. assert (E : n_next inv c st = (Exn StopIteration, st)) by (unfold n_next; cbn [n_next_fuel]; rewrite A1, A2; fold K1; rewrite Nat.ltb_irrefl, A3; reflexivity).
  rewrite E. specialize (IHn st src A1 A2 A3). destruct (calls (n_next inv c) n st). cbn [fst repeat] in *. now rewrite IHn.
Qed.
Lemma end_runtime j st : e = SrcObj RuntimeError -> at_batch j st -> (o * length xs < j * K1 + K3)%nat -> (consumed j <= o * length xs)%nat -> forall n, exists z est m' V' s1 s2,
  (o * (length xs + z) = j * K1 + K3)%nat /\ batch (segment (stream o (xs ++ repeat (repeat 0 (sM S)) z)) (j * K1) K3) (n_m0 st) (n_V0 st) (n_s1 st) (n_s2 st) est m' V' s1 s2 /\
  fst (calls (n_next inv c) (K1 + n) st) = map Ok est ++ repeat (Exn StopIteration) n.
Proof.
  intros Ee [A1 A2 A3 A4 A5 A6] HL HL' n. assert (K1p : (1 <= K1)%nat) by exact HP1. assert (K3e : K3 = (K1 + K2)%nat) by reflexivity.
  assert (M1 := o_div _ (consumed_mod j)).
  assert (M3 : (o * ((j * K1 + K3) / o) = j * K1 + K3)%nat) by (apply o_div; replace (j * K1 + K3)%nat with (consumed (Datatypes.S j)) by (unfold consumed; lia); apply consumed_mod).
  set (z := ((j * K1 + K3) / o - length xs)%nat). assert (Hz : (o * (length xs + z) = j * K1 + K3)%nat) by (unfold z; nia). assert (Hz1 : (1 <= z)%nat) by nia.
  set (ys := skipn (consumed j / o) xs). assert (Ly : (o * length ys = o * length xs - consumed j)%nat) by (unfold ys; rewrite skipn_length; nia).
  assert (Hys : Forall (fun x => length x = sM S) ys). { apply Forall_forall. intros x Hx. rewrite Forall_forall in Hxs. apply Hxs. now apply (In_skipn (consumed j / o)). }
  assert (Hc : (n_cnt st + o * (length ys + z) = K3)%nat). { rewrite A4. unfold consumed in *. destruct j; nia. }
  assert (Hfu : (length ys + z <= Datatypes.S K3)%nat) by (assert (o >= 1)%nat by exact Ho; nia).
  set (xz := xs ++ repeat (repeat 0 (sM S)) z) in *. assert (Lz : length xz = (length xs + z)%nat) by (unfold xz; rewrite app_length, repeat_length; reflexivity).
  assert (Hxz : Forall (fun x => length x = sM S) xz). { unfold xz. apply Forall_app. split; [exact Hxs|]. apply Forall_forall. intros x Hx. apply repeat_spec in Hx. subst. apply repeat_length. }
  assert (C0 : (consumed j / o <= length xs)%nat) by nia.
  assert (Sg : segment (stream o xz) (j * K1) K3 = firstn (n_cnt st) (n_buf st) ++ stream o (ys ++ repeat (repeat 0 (sM S)) z)).
  { rewrite A5. assert (Ey : ys ++ repeat (repeat 0 (sM S)) z = skipn (consumed j / o) xz). { unfold xz, ys. rewrite skipn_app. replace (consumed j / o - length xs)%nat with O by lia. reflexivity. } rewrite Ey, stream_skipn, M1.
    assert (E1 : segment (stream o xs) (j * K1) (n_cnt st) = segment (stream o xz) (j * K1) (n_cnt st)).
    { unfold segment, xz. rewrite stream_app, skipn_app, firstn_app. assert (Q : (n_cnt st <= length (skipn (j * K1) (stream o xs)))%nat) by (rewrite skipn_length, stream_length, A4; unfold consumed in *; destruct j; nia).
      replace (n_cnt st - length (skipn (j * K1) (stream o xs)))%nat with O by lia. now rewrite firstn_O, app_nil_r. }
    rewrite E1. unfold segment. replace (consumed j) with (j * K1 + n_cnt st)%nat at 1 by (rewrite A4; unfold consumed; destruct j; nia). rewrite <- skipn_skipn.
    assert (LL : length (skipn (j * K1) (stream o xz)) = K3) by (rewrite skipn_length, stream_length, Lz; lia). rewrite (firstn_all2 (n := K3)) by lia. symmetry. apply firstn_skipn. }
  destruct A6 as [R1 R2 R3 R4 R5 R6 R7 R8].
  assert (E0 : exists est m' V' s1 s2 buf', batch (segment (stream o xz) (j * K1) K3) (n_m0 st) (n_V0 st) (n_s1 st) (n_s2 st) est m' V' s1 s2 /\
     n_next inv c st = (Ok (nth 0 est []), mkN (Some (mkSrc (K := Rring) [] (SrcObj RuntimeError))) 1 true buf' K2 m' V' (nth (K1 - 1) s1 []) (nth (K1 - 1) s2 []) est)).
  { unfold n_next. cbn [n_next_fuel]. rewrite A1, A2. fold K1. rewrite Nat.ltb_irrefl, A3. fold K3. fold ys. rewrite Ee.
    rewrite (n_fill_runtime z); [|exact Hys|exact R1|exact Hz1|exact Hc|exact Hfu].
    match goal with |- context [mkN _ _ _ (?a ++ ?b) _ _ _ _ _ _] => change (a ++ b) with (firstn (n_cnt st) (n_buf st) ++ stream o (ys ++ repeat (repeat 0 (sM S)) z)) end. rewrite <- Sg. set (st1 := mkN _ _ _ _ _ _ _ _ _ _).
    assert (LS : length (segment (stream o xz) (j * K1) K3) = K3) by (unfold segment; rewrite firstn_length, skipn_length, stream_length, Lz; lia).
    destruct (compute_total st1) as (est & m' & V' & s1 & s2 & buf' & B & L' & F' & E').
    { constructor; auto. } { reflexivity. }
    { cbn [st1 n_buf]. apply Forall_forall. intros x Hx. assert (X := stream_rows o xz (sM S) Hxz). rewrite Forall_forall in X. apply X. apply In_firstn, In_skipn in Hx. exact Hx. }
    rewrite E'. cbn [st1 n_src n_ptr n_stop n_m0 n_V0 n_s1 n_s2 n_est n_buf n_cnt] in *. rewrite A2. fold K1. rewrite Nat.sub_diag. cbn [n_next_fuel n_src n_ptr n_est].
    exists est, m', V', s1, s2, buf'. split; [exact B|]. destruct (Nat.ltb_spec 0 K1); [reflexivity|lia]. }
  destruct E0 as (est & m' & V' & s1 & s2 & buf' & B & E). exists z, est, m', V', s1, s2. split; [exact Hz|]. split; [exact B|].
  set (st1 := mkN _ _ _ _ _ _ _ _ _ _) in E.
  assert (EK : exists k1, K1 = Datatypes.S k1) by (exists (K1 - 1)%nat; lia). destruct EK as [k1 EK].
  assert (C : calls (n_next inv c) K1 st = (map Ok est, mkN (n_src st1) K1 true buf' K2 m' V' (nth (K1 - 1) s1 []) (nth (K1 - 1) s2 []) est)).
  { replace (calls (n_next inv c) K1 st) with (calls (n_next inv c) (Datatypes.S k1) st) by now rewrite EK. cbn [calls]. rewrite E. rewrite (next_calls k1 st1 (mkSrc (K := Rring) [] (SrcObj RuntimeError))); [|reflexivity|cbn [st1 n_ptr]; lia].
    f_equal. cbn [st1 n_ptr n_est]. assert (Le := ba_l _ _ _ _ _ _ _ _ _ _ B). transitivity (map (fun i => Ok (nth i est [])) (seq 0 (Datatypes.S k1))); [reflexivity|]. rewrite <- EK, <- Le. rewrite <- (map_map (fun i => nth i est []) Ok). f_equal.
    clear. induction est as [|a l IH]; [reflexivity|]. cbn [length seq map nth]. f_equal. rewrite <- seq_shift, map_map. exact IH. }
  rewrite calls_add, C. cbn [fst snd]. f_equal. apply (stop_calls n _ (mkSrc (K := Rring) [] (SrcObj RuntimeError))); reflexivity.
Qed.
Lemma run_runtime st0 : e = SrcObj RuntimeError -> at_batch 0 st0 -> forall n, exists est, length est = (Datatypes.S batches * K1)%nat /\
  fst (calls (n_next inv c) (Datatypes.S batches * K1 + n) st0) = map Ok est ++ repeat (Exn StopIteration) n.
Proof.
  intros Ee H0 n. assert (K1p : (1 <= K1)%nat) by exact HP1.
  assert (G : forall J, (J <= batches)%nat -> exists est, length est = (J * K1)%nat /\ fst (calls (n_next inv c) (J * K1) st0) = map Ok est /\ at_batch J (snd (calls (n_next inv c) (J * K1) st0))).
  { induction J; intros HJ; [exists []; auto|]. destruct IHJ as (est & L & E & A); [lia|]. assert (HJ' : (J * K1 + K3 <= o * length xs)%nat) by (apply batches_spec; lia).
    destruct (batch_calls J _ A HJ') as (st' & s1 & s2 & C & A' & B & _). exists (est ++ map (fun i => nth i (n_est st') []) (seq 0 K1)). split; [rewrite app_length, map_length, seq_length; lia|].
    replace (Datatypes.S J * K1)%nat with (J * K1 + K1)%nat by lia. rewrite calls_add. rewrite C. cbn [fst snd]. rewrite E, map_app, map_map. auto. }
  destruct (G batches (Nat.le_refl _)) as (est & L & E & A).
  edestruct (end_runtime batches _ Ee A) as (z & est' & m' & V' & s1 & s2 & _ & B & C).
  - destruct (le_lt_dec (batches * K1 + K3) (o * length xs)) as [H|H]; [|exact H]. apply batches_spec in H. lia.
  - unfold consumed. destruct batches as [|b] eqn:Eb; [lia|]. assert (X : (b < batches)%nat) by lia. apply batches_spec in X. unfold K3, nK3 in X. fold K1 K2 in X. nia.
  - exists (est ++ est'). split; [rewrite app_length, L, (ba_l _ _ _ _ _ _ _ _ _ _ B); lia|].
    replace (Datatypes.S batches * K1 + n)%nat with (batches * K1 + (K1 + n))%nat by lia. rewrite calls_add. cbn [fst]. rewrite E, C, map_app, app_assoc. reflexivity.
Qed.
End P.
