(** The noise budgets of batch_estimator.py. *)
From Coq Require Import List Arith Lia Bool Reals Lra ZArith.
From Flocq Require Import Core.
From Coquelicot Require Import Complex.
From Verif Require Import Base LinAlg FirExtras AnalogSystem AnalogProofs Zpk Integrators Fom IntegratorsProofs LinearOde FilterCoeff TransferFn CplxLin TransferProofs TransferExtra.
Import ListNotations.
Open Scope R_scope.

(** ** Specification: m is the largest of the values f 0, ..., f (n-1) *)
Definition largest (n : nat) (f : nat -> R) (m : R) : Prop := (exists i, (i < n)%nat /\ f i = m) /\ forall i, (i < n)%nat -> f i <= m.
(** m is the largest value of f over the list *)
Definition largest_in {A} (l : list A) (f : A -> R) (m : R) : Prop := (exists x, In x l /\ f x = m) /\ forall x, In x l -> f x <= m.

Lemma fold_max l a : (In (fold_left Rmax l a) (a :: l)) /\ forall x, In x (a :: l) -> x <= fold_left Rmax l a.
Proof.
  revert a. induction l as [|b l IH]; intros a; cbn [fold_left].
  - split; [now left|]. intros x [<-|[]]. lra.
  - destruct (IH (Rmax a b)) as [I U]. split.
    + destruct I as [I|I]; [|right; now right]. rewrite <- I. unfold Rmax. destruct (Rle_dec a b); [right; now left|now left].
    + intros x [<-|[<-|I']]; [| |apply U; now right]; (eapply Rle_trans; [|apply U; now left]); [apply Rmax_l|apply Rmax_r].
Qed.
Lemma rmax_spec {A} (f : A -> R) l : l <> [] -> largest_in l f (rmax (map f l)).
Proof.
  intros H. destruct l as [|a l]; [contradiction|]. cbn [map rmax]. destruct (fold_max (map f l) (f a)) as [I U]. split.
  - change (f a :: map f l) with (map f (a :: l)) in I. apply in_map_iff in I as (x & E & I). now exists x.
  - intros x I'. apply U. change (f a :: map f l) with (map f (a :: l)). now apply in_map.
Qed.
Lemma rmax_seq f n : (0 < n)%nat -> largest n f (rmax (map f (seq 0 n))).
Proof.
  intros H. destruct (rmax_spec f (seq 0 n)) as [(i & I & E) U]; [destruct n; [lia|discriminate]|]. split.
  - exists i. split; [apply in_seq in I; lia|exact E].
  - intros j Hj. apply U. apply in_seq. lia.
Qed.
Lemma largest_unique n f a b : largest n f a -> largest n f b -> a = b.
Proof. intros [(i & Hi & <-) Ua] [(j & Hj & <-) Ub]. apply Rle_antisym; auto. Qed.

Lemma mapM_length {A B} (f : A -> result B) l r : mapM f l = Ok r -> length r = length l.
Proof.
  revert r. induction l as [|a l IH]; intros r H; cbn [mapM] in H; [apply Ok_inj in H; now subst|].
  destruct (f a); [|discriminate]. cbn [bind] in H. destruct (mapM f l) as [bs|]; [|discriminate]. cbn [bind] in H. apply Ok_inj in H. subst r. cbn. f_equal. now apply IH.
Qed.
Lemma mapM_const {A B} (f : A -> result B) l b : (forall a, In a l -> f a = Ok b) -> mapM f l = Ok (repeat b (length l)).
Proof.
  induction l as [|a l IH]; intros H; [reflexivity|]. cbn [mapM]. rewrite (H a) by now left. cbn [bind]. rewrite IH by (intros; apply H; now right). reflexivity.
Qed.
Lemma grid_pos : (0 < grid_size)%nat.
Proof. unfold grid_size. lia. Qed.
Lemma geomspace_length a b n : length (geomspace a b n) = n.
Proof. unfold geomspace. now rewrite map_length, seq_length. Qed.
Lemma logspace_length a b n : length (logspace a b n) = n.
Proof. unfold logspace. now rewrite map_length, seq_length. Qed.

(** the peaks are those of the squared magnitudes on the grid *)
Lemma peak_ok pinv S eta2 bw res : max_transfer_function_peak pinv S eta2 bw = Ok res ->
  exists tfs, general_transfer_function pinv S eta2 (geomspace (fst bw) (snd bw) grid_size) = Ok tfs /\ rows res = sL S /\ cols res = sN S /\
    forall l n, largest_in tfs (fun X : cmat => Rsqr (Cmod (cent X l n))) (ent res l n).
Proof.
  unfold max_transfer_function_peak. intros H. apply bind_ok in H as (tfs & E & H). apply Ok_inj in H. subst res. exists tfs. split; [exact E|].
  split; [reflexivity|]. split; [reflexivity|]. intros l n. cbn [peak ent]. apply (rmax_spec (fun X : cmat => Rsqr (Cmod (ent X l n)))).
  apply mapM_length in E. rewrite geomspace_length in E. intros ->. cbn in E. assert (X := grid_pos). lia.
Qed.

Lemma existsb2_false (P : nat -> nat -> bool) L N : existsb (fun i => existsb (fun j => P i j) (seq 0 N)) (seq 0 L) = false ->
  forall i j, (i < L)%nat -> (j < N)%nat -> P i j = false.
Proof.
  intros H i j Hi Hj. destruct (P i j) eqn:E; [|reflexivity]. exfalso. rewrite <- not_true_iff_false in H. apply H. apply existsb_exists. exists i.
  split; [apply in_seq; lia|]. apply existsb_exists. exists j. split; [apply in_seq; lia|exact E].
Qed.

Lemma balance_one (res b : rmat) : rows res = 1%nat -> balance_of res = Ok b -> (0 < cols res)%nat /\ rows b = 1%nat /\ cols b = cols res /\
  forall mx, largest (cols res) (fun n => ent res 0 n) mx -> forall n, (n < cols res)%nat -> ent res 0 n <> 0 /\ ent b 0 n = mx / ent res 0 n / INR (cols res).
Proof.
  intros R1 H. unfold balance_of in H. rewrite R1 in H. destruct (Nat.eqb_spec (cols res) 0) as [|N0]; [discriminate|]. cbn [Nat.eqb] in H.
  destruct (existsb _ (seq 0 1)) eqn:Z; [discriminate|]. apply Ok_inj in H. subst b. split; [lia|]. split; [reflexivity|]. split; [reflexivity|].
  intros mx Hmx n Hn. assert (NZ := existsb2_false _ _ _ Z 0%nat n ltac:(lia) Hn). split.
  - intros E. cbn beta in NZ. rewrite Req_bool_true in NZ by exact E. discriminate.
  - cbn [ent]. rewrite (largest_unique _ _ _ _ Hmx (rmax_seq (fun n => ent res 0 n) (cols res) ltac:(lia))). reflexivity.
Qed.
Lemma balance_shape (res : rmat) : (2 <= rows res)%nat -> (2 <= cols res)%nat -> rows res <> cols res -> balance_of res = Exn ValueError.
Proof.
  intros H1 H2 H3. unfold balance_of. destruct (Nat.eqb_spec (cols res) 0); [lia|]. destruct (Nat.eqb_spec (rows res) 1); [lia|].
  destruct (Nat.eqb_spec (rows res) (cols res)); [lia|]. destruct (Nat.eqb_spec (cols res) 1); [lia|]. reflexivity.
Qed.

Lemma rsum_const n c : rsum n (fun _ => c) = INR n * c.
Proof. induction n; [rewrite rsum_0; cbn; ring|]. rewrite rsum_S, IHn, S_INR. ring. Qed.

Lemma sens_one pinv S eta2 bw snr p v : sL S = 1%nat -> white_noise_sensitivities pinv S eta2 bw snr p false = Ok v ->
  exists res, max_transfer_function_peak pinv S eta2 bw = Ok res /\ rows v = 1%nat /\ cols v = sN S /\
    forall mx, largest (sN S) (fun n => ent res 0 n) mx ->
      (forall n m, (n < sN S)%nat -> (m < sN S)%nat -> ent v 0 n * ent res 0 n = ent v 0 m * ent res 0 m) /\
      rsum (sN S) (fun n => ent v 0 n * ent res 0 n) = p / snr * mx.
Proof.
  intros L1 H. unfold white_noise_sensitivities in H. destruct (Req_bool_spec snr 0) as [|Hs]; [discriminate|]. apply bind_ok in H as (b & Hb & H). cbn [andb] in H. apply Ok_inj in H. subst v.
  unfold white_noise_balance in Hb. apply bind_ok in Hb as (res & Hr & Hb). exists res. split; [exact Hr|]. cbn [rows cols]. split; [exact L1|]. split; [reflexivity|].
  destruct (peak_ok _ _ _ _ _ Hr) as (tfs & _ & R1 & R2 & _). rewrite L1 in R1. destruct (balance_one res b R1 Hb) as (N0 & _ & _ & HB). rewrite R2 in *. intros mx Hmx. specialize (HB mx Hmx).
  assert (NN : INR (sN S) <> 0) by (apply not_0_INR; lia).
  assert (E : forall n, (n < sN S)%nat -> 1 * p / snr * ent b 0 n * ent res 0 n = p / snr * mx / INR (sN S)).
  { intros n Hn. destruct (HB n Hn) as [NZ EB]. rewrite EB. field. auto. }
  split; [intros n m Hn Hm; cbn [ent]; now rewrite !E|]. rewrite (rsum_ext _ _ (fun _ => p / snr * mx / INR (sN S))) by exact E. rewrite rsum_const. field. auto.
Qed.

Lemma norm1_one (a : rmat) : rows a = 1%nat -> (0 < cols a)%nat -> largest (cols a) (fun n => Rabs (ent a 0 n)) (norm1 a).
Proof.
  intros R1 N0. assert (X : largest (cols a) (fun j => 0 + Rabs (ent a 0 j)) (norm1 a)).
  { unfold norm1. rewrite R1. exact (rmax_seq (fun j => ksum (K := Rring) 1 (fun i => Rabs (ent a i j))) (cols a) N0). }
  destruct X as [(i & Hi & E) U]. split.
  - exists i. split; [exact Hi|]. rewrite <- E. ring.
  - intros n Hn. specialize (U n Hn). lra.
Qed.

Lemma harmonic_one pinv S eta2 bw sfdr h : sL S = 1%nat -> max_harmonic_estimate pinv S eta2 bw sfdr = Ok h ->
  exists tfs, general_transfer_function pinv S eta2 (logspace (ln (fst bw)) (ln (snd bw)) grid_size) = Ok tfs /\ rows h = 1%nat /\ cols h = sN S /\
    forall mag, (forall n, (n < sN S)%nat -> largest_in tfs (fun X : cmat => Cmod (cent X 0 n)) (mag n)) ->
      exists k, (k < sN S)%nat /\ (forall n, (n < sN S)%nat -> mag k <= mag n) /\
        forall n, (n < sN S)%nat -> 0 < mag n /\ ent h 0 n = mag k / mag n / snr_from_dB sfdr.
Proof.
  intros L1 H. unfold max_harmonic_estimate in H. apply bind_ok in H as (tfs & E & H). exists tfs. split; [exact E|]. rewrite L1, Nat.mul_1_l in H.
  destruct (Nat.eqb_spec (sN S) 0) as [|N0]; [discriminate|]. destruct (existsb _ (seq 0 1)) eqn:Z; [discriminate|].
  match type of H with Ok ?M = _ => apply Ok_inj in H; subst h end. set (mx := rmax _). split; [cbn [rows mapm peak]; exact L1|]. split; [reflexivity|].
  intros mag Hm. assert (NE : tfs <> []). { intros ->. apply mapM_length in E. rewrite logspace_length in E. cbn in E. assert (X := grid_pos). lia. }
  assert (EM : forall n, (n < sN S)%nat -> ent (peak Cmod S tfs) 0 n = mag n).
  { intros n Hn. destruct (Hm n Hn) as [(x & Ix & Ex) Ux]. destruct (rmax_spec (fun X : cmat => Cmod (ent X 0 n)) tfs NE) as [(y & Iy & Ey) Uy]. cbn [peak ent].
    apply Rle_antisym; [rewrite <- Ey; now apply Ux|rewrite <- Ex; now apply Uy]. }
  assert (PM : forall n, (n < sN S)%nat -> 0 < mag n).
  { intros n Hn. assert (NZ := existsb2_false _ _ _ Z 0%nat n ltac:(lia) Hn). cbn beta in NZ. rewrite EM in NZ by exact Hn. destruct (Hm n Hn) as [(x & Ix & Ex) _].
    assert (A := Cmod_ge_0 (cent x 0 n)). rewrite Ex in A. destruct A as [A|A]; [exact A|]. rewrite Req_bool_true in NZ by (now symmetry). discriminate. }
  assert (PX : 0 < mx).
  { unfold mx. cbn [seq map concat]. rewrite app_nil_r. destruct (rmax_seq (fun n => ent (peak Cmod S tfs) 0 n) (sN S) ltac:(lia)) as [(i & Hi & Ei) _].
    refine (eq_ind _ (fun z => 0 < z) _ _ Ei). rewrite EM by exact Hi. auto. }
  set (lh := mapm (K := Rring) (fun x : R => 1 / x) (mapm (K := Rring) (fun x : R => x / mx) (peak Cmod S tfs))). destruct (norm1_one lh) as [(k & Hk & Ek) Uk]; [cbn [lh mapm rows peak]; exact L1|cbn [lh mapm cols peak]; lia|].
  assert (EL : forall n, (n < sN S)%nat -> Rabs (ent lh 0 n) = mx / mag n).
  { intros n Hn. cbn [lh mapm ent]. rewrite EM by exact Hn. specialize (PM n Hn). rewrite Rabs_pos_eq.
    - field. split; lra.
    - left. unfold Rdiv. rewrite Rmult_1_l. apply Rinv_0_lt_compat. apply Rmult_lt_0_compat; [exact PM|now apply Rinv_0_lt_compat]. }
  change (cols lh) with (sN S) in *. exists k. split; [exact Hk|]. split.
  - intros n Hn. specialize (Uk n Hn). cbn beta in Uk. rewrite EL, <- Ek, EL in Uk by assumption. assert (P1 := PM n Hn). assert (P2 := PM k Hk).
    apply (Rmult_le_reg_l (mx / (mag n * mag k))).
    + apply Rmult_lt_0_compat; [exact PX|]. apply Rinv_0_lt_compat. now apply Rmult_lt_0_compat.
    + replace (mx / (mag n * mag k) * mag k) with (mx / mag n) by (field; lra). replace (mx / (mag n * mag k) * mag n) with (mx / mag k) by (field; lra). exact Uk.
  - intros n Hn. split; [auto|].
    change (ent lh 0 n / norm1 lh / snr_from_dB sfdr = mag k / mag n / snr_from_dB sfdr). rewrite <- Ek, EL by exact Hk. assert (P1 := PM n Hn). assert (P2 := PM k Hk).
    change (ent lh 0 n) with (1 / (ent (peak Cmod S tfs) 0 n / mx)). rewrite EM by exact Hn.
    replace (1 / (mag n / mx) / (mx / mag k)) with (mag k / mag n); [reflexivity|]. field. repeat split; lra.
Qed.
