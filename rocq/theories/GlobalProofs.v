(** The global control is the least squares projection of the control on the output energy of one period. *)
From Coq Require Import List Arith Lia Bool Reals Lra.
From Flocq Require Import Core.
From Verif Require Import Base LinAlg FirExtras AnalogSystem AnalogProofs Signals DigitalControl Integrators IntegratorsProofs Simulator Stability LinearOde LinearExist PreSim Zpk FilterCoeff
  FilterCoeffProofs FilterOde FilterRun Estimators Optimal NuvAlg Nuv NuvProofs NuvCoeff BatchProofs GlobalControl.
Import ListNotations.
Open Scope R_scope.

(** *** Specification *)
(** what the routines return is exact; the solution is looked at from phi on *)
Record global_sound (S : asys Rring) (d : dc) (ivp : (R -> list R -> result (list R)) -> R -> R -> list R -> result (list R)) (expm : rmat -> R -> result rmat) (phi : list R) : Prop := mkGS {
  gs_expm : forall (t : R) (E : rmat), 0 <= t -> expm (aA S) t = Ok E -> rows E = sN S /\ cols E = sN S /\
    forall x : list R, length x = sN S -> endpoint (fun _ y => dotv (aA S) y) t x (dotv E x);
  gs_ivp : forall mt p y1, (mt < sMt S)%nat -> nth_error phi mt = Some p ->
    let y0 := repeat 0 ((sM S + sL S) * sN S + sN S + sL S + sM S) in
    ivp (global_rhs expm S d p mt) p (p + ck_T (d_clk d)) y0 = Ok y1 -> endpoint (fun t => global_rhs expm S d p mt (p + t)) (ck_T (d_clk d)) y0 (Ok y1) }.
(** the waveform of control m from phi on, as seen when control [own] is decided: controls after [own] keep quiet, and every
    waveform ends with its clock period *)
Definition held (d : dc) (own m : nat) (t : R) : R := if Nat.leb m own && Rle_bool t (ck_T (d_clk d)) then wave d m t else 0.
(** the state during the period [phi, phi + T] with input u and amplitudes a of the controls; [w m] is the waveform of control m *)
Definition one_period (S : asys Rring) (T phi : R) (w : nat -> R -> R) (x0 u a : nat -> R) (x : nat -> R -> R) : Prop :=
  sol (sN S) (ent (aA S)) T (fun n t => rsum (sL S) (fun l => ent (aB S) n l * u l) + rsum (sM S) (fun m => gent S n m * (w m (phi + t) * a m))) x /\
  forall n, (n < sN S)%nat -> x n 0 = x0 n.
(** the entries of a vector *)
Definition gv (l : list R) (i : nat) : R := nth i l 0.
(** the energy of C^T x over the period *)
Definition output_energy (S : asys Rring) (T : R) (x : nat -> R -> R) (E : R) : Prop :=
  integral T (fun t => rsum (sNt S) (fun r => Rsqr (rsum (sN S) (fun n => ent (aCT S) r n * x n t)))) E.

Ltac okeq := apply (f_equal (@Ok (list R))).
(** *** Lists of blocks *)
Lemma nth_blocks {A} (N : nat) (ls : list (list A)) j n (z : A) : (forall b, In b ls -> length b = N) -> (j < length ls)%nat -> (n < N)%nat -> nth (j * N + n) (concat ls) z = nth n (nth j ls []) z.
Proof.
  revert j. induction ls as [|b ls IH]; intros j H Hj Hn; [cbn in Hj; lia|]. cbn [concat]. assert (Lb := H b (or_introl eq_refl)). destruct j as [|j].
  - cbn [Nat.mul Nat.add nth]. now rewrite app_nth1 by lia.
  - rewrite app_nth2 by (rewrite Lb; cbn; lia). cbn [nth]. rewrite <- IH; [f_equal; rewrite Lb; cbn; lia| |cbn in Hj; lia|exact Hn]. intros; apply H; now right.
Qed.
Lemma concat_len {A} (N : nat) (ls : list (list A)) : (forall b, In b ls -> length b = N) -> length (concat ls) = (length ls * N)%nat.
Proof. induction ls as [|b ls IH]; intros H; [reflexivity|]. cbn [concat length]. rewrite app_length, IH by (intros; apply H; now right). rewrite (H b) by now left. lia. Qed.
Lemma nth_firstn_lt {A} n k (l : list A) z : (k < n)%nat -> nth k (firstn n l) z = nth k l z.
Proof. revert k l. induction n; intros k l Hk; [lia|]. destruct l; [now destruct k|]. destruct k; [reflexivity|]. cbn. apply IHn. lia. Qed.
Lemma nth_skipn_add {A} n k (l : list A) z : nth k (skipn n l) z = nth (n + k) l z.
Proof. revert l. induction n; intros l; [reflexivity|]. destruct l; [now destruct k|]. cbn. apply IHn. Qed.
Lemma block_len N x i : ((i + 1) * N <= length x)%nat -> length (block N x i) = N.
Proof. intros H. unfold block. rewrite firstn_length, skipn_length. lia. Qed.
Lemma block_nth N x i k : (k < N)%nat -> nth k (block N x i) 0 = nth (i * N + k) x 0.
Proof. intros H. unfold block. now rewrite nth_firstn_lt, nth_skipn_add. Qed.
Lemma fold_map2_rsum (f g : nat -> R) n : fold_right Rplus 0 (map2 Rmult (map f (seq 0 n)) (map g (seq 0 n))) = rsum n (fun i => f i * g i).
Proof.
  unfold rsum. f_equal. generalize (seq 0 n). intros l. induction l as [|a l IH]; [reflexivity|]. cbn [map map2]. now rewrite IH.
Qed.

Section Row.
Variables (S : asys Rring) (d : dc) (expm : rmat -> R -> result rmat) (p : R) (mt : nat).
Hypothesis FI : fits S d.
Hypothesis Hmt : (mt < sMt S)%nat.
Hypothesis HM : (sMt S <= sM S)%nat.
Let V : valid S := fi_valid _ _ FI.
Local Notation N := (sN S).
Local Notation L := (sL S).
Local Notation M := (sM S).
Local Notation T := (ck_T (d_clk d)).
Local Notation own := (mt + (sM S - sMt S))%nat.
Local Notation off := ((sM S + sL S) * sN S)%nat.
Local Notation D := (off + sN S + sL S + sM S)%nat.
Hypothesis HT : 0 <= T.
Hypothesis Hp : 0 <= p <= T.
Hypothesis HE : forall (t : R) (E : rmat), 0 <= t -> expm (aA S) t = Ok E -> rows E = sN S /\ cols E = sN S /\
    forall x : list R, length x = sN S -> endpoint (fun _ y => dotv (aA S) y) t x (dotv E x).

Definition psi (x : list R) (j n : nat) : R := nth (j * N + n) x 0.
Definition out (x : list R) (j r : nat) : R := rsum N (fun n => ent (aCT S) r n * psi x j n).

Lemma dot_block (m : rmat) x j : cols m = N -> length x = D -> (j < L + M)%nat -> dotv m (block N x j) = Ok (map (fun i => rsum N (fun n => ent m i n * psi x j n)) (seq 0 (rows m))).
Proof.
  intros Hc Hx Hj. assert (LB : ((j + 1) * N <= length x)%nat) by (rewrite Hx; nia). rewrite dotv_R by (rewrite block_len; auto). rewrite Hc. okeq; apply map_seq_ext; intros i _. apply rsum_ext. intros n Hn.
  rewrite block_nth by exact Hn. reflexivity.
Qed.
Lemma unit_col (m : rmat) l k : cols m = k -> (l < k)%nat -> dotv m (upd l 1 (repeat 0 k)) = Ok (map (fun i => ent m i l) (seq 0 (rows m))).
Proof.
  intros Hc Hl. rewrite dotv_R by (rewrite upd_length, repeat_length; exact Hc). okeq; apply map_seq_ext; intros i _. rewrite Hc.
  rewrite (rsum_ext k _ (fun j => if Nat.eqb j l then ent m i j else 0)); [now rewrite (Optimal.rsum_single k (fun j => ent m i j))|].
  intros j Hj. rewrite nth_upd, repeat_length, nth_repeat, (Nat.eqb_sym l j). destruct (Nat.ltb_spec j k); [|lia]. destruct (Nat.eqb j l); cbn [andb]; ring.
Qed.
Lemma resp_held m t : (m < M)%nat -> 0 < t -> exists w, dc_impulse_response d m (if Nat.ltb own m then p + t + T else p + t) = Ok w /\
  dotv_opt (aG S) w = Ok (map (fun n => gent S n m * held d own m (p + t)) (seq 0 N)).
Proof.
  intros Hm Ht. destruct (fi_w _ _ FI) as [Lr Hw]. assert (EM := fi_M _ _ FI). assert (VG := v_G _ V). assert (NG := fi_G _ _ FI). unfold gent, held.
  assert (Z : forall w, (forall j, (j < M)%nat -> nth j w 0 = 0) -> length w = M -> dotv_opt (aG S) w = Ok (map (fun n => gent S n m * 0) (seq 0 N))).
  { intros w Hz Lw. unfold gent, sM in *. destruct (aG S) as [g|]; [|congruence]. cbn [dotv_opt]. rewrite dotv_R by auto. rewrite VG. okeq; apply map_seq_ext; intros i _. rewrite rsum_zero; [ring|]. intros j Hj. rewrite Hz by exact Hj. ring. }
  destruct (Nat.ltb_spec own m) as [Hl|Hl].
  - destruct (Nat.leb_spec m own); [lia|]. cbn [andb]. exists (repeat 0 (d_M d)). split.
    + unfold dc_impulse_response. rewrite (Rle_bool_false _ T) by lra. rewrite andb_false_r. reflexivity.
    + apply Z; [intros; apply nth_repeat|now rewrite repeat_length].
  - destruct (Nat.leb_spec m own); [|lia]. cbn [andb]. case Rle_bool_spec; intros Hle.
    + rewrite impulse_ok by ((split; assumption) || lia || lra). eexists. split; [reflexivity|]. unfold sM in *. destruct (aG S) as [g|]; [|congruence]. cbn [dotv_opt].
      rewrite dotv_R by (rewrite map_length, seq_length; auto). rewrite VG. okeq; apply map_seq_ext; intros i _.
      rewrite (rsum_ext _ _ (fun k => if Nat.eqb k m then ent g i k * wave d m (p + t) else 0)); [now rewrite IntegratorsProofs.rsum_single|].
      intros k Hk. rewrite nth_seq_R by (rewrite EM; exact Hk). destruct (Nat.eqb k m); ring.
    + exists (repeat 0 (d_M d)). split.
      * unfold dc_impulse_response. rewrite (Rle_bool_false _ T) by lra. rewrite andb_false_r. reflexivity.
      * apply Z; [intros; apply nth_repeat|now rewrite repeat_length].
Qed.

Definition du (x : list R) (l n : nat) : R := rsum N (fun k => ent (aA S) n k * psi x l k) + ent (aB S) n l.
Definition ds (t : R) (x : list R) (m n : nat) : R := rsum N (fun k => ent (aA S) n k * psi x (m + L) k) + gent S n m * held d own m (p + t).
Definition dh (E : rmat) (x : list R) (n : nat) : R := rsum (sNt S) (fun r => out x (own + L) r * rsum N (fun k => ent (aCT S) r k * ent E k n)).
Definition dq (x : list R) (j : nat) : R := rsum (sNt S) (fun r => out x (own + L) r * out x j r).

Lemma rhs_inv t x v : 0 < t < T -> length x = D -> global_rhs expm S d p mt (p + t) x = Ok v -> exists E, expm (aA S) t = Ok E /\
  v = concat (map (fun l => map (du x l) (seq 0 N)) (seq 0 L)) ++ concat (map (fun m => map (ds t x m) (seq 0 N)) (seq 0 M)) ++ map (dh E x) (seq 0 N) ++
      map (fun l => dq x l) (seq 0 L) ++ map (fun m => dq x (m + L)) (seq 0 M).
Proof.
  intros Ht Hx H. unfold global_rhs in H. assert (CA := v_A _ V). assert (CC := v_CT _ V). 
  rewrite dot_block in H by (auto; lia). cbn [bind] in H.
  rewrite (mapM_all _ _ (fun l => map (du x l) (seq 0 N))) in H.
  2:{ intros l Hl. apply in_seq in Hl. rewrite dot_block by (auto; lia). cbn [bind]. unfold zero_order_hold. rewrite Rle_bool_true, Rlt_bool_true by lra. cbn [andb]. rewrite unit_col by (auto; lia). cbn [bind].
      rewrite (v_B _ V). fold N. unfold rvadd. rewrite vadd_seq. reflexivity. }
  cbn [bind] in H. rewrite (mapM_all _ _ (fun m => map (ds t x m) (seq 0 N))) in H.
  2:{ intros m Hm. apply in_seq in Hm. destruct (resp_held m t) as (w & E1 & E2); [lia|lra|]. rewrite E1. cbn [bind]. rewrite dot_block by (auto; lia). cbn [bind]. rewrite E2. cbn [bind]. fold N. unfold rvadd. rewrite vadd_seq. reflexivity. }
  cbn [bind] in H. replace (p + t - p) with t in H by ring. apply bind_Ok in H as (E & EE & H). exists E. split; [exact EE|]. apply HE in EE as (RE & CE & _); [|lra].
  unfold dotm in H. rewrite CC, RE, Nat.eqb_refl in H. cbn [bind] in H. rewrite dotv_R in H by (cbn; now rewrite map_length, seq_length). cbn [bind tr rows cols ent] in H.
  rewrite CE in H. fold N in H.
  assert (IN : forall j, (j < L + M)%nat -> bind (dotv (aCT S) (block N x j)) (fun y => inner (map (fun i => rsum N (fun n => ent (aCT S) i n * psi x (own + L) n)) (seq 0 (rows (aCT S)))) y) = Ok (dq x j)).
  { intros j Hj. rewrite dot_block by (auto; lia). cbn [bind]. unfold inner. rewrite !map_length, !seq_length, Nat.eqb_refl, fold_map2_rsum. reflexivity. }
  rewrite (mapM_all _ _ (fun l => dq x l)) in H by (intros l Hl; apply in_seq in Hl; apply IN; lia). cbn [bind] in H.
  rewrite (mapM_all _ _ (fun m => dq x (m + L))) in H by (intros m Hm; apply in_seq in Hm; apply IN; lia). cbn [bind] in H.
  apply Ok_inj in H. subst v. do 3 f_equal. 
  apply map_seq_ext. intros n Hn. unfold dh, out. apply rsum_ext. intros r Hr. rewrite nth_seq_R by exact Hr. rewrite ksum_rsum. apply Rmult_comm.
Qed.

(** *** The parts of the solution *)
Section Solution.
Variable y : R -> list R.
Hypothesis HY : solves_pw (fun t => global_rhs expm S d p mt (p + t)) T (repeat 0 D) y.
Local Notation A := (ent (aA S)).
Local Notation mx := (mexp (sN S) (ent (aA S))).

Lemma y_len t : 0 <= t <= T -> length (y t) = D.
Proof. intros Ht. destruct HY as (_ & H & _). rewrite H by exact Ht. apply repeat_length. Qed.
Lemma y_zero i : nth i (y 0) 0 = 0.
Proof. destruct HY as (H & _). rewrite H. apply nth_repeat. Qed.
Lemma y_cont i t : 0 <= t <= T -> continuity_pt (fun s => nth i (y s) 0) t.
Proof. destruct HY as (_ & _ & H & _). apply H. Qed.
Lemma y_deriv : exists ex, forall t, 0 < t < T -> ~ In t ex -> exists E, expm (aA S) t = Ok E /\
  (forall l n, (l < L)%nat -> (n < N)%nat -> derivable_pt_lim (fun s => psi (y s) l n) t (du (y t) l n)) /\
  (forall m n, (m < M)%nat -> (n < N)%nat -> derivable_pt_lim (fun s => psi (y s) (m + L) n) t (ds t (y t) m n)) /\
  (forall n, (n < N)%nat -> derivable_pt_lim (fun s => nth (off + n) (y s) 0) t (dh E (y t) n)) /\
  (forall l, (l < L)%nat -> derivable_pt_lim (fun s => nth (off + N + l) (y s) 0) t (dq (y t) l)) /\
  (forall m, (m < M)%nat -> derivable_pt_lim (fun s => nth (off + N + L + m) (y s) 0) t (dq (y t) (m + L))).
Proof.
  destruct HY as (_ & _ & _ & ex & H). exists ex. intros t Ht Hi. destruct (H t Ht Hi) as (v & Ev & Lv & Dv). rewrite repeat_length in Dv.
  destruct (rhs_inv t (y t) v Ht (y_len t ltac:(lra)) Ev) as (E & EE & ->). exists E. split; [exact EE|]. clear H Ev Lv.
  rewrite app_assoc, <- concat_app in Dv. set (bl := map (fun l => map (du (y t) l) (seq 0 N)) (seq 0 L) ++ map (fun m => map (ds t (y t) m) (seq 0 N)) (seq 0 M)) in Dv.
  assert (LB : forall b, In b bl -> length b = N).
  { intros b Hb. apply in_app_or in Hb as [Hb|Hb]; apply in_map_iff in Hb as (i & <- & _); now rewrite map_length, seq_length. }
  assert (Lbl : length bl = (L + M)%nat) by (unfold bl; now rewrite app_length, !map_length, !seq_length).
  assert (LC : length (concat bl) = off) by (rewrite (concat_len N) by exact LB; rewrite Lbl; lia).
  assert (BN : forall j n, (j < L + M)%nat -> (n < N)%nat -> derivable_pt_lim (fun s => psi (y s) j n) t (nth n (nth j bl []) 0)).
  { intros j n Hj Hn. unfold psi. rewrite <- (nth_blocks N bl j n 0 LB) by lia. assert (X : (j * N + n < off)%nat) by nia. specialize (Dv (j * N + n)%nat ltac:(lia)). rewrite app_nth1 in Dv by lia. exact Dv. }
  split; [|split; [|split; [|split]]].
  - intros l n Hl Hn. specialize (BN l n ltac:(lia) Hn). unfold bl in BN. rewrite app_nth1 in BN by (rewrite map_length, seq_length; lia).
    rewrite (nth_indep _ [] (map (du (y t) 0) (seq 0 N))) in BN by (rewrite map_length, seq_length; lia). rewrite (map_nth (fun l => map (du (y t) l) (seq 0 N)) (seq 0 L) 0%nat), seq_nth in BN by exact Hl. rewrite nth_seq_R in BN by exact Hn. exact BN.
  - intros m n Hm Hn. specialize (BN (m + L)%nat n ltac:(lia) Hn). unfold bl in BN. rewrite app_nth2 in BN by (rewrite map_length, seq_length; lia).
    rewrite map_length, seq_length in BN. replace (m + L - L)%nat with m in BN by lia.
    rewrite (nth_indep _ [] (map (ds t (y t) 0) (seq 0 N))) in BN by (rewrite map_length, seq_length; lia). rewrite (map_nth (fun m => map (ds t (y t) m) (seq 0 N)) (seq 0 M) 0%nat), seq_nth in BN by exact Hm. rewrite nth_seq_R in BN by exact Hn. exact BN.
  - intros n Hn. specialize (Dv (off + n)%nat ltac:(lia)). rewrite app_nth2, LC in Dv by lia. replace (off + n - off)%nat with n in Dv by lia. rewrite app_nth1 in Dv by (rewrite map_length, seq_length; lia). rewrite nth_seq_R in Dv by exact Hn. exact Dv.
  - intros l Hl. specialize (Dv (off + N + l)%nat ltac:(lia)). rewrite app_nth2, LC in Dv by lia. replace (off + N + l - off)%nat with (N + l)%nat in Dv by lia. rewrite app_nth2 in Dv by (rewrite map_length, seq_length; lia).
    rewrite map_length, seq_length in Dv. replace (N + l - N)%nat with l in Dv by lia. rewrite app_nth1 in Dv by (rewrite map_length, seq_length; lia). rewrite nth_seq_R in Dv by exact Hl. exact Dv.
  - intros m Hm. specialize (Dv (off + N + L + m)%nat ltac:(lia)). rewrite app_nth2, LC in Dv by lia. replace (off + N + L + m - off)%nat with (N + (L + m))%nat in Dv by lia. rewrite app_nth2 in Dv by (rewrite map_length, seq_length; lia).
    rewrite map_length, seq_length in Dv. replace (N + (L + m) - N)%nat with (L + m)%nat in Dv by lia. rewrite app_nth2 in Dv by (rewrite map_length, seq_length; lia). rewrite map_length, seq_length in Dv. replace (L + m - L)%nat with m in Dv by lia.
    rewrite nth_seq_R in Dv by exact Hm. exact Dv.
Qed.
Lemma in_sol l : (l < L)%nat -> sol N A T (fun n _ => ent (aB S) n l) (fun n t => psi (y t) l n).
Proof. intros Hl. split; [intros; apply y_cont; assumption|]. destruct y_deriv as (ex & H). exists ex. intros n t Hn Ht Hi. destruct (H t Ht Hi) as (E & _ & X & _). now apply X. Qed.
Lemma ctl_sol m : (m < M)%nat -> sol N A T (fun n t => gent S n m * held d own m (p + t)) (fun n t => psi (y t) (m + L) n).
Proof. intros Hm. split; [intros; apply y_cont; assumption|]. destruct y_deriv as (ex & H). exists ex. intros n t Hn Ht Hi. destruct (H t Ht Hi) as (E & _ & _ & X & _). now apply X. Qed.
Lemma mx_sol T' j : (j < N)%nat -> sol N A T' (fun _ _ => 0) (fun i t => mx i j t).
Proof. intros Hj. split; [intros; now apply mexp_cont|]. exists []. intros n t Hn _ _. rewrite Rplus_0_r. now apply mexp_deriv. Qed.
Lemma expm_mx t E i j : 0 <= t -> expm (aA S) t = Ok E -> (i < N)%nat -> (j < N)%nat -> ent E i j = mx i j t.
Proof.
  intros Ht EE Hi Hj. apply HE in EE; [|exact Ht]. destruct (flow_sol N t (aA S) E eq_refl (v_A _ V) EE (map (unit_vec j) (seq 0 N))) as (z & Z1 & Z2 & Z3); [now rewrite map_length, seq_length|].
  rewrite <- (unique N A t (fun _ _ => 0) z (fun i t => mx i j t) Z1 (mx_sol t j Hj)); [|intros n Hn; rewrite Z2, nth_seq_R by exact Hn; rewrite mexp_0; reflexivity|exact Hi|lra].
  rewrite Z3 by exact Hi. rewrite (rsum_ext N _ (fun k => if Nat.eqb k j then ent E i k else 0)); [now rewrite (Optimal.rsum_single N (fun k => ent E i k))|].
  intros k Hk. rewrite nth_seq_R by exact Hk. unfold unit_vec. destruct (Nat.eqb k j); ring.
Qed.
(** the integrals *)
Lemma h_pw n : (n < N)%nat -> pw T (fun t => nth (off + n) (y t) 0) (fun t => rsum (sNt S) (fun r => out (y t) (own + L) r * rsum N (fun k => ent (aCT S) r k * mx k n t))).
Proof.
  intros Hn. split; [intros; apply y_cont; assumption|]. destruct y_deriv as (ex & H). exists ex. intros t Ht Hi. destruct (H t Ht Hi) as (E & EE & _ & _ & X & _). specialize (X n Hn). unfold dh in X.
  rewrite (rsum_ext (sNt S) _ (fun r => out (y t) (own + L) r * rsum N (fun k => ent (aCT S) r k * ent E k n))); [exact X|]. intros r _. f_equal. apply rsum_ext. intros k Hk. now rewrite (expm_mx t E k n) by (auto; lra).
Qed.
Lemma q_pw j : (j < L + M)%nat -> pw T (fun t => nth (off + N + j) (y t) 0) (fun t => dq (y t) j).
Proof.
  intros Hj. split; [intros; apply y_cont; assumption|]. destruct y_deriv as (ex & H). exists ex. intros t Ht Hi. destruct (H t Ht Hi) as (E & _ & _ & _ & _ & X1 & X2).
  destruct (Nat.lt_ge_cases j L) as [Hl|Hl]; [now apply X1|]. specialize (X2 (j - L)%nat ltac:(lia)). replace (off + N + L + (j - L))%nat with (off + N + j)%nat in X2 by lia. replace (j - L + L)%nat with j in X2 by lia. exact X2.
Qed.

(** *** Trajectories *)
Variables (x0 u a : nat -> R) (x : nat -> R -> R).
Hypothesis HX : one_period S T p (held d own) x0 u a x.
Lemma traj n t : (n < N)%nat -> 0 <= t <= T -> x n t = rsum N (fun j => x0 j * mx n j t) + rsum L (fun l => u l * psi (y t) l n) + rsum M (fun m => a m * psi (y t) (m + L) n).
Proof.
  intros Hn Ht. destruct HX as [X1 X2].
  assert (S1 := sol_sum N A T N x0 (fun _ _ _ => 0) (fun j n t => mx n j t) (fun j Hj => mx_sol T j Hj)).
  assert (S2 := sol_sum N A T L u (fun l n _ => ent (aB S) n l) (fun l n t => psi (y t) l n) in_sol).
  assert (S3 := sol_sum N A T M a (fun m n t => gent S n m * held d own m (p + t)) (fun m n t => psi (y t) (m + L) n) ctl_sol).
  assert (S4 := sol_comb N A T 1 _ _ _ _ (sol_comb N A T 1 _ _ _ _ S1 S2) S3). cbv beta in S4.
  rewrite (unique N A T _ x (fun n t => rsum N (fun j => x0 j * mx n j t) + 1 * rsum L (fun l => u l * psi (y t) l n) + 1 * rsum M (fun m => a m * psi (y t) (m + L) n)) X1 ) with (n := n) (t := t); auto; [ring| |].
  - eapply sol_ext; [|exact S4]. intros i s Hi Hs. cbv beta. rewrite (rsum_zero N) by (intros; ring). rewrite !Rmult_1_l, Rplus_0_l. f_equal; apply rsum_ext; intros; ring.
  - intros i Hi. rewrite X2 by exact Hi. rewrite (rsum_zero L), (rsum_zero M) by (intros; unfold psi; rewrite y_zero; ring).
    rewrite (rsum_ext N _ (fun j => if Nat.eqb j i then x0 j else 0)); [rewrite (Optimal.rsum_single N x0) by exact Hi; ring|]. intros j Hj. rewrite mexp_0, (Nat.eqb_sym i j). destruct (Nat.eqb j i); ring.
Qed.

Lemma traj_out t r : 0 <= t <= T -> rsum N (fun n => ent (aCT S) r n * x n t) =
  rsum N (fun j => x0 j * rsum N (fun k => ent (aCT S) r k * mx k j t)) + rsum L (fun l => u l * out (y t) l r) + rsum M (fun m => a m * out (y t) (m + L) r).
Proof.
  intros Ht. rewrite (rsum_ext N _ (fun n => rsum N (fun j => x0 j * (ent (aCT S) r n * mx n j t)) + rsum L (fun l => u l * (ent (aCT S) r n * psi (y t) l n)) + rsum M (fun m => a m * (ent (aCT S) r n * psi (y t) (m + L) n)))).
  - rewrite !rsum_add. rewrite (rsum_swap N N), (rsum_swap N L), (rsum_swap N M). unfold out. f_equal; [f_equal|]; apply rsum_ext; intros; now rewrite rsum_scale.
  - intros n Hn. rewrite (traj n t Hn Ht), !Rmult_plus_distr_l, <- !rsum_scale. f_equal; [f_equal|]; apply rsum_ext; intros; ring.
Qed.
(** the quadratures of the solution are the inner products of the response of the own control with the output *)
Lemma cross_pw : pw T (fun t => rsum N (fun j => x0 j * nth (off + j) (y t) 0) + rsum L (fun l => u l * nth (off + N + l) (y t) 0) + rsum M (fun m => a m * nth (off + N + (m + L)) (y t) 0))
  (fun t => rsum (sNt S) (fun r => out (y t) (own + L) r * rsum N (fun n => ent (aCT S) r n * x n t))).
Proof.
  assert (P1 := pw_sum T N (fun j t => x0 j * nth (off + j) (y t) 0) _ (fun j Hj => pw_scale T (x0 j) _ _ (h_pw j Hj))).
  assert (P2 := pw_sum T L (fun l t => u l * nth (off + N + l) (y t) 0) _ (fun l Hl => pw_scale T (u l) _ _ (q_pw l ltac:(lia)))).
  assert (P3 := pw_sum T M (fun m t => a m * nth (off + N + (m + L)) (y t) 0) _ (fun m Hm => pw_scale T (a m) _ _ (q_pw (m + L) ltac:(lia)))).
  eapply pw_ext; [intros t; reflexivity| |exact (pw_plus T _ _ _ _ (pw_plus T _ _ _ _ P1 P2) P3)]. intros t Ht. cbv beta.
  rewrite (rsum_ext (sNt S) _ (fun r => rsum N (fun j => x0 j * (out (y t) (own + L) r * rsum N (fun k => ent (aCT S) r k * mx k j t))) + rsum L (fun l => u l * (out (y t) (own + L) r * out (y t) l r)) + rsum M (fun m => a m * (out (y t) (own + L) r * out (y t) (m + L) r)))).
  - rewrite !rsum_add, (rsum_swap (sNt S) N), (rsum_swap (sNt S) L), (rsum_swap (sNt S) M). f_equal; [f_equal|]; apply rsum_ext; intros; unfold dq; now rewrite rsum_scale.
  - intros r _. rewrite (traj_out t r) by lra. rewrite !Rmult_plus_distr_l, <- !rsum_scale. f_equal; [f_equal|]; apply rsum_ext; intros; ring.
Qed.
End Solution.

(** the energy of the output as a function of the own control *)
Lemma energy_change y (HY : solves_pw (fun t => global_rhs expm S d p mt (p + t)) T (repeat 0 D) y) x0 u a a' x x' I I' :
  one_period S T p (held d own) x0 u a x -> one_period S T p (held d own) x0 u a' x' -> (forall m, m <> own -> a' m = a m) ->
  output_energy S T x I -> output_energy S T x' I' ->
  I' = I + 2 * (a' own - a own) * (rsum N (fun j => x0 j * nth (off + j) (y T) 0) + rsum L (fun l => u l * nth (off + N + l) (y T) 0) + rsum M (fun m => a m * nth (off + N + (m + L)) (y T) 0))
       + (a' own - a own) ^ 2 * nth (off + N + (own + L)) (y T) 0.
Proof.
  intros X X' Ha EI EI'. set (e := a' own - a own).
  assert (Ho : (own < M)%nat) by lia.
  assert (C1 := int_pw T _ _ (cross_pw y HY x0 u a x X)). assert (C2 := int_pw T _ _ (q_pw y HY (own + L) ltac:(lia))).
  cbv beta in C1, C2. rewrite !y_zero with (1 := HY) in C2. rewrite (rsum_zero N (fun j => x0 j * nth (off + j) (y 0) 0)), (rsum_zero L (fun l => u l * nth (off + N + l) (y 0) 0)), (rsum_zero M (fun m => a m * nth (off + N + (m + L)) (y 0) 0)) in C1
    by (intros; rewrite y_zero with (1 := HY); ring).
  assert (C3 := int_lin T _ _ 1 1 _ _ EI (int_lin T _ _ (2 * e) (e ^ 2) _ _ C1 C2)). cbv beta in C3.
  assert (C4 := fun H => int_ext T _ (fun t => rsum (sNt S) (fun r => Rsqr (rsum N (fun n => ent (aCT S) r n * x' n t)))) _ H C3). cbv beta in C4.
  rewrite (fun H => int_unique T _ _ _ HT EI' (C4 H)); [ring|]. clear C4.
  intros t Ht.
  cbv beta. rewrite Rmult_1_l, Rmult_1_l. unfold dq. rewrite <- !rsum_scale, <- !rsum_add. apply rsum_ext. intros r _.
  assert (O : rsum N (fun n => ent (aCT S) r n * x' n t) = rsum N (fun n => ent (aCT S) r n * x n t) + e * out (y t) (own + L) r).
  { rewrite (traj_out y HY x0 u a' x' X' t r), (traj_out y HY x0 u a x X t r) by lra. unfold e.
    rewrite (rsum_ext M (fun m => a' m * out (y t) (m + L) r) (fun m => a m * out (y t) (m + L) r + (if Nat.eqb m own then (a' m - a m) * out (y t) (m + L) r else 0))).
    - rewrite rsum_add, (Optimal.rsum_single M (fun m => (a' m - a m) * out (y t) (m + L) r)) by exact Ho. ring.
    - intros m _. destruct (Nat.eqb m own) eqn:E; [ring|]. apply Nat.eqb_neq in E. rewrite (Ha m E). ring. }
  rewrite O. unfold Rsqr. ring.
Qed.
Lemma q_nonneg y (HY : solves_pw (fun t => global_rhs expm S d p mt (p + t)) T (repeat 0 D) y) : 0 <= nth (off + N + (own + L)) (y T) 0.
Proof.
  assert (C2 := int_pw T _ _ (q_pw y HY (own + L) ltac:(lia))). cbv beta in C2. rewrite y_zero with (1 := HY) in C2. apply int_nonneg in C2; [lra|exact HT|].
  intros t _. unfold dq. apply rsum_nonneg. intros. apply Rle_0_sqr.
Qed.

(** trajectories and their energies exist *)
Lemma period_exists y (HY : solves_pw (fun t => global_rhs expm S d p mt (p + t)) T (repeat 0 D) y) x0 u a : exists x I, one_period S T p (held d own) x0 u a x /\ output_energy S T x I.
Proof.
  set (x := fun n t => rsum N (fun j => x0 j * mexp N (ent (aA S)) n j t) + 1 * rsum L (fun l => u l * psi (y t) l n) + 1 * rsum M (fun m => a m * psi (y t) (m + L) n)).
  assert (X : one_period S T p (held d own) x0 u a x).
  { assert (S1 := sol_sum N (ent (aA S)) T N x0 (fun _ _ _ => 0) (fun j n t => mexp N (ent (aA S)) n j t) (fun j Hj => mx_sol T j Hj)).
    assert (S2 := sol_sum N (ent (aA S)) T L u (fun l n _ => ent (aB S) n l) (fun l n t => psi (y t) l n) (in_sol y HY)).
    assert (S3 := sol_sum N (ent (aA S)) T M a (fun m n t => gent S n m * held d own m (p + t)) (fun m n t => psi (y t) (m + L) n) (ctl_sol y HY)).
    assert (S4 := sol_comb N (ent (aA S)) T 1 _ _ _ _ (sol_comb N (ent (aA S)) T 1 _ _ _ _ S1 S2) S3). cbv beta in S4. split.
    - eapply sol_ext; [|exact S4]. intros i s Hi Hs. cbv beta. rewrite (rsum_zero N) by (intros; ring). rewrite !Rmult_1_l, Rplus_0_l. f_equal; apply rsum_ext; intros; ring.
    - intros i Hi. unfold x. rewrite (rsum_zero L), (rsum_zero M) by (intros; unfold psi; rewrite y_zero with (1 := HY); ring).
      rewrite (rsum_ext N _ (fun j => if Nat.eqb j i then x0 j else 0)); [rewrite (Optimal.rsum_single N x0) by exact Hi; ring|]. intros j Hj. rewrite mexp_0, (Nat.eqb_sym i j). destruct (Nat.eqb j i); ring. }
  exists x. destruct (integral_cont T (fun t => rsum (sNt S) (fun r => Rsqr (rsum N (fun n => ent (aCT S) r n * x n t)))) HT) as (I & HI & _); [|now exists I].
  intros t Ht. apply (continuity_rsum (sNt S) (fun r t => Rsqr (rsum N (fun n => ent (aCT S) r n * x n t)))). intros r _. unfold Rsqr.
  assert (Z : continuity_pt (fun t => rsum N (fun n => ent (aCT S) r n * x n t)) t) by (apply (Optimal.rsum_cont N (fun n => ent (aCT S) r n) x); intros; now apply X).
  exact (continuity_pt_mult _ _ t Z Z).
Qed.

(** one row of the new control observation *)
Lemma row_ok ivp phi r : nth_error phi mt = Some p ->
  (forall y1, ivp (global_rhs expm S d p mt) p (p + T) (repeat 0 D) = Ok y1 -> endpoint (fun t => global_rhs expm S d p mt (p + t)) T (repeat 0 D) (Ok y1)) ->
  global_row ivp expm S d phi mt = Ok r -> exists Q, 0 < Q /\ length (fst (fst r)) = N /\ length (snd (fst r)) = L /\ length (snd r) = M /\ nth own (snd r) 0 = 0 /\
  (forall x0 u a, exists x I, one_period S T p (held d own) x0 u a x /\ output_energy S T x I) /\
  forall x0 u a a' x x' I I', one_period S T p (held d own) x0 u a x -> one_period S T p (held d own) x0 u a' x' -> (forall m, m <> own -> a' m = a m) ->
    output_energy S T x I -> output_energy S T x' I' ->
    let s := rsum N (fun n => nth n (fst (fst r)) 0 * x0 n) + rsum L (fun l => nth l (snd (fst r)) 0 * u l) + rsum M (fun m => nth m (snd r) 0 * a m) in
    I' - I = Q * (Rsqr (a' own - s) - Rsqr (a own - s)).
Proof.
  intros Hn Hi H. unfold global_row in H. rewrite Hn in H. apply bind_ok in H as (y1 & E1 & H). destruct (Hi _ E1) as (y & HY & EY). injection EY as ->.
  destruct (Req_bool_spec (nth (off + N + (own + L)) (y T) 0) 0) as [|HQ]; [discriminate|]. injection H as <-. cbn [fst snd].
  assert (Q0 := q_nonneg y HY). set (Q := nth (off + N + (own + L)) (y T) 0) in *. assert (Ho : (own < M)%nat) by lia.
  exists Q. split; [lra|]. rewrite !map_length, !seq_length. do 3 (split; [reflexivity|]). split; [rewrite nth_seq_R by exact Ho; now rewrite Nat.eqb_refl|].
  split; [intros; exact (period_exists y HY x0 u a)|]. intros x0 u a a' x x' I I' X X' Ha EI EI'. cbv zeta.
  rewrite (energy_change y HY x0 u a a' x x' I I' X X' Ha EI EI'). fold Q.
  set (h := rsum N (fun j => x0 j * nth (off + j) (y T) 0)). set (g := rsum L (fun l => u l * nth (off + N + l) (y T) 0)).
  replace (rsum N _) with (-1 / Q * h) by (unfold h; rewrite <- rsum_scale; apply rsum_ext; intros; rewrite nth_seq_R by assumption; ring).
  replace (rsum L _) with (-1 / Q * g) by (unfold g; rewrite <- rsum_scale; apply rsum_ext; intros; rewrite nth_seq_R by assumption; ring).
  set (f := rsum M (fun m => a m * nth (off + N + (m + L)) (y T) 0)).
  replace (rsum M _) with (-1 / Q * (f - a own * Q)).
  - unfold Rsqr. field. lra.
  - unfold f, Q. rewrite <- (Optimal.rsum_single M (fun m => a m * nth (off + N + (m + L)) (y T) 0) own Ho), <- rsum_minus, <- rsum_scale. fold Q. apply rsum_ext. intros m Hm.
    rewrite nth_seq_R by assumption. replace (off + N + (m + L))%nat with (off + N + L + m)%nat by lia. destruct (Nat.eqb m own); ring.
Qed.
End Row.

(** *** The whole table *)
Lemma nth_mapM {A B} (f : A -> result B) l rs i (a : A) (b : B) : mapM f l = Ok rs -> (i < length l)%nat -> f (nth i l a) = Ok (nth i rs b).
Proof.
  revert rs i. induction l as [|c l IH]; intros rs i H Hi; [cbn in Hi; lia|]. cbn [mapM] in H. apply bind_ok in H as (v & E1 & H). apply bind_ok in H as (vs & E2 & H). injection H as <-.
  destruct i as [|i]; [exact E1|]. cbn [nth]. apply IH; [exact E2|cbn in Hi; lia].
Qed.
Lemma mapM_length {A B} (f : A -> result B) l rs : mapM f l = Ok rs -> length rs = length l.
Proof.
  revert rs. induction l as [|c l IH]; intros rs H; [injection H as <-; reflexivity|]. cbn [mapM] in H. apply bind_ok in H as (v & E1 & H). apply bind_ok in H as (vs & E2 & H). injection H as <-. cbn [length]. now rewrite (IH vs E2).
Qed.
Theorem global_control ivp expm S d phi S' d' :
  fits S d -> 0 <= ck_T (d_clk d) -> (forall p, In p phi -> 0 <= p <= ck_T (d_clk d)) -> global_sound S d ivp expm phi -> get_global_control ivp expm S d phi = Ok (S', d') ->
  d' = d /\ aA S' = aA S /\ aB S' = aB S /\ aCT S' = aCT S /\ aG S' = aG S /\ aD S' = zeros (K := Rring) (sNt S) (sL S) /\ sMt S' = sMt S /\ valid S' /\
  forall mt, (mt < sMt S)%nat -> let own := (mt + (sM S - sMt S))%nat in exists p Q, nth_error phi mt = Some p /\ 0 < Q /\
    forall x0 u a : list R, length x0 = sN S -> length u = sL S -> length a = sM S -> exists s, control_observation S' x0 (Some u) (Some a) = Ok s /\ length s = sMt S /\
    forall v, exists sv, control_observation S' x0 (Some u) (Some (upd own v a)) = Ok sv /\ nth mt sv 0 = nth mt s 0 /\
      (exists x I, one_period S (ck_T (d_clk d)) p (held d own) (gv x0) (gv u) (gv (upd own v a)) x /\ output_energy S (ck_T (d_clk d)) x I) /\
      forall x x' I I', one_period S (ck_T (d_clk d)) p (held d own) (gv x0) (gv u) (gv a) x -> one_period S (ck_T (d_clk d)) p (held d own) (gv x0) (gv u) (gv (upd own v a)) x' ->
        output_energy S (ck_T (d_clk d)) x I -> output_energy S (ck_T (d_clk d)) x' I' -> I' - I = Q * (Rsqr (v - nth mt s 0) - Rsqr (gv a own - nth mt s 0)).
Proof.
  intros FI HT HP [GE GI] H. unfold get_global_control in H. destruct (Nat.ltb (sM S) (sMt S)) eqn:C1; [discriminate|]. destruct (Nat.eqb (sMt S) 0) eqn:C2; [discriminate|]. cbn [orb] in H.
  destruct (Nat.ltb (length phi) (sMt S)) eqn:C3; [discriminate|]. apply Nat.ltb_ge in C1, C3. apply Nat.eqb_neq in C2.
  apply bind_ok in H as (rs & ER & H). apply bind_ok in H as (S1 & ES & H). injection H as <- <-. split; [reflexivity|].
  assert (V := fi_valid _ _ FI). assert (Lr := mapM_length _ _ _ ER). rewrite seq_length in Lr.
  assert (VG := v_G _ V). assert (HG := fi_G _ _ FI). destruct (aG S) as [g|] eqn:EG; [|congruence]. assert (Mg : sM S = cols g) by (unfold sM; now rewrite EG).
  assert (VA : cols (aA S) = rows (aA S)) by exact (v_A _ V). assert (VB : rows (aB S) = rows (aA S)) by exact (v_B _ V). assert (VC : cols (aCT S) = rows (aA S)) by exact (v_CT _ V).
  unfold as_init in ES. cbn [option_map chk_gamma chk_gammat shape0] in ES. rewrite VG in ES. unfold sN in ES. rewrite Nat.eqb_refl in ES. cbn [negb bind table cols rows] in ES.
  rewrite Nat.eqb_refl in ES. cbn [negb bind] in ES. rewrite VA, Nat.eqb_refl in ES. cbn [negb bind as_column as_row] in ES. rewrite VB, VC, Nat.eqb_refl in ES.
  cbn [negb bind chk_opt shape0 rows cols] in ES. unfold table in ES. cbn [rows cols] in ES. rewrite !map_length, Nat.eqb_refl in ES. unfold sL in ES. rewrite Nat.eqb_refl in ES. cbn [negb bind] in ES.
  rewrite Mg, Nat.eqb_refl in ES. cbn [negb bind] in ES. rewrite Lr in ES. injection ES as <-. cbn [aA aB aCT aG aGt aD aBt aAt].
  set (S' := mkAS _ _ _ _ _ _ _ _). do 4 (split; [reflexivity|]). split; [reflexivity|]. split; [reflexivity|].
  assert (V' : valid S').
  { constructor; cbn; auto; try (split; reflexivity). }
  split; [exact V'|]. intros mt Hmt. set (own := (mt + (sM S - sMt S))%nat). assert (Ho : (own < sM S)%nat) by (unfold own; lia).
  destruct (nth_error phi mt) as [p|] eqn:Ep; [|apply nth_error_None in Ep; lia]. assert (Hp := HP p (nth_error_In _ _ Ep)).
  assert (Er : global_row ivp expm S d phi mt = Ok (nth mt rs ([], [], []))).
  { rewrite <- (nth_mapM _ _ _ mt 0%nat ([], [], []) ER) by (now rewrite seq_length). now rewrite seq_nth. }
  set (r := nth mt rs ([], [], [])) in *.
  destruct (row_ok S d expm p mt FI Hmt C1 HT Hp GE ivp phi r Ep (fun y1 => GI mt p y1 Hmt Ep) Er) as (Q & Q0 & R1 & R2 & R3 & R4 & RX & RI).
  exists p, Q. split; [reflexivity|]. split; [exact Q0|]. intros x0 u a Hx Hu Ha.
  assert (OB : forall a, length a = sM S -> exists s, control_observation S' x0 (Some u) (Some a) = Ok s /\ length s = sMt S /\
     nth mt s 0 = rsum (sN S) (fun n => nth n (fst (fst r)) 0 * gv x0 n) + rsum (sL S) (fun l => nth l (snd (fst r)) 0 * gv u l) + rsum (sM S) (fun m => nth m (snd r) 0 * gv a m)).
  { clear - V' Hx Hu Mg Hmt Lr. intros a Ha.
    assert (CO := control_observation_xus (K := Rring) S' x0 u a V'). 
    eexists. split; [apply CO; [discriminate|exact Hx|exact Hu|exact (eq_trans Ha Mg)]|]. unfold obs_x, obs_u, obs_s. rewrite !vadd_map. replace (sMt S') with (sMt S) by reflexivity. split; [now rewrite map_length, seq_length|].
    rewrite (nth_seq_R _ (sMt S) mt Hmt). cbv beta. unfold lino, lin. cbn [aGt aBt aAt S' ent cols]. rewrite !ksum_rsum. unfold gv.
    assert (Z : forall (f : list R * list R * list R -> list R) j, f ([], [], []) = [] -> nth j (nth mt (map f rs) []) 0 = nth j (f r) 0).
    { intros f j Hf. rewrite <- Hf at 1. now rewrite map_nth. }
    apply f_equal2; [apply f_equal2|].
    - apply rsum_ext. intros n Hn. cbv beta. rewrite (Z (fun r => fst (fst r))) by reflexivity. reflexivity.
    - apply rsum_ext. intros n Hn. cbv beta. rewrite (Z (fun r => snd (fst r))) by reflexivity. reflexivity.
    - rewrite <- Mg. apply rsum_ext. intros n Hn. cbv beta. rewrite (Z snd) by reflexivity. reflexivity. }
  destruct (OB a Ha) as (s & Es & Ls & Ns). exists s. split; [exact Es|]. split; [exact Ls|]. intros v.
  destruct (OB (upd own v a)) as (sv & Esv & Lsv & Nsv); [now rewrite upd_length|]. exists sv. split; [exact Esv|].
  split; [|split; [apply RX|]].
  - rewrite Ns, Nsv. f_equal. apply rsum_ext. intros m Hm. unfold gv. destruct (Nat.eq_dec m own) as [->|D]; [fold own in R4; rewrite R4; ring|]. now rewrite nth_upd_other by auto.
  - intros x x' I I' X X' EI EI'. rewrite Ns. rewrite (RI (gv x0) (gv u) (gv a) (gv (upd own v a)) x x' I I' X X'); [|intros m Dm; unfold gv; now rewrite nth_upd_other by auto|exact EI|exact EI'].
    unfold gv at 1. rewrite nth_upd_same by (rewrite Ha; exact Ho). reflexivity.
Qed.

(** *** inverse_state_trajectory *)
Record trajectory_sound (A : rmat) (T : R) (ivp : (R -> list R -> result (list R)) -> R -> R -> list R -> result (list R)) (expm : rmat -> R -> result rmat) (inv : rmat -> result rmat) : Prop := mkTS {
  ts_expm : forall (t : R) (E : rmat), 0 <= t -> expm A t = Ok E -> rows E = rows A /\ cols E = rows A /\
    forall x : list R, length x = rows A -> endpoint (fun _ y => dotv A y) t x (dotv E x);
  ts_ivp : forall y1, let f := fun (t : R) (_ : list R) => bind (expm A t) (fun E => Ok (flatten E)) in let y0 := repeat 0 (rows A * cols A) in
    ivp f 0 T y0 = Ok y1 -> endpoint f T y0 (Ok y1);
  ts_inv : forall M X, inv M = Ok X -> is_inverse M X /\ is_inverse X M }.
Section Trajectory.
Variables (A : rmat) (T : R) (ivp : (R -> list R -> result (list R)) -> R -> R -> list R -> result (list R)) (expm : rmat -> R -> result rmat) (inv : rmat -> result rmat).
Hypothesis SO : trajectory_sound A T ivp expm inv.
Hypothesis HT : 0 <= T.
Hypothesis Sq : cols A = rows A.
Local Notation N := (rows A).
Local Notation mx := (mexp (rows A) (ent A)).
Lemma tr_mx_sol T' j : (j < N)%nat -> sol N (ent A) T' (fun _ _ => 0) (fun i t => mx i j t).
Proof. intros Hj. split; [intros; now apply mexp_cont|]. exists []. intros n t Hn _ _. rewrite Rplus_0_r. now apply mexp_deriv. Qed.
Lemma tr_expm t E i j : 0 <= t -> expm A t = Ok E -> (i < N)%nat -> (j < N)%nat -> ent E i j = mx i j t.
Proof.
  intros Ht EE Hi Hj. apply (ts_expm _ _ _ _ _ SO) in EE; [|exact Ht]. destruct (flow_sol N t A E eq_refl Sq EE (map (unit_vec j) (seq 0 N))) as (z & Z1 & Z2 & Z3); [now rewrite map_length, seq_length|].
  rewrite <- (unique N (ent A) t (fun _ _ => 0) z (fun i t => mx i j t) Z1 (tr_mx_sol t j Hj)); [|intros n Hn; rewrite Z2, nth_seq_R by exact Hn; rewrite mexp_0; reflexivity|exact Hi|lra].
  rewrite Z3 by exact Hi. rewrite (rsum_ext N _ (fun k => if Nat.eqb k j then ent E i k else 0)); [now rewrite (Optimal.rsum_single N (fun k => ent E i k))|].
  intros k Hk. rewrite nth_seq_R by exact Hk. unfold unit_vec. destruct (Nat.eqb k j); ring.
Qed.
Lemma tr_flatten (m : rmat) i j : (i < rows m)%nat -> (j < cols m)%nat -> nth (i * cols m + j) (flatten m) 0 = ent m i j.
Proof.
  intros Hi Hj. unfold flatten. rewrite flat_map_concat_map, (nth_blocks (cols m)); [| |now rewrite map_length, seq_length|exact Hj].
  - rewrite (nth_indep _ [] (map (fun j => ent m 0 j) (seq 0 (cols m)))) by (now rewrite map_length, seq_length). rewrite (map_nth (fun i => map (fun j => ent m i j) (seq 0 (cols m))) (seq 0 (rows m)) 0%nat), seq_nth by exact Hi. now rewrite nth_seq_R by exact Hj.
  - intros b Hb. apply in_map_iff in Hb as (k & <- & _). now rewrite map_length, seq_length.
Qed.
Lemma tr_integral res X x : inverse_state_trajectory ivp expm inv A T = Ok (res, X) -> sol N (ent A) T (fun _ _ => 0) x ->
  forall i, (i < N)%nat -> integral T (x i) (rsum N (fun j => ent res i j * x j 0)).
Proof.
  intros H Hx i Hi. unfold inverse_state_trajectory in H. apply bind_ok in H as (y1 & EY & H). apply bind_ok in H as (X' & EX & H). injection H as <- <-.
  destruct (ts_ivp _ _ _ _ _ SO y1 EY) as (y & HY & E1). injection E1 as ->. cbn [ent]. destruct HY as (Y0 & Y1 & Y2 & ex & Y3). rewrite repeat_length in Y3.
  assert (P : forall j, (j < N)%nat -> pw T (fun t => nth (i * N + j) (y t) 0) (fun t => mx i j t)).
  { intros j Hj. split; [intros; now apply Y2|]. exists ex. intros t Ht Hn. destruct (Y3 t Ht Hn) as (v & Ev & _ & D). apply bind_ok in Ev as (E & EE & Ev). injection Ev as <-.
    destruct (ts_expm _ _ _ _ _ SO t E ltac:(lra) EE) as (RE & CE & _). specialize (D (i * N + j)%nat). rewrite Sq in D. specialize (D ltac:(nia)).
    assert (F := tr_flatten E i j ltac:(now rewrite RE) ltac:(now rewrite CE)). rewrite CE in F. rewrite F in D. now rewrite (tr_expm t E i j) in D by (auto; lra). }
  assert (P2 := int_pw T _ _ (pw_sum T N (fun j t => x j 0 * nth (i * N + j) (y t) 0) _ (fun j Hj => pw_scale T (x j 0) _ _ (P j Hj)))). cbv beta in P2.
  rewrite (rsum_zero N (fun j => x j 0 * nth (i * N + j) (y 0) 0)) in P2 by (intros; rewrite Y0, nth_repeat; ring). rewrite Sq.
  rewrite (rsum_ext N (fun j => nth (i * N + j) (y T) 0 * x j 0) (fun j => x j 0 * nth (i * N + j) (y T) 0)) by (intros; ring).
  rewrite Rminus_0_r in P2. refine (int_ext T _ _ _ _ P2). intros t Ht.
  assert (S1 := sol_sum N (ent A) T N (fun j => x j 0) (fun _ _ _ => 0) (fun j n t => mx n j t) (fun j Hj => tr_mx_sol T j Hj)). cbv beta in S1.
  assert (S2 : sol N (ent A) T (fun _ _ => 0) (fun n t => rsum N (fun j => x j 0 * mx n j t))) by (eapply sol_ext; [|exact S1]; intros; cbv beta; rewrite (rsum_zero N) by (intros; ring); reflexivity).
  symmetry. refine (unique N (ent A) T _ x _ Hx S2 _ i t Hi ltac:(lra)). intros n Hn. cbv beta.
  rewrite (rsum_ext N _ (fun j => if Nat.eqb j n then x j 0 else 0)); [now rewrite (Optimal.rsum_single N (fun j => x j 0))|]. intros j Hj. rewrite mexp_0, (Nat.eqb_sym n j). destruct (Nat.eqb j n); ring.
Qed.
Theorem inverse_trajectory res X : inverse_state_trajectory ivp expm inv A T = Ok (res, X) ->
  rows res = N /\ cols res = N /\ rows X = N /\ cols X = N /\
  (forall x, sol N (ent A) T (fun _ _ => 0) x -> forall v, (forall i, (i < N)%nat -> integral T (x i) (v i)) ->
     (forall i, (i < N)%nat -> v i = rsum N (fun j => ent res i j * x j 0)) /\ (forall i, (i < N)%nat -> x i 0 = rsum N (fun j => ent X i j * v j))) /\
  forall v, exists x, sol N (ent A) T (fun _ _ => 0) x /\ (forall i, (i < N)%nat -> x i 0 = rsum N (fun j => ent X i j * v j)) /\ forall i, (i < N)%nat -> integral T (x i) (v i).
Proof.
  intros H. assert (TI := fun x => tr_integral res X x H). unfold inverse_state_trajectory in H. apply bind_ok in H as (y1 & EY & H). apply bind_ok in H as (X' & EX & H).
  assert (RR : rows res = N /\ cols res = N) by (injection H as <- <-; cbn; auto). assert (IX : inv res = Ok X) by (injection H as <- <-; exact EX). clear H EX EY.
  destruct RR as [RR RC]. destruct (ts_inv _ _ _ _ _ SO _ _ IX) as [(I1 & I2 & I3) (J1 & J2 & J3)]. rewrite RC in I1. rewrite RR in I2, I3. rewrite RC in I3. rewrite I1, I2 in J3.
  do 4 (split; [assumption|]). split.
  - intros x Hx v Hv. assert (E : forall i, (i < N)%nat -> v i = rsum N (fun j => ent res i j * x j 0)) by (intros i Hi; exact (int_unique T _ _ _ HT (Hv i Hi) (TI x Hx i Hi))).
    split; [exact E|]. intros i Hi. rewrite (rsum_ext N (fun j => ent X i j * v j) (fun j => ent X i j * rsum N (fun k => ent res j k * x k 0))) by (intros j Hj; now rewrite E).
    rewrite <- (rsum_comp N N (ent X) (ent res) (fun k => x k 0) i). rewrite (rsum_ext N _ (fun j => if Nat.eqb j i then x j 0 else 0)); [now rewrite (Optimal.rsum_single N (fun j => x j 0))|].
    intros j Hj. rewrite (J3 i j Hi Hj), (Nat.eqb_sym i j). destruct (Nat.eqb j i); ring.
  - intros v. set (x0 := fun i => rsum N (fun j => ent X i j * v j)).
    assert (S1 := sol_sum N (ent A) T N x0 (fun _ _ _ => 0) (fun j n t => mx n j t) (fun j Hj => tr_mx_sol T j Hj)). cbv beta in S1.
    exists (fun n t => rsum N (fun j => x0 j * mx n j t)).
    assert (S2 : sol N (ent A) T (fun _ _ => 0) (fun n t => rsum N (fun j => x0 j * mx n j t))) by (eapply sol_ext; [|exact S1]; intros; cbv beta; rewrite (rsum_zero N) by (intros; ring); reflexivity).
    assert (Z : forall n, (n < N)%nat -> rsum N (fun j => x0 j * mx n j 0) = x0 n).
    { intros n Hn. rewrite (rsum_ext N _ (fun j => if Nat.eqb j n then x0 j else 0)); [now rewrite (Optimal.rsum_single N x0)|]. intros j Hj. rewrite mexp_0, (Nat.eqb_sym n j). destruct (Nat.eqb j n); ring. }
    split; [exact S2|]. split; [exact Z|]. intros i Hi. specialize (TI _ S2 i Hi). cbv beta in TI.
    replace (v i) with (rsum N (fun j => ent res i j * rsum N (fun k => x0 k * mx j k 0))); [exact TI|].
    rewrite (rsum_ext N _ (fun j => ent res i j * x0 j)) by (intros j Hj; now rewrite Z). unfold x0. rewrite <- (rsum_comp N N (ent res) (ent X) v i).
    rewrite (rsum_ext N _ (fun j => if Nat.eqb j i then v j else 0)); [now rewrite (Optimal.rsum_single N v)|]. intros j Hj. rewrite (I3 i j Hi Hj), (Nat.eqb_sym i j). destruct (Nat.eqb j i); ring.
Qed.
End Trajectory.
