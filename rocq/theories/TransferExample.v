(** Systems for the examples and refutations about transfer functions: chains without feedback, A = 0. *)
From Coq Require Import List Arith Lia Bool Reals Lra ZArith.
From Flocq Require Import Core.
From Coquelicot Require Import Complex.
From Verif Require Import Base LinAlg FirExtras AnalogSystem AnalogProofs Zpk Integrators Fom IntegratorsProofs LinearOde FilterCoeff FilterCoeffProofs FilterOde TransferFn CplxLin TransferProofs
  TransferExtra BudgetProofs FreqProofs.
Import ListNotations.
Open Scope R_scope.
Open Scope C_scope.

(** one output: v = G^H y / (|G|^2 + eta2) *)
Lemma rls_row n (G : nat -> nat -> C) eta2 y v : (0 < eta2)%R -> rls 1 n G eta2 y v ->
  forall l, (l < n)%nat -> v l = Cconj (G O l) * y O / RtoC (nrm2 n (G O) + eta2).
Proof.
  intros He H l Hl. apply (rls_unique 1 n G eta2 y v (fun l => Cconj (G O l) * y O / RtoC (nrm2 n (G O) + eta2)) He H); [|exact Hl]. clear l Hl. intros l Hl.
  assert (Hn := nrm2_nonneg n (G O)). assert (Z : RtoC (nrm2 n (G O) + eta2) <> RtoC 0) by (intros X; apply RtoC_eq in X; lra).
  unfold cap at 1 3. rewrite !csum1. unfold adj.
  assert (E : cap n G (fun l => Cconj (G O l) * y O / RtoC (nrm2 n (G O) + eta2)) O = y O / RtoC (nrm2 n (G O) + eta2) * RtoC (nrm2 n (G O))).
  { rewrite <- cdot_self. unfold cap, cdot. rewrite <- csum_scale. apply csum_ext. intros j _. unfold Cdiv. ring. }
  rewrite E. rewrite RtoC_plus in *. field. exact Z.
Qed.

(** *** A = 0 *)
Definition flat (N Nt L : nat) (B CT D : nat -> nat -> R) (g : option rmat) : asys Rring :=
  mkAS (K := Rring) (@zeros Rring N N) (@mk2 Rring N L B) (@mk2 Rring Nt N CT) g None (@mk2 Rring Nt L D) (@zeros Rring 0 L)
    (@zeros Rring 0 (match g with Some g => cols g | None => O end)).
Definition nil2 (_ _ : nat) : R := 0%R.

Section Flat.
Variables (N Nt L : nat) (B CT D : nat -> nat -> R) (g : option rmat) (w : R).
Hypothesis Hw : w <> 0%R.
Hypothesis Hg : match g with Some g => rows g = N | None => True end.
Let S := flat N Nt L B CT D g.

Lemma flat_valid : valid S.
Proof. constructor; try reflexivity; try (split; reflexivity); exact Hg. Qed.
Lemma jw : (0, w)%R <> RtoC 0.
Proof. intros X. apply (f_equal snd) in X. cbn in X. contradiction. Qed.
Lemma flat_phasor u h x : phasor S w u h x <-> forall i, (i < N)%nat -> x i = (cap L (fun i l => RtoC (B i l)) u i + h i) / (0, w)%R.
Proof.
  assert (E : forall i, cap N (ce (aA S)) x i = RtoC 0) by (intros i; apply csum_zero; intros; unfold ce; cbn; ring).
  split; intros H i Hi; specialize (H i Hi).
  - change (sN S) with N in H. change (sL S) with L in H. rewrite E in H. change (cap L (ce (aB S)) u i) with (cap L (fun i l => RtoC (B i l)) u i) in H.
    transitivity ((0, w)%R * x i / (0, w)%R); [field; exact jw|]. rewrite H. field. exact jw.
  - change (sN S) with N. change (sL S) with L. rewrite E. change (cap L (ce (aB S)) u i) with (cap L (fun i l => RtoC (B i l)) u i). rewrite H. field. exact jw.
Qed.
Lemma flat_off : off_poles S w.
Proof.
  intros x H i Hi. assert (X := proj1 (flat_phasor none none x) H i Hi). rewrite X. unfold none. rewrite (cap_zero L) by reflexivity. field. exact jw.
Qed.
Lemma flat_G pinv : pinv_ok pinv N -> exists G, tfm pinv S false w = Ok G /\ rows G = Nt /\ cols G = L /\
  forall r l, (r < Nt)%nat -> (l < L)%nat -> cent G r l = RtoC (rsum N (fun i => CT r i * B i l)%R) / (0, w)%R + RtoC (D r l).
Proof.
  intros P. destruct (tfm_ok pinv S w flat_valid P flat_off) as (G & EG & G1 & G2 & Ex & HG). exists G. split; [exact EG|]. split; [exact G1|]. split; [exact G2|].
  intros r l Hr Hl. destruct (Ex (unit l)) as (x & Hx). assert (X := HG _ _ Hx r Hr). rewrite cap_unit in X by exact Hl. rewrite X. unfold outp. rewrite cap_unit by exact Hl. f_equal.
  change (sN S) with N. rewrite <- csum_R. rewrite (cap_ext N _ x (fun i => RtoC (B i l) / (0, w)%R)).
  - unfold cap. unfold Cdiv. rewrite Cmult_comm, <- csum_scale. apply csum_ext. intros i _. unfold ce. cbn [ent aCT S flat]. rewrite RtoC_mult. ring.
  - intros i Hi. rewrite (proj1 (flat_phasor _ _ _) Hx i Hi). rewrite cap_unit by exact Hl. unfold none. field. exact jw.
Qed.
Lemma flat_T pinv : pinv_ok pinv N -> exists T, tfm pinv S true w = Ok T /\ forall r n, (r < Nt)%nat -> (n < N)%nat -> cent T r n = RtoC (CT r n) / (0, w)%R.
Proof.
  intros P. destruct (tfm_general_ok pinv S w flat_valid P flat_off) as (T & ET & T1 & T2 & Ex & HT). exists T. split; [exact ET|].
  intros r n Hr Hn. destruct (Ex (unit n)) as (x & Hx). assert (X := HT _ _ Hx r Hr). rewrite cap_unit in X by exact Hn. rewrite X. change (sN S) with N.
  rewrite (cap_ext N _ x (fun i => / (0, w)%R * unit n i)).
  - rewrite cap_scale, cap_unit by exact Hn. unfold ce. cbn [ent aCT S flat]. unfold Cdiv. ring.
  - intros i Hi. rewrite (proj1 (flat_phasor _ _ _) Hx i Hi). rewrite (cap_zero L) by reflexivity. field. exact jw.
Qed.
End Flat.

Lemma Cmod_j (a : R) : Cmod (RtoC a / (0, 1)%R) = Rabs a.
Proof.
  rewrite Cmod_div by (apply jw; lra). rewrite Cmod_R. assert (E : Cmod (0, 1)%R = 1%R).
  { unfold Cmod. cbn [fst snd]. replace (0 ^ 2 + 1 ^ 2)%R with 1%R by ring. apply sqrt_1. }
  rewrite E. field.
Qed.

(** one output, w = 1, no direct term: the entries of general_transfer_function *)
Lemma flat_gtf N L B CT pinv eta2 : pinv_ok pinv N -> pinv_ok pinv 1 -> (0 < eta2)%R -> let S := flat N 1 L B CT nil2 None in
  let G l := rsum N (fun i => CT O i * B i l)%R in
  exists X, gtf pinv S eta2 1 = Ok X /\ forall l n, (l < L)%nat -> (n < N)%nat ->
    cent X l n = RtoC (Rabs (G l) / (rsum L (fun l => Rsqr (G l)) + eta2)) * (RtoC (CT O n) / (0, 1)%R).
Proof.
  intros PN P1 He S G. assert (H1 : (1 <> 0)%R) by lra. assert (V := flat_valid N 1 L B CT nil2 None Logic.I). assert (OP := flat_off N 1 L B CT nil2 None 1 H1).
  destruct (gtf_ok pinv S eta2 1 V PN P1 OP He) as (M & T & X & EM & ET & EX & _ & _ & X3). destruct (ntf_ok pinv S 1 V PN OP eta2 He P1) as (G' & M' & EG' & EM' & _ & _ & Ex & HM).
  rewrite EM in EM'. apply Ok_inj in EM'. subst M'. destruct (flat_G N 1 L B CT nil2 None 1 H1 Logic.I pinv PN) as (G2 & EG2 & _ & _ & HG). fold S in EG2. rewrite EG' in EG2. apply Ok_inj in EG2. subst G2.
  destruct (flat_T N 1 L B CT nil2 None 1 H1 Logic.I pinv PN) as (T2 & ET2 & HT). fold S in ET2. rewrite ET in ET2. apply Ok_inj in ET2. subst T2.
  exists X. split; [exact EX|]. intros l n Hl Hn. rewrite X3. change (sNt S) with 1%nat. rewrite csum1, HT by (try exact Hn; lia). f_equal.
  destruct (Ex (unit 0)) as (v & Hv). rewrite (HM O v ltac:(cbn; lia) Hv l Hl). f_equal. rewrite (rls_row _ _ _ _ _ He Hv l Hl). unfold unit. cbn [Nat.eqb].
  assert (GL : forall l, (l < L)%nat -> Cmod (cent G' 0 l) = Rabs (G l)).
  { intros k Hk. rewrite HG by (try exact Hk; lia). unfold nil2. rewrite Cplus_0_r. apply Cmod_j. }
  assert (EN : nrm2 L (cent G' 0) = rsum L (fun l => Rsqr (G l))) by (apply rsum_ext; intros k Hk; rewrite GL by exact Hk; symmetry; apply Rsqr_abs).
  change (sL S) with L. rewrite EN. assert (P : (0 <= rsum L (fun l => Rsqr (G l)))%R) by (apply rsum_nonneg; intros; apply Rle_0_sqr).
  rewrite Cmod_Rdiv by lra. rewrite Cmult_1_r, Cmod_conj, GL by exact Hl. reflexivity.
Qed.

Lemma geomspace_1 n a : In a (geomspace 1 1 n) -> a = 1%R.
Proof.
  intros H. apply in_map_iff in H as (k & <- & _). unfold Rpower. replace (1 / 1)%R with 1%R by field. rewrite ln_1, Rmult_0_r, exp_0. ring.
Qed.
Lemma logspace_1 n a : In a (logspace (ln 1) (ln 1) n) -> a = 1%R.
Proof.
  intros H. apply in_map_iff in H as (k & <- & _). rewrite ln_1. unfold Rpower. replace ((0 + (0 - 0) * (INR k / INR (n - 1))) * ln 10)%R with 0%R by ring. apply exp_0.
Qed.
Lemma largest_repeat (f : cmat -> R) X n m : (0 < n)%nat -> largest_in (repeat X n) f m -> m = f X.
Proof. intros Hn [(x & I & <-) _]. apply repeat_spec in I. now subst. Qed.

Lemma gtf_const pinv S eta2 X l : gtf pinv S eta2 1 = Ok X -> (forall a, In a l -> a = 1%R) -> general_transfer_function pinv S eta2 l = Ok (repeat X (length l)).
Proof. intros E H. apply mapM_const. intros a Ha. now rewrite (H a Ha). Qed.
Lemma peak_const pinv S eta2 X : gtf pinv S eta2 1 = Ok X -> exists res, max_transfer_function_peak pinv S eta2 (1, 1)%R = Ok res /\ rows res = sL S /\ cols res = sN S /\
  forall l n, ent res l n = Rsqr (Cmod (cent X l n)).
Proof.
  intros E. assert (ET := gtf_const pinv S eta2 X (geomspace 1 1 grid_size) E (geomspace_1 _)).
  assert (exists res, max_transfer_function_peak pinv S eta2 (1, 1)%R = Ok res) as (res & ER).
  { unfold max_transfer_function_peak. cbn [fst snd]. rewrite ET. eexists. reflexivity. }
  exists res. split; [exact ER|]. destruct (peak_ok _ _ _ _ _ ER) as (tfs & ET' & R1 & R2 & HL). cbn [fst snd] in ET'. rewrite ET in ET'. apply Ok_inj in ET'. subst tfs.
  split; [exact R1|]. split; [exact R2|]. intros l n. apply (largest_repeat (fun X : cmat => Rsqr (Cmod (cent X l n))) X _ _ grid_pos). rewrite geomspace_length in HL. apply HL.
Qed.
