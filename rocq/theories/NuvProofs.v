(** One pass of the NUV estimator solves the least squares problem of the window. *)
From Coq Require Import List Arith Lia Bool Reals Lra ZArith.
From Flocq Require Import Core.
From Verif Require Import Base LinAlg FirExtras AnalogSystem AnalogProofs Signals DigitalControl Integrators IntegratorsProofs Simulator Stability LinearOde PreSim Zpk FilterCoeff
  FilterCoeffProofs FilterRun Estimators Optimal NuvAlg NuvCost Nuv.
Import ListNotations.
Open Scope R_scope.

Definition fv (l : list R) (i : nat) : R := nth i l 0.

Lemma dotv_Ok (a : rmat) (x y : list R) : dotv a x = Ok y -> cols a = length x /\ length y = rows a /\ forall i, (i < rows a)%nat -> fv y i = ap (cols a) (ent a) (fv x) i.
Proof.
  intros H. destruct (Nat.eq_dec (cols a) (length x)) as [E|E].
  - rewrite dotv_R in H by exact E. apply Ok_inj in H. subst y. rewrite map_length, seq_length. split; [exact E|]. split; [reflexivity|].
    intros i Hi. unfold fv. now rewrite nth_seq_R.
  - exfalso. revert H. unfold dotv. destruct (Nat.eqb_spec (cols a) (@length (car Rring) x)); [contradiction|discriminate].
Qed.
Lemma fv_add u v i : length u = length v -> fv (rvadd u v) i = fv u i + fv v i.
Proof. apply nth_vadd. Qed.
Lemma fv_sub u v i : length u = length v -> fv (rvsub u v) i = fv u i - fv v i.
Proof. apply nth_vsub. Qed.
Lemma len_add (u v : list R) : length u = length v -> length (rvadd u v) = length u.
Proof. revert v. induction u; intros [|b v] H; cbn in *; try discriminate; auto; try (f_equal; apply IHu; lia). Qed.
Lemma len_sub (u v : list R) : length u = length v -> length (rvsub u v) = length u.
Proof. revert v. induction u; intros [|b v] H; cbn in *; try discriminate; auto; try (f_equal; apply IHu; lia). Qed.
Lemma ap_cols n a b x i : (forall j, (j < n)%nat -> a i j = b i j) -> ap n a x i = ap n b x i.
Proof. apply ap_extM. Qed.

(** what the estimator needs of its coefficients *)
Record sizes (c : nuv) : Prop := mkSizes {
  z_valid : valid (nS c);
  z_Af : rows (nAf c) = sN (nS c) /\ cols (nAf c) = sN (nS c);
  z_Bf : rows (nBf c) = sN (nS c) /\ cols (nBf c) = sM (nS c);
  z_Vu : rows (nVu c) = sN (nS c) /\ cols (nVu c) = sN (nS c);
  z_symm : symm (sN (nS c)) (ent (nVu c));
  z_psd : psd (sN (nS c)) (ent (nVu c)) }.
(** C^T is symmetric *)
Definition symmetric_outputs (S : asys Rring) : Prop := sNt S = sN S /\ symm (sN S) (ent (aCT S)).

Definition dnode : node := mkNode (zeros (K := Rring) 0 0) (zeros (K := Rring) 0 0) [] (zeros (K := Rring) 0 0) [].

Section P.
Variable inv : rmat -> result rmat.
Hypothesis HI : forall M X, inv M = Ok X -> is_inverse M X.
Variable c : nuv.
Hypothesis Z : sizes c.
Let S := nS c.
Let N := sN S.
Let P := sNt S.
Let C := ent (aCT S).
Let CC : cols (aCT S) = N.
Proof. apply Z. Qed.
Let RC : rows (aCT S) = P.
Proof. reflexivity. Qed.

(** *** Observations *)
Lemma reciprocals_Ok s : Forall (fun x => 0 < x) s -> reciprocals s = Ok (map Rinv s).
Proof.
  intros H. unfold reciprocals. replace (existsb _ s) with false; [reflexivity|]. symmetry. apply Bool.not_true_is_false. intros E. apply existsb_exists in E as (x & Hx & E).
  rewrite Forall_forall in H. specialize (H x Hx). destruct (Req_bool_spec x 0); [lra|discriminate].
Qed.
Lemma fv_inv s i : fv (map Rinv s) i = / fv s i.
Proof. unfold fv. destruct (lt_dec i (length s)); [|rewrite !nth_overflow by (rewrite ?map_length; lia); now rewrite Rinv_0]. rewrite nth_indep with (d' := / 0) by now rewrite map_length. apply map_nth. Qed.
Lemma fv_pos s i : Forall (fun x => 0 < x) s -> (i < length s)%nat -> 0 < fv s i.
Proof. intros H Hi. rewrite Forall_forall in H. apply H. now apply nth_In. Qed.

Lemma row_sums_diag s i : (i < P)%nat -> fv (row_sums (diag c s)) i = fv s i.
Proof.
  intros Hi. unfold fv, row_sums, diag. cbn [rows cols ent]. fold S P. rewrite nth_seq_R by exact Hi. rewrite ksum_rsum.
  rewrite (rsum_ext P _ (fun j => if Nat.eqb j i then nth i s 0 else 0)); [now rewrite Optimal.rsum_single|]. intros j _. now rewrite Nat.eqb_sym.
Qed.
Lemma observation_Ok s1 s2 y Yc : length s1 = P -> length s2 = P -> Forall (fun x => 0 < x) s1 -> Forall (fun x => 0 < x) s2 -> observation inv c s1 s2 = Ok (y, Yc) ->
  length y = P /\ rows Yc = P /\ cols Yc = P /\
  (forall i j, (i < P)%nat -> (j < P)%nat -> ent Yc i j = if Nat.eqb i j then / (/ fv s1 i + / fv s2 i) else 0) /\
  forall i, (i < P)%nat -> fv y i = / (/ fv s1 i + / fv s2 i) * (n_bound c * / fv s1 i - n_bound c * / fv s2 i).
Proof.
  intros L1 L2 P1 P2 H. unfold observation in H. rewrite !reciprocals_Ok in H by assumption. cbn [bind] in H.
  apply bind_Ok in H as (W & EW & H). apply zip2_Ok in EW as (_ & _ & RW & CW & EW). cbn [rows cols diag ent] in RW, CW, EW. fold S P in RW, CW.
  apply bind_Ok in H as (X & EX & H). apply HI in EX as (RX & CX & EX). rewrite RW, CW in *.
  apply bind_Ok in H as (y' & Ey & H). apply Ok_inj in H. inversion H; subst y' X; clear H.
  apply dotv_Ok in Ey as (Ly & Ry & Ey).
  assert (D : forall i j, (i < P)%nat -> (j < P)%nat -> ent Yc i j = if Nat.eqb i j then / (/ fv s1 i + / fv s2 i) else 0).
  { intros i j Hi Hj. specialize (EX i j Hi Hj).
    rewrite (rsum_ext P _ (fun k => if Nat.eqb k i then (/ fv s1 i + / fv s2 i) * ent Yc k j else 0)) in EX.
    2:{ intros k _. rewrite EW, (Nat.eqb_sym k i). fold (fv (map Rinv s1) i) (fv (map Rinv s2) i). rewrite !fv_inv. destruct (Nat.eqb i k); ring. }
    rewrite (Optimal.rsum_single P (fun k => (/ fv s1 i + / fv s2 i) * ent Yc k j) i Hi) in EX.
    assert (0 < / fv s1 i) by (apply Rinv_0_lt_compat, fv_pos; [assumption|lia]). assert (0 < / fv s2 i) by (apply Rinv_0_lt_compat, fv_pos; [assumption|lia]).
    revert EX. generalize dependent (/ fv s1 i). intros r1. generalize dependent (/ fv s2 i). intros r2 Q1 Q2 EX.
    apply (Rmult_eq_reg_l (r1 + r2)); [|lra]. rewrite EX. destruct (Nat.eqb i j); [field; lra|ring]. }
  repeat split; try congruence; try exact D.
  intros i Hi. rewrite Ey by congruence. rewrite CX. unfold ap. rewrite (rsum_ext P _ (fun k => if Nat.eqb k i then / (/ fv s1 i + / fv s2 i) * (n_bound c * / fv s1 i - n_bound c * / fv s2 i) else 0)).
  - now rewrite (Optimal.rsum_single P (fun _ => / (/ fv s1 i + / fv s2 i) * (n_bound c * / fv s1 i - n_bound c * / fv s2 i)) i Hi).
  - intros k Hk. rewrite D by assumption. rewrite (Nat.eqb_sym i k). destruct (Nat.eqb_spec k i) as [->|]; [|ring]. f_equal.
    assert (Lr : forall s, length (map (Rmult (n_bound c)) (row_sums (diag c s))) = P) by (intros; unfold row_sums; now rewrite !map_length, seq_length).
    rewrite fv_sub by (now rewrite !Lr). unfold fv at 1 2. rewrite !(nth_indep _ 0 (n_bound c * 0)) by (now rewrite Lr). rewrite !map_nth.
    fold (fv (row_sums (diag c (map Rinv s1))) i) (fv (row_sums (diag c (map Rinv s2))) i). now rewrite !row_sums_diag, !fv_inv.
Qed.

(** *** Gains *)
Lemma gains_Ok (Yc V G F : rmat) : rows V = N -> cols V = N -> rows Yc = P -> cols Yc = P -> gains inv c Yc V = Ok (G, F) ->
  rows G = P /\ cols G = P /\ rows F = N /\ cols F = N /\
  (forall w i, (i < P)%nat -> ap P (ent Yc) (ap P (ent G) w) i + ap N C (ap N (ent V) (apT P C (ap P (ent G) w))) i = w i) /\
  forall i j, ent F i j = Fm N P (ent V) C (ent G) i j.
Proof.
  intros RV CV RY CY H. unfold gains in H. fold S in H.
  apply bind_Ok in H as (X1 & E1 & H). apply bind_Ok in H as (X2 & E2 & H). apply bind_Ok in H as (X3 & E3 & H). apply bind_Ok in H as (G' & E4 & H).
  apply bind_Ok in H as (X4 & E5 & H). apply bind_Ok in H as (X5 & E6 & H). apply bind_Ok in H as (X6 & E7 & H). apply bind_Ok in H as (F' & E8 & H).
  apply Ok_inj in H. inversion H; subst G' F'; clear H.
  apply dotm_Ok in E1 as (D1 & R1 & C1 & E1). apply dotm_Ok in E2 as (D2 & R2 & C2 & E2). apply zip2_Ok in E3 as (_ & _ & R3 & C3 & E3). apply HI in E4 as (R4 & C4 & E4).
  apply dotm_Ok in E5 as (D5 & R5 & C5 & E5). apply dotm_Ok in E6 as (D6 & R6 & C6 & E6). apply dotm_Ok in E7 as (D7 & R7 & C7 & E7). apply zip2_Ok in E8 as (D8 & D8' & R8 & C8 & E8).
  cbn [tr rows cols ent eye2] in *. rewrite CC, RC in *.
  repeat split; try congruence.
  - intros w i Hi. rewrite R3, C3, RY, CY in *. specialize (E4 i).
    transitivity (ap P (ent X3) (ap P (ent G) w) i).
    + unfold ap at 6. rewrite (rsum_ext P _ (fun k => ent Yc i k * ap P (ent G) w k + ent X2 i k * ap P (ent G) w k)) by (intros; rewrite E3; ring).
      rewrite rsum_add. f_equal.
      rewrite (rsum_ext P _ (fun k => rsum N (fun a => C i a * ent X1 a k) * ap P (ent G) w k)) by (intros; now rewrite E2).
      rewrite (rsum_comp N P C (ent X1)). apply rsum_ext. intros a Ha. f_equal.
      rewrite (rsum_ext P _ (fun k => rsum N (fun b => ent V a b * C k b) * ap P (ent G) w k)) by (intros; now rewrite E1, CV).
      now rewrite (rsum_comp N P (ent V) (fun b k => C k b)).
    + rewrite <- ap_mul. unfold ap, mulr. rewrite (rsum_ext P _ (fun j => (if Nat.eqb i j then 1 else 0) * w j)); [now apply ap_eye|].
      intros j Hj. now rewrite E4.
  - intros i j. rewrite E8. unfold Fm. f_equal. toR. rewrite E7, CV. apply rsum_ext. intros a Ha. f_equal. rewrite E6. apply rsum_ext. intros b Hb. f_equal.
    rewrite E5. assert (Q : cols G = P) by congruence. now rewrite Q.
Qed.

(** *** Messages *)
Definition Bsf (s : rvec) : nat -> R := ap (sM S) (ent (nBf c)) (fv s).
Lemma next_mean_Ok (G F : rmat) (m : rvec) (V : rmat) (y s m1 : rvec) : rows V = N -> cols V = N -> rows G = P -> cols G = P -> rows F = N -> cols F = N -> length m = N -> length y = P ->
  (forall i j, ent F i j = Fm N P (ent V) C (ent G) i j) -> next_mean c G F m V y s = Ok m1 ->
  length m1 = N /\ length s = sM S /\ forall n, (n < N)%nat -> fv m1 n = m' N P (ent V) C (ent G) (fv m) (fv y) (ent (nAf c)) (Bsf s) n.
Proof.
  intros RV CV RG CG RF CF Lm Ly EF H. unfold next_mean in H. fold S in H. destruct (z_Af c Z) as [RA CA]. destruct (z_Bf c Z) as [RB CB]. fold S N in RA, CA, RB, CB.
  apply bind_Ok in H as (a & E0 & H). apply bind_Ok in H as (x1 & E1 & H). apply bind_Ok in H as (x2 & E2 & H). apply bind_Ok in H as (x3 & E3 & H).
  apply bind_Ok in H as (x4 & E4 & H). apply bind_Ok in H as (x5 & E5 & H). apply Ok_inj in H. subst m1.
  apply dotv_Ok in E0 as (_ & L0 & E0). apply dotv_Ok in E1 as (_ & L1 & E1). apply dotv_Ok in E2 as (_ & L2 & E2). apply dotv_Ok in E3 as (_ & L3 & E3).
  apply dotv_Ok in E4 as (_ & L4 & E4). apply dotv_Ok in E5 as (D5 & L5 & E5). cbn [tr rows cols ent] in *. rewrite CC, RC, RA, CA, RB, CB, RF, CF, RG, CG, RV, CV in *.
  split; [rewrite len_add; congruence|]. split; [congruence|]. intros n Hn. rewrite fv_add by congruence. rewrite E4, E5 by exact Hn. unfold m', Bsf. f_equal.
  apply ap_ext. intros i Hi. rewrite fv_add by congruence. rewrite E0, E3 by exact Hi. f_equal.
  - apply ap_extM. intros; apply EF.
  - apply ap_ext. intros j Hj. rewrite E2 by exact Hj. unfold apT. apply rsum_ext. intros r Hr. f_equal. now apply E1.
Qed.
Lemma next_cov_Ok (G F V V1 : rmat) : rows V = N -> cols V = N -> rows F = N -> cols F = N -> (forall i j, ent F i j = Fm N P (ent V) C (ent G) i j) -> next_cov c F V = Ok V1 ->
  rows V1 = N /\ cols V1 = N /\ forall i j, ent V1 i j = V' N P (ent V) C (ent G) (ent (nAf c)) (ent (nVu c)) i j.
Proof.
  intros RV CV RF CF EF H. unfold next_cov in H. destruct (z_Af c Z) as [RA CA]. fold S N in RA, CA.
  apply bind_Ok in H as (X1 & E1 & H). apply bind_Ok in H as (X2 & E2 & H). apply bind_Ok in H as (X3 & E3 & H).
  apply dotm_Ok in E1 as (_ & R1 & C1 & E1). apply dotm_Ok in E2 as (_ & R2 & C2 & E2). apply dotm_Ok in E3 as (_ & R3 & C3 & E3). apply zip2_Ok in H as (_ & _ & R4 & C4 & E4).
  cbn [tr rows cols ent] in *. split; [congruence|]. split; [congruence|]. intros i j. rewrite E4. unfold V'. f_equal. toR. rewrite E3, CA. apply rsum_ext. intros a Ha. f_equal.
  rewrite E2. assert (Q : cols X1 = N) by congruence. rewrite Q. apply rsum_ext. intros b Hb. f_equal. rewrite E1, CF. apply rsum_ext. intros k Hk. now rewrite EF.
Qed.

Hypothesis HS : symmetric_outputs S.
Lemma back_Ok (g : node) (zl x1 x2 x3 cm : rvec) : length (g_m g) = N -> length (g_y g) = P -> rows (gV g) = N -> cols (gV g) = N -> rows (gG g) = P -> cols (gG g) = P ->
  rows (gF g) = N -> cols (gF g) = N -> (forall i j, ent (gF g) i j = Fm N P (ent (gV g)) C (ent (gG g)) i j) ->
  dotv (tr (aCT S)) (g_m g) = Ok cm -> dotv (tr (gF g)) zl = Ok x1 -> dotv (gG g) (rvsub cm (g_y g)) = Ok x2 -> dotv (tr (aCT S)) x2 = Ok x3 ->
  length (rvadd x1 x3) = N /\ forall n, (n < N)%nat -> fv (rvadd x1 x3) n = xi N P (ent (gV g)) C (ent (gG g)) (fv (g_m g)) (fv (g_y g)) (fv zl) n.
Proof.
  intros Lm Ly RV CV RG CG RF CF EF E0 E1 E2 E3.
  apply dotv_Ok in E0 as (D0 & L0 & E0). apply dotv_Ok in E1 as (D1 & L1 & E1). apply dotv_Ok in E2 as (D2 & L2 & E2). apply dotv_Ok in E3 as (D3 & L3 & E3).
  cbn [tr rows cols ent] in *. rewrite CC, RC, RF, CF, RG, CG in *. destruct HS as [HP Hs]. fold N P in HP, Hs.
  split; [rewrite len_add; congruence|]. intros n Hn. rewrite fv_add by congruence. rewrite E1, E3 by exact Hn. unfold xi. f_equal.
  - unfold apT, ap. apply rsum_ext. intros i Hi. now rewrite EF.
  - unfold ap at 1, apT. apply rsum_ext. intros r Hr. f_equal. rewrite E2 by exact Hr. apply ap_ext. intros q Hq. rewrite fv_sub by congruence. f_equal.
    rewrite E0 by congruence. unfold ap. rewrite HP. apply rsum_ext. intros k Hk. f_equal. apply Hs; [exact Hk|congruence].
Qed.
End P.
