(** Poles of the parallel leap-frogs: the coupling of the branches turns every pole of one leap-frog
    into one pole per eigenvalue of the (antisymmetric) coupling matrix. *)
From Coq Require Import List Arith Lia Bool Reals Lra.
From Coquelicot Require Import Complex.
From Verif Require Import Base LinAlg AnalogSystem AnalogProofs FirExtras IntegratorsProofs LinearOde Stability LeapFrogPoles CplxLin QuadratureRun QuadraturePar.
Import ListNotations.
Open Scope R_scope.
Open Scope C_scope.

(** *** eigenvalues over C *)
Definition ceig (n : nat) (A : nat -> nat -> C) (lam : C) : Prop :=
  exists v : nat -> C, (exists i, (i < n)%nat /\ v i <> RtoC 0) /\ forall i, (i < n)%nat -> cap n A v i = lam * v i.
Definition cent (S : asys Rring) : nat -> nat -> C := fun i j => RtoC (ent (aA S) i j).

Lemma cap_real n (f : nat -> R) (v : nat -> C) : csum n (fun j => RtoC (f j) * v j) = (rsum n (fun j => f j * fst (v j))%R, rsum n (fun j => f j * snd (v j))%R).
Proof.
  induction n; [reflexivity|]. cbn [csum]. rewrite IHn, !rsum_S. unfold RtoC, Cmult, Cplus. cbn [fst snd]. f_equal; ring.
Qed.
Lemma ceig_pole (S : asys Rring) lam : valid S -> aG S <> None -> pole_of S lam <-> ceig (sN S) (cent S) lam.
Proof.
  intros V G. assert (CA := v_A _ V). fold (sN S) in CA. split.
  - intros (p & q & M). apply (mode_lin S lam p q V G) in M as (Lp & Lq & (j & Hj) & M).
    exists (fun i => (nth i p 0%R, nth i q 0%R)). split.
    + exists j. split.
      * destruct (Nat.lt_ge_cases j (sN S)) as [|X]; [assumption|]. rewrite !nth_overflow in Hj by lia. destruct Hj; lra.
      * intros E. assert (E1 := f_equal fst E). assert (E2 := f_equal snd E). cbn in E1, E2. tauto.
    + intros i Hi. unfold cap, cent. rewrite cap_real. cbn [fst snd]. destruct (M i Hi) as [M1 M2]. rewrite lin_rsum, CA in M1, M2.
      destruct lam as [a b]. unfold Cmult, Re, Im in *. cbn [fst snd] in *. apply injective_projections; cbn [fst snd]; [exact M1|etransitivity; [exact M2|rring]].
  - intros (v & (j & Hj & NZ) & M). exists (rtab (sN S) (fun i => fst (v i))), (rtab (sN S) (fun i => snd (v i))). apply (mode_lin S lam _ _ V G).
    rewrite !rtab_len. split; [reflexivity|]. split; [reflexivity|]. split.
    + exists j. rewrite !rtab_nth by exact Hj. destruct (Req_dec (fst (v j)) 0) as [E1|]; [|now left]. destruct (Req_dec (snd (v j)) 0) as [E2|]; [|now right].
      exfalso. apply NZ. apply injective_projections; assumption.
    + intros i Hi. specialize (M i Hi). unfold cap, cent in M. rewrite cap_real in M. rewrite !lin_rsum, CA, !rtab_nth by exact Hi.
      assert (E : forall g : nat -> R, rsum (sN S) (fun j => ent (aA S) i j * nth j (rtab (sN S) g) 0)%R = rsum (sN S) (fun j => ent (aA S) i j * g j)%R) by (intros g; apply rsum_ext; intros k Hk; now rewrite rtab_nth by exact Hk).
      assert (M1 := f_equal fst M). assert (M2 := f_equal snd M). destruct lam as [a b]. unfold Cmult, Re, Im in *. cbn [fst snd] in *.
      split; [etransitivity; [apply E|exact M1]|etransitivity; [apply E|]; etransitivity; [exact M2|rring]].
Qed.

Lemma cfin_dec n (P : nat -> Prop) : (forall i, P i \/ ~ P i) -> (forall i, (i < n)%nat -> P i) \/ exists i, (i < n)%nat /\ ~ P i.
Proof.
  intros D. induction n as [|n [H|(i & Hi & H)]]; [left; lia| |right; exists i; split; [lia|exact H]].
  destruct (D n) as [Y|N]; [left|right; exists n; split; [lia|exact N]]. intros i Hi. destruct (Nat.eq_dec i n) as [->|]; [exact Y|apply H; lia].
Qed.
Lemma Ceq_em (x y : C) : x = y \/ x <> y.
Proof.
  destruct (Req_dec (fst x) (fst y)) as [E1|N]; [|right; intros ->; now apply N]. destruct (Req_dec (snd x) (snd y)) as [E2|N]; [|right; intros ->; now apply N].
  left. apply injective_projections; assumption.
Qed.
(** *** branches *)
Section Branches.
Variables (M n : nat) (A : nat -> nat -> C) (K : nat -> nat -> C).
(** branch values: [Y a i] is state [i] of branch [a] *)
Definition beig (lam : C) (Y : nat -> nat -> C) : Prop := forall a i, (a < M)%nat -> (i < n)%nat -> cap n A (Y a) i + csum M (fun b => K a b * Y b i) = lam * Y a i.
Definition bnz (Y : nat -> nat -> C) : Prop := exists a i, (a < M)%nat /\ (i < n)%nat /\ Y a i <> RtoC 0.
Definition comb (L : nat -> nat -> C) (k : C) (Y : nat -> nat -> C) (a i : nat) : C := csum M (fun b => L a b * Y b i) - k * Y a i.
Definition commutes (L : nat -> nat -> C) : Prop := forall a b, (a < M)%nat -> (b < M)%nat -> csum M (fun c => L a c * K c b) = csum M (fun c => K a c * L c b).

Lemma cap_csum m (f : nat -> C) (Y : nat -> nat -> C) i : cap n A (fun j => csum m (fun b => f b * Y b j)) i = csum m (fun b => f b * cap n A (Y b) i).
Proof.
  unfold cap. rewrite (csum_ext _ _ (fun j => csum m (fun b => A i j * (f b * Y b j)))) by (intros j _; now rewrite csum_scale).
  rewrite csum_swap. apply csum_ext. intros b _. rewrite <- csum_scale. apply csum_ext. intros; ring.
Qed.
Lemma comb_beig L k lam Y : commutes L -> beig lam Y -> beig lam (comb L k Y).
Proof.
  intros HC HY a i Ha Hi. unfold comb. rewrite cap_sub, cap_scale, cap_csum.
  rewrite (csum_ext M (fun b => K a b * (csum M (fun b0 => L b b0 * Y b0 i) - k * Y b i)) (fun b => csum M (fun c => K a b * L b c * Y c i) - k * (K a b * Y b i))).
  2: { intros b _. rewrite (csum_ext _ (fun c => K a b * L b c * Y c i) (fun c => K a b * (L b c * Y c i))) by (intros; ring). rewrite csum_scale. ring. }
  rewrite csum_sub, csum_scale, csum_swap.
  rewrite (csum_ext M (fun j => csum M (fun i0 => K a i0 * L i0 j * Y j i)) (fun c => csum M (fun b => L a b * (K b c * Y c i)))).
  2: { intros c Hc. transitivity (Y c i * csum M (fun b => K a b * L b c)); [rewrite <- csum_scale; apply csum_ext; intros; ring|]. rewrite <- HC by assumption. rewrite <- csum_scale. apply csum_ext. intros; ring. }
  rewrite csum_swap.
  transitivity (csum M (fun b => L a b * (cap n A (Y b) i + csum M (fun c => K b c * Y c i))) - k * (cap n A (Y a) i + csum M (fun b => K a b * Y b i))).
  - rewrite (csum_ext M (fun b => L a b * (cap n A (Y b) i + csum M (fun c => K b c * Y c i))) (fun b => L a b * cap n A (Y b) i + csum M (fun c => L a b * (K b c * Y c i)))) by (intros; rewrite csum_scale; ring).
    rewrite csum_add. ring.
  - rewrite HY by assumption. rewrite (csum_ext M _ (fun b => lam * (L a b * Y b i))) by (intros b Hb; rewrite HY by (assumption || exact Hb); ring). rewrite csum_scale. ring.
Qed.
(** either the combination vanishes or it is again a mode *)
Lemma comb_dec L k Y : (forall a i, (a < M)%nat -> (i < n)%nat -> comb L k Y a i = RtoC 0) \/ bnz (comb L k Y).
Proof.
  destruct (cfin_dec M (fun a => forall i, (i < n)%nat -> comb L k Y a i = RtoC 0)) as [H|(a & Ha & H)]; [|left; intros a i Ha Hi; now apply H|].
  - intros a. destruct (cfin_dec n (fun i => comb L k Y a i = RtoC 0)) as [H|(i & Hi & H)]; [intros i; apply Ceq_em|now left|]. right. intros X. apply H. now apply X.
  - right. destruct (cfin_dec n (fun i => comb L k Y a i = RtoC 0)) as [X|(i & Hi & X)]; [intros i; apply Ceq_em|contradiction|]. exists a, i. auto.
Qed.
Lemma beig_branch k lam Y : beig lam Y -> bnz Y -> (forall a i, (a < M)%nat -> (i < n)%nat -> comb K k Y a i = RtoC 0) -> ceig n A (lam - k).
Proof.
  intros HY (a & i & Ha & Hi & NZ) HZ. exists (Y a). split; [eauto|]. intros j Hj. specialize (HY a j Ha Hj). specialize (HZ a j Ha Hj). unfold comb in HZ.
  transitivity (cap n A (Y a) j + csum M (fun b => K a b * Y b j) - (csum M (fun b => K a b * Y b j) - k * Y a j) - k * Y a j); [ring|]. rewrite HZ, HY. ring.
Qed.
Lemma beig_tensor k mu e v : (exists a, (a < M)%nat /\ e a <> RtoC 0) -> (forall a, (a < M)%nat -> cap M K e a = k * e a) ->
  (exists i, (i < n)%nat /\ v i <> RtoC 0) -> (forall i, (i < n)%nat -> cap n A v i = mu * v i) -> beig (mu + k) (fun a i => e a * v i) /\ bnz (fun a i => e a * v i).
Proof.
  intros (a0 & Ha0 & He) HK (i0 & Hi0 & Hv) HA. split.
  - intros a i Ha Hi. rewrite cap_scale, HA by exact Hi. rewrite (csum_ext _ _ (fun b => v i * (K a b * e b))) by (intros; ring). rewrite csum_scale. fold (cap M K e a). rewrite HK by exact Ha. ring.
  - exists a0, i0. split; [exact Ha0|]. split; [exact Hi0|]. now apply Cmult_neq_0.
Qed.
End Branches.

(** the system as branches *)
Definition cK (K : nat -> nat -> R) (a b : nat) : C := if Nat.eqb a b then RtoC 0 else RtoC (K a b).
Lemma csum_blocks m n (f : nat -> C) : csum (m * n) f = csum m (fun b => csum n (fun j => f (b * n + j)%nat)).
Proof.
  assert (SP : forall a b (f : nat -> C), csum (a + b) f = csum a f + csum b (fun j => f (a + j)%nat)).
  { intros a b g. induction b as [|b IH]; [rewrite Nat.add_0_r; cbn [csum]; ring|]. rewrite Nat.add_succ_r. cbn [csum]. rewrite IH. ring. }
  induction m as [|m IH]; [reflexivity|]. replace (S m * n)%nat with (m * n + n)%nat by lia. rewrite SP, IH. reflexivity.
Qed.
Section Parallel.
Variables (S0 S : asys Rring) (M n : nat) (K : nat -> nat -> R).
Hypothesis V0 : valid S0.
Hypothesis G0 : aG S0 <> None.
Hypothesis N0 : sN S0 = n.
Hypothesis D : parallel_dyn S0 S M n K.

Lemma parallel_beig lam : pole_of S lam <-> exists Y, beig M n (cent S0) (cK K) lam Y /\ bnz M n Y.
Proof.
  destruct D as (VS & SN & _ & _ & G & _ & _ & HA & _). rewrite (ceig_pole S lam VS G), SN.
  assert (CA := v_A _ VS). fold (sN S) in CA. rewrite SN in CA. assert (CA0 := v_A _ V0). fold (sN S0) in CA0. rewrite N0 in CA0.
  assert (KEY : forall v a i, (a < M)%nat -> (i < n)%nat -> cap (M * n) (cent S) v (a * n + i) = cap n (cent S0) (fun j => v (a * n + j)%nat) i + csum M (fun b => cK K a b * v (b * n + i)%nat)).
  { intros v a i Ha Hi. unfold cap, cent at 1 2. rewrite !cap_real.
    assert (R : forall g : nat -> R, rsum (M * n) (fun j => ent (aA S) (a * n + i) j * g j)%R = (rsum n (fun j => ent (aA S0) i j * g (a * n + j)%nat) + rsum M (fun b => (if Nat.eqb a b then 0 else K a b) * g (b * n + i)%nat))%R).
    { intros g. specialize (HA (rtab (M * n) g) a i Ha Hi). rewrite !lin_rsum, CA, CA0 in HA.
      assert (LT : forall b j, (b < M)%nat -> (j < n)%nat -> (b * n + j < M * n)%nat) by (intros b j Hb Hj; assert (Datatypes.S b * n <= M * n)%nat by (apply Nat.mul_le_mono_r; lia); cbn [Nat.mul] in *; lia).
      etransitivity; [|etransitivity; [exact HA|]].
      - apply rsum_ext. intros j Hj. now rewrite rtab_nth by exact Hj.
      - apply f_equal2; apply rsum_ext; intros j Hj; [rewrite block_nth by exact Hj; now rewrite rtab_nth by (apply LT; assumption)|]. rewrite rtab_nth by (apply LT; assumption). destruct (Nat.eqb a j); [symmetry; apply Rmult_0_l|reflexivity]. }
    rewrite !R.
    rewrite (csum_ext M (fun b => cK K a b * v (b * n + i)%nat) (fun b => RtoC (if Nat.eqb a b then 0 else K a b)%R * v (b * n + i)%nat)) by (intros b _; unfold cK; destruct (Nat.eqb a b); reflexivity).
    rewrite cap_real. reflexivity. }
  split.
  - intros (v & (j & Hj & NZ) & E). exists (fun a i => v (a * n + i)%nat). assert (Hn : n <> 0%nat) by (intros ->; lia). split.
    + intros a i Ha Hi. assert (LT : (a * n + i < M * n)%nat) by (assert (Datatypes.S a * n <= M * n)%nat by (apply Nat.mul_le_mono_r; lia); cbn [Nat.mul] in *; lia).
      specialize (E _ LT). rewrite KEY in E by assumption. exact E.
    + exists (j / n)%nat, (j mod n)%nat. split; [apply Nat.div_lt_upper_bound; [exact Hn|]; rewrite Nat.mul_comm; exact Hj|]. split; [now apply Nat.mod_upper_bound|].
      replace (j / n * n + j mod n)%nat with j by (rewrite Nat.mul_comm; now apply Nat.div_mod). exact NZ.
  - intros (Y & HY & (a & i & Ha & Hi & NZ)). assert (Hn : n <> 0%nat) by lia. exists (fun j => Y (j / n)%nat (j mod n)%nat).
    assert (DM : forall b j, (j < n)%nat -> Y ((b * n + j) / n)%nat ((b * n + j) mod n)%nat = Y b j).
    { intros b j Hj. rewrite Nat.div_add_l, Nat.div_small, Nat.add_0_r by assumption. rewrite (Nat.add_comm (b * n)), Nat.mod_add, Nat.mod_small by assumption. reflexivity. }
    split.
    + exists (a * n + i)%nat. split; [assert (Datatypes.S a * n <= M * n)%nat by (apply Nat.mul_le_mono_r; lia); cbn [Nat.mul] in *; lia|]. rewrite DM by exact Hi. exact NZ.
    + intros j Hj. assert (Ha' : (j / n < M)%nat) by (apply Nat.div_lt_upper_bound; [exact Hn|]; rewrite Nat.mul_comm; exact Hj). assert (Hi' : (j mod n < n)%nat) by now apply Nat.mod_upper_bound.
      specialize (HY _ _ Ha' Hi'). rewrite <- HY. assert (EJ : j = (j / n * n + j mod n)%nat) by (rewrite Nat.mul_comm; now apply Nat.div_mod). rewrite EJ at 1. rewrite KEY by assumption.
      f_equal; [apply cap_ext; intros l Hl; now apply DM|]. apply csum_ext. intros b _. now rewrite DM by exact Hi'.
Qed.
(** eigenvectors of the coupling *)
Lemma parallel_shift k mu : (exists e, (exists a, (a < M)%nat /\ e a <> RtoC 0) /\ forall a, (a < M)%nat -> cap M (cK K) e a = k * e a) -> pole_of S0 mu -> pole_of S (mu + k).
Proof.
  intros (e & He & HK) P. apply (ceig_pole S0 mu V0 G0) in P as (v & Hv & HA). rewrite N0 in *. apply parallel_beig. exists (fun a i => e a * v i). now apply beig_tensor.
Qed.
Lemma branch_pole mu : ceig n (cent S0) mu -> pole_of S0 mu.
Proof. intros H. apply (ceig_pole S0 mu V0 G0). rewrite N0. exact H. Qed.
End Parallel.

Ltac lt4 a Ha := destruct a as [|[|[|[|a]]]]; [| | | |exfalso; lia].
(** *** three branches *)
Definition K3 (p0 p1 p2 : C) (a b : nat) : C :=
  match a, b with
  | 0%nat, 1%nat => - p0 | 1%nat, 0%nat => p0 | 0%nat, 2%nat => - p1 | 2%nat, 0%nat => p1 | 1%nat, 2%nat => - p2 | 2%nat, 1%nat => p2
  | _, _ => RtoC 0
  end.
Lemma cK3 poles a b : (a < 3)%nat -> (b < 3)%nat -> cK (coupling poles) a b = K3 (RtoC (nth 0 poles 0%R)) (RtoC (nth 1 poles 0%R)) (RtoC (nth 2 poles 0%R)) a b.
Proof. intros Ha Hb. destruct a as [|[|[|a]]]; try lia; destruct b as [|[|[|b]]]; try lia; cbv [cK Nat.eqb coupling Nat.ltb Nat.leb K3 Nat.mul Nat.add Nat.sub Nat.div Nat.divmod fst Nat.pred]; rewrite ?RtoC_opp; reflexivity. Qed.

Lemma cmul_i (a b : R) : (0%R, a) * (0%R, b) = RtoC (- (a * b)).
Proof. cbv [Cmult RtoC fst snd]. f_equal; ring. Qed.
Lemma beig_ext M n A K K' lam Y : (forall a b, (a < M)%nat -> (b < M)%nat -> K a b = K' a b) -> beig M n A K lam Y -> beig M n A K' lam Y.
Proof. intros E H a i Ha Hi. rewrite <- (H a i Ha Hi). f_equal. apply csum_ext. intros b Hb. now rewrite E. Qed.
Lemma self_commutes M K : commutes M K K.
Proof. intros a b _ _. apply csum_ext. intros; ring. Qed.

Lemma three_branches n A p0 p1 p2 J lam Y : J * J = - (p0 * p0 + p1 * p1 + p2 * p2) -> beig 3 n A (K3 p0 p1 p2) lam Y -> bnz 3 n Y -> ceig n A lam \/ ceig n A (lam - J) \/ ceig n A (lam + J).
Proof.
  intros HJ HY NZ. set (K := K3 p0 p1 p2) in *.
  destruct (comb_dec 3 n K (RtoC 0) Y) as [Z|NZ1].
  { left. replace lam with (lam - RtoC 0) by ring. now apply beig_branch with 3%nat K Y. }
  right. assert (HY1 := comb_beig 3 n A K K (RtoC 0) lam Y (self_commutes 3 K) HY). set (Y1 := comb 3 K (RtoC 0) Y) in *.
  destruct (comb_dec 3 n K J Y1) as [Z|NZ2]; [left; now apply beig_branch with 3%nat K Y1|right].
  assert (HY2 := comb_beig 3 n A K K J lam Y1 (self_commutes 3 K) HY1). replace (lam + J) with (lam - - J) by ring. apply beig_branch with 3%nat K (comb 3 K J Y1); auto.
  intros a i Ha Hi. transitivity (- (J * J + (p0 * p0 + p1 * p1 + p2 * p2)) * Y1 a i); [|rewrite HJ; ring].
  unfold Y1, comb, K. cbn [csum]. destruct a as [|[|[|a]]]; [| | |exfalso; lia]; cbn [K3]; ring.
Qed.
Lemma k3_vector p0 p1 p2 k : (k = RtoC 0 \/ k * k = - (p0 * p0 + p1 * p1 + p2 * p2)) -> (p0 * p0 + p1 * p1 + p2 * p2 = RtoC 0 -> p0 = RtoC 0 /\ p1 = RtoC 0 /\ p2 = RtoC 0) -> (p0 * p0 + p1 * p1 = RtoC 0 -> p0 = RtoC 0 /\ p1 = RtoC 0) ->
  exists e, (exists a, (a < 3)%nat /\ e a <> RtoC 0) /\ forall a, (a < 3)%nat -> cap 3 (K3 p0 p1 p2) e a = k * e a.
Proof.
  intros Hk H3 H2.
  assert (W : forall e0 e1 e2, (e0 <> RtoC 0 \/ e1 <> RtoC 0 \/ e2 <> RtoC 0) -> - p0 * e1 - p1 * e2 = k * e0 -> p0 * e0 - p2 * e2 = k * e1 -> p1 * e0 + p2 * e1 = k * e2 ->
    exists e, (exists a, (a < 3)%nat /\ e a <> RtoC 0) /\ forall a, (a < 3)%nat -> cap 3 (K3 p0 p1 p2) e a = k * e a).
  { intros e0 e1 e2 HN E0 E1 E2. exists (fun a => match a with O => e0 | 1%nat => e1 | _ => e2 end). split.
    - destruct HN as [N|[N|N]]; [exists 0%nat|exists 1%nat|exists 2%nat]; split; auto with arith.
    - intros a Ha. unfold cap. cbn [csum]. destruct a as [|[|[|a]]]; [| | |exfalso; lia]; cbn [K3]; [rewrite <- E0|rewrite <- E1|rewrite <- E2]; ring. }
  destruct (Ceq_em (p0 * p0 + p1 * p1 + p2 * p2) (RtoC 0)) as [Z|NZ].
  - destruct (H3 Z) as (-> & -> & ->). assert (k = RtoC 0) as ->. { destruct Hk as [|E]; [assumption|]. destruct (Ceq_em k (RtoC 0)) as [|N]; [assumption|]. exfalso. apply (Cmult_neq_0 _ _ N N). rewrite E. ring. }
    apply (W (RtoC 1) (RtoC 0) (RtoC 0)); try ring. left. intros E. apply RtoC_inj in E. lra.
  - destruct Hk as [->|Hk].
    + apply (W p2 (- p1) p0); try ring. destruct (Ceq_em p2 (RtoC 0)) as [E2|]; [|now left]. destruct (Ceq_em p0 (RtoC 0)) as [E0|]; [|tauto]. right. left. intros E1. apply NZ. assert (p1 = - - p1) as -> by ring. rewrite E0, E1, E2. ring.
    + destruct (Ceq_em (p0 * p0 + p1 * p1) (RtoC 0)) as [Z|N].
      * destruct (H2 Z) as (-> & ->). assert (N2 : p2 <> RtoC 0) by (intros ->; apply NZ; ring). assert (Hk' : k * k = - (p2 * p2)) by (rewrite Hk; ring).
        apply (W (RtoC 0) (- (p2 * p2)) (k * p2)); try ring. { right. left. intros E. apply (Cmult_neq_0 _ _ N2 N2). assert (p2 * p2 = - - (p2 * p2)) as -> by ring. rewrite E. ring. }
        transitivity (k * k * p2); [rewrite Hk'; ring|ring].
      * apply (W (- (p0 * p0 + p1 * p1)) (- (p1 * p2) + k * p0) (p0 * p2 + k * p1)).
        -- left. intros E. apply N. assert (p0 * p0 + p1 * p1 = - - (p0 * p0 + p1 * p1)) as -> by ring. rewrite E. ring.
        -- ring.
        -- transitivity (k * - (p1 * p2) + - (p0 * p0 + p1 * p1 + p2 * p2) * p0); [ring|rewrite <- Hk; ring].
        -- transitivity (k * (p0 * p2) + - (p0 * p0 + p1 * p1 + p2 * p2) * p1); [ring|rewrite <- Hk; ring].
Qed.
Definition pole_norm (ps : list R) : R := sqrt (nth 0 ps 0 * nth 0 ps 0 + nth 1 ps 0 * nth 1 ps 0 + nth 2 ps 0 * nth 2 ps 0).
Lemma parallel3_poles S0 S n poles lam : valid S0 -> aG S0 <> None -> sN S0 = n -> parallel_dyn S0 S 3 n (coupling poles) ->
  pole_of S lam <-> exists mu, pole_of S0 mu /\ (lam = mu \/ lam = mu + (0%R, pole_norm poles) \/ lam = mu - (0%R, pole_norm poles)).
Proof.
  intros V0 G0 N0 D. set (p0 := nth 0 poles 0%R). set (p1 := nth 1 poles 0%R). set (p2 := nth 2 poles 0%R).
  assert (P : (0 <= p0 * p0 + p1 * p1 + p2 * p2)%R) by nra. assert (EJ : (0%R, pole_norm poles) * (0%R, pole_norm poles) = - (RtoC p0 * RtoC p0 + RtoC p1 * RtoC p1 + RtoC p2 * RtoC p2)).
  { rewrite cmul_i. unfold pole_norm. fold p0 p1 p2. rewrite sqrt_sqrt by exact P. now rewrite !RtoC_opp, !RtoC_plus, !RtoC_mult. }
  assert (EXT : forall a b, (a < 3)%nat -> (b < 3)%nat -> cK (coupling poles) a b = K3 (RtoC p0) (RtoC p1) (RtoC p2) a b) by (intros; now apply cK3).
  split.
  - intros H. apply (parallel_beig S0 S 3 n _ V0 N0 D) in H as (Y & HY & NZ). apply (beig_ext _ _ _ _ _ _ _ EXT) in HY.
    destruct (three_branches _ _ _ _ _ _ _ _ EJ HY NZ) as [H|[H|H]]; apply (branch_pole S0 n V0 G0 N0) in H; eexists; (split; [exact H|]); [now left| |]; right; [left|right]; ring.
  - intros (mu & Hmu & HL). assert (VEC : forall k, k = RtoC 0 \/ k * k = - (RtoC p0 * RtoC p0 + RtoC p1 * RtoC p1 + RtoC p2 * RtoC p2) -> pole_of S (mu + k)).
    { intros k Hk. apply (parallel_shift S0 S 3 n (coupling poles) V0 G0 N0 D); [|exact Hmu]. destruct (k3_vector (RtoC p0) (RtoC p1) (RtoC p2) k Hk) as (e & He & HK).
      - rewrite <- !RtoC_mult, <- !RtoC_plus. intros E. apply RtoC_inj in E. assert (p0 = 0 /\ p1 = 0 /\ p2 = 0)%R as (-> & -> & ->) by (repeat split; nra). auto.
      - rewrite <- !RtoC_mult, <- !RtoC_plus. intros E. apply RtoC_inj in E. assert (p0 = 0 /\ p1 = 0)%R as (-> & ->) by (repeat split; nra). auto.
      - exists e. split; [exact He|]. intros a Ha. rewrite <- HK by exact Ha. unfold cap. apply csum_ext. intros b Hb. now rewrite EXT. }
    destruct HL as [->|[->| ->]].
    + assert (X := VEC (RtoC 0) (or_introl eq_refl)). now replace (mu + RtoC 0) with mu in X by ring.
    + apply VEC. right. exact EJ.
    + assert (X := VEC (- (0%R, pole_norm poles))). replace (mu + - (0%R, pole_norm poles)) with (mu - (0%R, pole_norm poles)) in X by ring. apply X. right. rewrite <- EJ. ring.
Qed.

(** *** four branches: the coupling splits into two commuting parts whose squares are multiples of the identity *)
Definition Lp (x y z : C) (a b : nat) : C :=
  match a, b with
  | 0%nat, 1%nat => x | 1%nat, 0%nat => - x | 2%nat, 3%nat => x | 3%nat, 2%nat => - x
  | 0%nat, 2%nat => y | 2%nat, 0%nat => - y | 1%nat, 3%nat => - y | 3%nat, 1%nat => y
  | 0%nat, 3%nat => z | 3%nat, 0%nat => - z | 1%nat, 2%nat => z | 2%nat, 1%nat => - z
  | _, _ => RtoC 0
  end.
Definition Lm (x y z : C) (a b : nat) : C :=
  match a, b with
  | 0%nat, 1%nat => x | 1%nat, 0%nat => - x | 2%nat, 3%nat => - x | 3%nat, 2%nat => x
  | 0%nat, 2%nat => y | 2%nat, 0%nat => - y | 1%nat, 3%nat => y | 3%nat, 1%nat => - y
  | 0%nat, 3%nat => z | 3%nat, 0%nat => - z | 1%nat, 2%nat => - z | 2%nat, 1%nat => z
  | _, _ => RtoC 0
  end.
Ltac all4 a := destruct a as [|[|[|[|a]]]]; [| | | |exfalso; lia].
Section Four.
Variables x y z x' y' z' : C.
Let P := Lp x y z.
Let Q := Lm x' y' z'.
Let K (a b : nat) : C := P a b + Q a b.
Lemma P_sq Y k a i : k * k = - (x * x + y * y + z * z) -> (a < 4)%nat -> comb 4 P (- k) (comb 4 P k Y) a i = RtoC 0.
Proof.
  intros Hk Ha. transitivity (- (k * k + (x * x + y * y + z * z)) * Y a i); [|rewrite Hk; ring].
  unfold comb, P. cbn [csum]. all4 a; cbn [Lp]; ring.
Qed.
Lemma Q_sq Y k a i : k * k = - (x' * x' + y' * y' + z' * z') -> (a < 4)%nat -> comb 4 Q (- k) (comb 4 Q k Y) a i = RtoC 0.
Proof.
  intros Hk Ha. transitivity (- (k * k + (x' * x' + y' * y' + z' * z')) * Y a i); [|rewrite Hk; ring].
  unfold comb, Q. cbn [csum]. all4 a; cbn [Lm]; ring.
Qed.
Lemma PQ_comm Y k l a i : (a < 4)%nat -> comb 4 P k (comb 4 Q l Y) a i = comb 4 Q l (comb 4 P k Y) a i.
Proof. intros Ha. unfold comb, P, Q. cbn [csum]. all4 a; cbn [Lp Lm]; ring. Qed.
Lemma K_comb Y k l a i : comb 4 K (k + l) Y a i = comb 4 P k Y a i + comb 4 Q l Y a i.
Proof. unfold comb, K. cbn [csum]. ring. Qed.
Lemma P_comm : commutes 4 K P.
Proof. intros a b Ha Hb. unfold K, P, Q. cbn [csum]. all4 a; all4 b; cbn [Lp Lm]; ring. Qed.
Lemma Q_comm : commutes 4 K Q.
Proof. intros a b Ha Hb. unfold K, P, Q. cbn [csum]. all4 a; all4 b; cbn [Lp Lm]; ring. Qed.
Lemma comb_zero M L k Y i a : (a < M)%nat -> (forall b, (b < M)%nat -> Y b i = RtoC 0) -> comb M L k Y a i = RtoC 0.
Proof. intros Ha H. unfold comb. rewrite csum_zero by (intros b Hb; rewrite H by exact Hb; ring). rewrite H by exact Ha. ring. Qed.

Lemma four_branches n A k l lam Y : k * k = - (x * x + y * y + z * z) -> l * l = - (x' * x' + y' * y' + z' * z') -> beig 4 n A K lam Y -> bnz 4 n Y ->
  exists s t, (s = k \/ s = - k) /\ (t = l \/ t = - l) /\ ceig n A (lam - (s + t)).
Proof.
  intros Hk Hl HY NZ.
  assert (X : exists s Y1, (s = k \/ s = - k) /\ beig 4 n A K lam Y1 /\ bnz 4 n Y1 /\ forall a i, (a < 4)%nat -> (i < n)%nat -> comb 4 P s Y1 a i = RtoC 0).
  { destruct (comb_dec 4 n P k Y) as [Z|N1]; [exists k, Y; auto|]. exists (- k), (comb 4 P k Y). split; [now right|]. split; [apply comb_beig; [exact P_comm|exact HY]|]. split; [exact N1|]. intros. now apply P_sq. }
  destruct X as (s & Y1 & Hs & HY1 & NZ1 & Z1). exists s.
  assert (X : exists t Y2, (t = l \/ t = - l) /\ beig 4 n A K lam Y2 /\ bnz 4 n Y2 /\ (forall a i, (a < 4)%nat -> (i < n)%nat -> comb 4 P s Y2 a i = RtoC 0) /\ forall a i, (a < 4)%nat -> (i < n)%nat -> comb 4 Q t Y2 a i = RtoC 0).
  { destruct (comb_dec 4 n Q l Y1) as [Z|N1]; [exists l, Y1; auto|]. exists (- l), (comb 4 Q l Y1). split; [now right|]. split; [apply comb_beig; [exact Q_comm|exact HY1]|]. split; [exact N1|]. split; [|intros; now apply Q_sq].
    intros a i Ha Hi. rewrite PQ_comm by exact Ha. apply comb_zero; [exact Ha|]. intros b Hb. now apply Z1. }
  destruct X as (t & Y2 & Ht & HY2 & NZ2 & Z2 & Z3). exists t. split; [exact Hs|]. split; [exact Ht|]. apply beig_branch with 4%nat K Y2; auto.
  intros a i Ha Hi. rewrite K_comb, Z2, Z3 by assumption. ring.
Qed.

(** the vanishing of a sum of squares makes the parts vanish (real couplings) *)
Hypothesis realP : x * x + y * y + z * z = RtoC 0 -> x = RtoC 0 /\ y = RtoC 0 /\ z = RtoC 0.
Hypothesis realQ : x' * x' + y' * y' + z' * z' = RtoC 0 -> x' = RtoC 0 /\ y' = RtoC 0 /\ z' = RtoC 0.
Lemma k4_vector k l : k * k = - (x * x + y * y + z * z) -> l * l = - (x' * x' + y' * y' + z' * z') ->
  exists e, (exists a, (a < 4)%nat /\ e a <> RtoC 0) /\ forall a, (a < 4)%nat -> cap 4 K e a = (k + l) * e a.
Proof.
  intros Hk Hl.
  assert (SQ0 : forall c : C, c * c = RtoC 0 -> c = RtoC 0) by (intros c E; destruct (Ceq_em c (RtoC 0)) as [|N]; [assumption|]; exfalso; now apply (Cmult_neq_0 _ _ N N)).
  assert (W : forall Y a, (a < 4)%nat -> Y a 0%nat <> RtoC 0 -> (forall b, (b < 4)%nat -> comb 4 P k Y b 0%nat = RtoC 0) -> (forall b, (b < 4)%nat -> comb 4 Q l Y b 0%nat = RtoC 0) ->
     exists e, (exists a, (a < 4)%nat /\ e a <> RtoC 0) /\ forall a, (a < 4)%nat -> cap 4 K e a = (k + l) * e a).
  { intros Y a Ha N HP HQ. exists (fun b => Y b 0%nat). split; [eauto|]. intros b Hb. assert (E := K_comb Y k l b 0%nat). rewrite HP, HQ in E by exact Hb. unfold comb in E. unfold cap.
    transitivity (csum 4 (fun b0 => K b b0 * Y b0 0%nat) - (k + l) * Y b 0%nat + (k + l) * Y b 0%nat); [ring|]. rewrite E. ring. }
  set (U := fun (c b _ : nat) => if Nat.eqb b c then RtoC 1 else RtoC 0).
  assert (Hk' : - k * - k = - (x * x + y * y + z * z)) by (rewrite <- Hk; ring). assert (Hl' : - l * - l = - (x' * x' + y' * y' + z' * z')) by (rewrite <- Hl; ring).
  assert (SP : forall Y a, (a < 4)%nat -> comb 4 P k (comb 4 P (- k) Y) a 0%nat = RtoC 0) by (intros Y a Ha; assert (X := P_sq Y (- k) a 0%nat Hk' Ha); now replace (- - k) with k in X by ring).
  assert (SQ : forall Y a, (a < 4)%nat -> comb 4 Q l (comb 4 Q (- l) Y) a 0%nat = RtoC 0) by (intros Y a Ha; assert (X := Q_sq Y (- l) a 0%nat Hl' Ha); now replace (- - l) with l in X by ring).
  destruct (Ceq_em k (RtoC 0)) as [Zk|Nk]; destruct (Ceq_em l (RtoC 0)) as [Zl|Nl].
  - assert (x * x + y * y + z * z = RtoC 0) as E1 by (transitivity (- (k * k)); [rewrite Hk; ring|rewrite Zk; ring]). assert (x' * x' + y' * y' + z' * z' = RtoC 0) as E2 by (transitivity (- (l * l)); [rewrite Hl; ring|rewrite Zl; ring]).
    destruct (realP E1) as (Ex & Ey & Ez). destruct (realQ E2) as (Ex' & Ey' & Ez'). apply (W (U 0%nat) 0%nat); [lia|intros E; apply RtoC_inj in E; lra| |].
    + intros b Hb. unfold comb, P, U. rewrite Zk, Ex, Ey, Ez. cbn [csum]. all4 b; cbn [Lp Nat.eqb]; ring.
    + intros b Hb. unfold comb, Q, U. rewrite Zl, Ex', Ey', Ez'. cbn [csum]. all4 b; cbn [Lm Nat.eqb]; ring.
  - assert (x * x + y * y + z * z = RtoC 0) as E1 by (transitivity (- (k * k)); [rewrite Hk; ring|rewrite Zk; ring]). destruct (realP E1) as (Ex & Ey & Ez).
    apply (W (comb 4 Q (- l) (U 0%nat)) 0%nat); [lia| | |intros b Hb; now apply SQ].
    + intros E. apply Nl. rewrite <- E. unfold comb, Q, U. cbn [csum Lm Nat.eqb]. ring.
    + intros b Hb. unfold comb at 1. unfold P. rewrite Zk, Ex, Ey, Ez. cbn [csum]. all4 b; cbn [Lp]; ring.
  - assert (x' * x' + y' * y' + z' * z' = RtoC 0) as E2 by (transitivity (- (l * l)); [rewrite Hl; ring|rewrite Zl; ring]). destruct (realQ E2) as (Ex' & Ey' & Ez').
    apply (W (comb 4 P (- k) (U 0%nat)) 0%nat); [lia| |intros b Hb; now apply SP|].
    + intros E. apply Nk. rewrite <- E. unfold comb, P, U. cbn [csum Lp Nat.eqb]. ring.
    + intros b Hb. unfold comb at 1. unfold Q. rewrite Zl, Ex', Ey', Ez'. cbn [csum]. all4 b; cbn [Lm]; ring.
  - set (W4 := fun c => comb 4 P (- k) (comb 4 Q (- l) (U c))).
    assert (HW : forall c, (c < 4)%nat -> W4 c c 0%nat <> RtoC 0 -> exists e, (exists a, (a < 4)%nat /\ e a <> RtoC 0) /\ forall a, (a < 4)%nat -> cap 4 K e a = (k + l) * e a).
    { intros c Hc N. apply (W (W4 c) c); [exact Hc|exact N|intros b Hb; now apply SP|]. intros b Hb. unfold W4. rewrite <- PQ_comm by exact Hb. apply comb_zero; [exact Hb|]. intros b' Hb'. now apply SQ. }
    assert (TR : W4 0%nat 0%nat 0%nat + W4 1%nat 1%nat 0%nat + W4 2%nat 2%nat 0%nat + W4 3%nat 3%nat 0%nat = RtoC 4 * (k * l)).
    { unfold W4, comb, P, Q, U. cbn [csum Lp Lm Nat.eqb]. replace (RtoC 4) with (RtoC 1 + RtoC 1 + RtoC 1 + RtoC 1) by (rewrite <- !RtoC_plus; f_equal; ring). ring. }
    destruct (Ceq_em (W4 0%nat 0%nat 0%nat) (RtoC 0)) as [Z0|N0]; [|apply (HW 0%nat); [lia|exact N0]].
    destruct (Ceq_em (W4 1%nat 1%nat 0%nat) (RtoC 0)) as [Z1|N1]; [|apply (HW 1%nat); [lia|exact N1]].
    destruct (Ceq_em (W4 2%nat 2%nat 0%nat) (RtoC 0)) as [Z2|N2]; [|apply (HW 2%nat); [lia|exact N2]].
    destruct (Ceq_em (W4 3%nat 3%nat 0%nat) (RtoC 0)) as [Z3|N3]; [|apply (HW 3%nat); [lia|exact N3]].
    exfalso. rewrite Z0, Z1, Z2, Z3 in TR. apply (Cmult_neq_0 (RtoC 4) (k * l)); [intros E; apply RtoC_inj in E; lra|now apply Cmult_neq_0|]. rewrite <- TR. ring.
Qed.
End Four.

Lemma sq3_zero (a b c : R) : (a * a + b * b + c * c = 0)%R -> (a = 0 /\ b = 0 /\ c = 0)%R.
Proof. intros E. repeat split; nra. Qed.
Lemma sq3_nonneg (a b c : R) : (0 <= a * a + b * b + c * c)%R.
Proof. nra. Qed.
(** sum and difference resonances of four branches *)
Definition pole_plus (ps : list R) : R := let p i := nth i ps 0%R in (sqrt ((p 0%nat + p 5%nat) * (p 0%nat + p 5%nat) + (p 1%nat - p 4%nat) * (p 1%nat - p 4%nat) + (p 2%nat + p 3%nat) * (p 2%nat + p 3%nat)) / 2)%R.
Definition pole_minus (ps : list R) : R := let p i := nth i ps 0%R in (sqrt ((p 0%nat - p 5%nat) * (p 0%nat - p 5%nat) + (p 1%nat + p 4%nat) * (p 1%nat + p 4%nat) + (p 3%nat - p 2%nat) * (p 3%nat - p 2%nat)) / 2)%R.

Lemma parallel4_poles S0 S n poles lam : valid S0 -> aG S0 <> None -> sN S0 = n -> parallel_dyn S0 S 4 n (coupling poles) ->
  pole_of S lam <-> exists mu s t, pole_of S0 mu /\ (s = 1 \/ s = -1)%R /\ (t = 1 \/ t = -1)%R /\ lam = mu + (0%R, (s * pole_plus poles + t * pole_minus poles)%R).
Proof.
  intros V0 G0 N0 D. set (p := fun i => nth i poles 0%R).
  set (x := (- (p 0%nat + p 5%nat) / 2)%R). set (y := (- (p 1%nat - p 4%nat) / 2)%R). set (z := (- (p 2%nat + p 3%nat) / 2)%R).
  set (x' := (- (p 0%nat - p 5%nat) / 2)%R). set (y' := (- (p 1%nat + p 4%nat) / 2)%R). set (z' := (- (p 3%nat - p 2%nat) / 2)%R).
  assert (EXT : forall a b, (a < 4)%nat -> (b < 4)%nat -> cK (coupling poles) a b = Lp (RtoC x) (RtoC y) (RtoC z) a b + Lm (RtoC x') (RtoC y') (RtoC z') a b).
  { intros a b Ha Hb. all4 a; all4 b; cbv [cK Nat.eqb coupling Nat.ltb Nat.leb Lp Lm Nat.mul Nat.add Nat.sub Nat.div Nat.divmod fst Nat.pred]; rewrite <- ?RtoC_opp, <- ?RtoC_plus; f_equal; subst x y z x' y' z' p; cbv beta; lra. }
  assert (EP : forall s, (s = 1 \/ s = -1)%R -> (0%R, (s * pole_plus poles)%R) * (0%R, (s * pole_plus poles)%R) = - (RtoC x * RtoC x + RtoC y * RtoC y + RtoC z * RtoC z)).
  { intros s Hs. rewrite cmul_i, <- !RtoC_mult, <- !RtoC_plus, <- !RtoC_opp. f_equal. f_equal. unfold pole_plus. fold (p 0%nat) (p 1%nat) (p 2%nat) (p 3%nat) (p 4%nat) (p 5%nat).
    match goal with |- (_ * (sqrt ?q / 2) * _ = _)%R => assert (Q := sqrt_sqrt q (sq3_nonneg _ _ _)); set (r := sqrt q) in *; transitivity (s * s * (r * r) / 4)%R; [field|]; rewrite Q end. assert (s * s = 1)%R as -> by (destruct Hs as [-> | ->]; ring). subst x y z. field. }
  assert (EQ : forall t, (t = 1 \/ t = -1)%R -> (0%R, (t * pole_minus poles)%R) * (0%R, (t * pole_minus poles)%R) = - (RtoC x' * RtoC x' + RtoC y' * RtoC y' + RtoC z' * RtoC z')).
  { intros s Hs. rewrite cmul_i, <- !RtoC_mult, <- !RtoC_plus, <- !RtoC_opp. f_equal. f_equal. unfold pole_minus. fold (p 0%nat) (p 1%nat) (p 2%nat) (p 3%nat) (p 4%nat) (p 5%nat).
    match goal with |- (_ * (sqrt ?q / 2) * _ = _)%R => assert (Q := sqrt_sqrt q (sq3_nonneg _ _ _)); set (r := sqrt q) in *; transitivity (s * s * (r * r) / 4)%R; [field|]; rewrite Q end. assert (s * s = 1)%R as -> by (destruct Hs as [-> | ->]; ring). subst x' y' z'. field. }
  assert (RE : forall a b c : R, RtoC a * RtoC a + RtoC b * RtoC b + RtoC c * RtoC c = RtoC 0 -> RtoC a = RtoC 0 /\ RtoC b = RtoC 0 /\ RtoC c = RtoC 0).
  { intros a b c. rewrite <- !RtoC_mult, <- !RtoC_plus. intros E. apply RtoC_inj in E. destruct (sq3_zero a b c E) as (-> & -> & ->). auto. }
  assert (SG : forall s t : R, (0%R, (s * pole_plus poles + t * pole_minus poles)%R) = (0%R, (s * pole_plus poles)%R) + (0%R, (t * pole_minus poles)%R)) by (intros s t; cbv [Cplus fst snd]; f_equal; ring).
  assert (NG : forall r : R, - (0%R, (1 * r)%R) = (0%R, (-1 * r)%R)) by (intros r; cbv [Copp fst snd]; f_equal; ring).
  split.
  - intros H. apply (parallel_beig S0 S 4 n _ V0 N0 D) in H as (Y & HY & NZ). apply (beig_ext _ _ _ _ _ _ _ EXT) in HY.
    destruct (four_branches _ _ _ _ _ _ n _ _ _ lam Y (EP 1%R (or_introl eq_refl)) (EQ 1%R (or_introl eq_refl)) HY NZ) as (s & t & Hs & Ht & H).
    apply (branch_pole S0 n V0 G0 N0) in H. rewrite NG in Hs, Ht. exists (lam - (s + t)).
    destruct Hs as [-> | ->]; destruct Ht as [-> | ->]; [exists 1%R, 1%R|exists 1%R, (-1)%R|exists (-1)%R, 1%R|exists (-1)%R, (-1)%R]; (split; [exact H|]); (split; [auto|]); (split; [auto|]); rewrite SG; ring.
  - intros (mu & s & t & Hmu & Hs & Ht & ->). rewrite SG. apply (parallel_shift S0 S 4 n (coupling poles) V0 G0 N0 D); [|exact Hmu].
    destruct (k4_vector (RtoC x) (RtoC y) (RtoC z) (RtoC x') (RtoC y') (RtoC z') (RE x y z) (RE x' y' z') _ _ (EP s Hs) (EQ t Ht)) as (e & He & HK).
    exists e. split; [exact He|]. intros a Ha. rewrite <- HK by exact Ha. unfold cap. apply csum_ext. intros b Hb. now rewrite EXT.
Qed.
