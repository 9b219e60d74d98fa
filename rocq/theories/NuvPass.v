(** The passes of the NUV estimator over a window. *)
From Coq Require Import List Arith Lia Bool Reals Lra ZArith.
From Flocq Require Import Core.
From Verif Require Import Base LinAlg FirExtras AnalogSystem AnalogProofs Signals DigitalControl Integrators IntegratorsProofs Simulator Stability LinearOde PreSim Zpk FilterCoeff
  FilterCoeffProofs FilterRun Estimators Optimal NuvAlg NuvCost NuvArrival Nuv NuvProofs.
Import ListNotations.
Open Scope R_scope.

Section P.
Variable inv : rmat -> result rmat.
Hypothesis HI : forall M X, inv M = Ok X -> is_inverse M X.
Variable c : nuv.
Hypothesis Z : sizes c.
Let S := nS c.
Let N := sN S.
Let P := sNt S.
Let C := ent (aCT S).
Let A := ent (nAf c).
Let U := ent (nVu c).
Hypothesis HS : symmetric_outputs S.

(** variances of one sample *)
Definition good (s : rvec) : Prop := length s = P /\ Forall (fun x => 0 < x) s.
(** smoothed states and adjoint variables of a pass *)
Definition pass_x (l : list node) (xs : list rvec) (k n : nat) : R := fv (g_m (nth k l dnode)) n - ap N (ent (gV (nth k l dnode))) (fv (nth k xs [])) n.
Definition pass_p (xs : list rvec) (k n : nat) : R := fv (nth k xs []) n.
Definition sig (s : list rvec) (k r : nat) : R := fv (nth k s []) r.

Record facts (K : nat) (buf s1 s2 : list rvec) (m : rvec) (V : rmat) (l : list node) (xs : list rvec) : Prop := mkFacts {
  f_l : length l = K; f_xs : length xs = K;
  f_0 : (0 < K)%nat -> g_m (nth 0 l dnode) = m /\ gV (nth 0 l dnode) = V;
  f_k : forall k, (k < K)%nat -> length (g_m (nth k l dnode)) = N /\ rows (gV (nth k l dnode)) = N /\ cols (gV (nth k l dnode)) = N /\
          symm N (ent (gV (nth k l dnode))) /\ psd N (ent (gV (nth k l dnode))) /\ length (nth k xs []) = N;
  f_p : forall k n, (k < K)%nat -> (n < N)%nat -> pass_p xs k n = (if Nat.ltb (Datatypes.S k) K then apT N A (pass_p xs (Datatypes.S k)) n else 0) +
          apT P C (fun r => (ap N C (pass_x l xs k) r - n_bound c) / sig s1 k r + (ap N C (pass_x l xs k) r + n_bound c) / sig s2 k r) n;
  f_x : forall k n, (Datatypes.S k < K)%nat -> (n < N)%nat -> pass_x l xs (Datatypes.S k) n = ap N A (pass_x l xs k) n + Bsf c (nth k buf []) n - ap N U (pass_p xs (Datatypes.S k)) n;
  f_b : forall k, (Datatypes.S k < K)%nat -> length (nth k buf []) = sM S;
  f_a : forall k q, (k < K)%nat -> exists x p, adj_path (mkW N P K A (fun k => Bsf c (nth k buf [])) C (fv m) (ent V) U) (n_bound c) (sig s1) (sig s2) k x p /\
          (forall n, (n < N)%nat -> p k n = - q n) /\ forall n, (n < N)%nat -> x k n = fv (g_m (nth k l dnode)) n + ap N (ent (gV (nth k l dnode))) q n }.

(** the path that starts in the message *)
Lemma adj_start w b s1 s2 q : exists x p, adj_path w b s1 s2 0 x p /\ (forall n, (n < w_N w)%nat -> p O n = - q n) /\ forall n, (n < w_N w)%nat -> x O n = w_m w n + ap (w_N w) (w_V w) q n.
Proof.
  exists (fun _ n => w_m w n + ap (w_N w) (w_V w) q n), (fun _ n => - q n). split; [|auto]. split; [|intros; lia]. split; [|intros; lia].
  intros n Hn. unfold ap. f_equal. apply rsum_ext. intros; ring.
Qed.

Lemma head_p (g : node) s1 s2 (Yc : rmat) zl (xh : rvec) : good s1 -> good s2 -> rows Yc = P ->
  (forall i j, (i < P)%nat -> (j < P)%nat -> ent Yc i j = if Nat.eqb i j then / (/ fv s1 i + / fv s2 i) else 0) ->
  (forall i, (i < P)%nat -> fv (g_y g) i = / (/ fv s1 i + / fv s2 i) * (n_bound c * / fv s1 i - n_bound c * / fv s2 i)) ->
  symm N (ent (gV g)) ->
  (forall w i, (i < P)%nat -> ap P (ent Yc) (ap P (ent (gG g)) w) i + ap N C (ap N (ent (gV g)) (apT P C (ap P (ent (gG g)) w))) i = w i) ->
  (forall n, (n < N)%nat -> fv xh n = xi N P (ent (gV g)) C (ent (gG g)) (fv (g_m g)) (fv (g_y g)) (fv zl) n) ->
  forall n, (n < N)%nat -> fv xh n = fv zl n +
    apT P C (fun r => (ap N C (fun n => fv (g_m g) n - ap N (ent (gV g)) (fv xh) n) r - n_bound c) / fv s1 r + (ap N C (fun n => fv (g_m g) n - ap N (ent (gV g)) (fv xh) n) r + n_bound c) / fv s2 r) n.
Proof.
  intros [L1 P1] [L2 P2] RY HY Hy HV HG Hx n Hn.
  assert (SY : symm P (ent Yc)). { intros i j Hi Hj. rewrite !HY by assumption. rewrite (Nat.eqb_sym j i). destruct (Nat.eqb_spec i j) as [->|]; reflexivity. }
  rewrite Hx by exact Hn. rewrite (xi_split N P _ C (ent Yc)) by assumption. f_equal. apply apT_ext. intros r Hr.
  set (v := ap N C (fun n0 => fv (g_m g) n0 - ap N (ent (gV g)) (fv xh) n0) r).
  assert (E := residual N P (ent (gV g)) C (ent Yc) (ent (gG g)) HV SY HG (fv (g_m g)) (fv (g_y g)) (fv zl) r Hr).
  replace (ap N C (fun n0 => fv (g_m g) n0 - ap N (ent (gV g)) (xi N P (ent (gV g)) C (ent (gG g)) (fv (g_m g)) (fv (g_y g)) (fv zl)) n0) r) with v in E.
  2:{ unfold v. apply ap_ext. intros i Hi. f_equal. apply ap_ext. intros j Hj. now apply Hx. }
  set (q := gain_res N P (ent (gV g)) C (ent (gG g)) (fv (g_m g)) (fv (g_y g)) (fv zl)) in *.
  unfold ap in E at 1. rewrite (rsum_ext P _ (fun j => if Nat.eqb j r then / (/ fv s1 r + / fv s2 r) * q j else 0)) in E.
  2:{ intros j Hj. rewrite HY by assumption. rewrite (Nat.eqb_sym r j). destruct (Nat.eqb j r); ring. }
  rewrite (Optimal.rsum_single P (fun j => / (/ fv s1 r + / fv s2 r) * q j) r Hr), Hy in E by exact Hr.
  assert (0 < fv s1 r) by (apply fv_pos; [assumption|lia]). assert (0 < fv s2 r) by (apply fv_pos; [assumption|lia]).
  assert (0 < / fv s1 r) by now apply Rinv_0_lt_compat. assert (0 < / fv s2 r) by now apply Rinv_0_lt_compat.
  unfold Rdiv. clearbody q v. remember (/ fv s1 r) as r1. remember (/ fv s2 r) as r2.
  apply (Rmult_eq_reg_l (/ (r1 + r2))); [|apply Rinv_neq_0_compat; lra]. rewrite E. field. lra.
Qed.

Lemma pass_facts : forall buf s1 s2 m V obs l xs, observations inv c s1 s2 buf = Ok obs -> forward inv c obs m V = Ok l -> backward c l = Ok xs ->
  length s1 = length buf -> length s2 = length buf -> Forall good s1 -> Forall good s2 -> length m = N -> rows V = N -> cols V = N -> symm N (ent V) -> psd N (ent V) ->
  facts (length buf) buf s1 s2 m V l xs.
Proof.
  induction buf as [|s buf IH]; intros s1 s2 m V obs l xs EO EF EB L1 L2 G1 G2 Lm RV CV SV PV.
  { destruct s1; [|discriminate]. destruct s2; [|discriminate]. cbn in EO. apply Ok_inj in EO. subst obs. cbn in EF. apply Ok_inj in EF. subst l. cbn in EB. apply Ok_inj in EB. subst xs.
    cbn [length]. constructor; auto; intros; lia. }
  destruct s1 as [|a s1]; [discriminate|]. destruct s2 as [|b s2]; [discriminate|]. cbn [length] in L1, L2. apply Nat.succ_inj in L1. apply Nat.succ_inj in L2.
  inversion G1 as [|? ? Ga G1']; subst. inversion G2 as [|? ? Gb G2']; subst. clear G1 G2.
  cbn [observations] in EO. apply bind_Ok in EO as ([y Yc] & EY & EO). apply bind_Ok in EO as (obs' & EO & Q). apply Ok_inj in Q. subst obs.
  destruct (observation_Ok inv HI c Z a b y Yc (proj1 Ga) (proj1 Gb) (proj2 Ga) (proj2 Gb) EY) as (Ly & RY & CY & HY & Hy). fold S P in Ly, RY, CY, HY, Hy.
  cbn [forward] in EF. apply bind_Ok in EF as ([G F] & EG & EF).
  destruct (gains_Ok inv HI c Z Yc V G F RV CV RY CY EG) as (RG & CG & RF & CF & HG & HF). fold S N P C in RG, CG, RF, CF, HG, HF.
  assert (SY : symm P (ent Yc)). { intros i j Hi Hj. rewrite !HY by assumption. rewrite (Nat.eqb_sym j i). destruct (Nat.eqb_spec i j) as [->|]; reflexivity. }
  assert (PY : psd P (ent Yc)).
  { intros q. unfold quad. apply rsum_nonneg. intros i Hi. rewrite (rsum_ext P _ (fun j => if Nat.eqb j i then / (/ fv a i + / fv b i) * q j else 0)).
    - rewrite (Optimal.rsum_single P (fun j => / (/ fv a i + / fv b i) * q j) i Hi).
      assert (0 < / fv a i) by (apply Rinv_0_lt_compat, fv_pos; [apply Ga|destruct Ga; lia]). assert (0 < / fv b i) by (apply Rinv_0_lt_compat, fv_pos; [apply Gb|destruct Gb; lia]).
      replace (q i * (/ (/ fv a i + / fv b i) * q i)) with (/ (/ fv a i + / fv b i) * (q i * q i)) by ring. apply Rmult_le_pos; [apply Rlt_le, Rinv_0_lt_compat; lra|apply Rle_0_sqr].
    - intros j Hj. rewrite HY by assumption. rewrite (Nat.eqb_sym i j). destruct (Nat.eqb j i); ring. }
  (* the head of the backward pass *)
  assert (HEAD : forall zl x1 x2 x3 cm, dotv (tr (aCT S)) m = Ok cm -> dotv (tr F) zl = Ok x1 -> dotv G (rvsub cm y) = Ok x2 -> dotv (tr (aCT S)) x2 = Ok x3 ->
    length (rvadd x1 x3) = N /\ forall n, (n < N)%nat -> fv (rvadd x1 x3) n = fv zl n +
      apT P C (fun r => (ap N C (fun n => fv m n - ap N (ent V) (fv (rvadd x1 x3)) n) r - n_bound c) / fv a r + (ap N C (fun n => fv m n - ap N (ent V) (fv (rvadd x1 x3)) n) r + n_bound c) / fv b r) n /\
      fv (rvadd x1 x3) n = xi N P (ent V) C (ent G) (fv m) (fv y) (fv zl) n).
  { intros zl x1 x2 x3 cm E0 E1 E2 E3. destruct (back_Ok c Z HS (mkNode G F m V y) zl x1 x2 x3 cm Lm Ly RV CV RG CG RF CF HF E0 E1 E2 E3) as [L X]. split; [exact L|].
    intros n Hn. split; [|now apply X]. exact (head_p (mkNode G F m V y) a b Yc zl (rvadd x1 x3) Ga Gb RY HY Hy SV HG X n Hn). }
  destruct obs' as [|o obs'].
  - (* last sample *)
    apply Ok_inj in EF. subst l. cbn [backward] in EB. cbn [bind] in EB.
    apply bind_Ok in EB as (cm & E0 & EB). apply bind_Ok in EB as (x1 & E1 & EB). apply bind_Ok in EB as (x2 & E2 & EB). apply bind_Ok in EB as (x3 & E3 & EB). apply Ok_inj in EB. subst xs.
    cbn [g_m g_y gG gF] in E0, E1, E2. fold S in E0, E1, E3. destruct (HEAD _ _ _ _ _ E0 E1 E2 E3) as [LX HX].
    assert (buf = []) as ->. { destruct s1, s2, buf; try discriminate; auto. cbn in EO. apply bind_Ok in EO as ([? ?] & _ & EO). apply bind_Ok in EO as (? & _ & EO). apply Ok_inj in EO. discriminate. }
    cbn [length]. constructor; auto.
    + intros k Hk. assert (k = 0)%nat as -> by lia. cbn [nth g_m gV]. auto 10.
    + intros k n Hk Hn. assert (k = 0)%nat as -> by lia. cbn [Nat.ltb Nat.leb]. unfold pass_p, pass_x, sig. cbn [nth g_m gV]. rewrite (proj1 (HX n Hn)) at 1. f_equal. unfold fv. apply nth_repeat.
    + intros; lia.
    + intros; lia.
    + intros k q Hk. assert (k = 0)%nat as -> by lia. cbn [nth g_m gV]. apply (adj_start (mkW N P 1 A (fun k => Bsf c (nth k [s] [])) C (fv m) (ent V) U)).
  - apply bind_Ok in EF as (m1 & EM & EF). apply bind_Ok in EF as (V1 & EV & EF). apply bind_Ok in EF as (l1 & EF & Q). apply Ok_inj in Q. subst l.
    cbn [backward] in EB. apply bind_Ok in EB as (xs1 & EB1 & EB). apply bind_Ok in EB as (zl & EZ & EB).
    apply bind_Ok in EB as (cm & E0 & EB). apply bind_Ok in EB as (x1 & E1 & EB). apply bind_Ok in EB as (x2 & E2 & EB). apply bind_Ok in EB as (x3 & E3 & EB). apply Ok_inj in EB. subst xs.
    cbn [g_m g_y gG gF] in E0, E1, E2. fold S in E0, E1, E3, EZ. destruct (HEAD _ _ _ _ _ E0 E1 E2 E3) as [LX HX].
    destruct (next_mean_Ok c Z G F m V y s m1 RV CV RG CG RF CF Lm Ly HF EM) as (Lm1 & Ls & HM). fold S N P C A in Lm1, Ls, HM.
    destruct (next_cov_Ok c Z G F V V1 RV CV RF CF HF EV) as (RV1 & CV1 & HV1). fold S N P C A U in RV1, CV1, HV1.
    assert (SU := z_symm c Z). assert (PU := z_psd c Z). fold S N U in SU, PU.
    assert (SV1 : symm N (ent V1)). { intros i j Hi Hj. rewrite !HV1. apply (V'_symm N P (ent V) C (ent Yc) (ent G) SV SY HG A U SU); assumption. }
    assert (PV1 : psd N (ent V1)).
    { intros q. assert (X := V'_psd N P (ent V) C (ent Yc) (ent G) SV HG A U PY PV PU q). unfold quad in X |- *. erewrite rsum_ext; [exact X|].
      intros i Hi. cbv beta. f_equal. apply rsum_ext. intros j Hj. now rewrite HV1. }
    assert (FT := IH s1 s2 m1 V1 (o :: obs') l1 xs1 EO EF EB1 L1 L2 G1' G2' Lm1 RV1 CV1 SV1 PV1).
    assert (Hb : (0 < length buf)%nat). { destruct buf; cbn; [|lia]. destruct s1, s2; try discriminate; cbn in EO; apply Ok_inj in EO; discriminate. }
    destruct FT as [Fl Fxs F0 Fk Fp Fx Fb Fa]. destruct (F0 Hb) as [F0m F0V].
    destruct xs1 as [|xh xs1]; [cbn in Fxs; lia|]. apply dotv_Ok in EZ as (DZ & LZ & EZ). destruct (z_Af c Z) as [RA CA]. fold S N in RA, CA. cbn [tr rows cols ent] in DZ, LZ, EZ. rewrite RA, CA in *.
    assert (Hz : eqn N (fv zl) (apT N A (fv xh))). { intros i Hi. now apply EZ. }
    cbn [length]. constructor.
    + cbn. now rewrite Fl.
    + cbn in *. now rewrite Fxs.
    + auto.
    + intros [|k] Hk; cbn [nth g_m gV]; [auto 10|]. apply Fk. lia.
    + intros [|k] n Hk Hn.
      * destruct (Nat.ltb_spec 1 (Datatypes.S (length buf))); [|lia]. unfold pass_p at 1, pass_x, sig. cbn [nth g_m gV]. rewrite (proj1 (HX n Hn)) at 1. f_equal. rewrite Hz by exact Hn. reflexivity.
      * specialize (Fp k n ltac:(lia) Hn). exact Fp.
    + intros [|k] n Hk Hn.
      * unfold pass_x at 1. cbn [nth]. rewrite F0m, F0V. change (nth 0 (xh :: xs1) []) with xh. rewrite HM by exact Hn.
        rewrite (ap_extM N (ent V1) (V' N P (ent V) C (ent G) A U)) by (intros; apply HV1).
        assert (X := next_state N P (ent V) C (ent Yc) (ent G) SV SY HG (fv m) (fv y) (fv zl) A (Bsf c s) U (fv xh) Hz n Hn). rewrite X. unfold pass_p. cbn [nth]. f_equal. f_equal.
        apply ap_ext. intros i Hi. unfold pass_x. cbn [nth g_m gV]. f_equal. apply ap_ext. intros j Hj. symmetry. now apply HX.
      * specialize (Fx k n ltac:(lia) Hn). exact Fx.
    + intros [|k] Hk; cbn [nth]; [exact Ls|]. apply Fb. lia.
    + intros [|k] q Hk; cbn [nth g_m gV]; [apply (adj_start (mkW N P (Datatypes.S (length buf)) A (fun k => Bsf c (nth k (s :: buf) [])) C (fv m) (ent V) U))|].
      destruct (Fa k q ltac:(lia)) as (x & p & [[X0 X1] XP] & Pk & Xk). cbn [w_N w_P w_K w_A w_Bs w_C w_m w_V w_U] in X0, X1, XP.
      set (za := map (apT N A (p O)) (seq 0 N)). set (xa := map (xi N P (ent V) C (ent G) (fv m) (fv y) (fv za)) (seq 0 N)).
      assert (Za : eqn N (fv za) (apT N A (p O))) by (intros i Hi; unfold fv, za; now rewrite nth_seq_R).
      assert (Xa : forall n, (n < N)%nat -> fv xa n = xi N P (ent V) C (ent G) (fv m) (fv y) (fv za) n) by (intros i Hi; unfold fv at 1, xa; now rewrite nth_seq_R).
      set (x0 := fun n => fv m n - ap N (ent V) (fv xa) n).
      exists (fun i => match i with O => x0 | Datatypes.S i => x i end), (fun i => match i with O => fv xa | Datatypes.S i => p i end). split; [|auto].
      assert (HN : forall n, (n < N)%nat -> x O n = ap N A x0 n + Bsf c s n - ap N U (p O) n).
      { intros n Hn. rewrite X0 by exact Hn. assert (X := next_state N P (ent V) C (ent Yc) (ent G) SV SY HG (fv m) (fv y) (fv za) A (Bsf c s) U (p O) Za n Hn).
        rewrite HM by exact Hn. rewrite (rsum_ext N (fun j => ent V1 n j * - p O j) (fun j => - (V' N P (ent V) C (ent G) A U n j * p O j))) by (intros; rewrite HV1; ring). rewrite rsum_opp.
        fold (ap N (V' N P (ent V) C (ent G) A U) (p O) n). unfold Rminus in X. rewrite X.
        assert (Q : ap N A x0 n = ap N A (fun i => fv m i + - ap N (ent V) (xi N P (ent V) C (ent G) (fv m) (fv y) (fv za)) i) n) by (apply ap_ext; intros i Hi; unfold x0, Rminus; f_equal; f_equal; apply ap_ext; intros j Hj; now apply Xa).
        rewrite Q. ring. }
      split; [split|]; cbn [w_N w_P w_K w_A w_Bs w_C w_m w_V w_U].
      * intros n Hn. unfold x0, ap. rewrite (rsum_ext N (fun j => ent V n j * - fv xa j) (fun j => - (ent V n j * fv xa j))) by (intros; ring). rewrite rsum_opp. ring.
      * intros [|i] n Hi Hn; [|exact (X1 i n ltac:(lia) Hn)]. rewrite HN by exact Hn. rewrite (rsum_ext N (fun j => U n j * - p O j) (fun j => - (U n j * p O j))) by (intros; ring). rewrite rsum_opp. reflexivity.
      * intros [|i] n Hi Hn; [|exact (XP i n ltac:(lia) Hn)].
        rewrite (head_p (mkNode G F m V y) a b Yc za xa Ga Gb RY HY Hy SV HG Xa n Hn) at 1. rewrite Za by exact Hn. f_equal.
Qed.
End P.
