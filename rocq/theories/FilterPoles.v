(** Poles on an ellipse: conjugate sets, and the polynomial that has them as roots. *)
From Coq Require Import List Arith Lia Bool Reals Lra Permutation.
From Coquelicot Require Import Complex.
From Verif Require Import ZpkProofs FilterZpk CplxLin ChebPoly.
Import ListNotations.
Open Scope R_scope.

(** ** Definitions *)
(** pi m / (2 N) for the i-th m of arange(-N + 1, N, 2) *)
Definition theta (N i : nat) : R := PI * (2 * INR i - INR N + 1) / (2 * INR N).
Definition epole (a b t : R) : C := (- (a * cos t), - (b * sin t)).
Definition epoles (N : nat) (a b : R) : list C := map (fun i => epole a b (theta N i)) (seq 0 N).
Definition msq (p : C) : C := (- (p * p))%C.

Lemma theta_eq N i : (0 < N)%nat -> 2 * INR N * theta N i = PI * (2 * INR i - INR N + 1).
Proof. intros H. unfold theta. field. apply not_0_INR. lia. Qed.
Lemma theta_bound N i : (i < N)%nat -> - (PI / 2) < theta N i < PI / 2.
Proof.
  intros H. assert (HN : 0 < INR N) by (apply lt_0_INR; lia). pose proof (theta_eq N i ltac:(lia)) as E. pose proof PI_RGT_0 as P.
  assert (H1 : 0 <= INR i) by apply pos_INR. assert (H2 : INR i + 1 <= INR N) by (rewrite <- S_INR; apply le_INR; lia).
  split; apply Rmult_lt_reg_l with (2 * INR N); try lra; rewrite E; nra.
Qed.
Lemma theta_sym N i : (i < N)%nat -> theta N (N - 1 - i) = - theta N i.
Proof.
  intros H. assert (HN : 0 < INR N) by (apply lt_0_INR; lia). apply Rmult_eq_reg_l with (2 * INR N); [|lra]. rewrite Ropp_mult_distr_r_reverse, !theta_eq by lia.
  rewrite !minus_INR by lia. cbn [INR]. ring.
Qed.
Lemma theta_inj N i j : (i < N)%nat -> theta N i = theta N j -> i = j.
Proof.
  intros H E. assert (HN : 0 < INR N) by (apply lt_0_INR; lia). apply INR_eq. apply (f_equal (Rmult (2 * INR N))) in E. rewrite !theta_eq in E by lia.
  pose proof PI_RGT_0. assert (2 * INR i - INR N + 1 = 2 * INR j - INR N + 1) by (apply Rmult_eq_reg_l with PI; lra). lra.
Qed.
Lemma sin_inj' x y : - (PI / 2) < x < PI / 2 -> - (PI / 2) < y < PI / 2 -> sin x = sin y -> x = y.
Proof. intros Hx Hy E. destruct (Rtotal_order x y) as [L|[L|L]]; [exfalso|exact L|exfalso]; apply sin_increasing_1 in L; lra. Qed.

Section E.
Variable N : nat.
Variables a b : R.
Hypothesis Ha : 0 < a.
Hypothesis Hb : 0 < b.

Lemma epoles_in p : In p (epoles N a b) <-> exists i, (i < N)%nat /\ p = epole a b (theta N i).
Proof.
  unfold epoles. rewrite in_map_iff. split; [intros (i & <- & Hi)|intros (i & Hi & ->)]; exists i; rewrite in_seq in *; [split; [lia|reflexivity]|split; [reflexivity|lia]].
Qed.
Lemma epole_conj t : Cconj (epole a b t) = epole a b (- t).
Proof. unfold epole, Cconj. cbn. rewrite cos_neg, sin_neg. f_equal. ring. Qed.
Lemma epole_left i : (i < N)%nat -> fst (epole a b (theta N i)) < 0.
Proof. intros H. cbn. assert (0 < cos (theta N i)) by (apply cos_gt_0; apply theta_bound in H; lra). nra. Qed.
Lemma epoles_left p : In p (epoles N a b) -> fst p < 0.
Proof. intros H. apply epoles_in in H as (i & Hi & ->). now apply epole_left. Qed.
Lemma epole_inj i j : (i < N)%nat -> (j < N)%nat -> epole a b (theta N i) = epole a b (theta N j) -> i = j.
Proof.
  intros Hi Hj E. injection E as _ E. apply (theta_inj N i j Hi). apply sin_inj'; [now apply theta_bound..|]. apply Rmult_eq_reg_l with b; lra.
Qed.
Lemma epoles_nodup : NoDup (epoles N a b).
Proof.
  unfold epoles. assert (G : forall s n, (s + n <= N)%nat -> NoDup (map (fun i => epole a b (theta N i)) (seq s n))).
  { intros s n; revert s. induction n as [|n IH]; intros s H; cbn; constructor; [|apply IH; lia]. intros I. apply in_map_iff in I as (j & E & Hj). apply in_seq in Hj.
    apply epole_inj in E; lia. }
  apply G. lia.
Qed.
Lemma epoles_conj : conj_set (epoles N a b).
Proof.
  split; [apply epoles_nodup|]. split.
  - intros p Hp. apply epoles_in in Hp as (i & Hi & ->). apply epoles_in. exists (N - 1 - i)%nat. split; [lia|]. now rewrite epole_conj, theta_sym.
  - intros p q Hp Hq. apply epoles_in in Hp as (i & Hi & ->). apply epoles_in in Hq as (j & Hj & ->). cbn [snd epole]. rewrite !Rabs_Ropp, !Rabs_mult. intros E.
    assert (Hbb : 0 < Rabs b) by (apply Rabs_pos_lt; lra). apply Rmult_eq_reg_l in E; [|lra].
    apply theta_bound in Hi as Bi. apply theta_bound in Hj as Bj.
    assert (Q : sin (theta N j) = sin (theta N i) \/ sin (theta N j) = sin (- theta N i)) by (rewrite sin_neg; revert E; unfold Rabs; repeat destruct (Rcase_abs _); intros; lra).
    destruct Q as [Q|Q]; apply sin_inj' in Q; try lra; [left|right]; [now rewrite Q|]. rewrite epole_conj. now rewrite Q.
Qed.
Lemma epoles_length : length (epoles N a b) = N.
Proof. unfold epoles. now rewrite map_length, seq_length. Qed.
End E.

(** ** Squared magnitude of a product over a conjugate set *)
Lemma cprod_conj s l : Cconj (cprod s l) = cprod (Cconj s) (map Cconj l).
Proof.
  unfold cprod. induction l as [|p l IH]; cbn [fold_right map]; [unfold Cconj; cbn; now rewrite Ropp_0|]. rewrite Cconj_mul, IH. f_equal. apply injective_projections; cbn; ring.
Qed.
Lemma conj_self l : NoDup l -> (forall p, In p l -> In (Cconj p) l) -> Permutation (map Cconj l) l.
Proof.
  intros ND HC. apply NoDup_Permutation; [|exact ND|].
  - apply FinFun.Injective_map_NoDup; [|exact ND]. intros x y E. rewrite <- (cconj2 x), <- (cconj2 y). now rewrite E.
  - intros p. rewrite in_map_iff. split.
    + intros (q & <- & Hq). now apply HC.
    + intros Hp. exists (Cconj p). split; [apply cconj2|now apply HC].
Qed.
Lemma mod2_prod l x : conj_set l -> RtoC (Rsqr (Cmod (cprod (0, x) l))) = cprod (RtoC (Rsqr x)) (map msq l).
Proof.
  intros (ND & HC & _). rewrite <- Cconj_mod, cprod_conj, (cprod_perm _ _ _ (conj_self l ND HC)).
  unfold cprod. clear. induction l as [|p l IH]; cbn [fold_right map]; [cbn; apply injective_projections; cbn; ring|]. rewrite <- IH.
  set (u := fold_right _ _ l). set (v := fold_right (fun r acc => ((0, x) - r) * acc)%C (RtoC 1) l).
  transitivity ((Cconj (0, x) - p) * ((0, x) - p) * (u * v))%C; [ring|]. apply (f_equal2 Cmult); [|reflexivity]. destruct p as [c d]. unfold msq. apply injective_projections; cbn; unfold Rsqr; ring.
Qed.
Lemma sq_nodup l : NoDup l -> (forall p, In p l -> fst p < 0) -> NoDup (map msq l).
Proof.
  induction 1 as [|p l N1 ND IH]; intros HL; cbn; constructor.
  - intros I. apply in_map_iff in I as (q & E & Hq). unfold msq in E.
    assert (Z : ((p - q) * (p + q) = RtoC 0)%C) by (transitivity (- (q * q) - - (p * p))%C; [ring|rewrite E; ring]).
    destruct (Ceq_dec (p - q)%C (RtoC 0)) as [Q|Q].
    + apply N1. replace p with q; [exact Hq|]. transitivity (p - (p - q))%C; [ring|]. rewrite Q. ring.
    + destruct (Ceq_dec (p + q)%C (RtoC 0)) as [Q'|Q']; [|revert Z; now apply Cmult_neq_0]. apply (f_equal fst) in Q'. cbn in Q'.
      pose proof (HL p ltac:(now left)). pose proof (HL q ltac:(now right)). lra.
  - apply IH. intros q Hq. apply HL. now right.
Qed.

(** ** Butterworth *)
Lemma cpow_cis t n : cpow (cos t, sin t) n = (cos (INR n * t), sin (INR n * t)).
Proof.
  induction n as [|n IH]; [cbn; now rewrite Rmult_0_l, cos_0, sin_0|]. cbn [cpow]. rewrite IH, S_INR. replace ((INR n + 1) * t) with (t + INR n * t) by ring.
  rewrite cos_plus, sin_plus. apply injective_projections; cbn; ring.
Qed.
Lemma cos_odd i : cos (PI * (2 * INR i + 1)) = -1 /\ sin (PI * (2 * INR i + 1)) = 0.
Proof.
  replace (PI * (2 * INR i + 1)) with (PI + 2 * INR i * PI) by ring. rewrite cos_period, sin_period. split; [apply cos_PI|apply sin_PI].
Qed.
Lemma phi_odd N i : (0 < N)%nat -> INR N * (2 * theta N i + PI) = PI * (2 * INR i + 1).
Proof. intros H. replace (INR N * (2 * theta N i + PI)) with (2 * INR N * theta N i + INR N * PI) by ring. rewrite theta_eq by exact H. ring. Qed.
Lemma msq_butter N i : msq (epole 1 1 (theta N i)) = (cos (2 * theta N i + PI), sin (2 * theta N i + PI)).
Proof. rewrite neg_cos, neg_sin, cos_2a, sin_2a. unfold msq, epole. apply injective_projections; cbn; ring. Qed.
Lemma cpow_R x n : cpow (RtoC x) n = RtoC (x ^ n).
Proof. induction n; cbn; [reflexivity|]. now rewrite IHn, RtoC_mult. Qed.

Lemma butter_mod N x : (0 < N)%nat -> Rsqr (Cmod (cprod (0, x) (epoles N 1 1))) = 1 + x ^ (2 * N).
Proof.
  intros HN. apply RtoC_inj. rewrite mod2_prod by (apply epoles_conj; lra).
  assert (F : forall y, (cpow y N + RtoC 1 = RtoC 1 * cprod y (map msq (epoles N 1 1)))%C).
  { apply factor.
    - rewrite map_length, epoles_length. apply (isp_low N 0 _ (RtoC 1)); [exact HN|apply isp_pow|intros ?; reflexivity].
    - apply sq_nodup; [apply epoles_nodup; lra|intros p Hp; apply (epoles_left N 1 1 ltac:(lra) p Hp)].
    - intros r Hr. apply in_map_iff in Hr as (p & <- & Hp). apply epoles_in in Hp as (i & Hi & ->). rewrite msq_butter, cpow_cis, phi_odd by exact HN.
      destruct (cos_odd i) as [-> ->]. apply injective_projections; cbn; ring. }
  specialize (F (RtoC (Rsqr x))). rewrite Cmult_1_l in F. rewrite <- F, cpow_R, <- RtoC_plus. f_equal. rewrite pow_mult, Rsqr_pow2. ring.
Qed.

(** ** Chebyshev *)
Lemma msq_cheb mu t : (RtoC 2 * msq (epole (sinh mu) (cosh mu) t) - RtoC 1)%C = ccos (2 * mu) (2 * t + PI).
Proof.
  unfold ccos. rewrite neg_cos, neg_sin, cos_2a, sin_2a. replace (2 * mu) with (mu + mu) by ring. rewrite cosh_plus, sinh_plus. unfold msq, epole.
  assert (E : cosh mu * cosh mu - sinh mu * sinh mu = 1) by (rewrite cosh_sinh; ring). pose proof (sin2_cos2 t) as T. unfold Rsqr in T.
  apply injective_projections; cbn; [|ring].
  transitivity (2 * (cosh mu * cosh mu * (sin t * sin t) - sinh mu * sinh mu * (cos t * cos t)) - (cosh mu * cosh mu - sinh mu * sinh mu) * (sin t * sin t + cos t * cos t)); [rewrite T, E; ring|ring].
Qed.
Lemma cheb_mod N mu eps x : (0 < N)%nat -> 0 < mu -> sinh (INR N * mu) * eps = 1 ->
  Rsqr (Cmod (cprod (0, x) (epoles N (sinh mu) (cosh mu)))) * (Rsqr eps * 4 ^ (N - 1)) = 1 + Rsqr eps * Rsqr (cheb N x).
Proof.
  intros HN Hm He. destruct N as [|n]; [lia|]. replace (S n - 1)%nat with n by lia.
  assert (Ha : 0 < sinh mu) by (rewrite <- sinh_0; now apply sinh_lt). assert (Hb : 0 < cosh mu) by (unfold cosh; pose proof (exp_pos mu); pose proof (exp_pos (- mu)); lra).
  apply RtoC_inj. rewrite RtoC_mult, mod2_prod by (now apply epoles_conj).
  set (E2 := RtoC (Rsqr eps / 2)).
  assert (F : forall y, (E2 * ccheb (S n) (RtoC 2 * y - RtoC 1) + (RtoC 1 + E2) = E2 * RtoC (2 * 4 ^ n) * cprod y (map msq (epoles (S n) (sinh mu) (cosh mu))))%C).
  { apply factor.
    - rewrite map_length, epoles_length. apply (isp_low (S n) 0 _ (RtoC 1 + E2)%C); [lia|apply isp_scale, isp_cheb2|intros ?; reflexivity].
    - apply sq_nodup; [now apply epoles_nodup|intros p Hp; apply (epoles_left (S n) _ _ Ha p Hp)].
    - intros r Hr. apply in_map_iff in Hr as (p & <- & Hp). apply epoles_in in Hp as (i & Hi & ->). rewrite msq_cheb, ccheb_cos, phi_odd by exact HN.
      unfold ccos. destruct (cos_odd i) as [-> ->]. replace (INR (S n) * (2 * mu)) with (INR (S n) * mu + INR (S n) * mu) by ring. rewrite cosh_plus, cosh_sinh.
      unfold E2. set (s := sinh (INR (S n) * mu)) in *. apply injective_projections; cbn; unfold Rsqr.
      + transitivity (1 - (s * eps) * (s * eps)); [field|]. rewrite He. ring.
      + ring. }
  specialize (F (RtoC (Rsqr x))).
  replace (RtoC 2 * RtoC (Rsqr x) - RtoC 1)%C with (RtoC (2 * Rsqr x - 1)) in F by (now rewrite RtoC_minus, RtoC_mult). rewrite ccheb_R, cheb_double in F.
  transitivity (E2 * RtoC (2 * 4 ^ n) * cprod (RtoC (Rsqr x)) (map msq (epoles (S n) (sinh mu) (cosh mu))))%C.
  - unfold E2. rewrite <- RtoC_mult. replace (Rsqr eps / 2 * (2 * 4 ^ n)) with (Rsqr eps * 4 ^ n) by field. ring.
  - rewrite <- F. unfold E2. rewrite <- RtoC_mult, <- !RtoC_plus. apply (f_equal RtoC). field.
Qed.

(** ** Scaling *)
Lemma cprod_scale c (s : C) l : cprod (RtoC c * s)%C (map (Cmult (RtoC c)) l) = (RtoC (c ^ length l) * cprod s l)%C.
Proof.
  unfold cprod. induction l as [|p l IH]; cbn [map fold_right length pow]; [ring|]. rewrite IH, RtoC_mult. ring.
Qed.
Lemma cprod_freq Wn w l : Wn <> 0 -> cprod (0, w) (map (Cmult (RtoC Wn)) l) = (RtoC (Wn ^ length l) * cprod (0, (w / Wn)%R) l)%C.
Proof. intros H. rewrite <- cprod_scale. f_equal. apply injective_projections; cbn; field; exact H. Qed.
Lemma conj_scale c l : 0 < c -> conj_set l -> conj_set (map (Cmult (RtoC c)) l).
Proof.
  intros Hc (H1 & H2 & H3). assert (IJ : forall x y : C, (RtoC c * x = RtoC c * y)%C -> x = y).
  { intros x y E. assert (Hn : RtoC c <> RtoC 0) by (intros Q; apply RtoC_inj in Q; lra). transitivity (/ RtoC c * (RtoC c * x))%C; [field; exact Hn|]. rewrite E. field. exact Hn. }
  assert (CJ : forall x : C, Cconj (RtoC c * x)%C = (RtoC c * Cconj x)%C) by (intros x; apply injective_projections; cbn; ring).
  split; [apply FinFun.Injective_map_NoDup; [exact IJ|exact H1]|]. split.
  - intros p Hp. apply in_map_iff in Hp as (q & <- & Hq). rewrite CJ. apply in_map. now apply H2.
  - intros p q Hp Hq E. apply in_map_iff in Hp as (p' & <- & Hp). apply in_map_iff in Hq as (q' & <- & Hq). rewrite CJ.
    assert (Es : forall x : C, snd (RtoC c * x)%C = c * snd x) by (intros x; cbn; ring). rewrite !Es, !Rabs_mult in E. apply Rmult_eq_reg_l in E; [|pose proof (Rabs_pos_lt c ltac:(lra)); lra].
    destruct (H3 p' q' Hp Hq E) as [->| ->]; auto.
Qed.
