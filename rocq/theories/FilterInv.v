(** Chebyshev filters of type II, and the designs taken as they come (Cauer, IIRDesign). *)
From Coq Require Import List Arith Lia Bool Reals Lra Permutation.
From Coquelicot Require Import Complex.
From Verif Require Import Base LinAlg FirExtras AnalogSystem AnalogProofs Zpk ZpkProofs Filters FilterZpk FilterResp CplxLin TransferFn TransferProofs TransferExtra ChebPoly FilterPoles FilterDesign.
Import ListNotations.
Open Scope R_scope.

(** no two distinct poles of the inverse prototype have imaginary parts of the same size, except conjugates *)
Definition no_ties (N : nat) (rs : R) : Prop := forall i j, (i < N)%nat -> (j < N)%nat -> sin (theta N i) <> sin (theta N j) ->
  sin (theta N i) * sin (theta N j) <> Rsqr (sinh (mu_of N (/ ripple rs))).

Lemma C1_nz : RtoC 1 <> RtoC 0.
Proof. intros Q. apply RtoC_inj in Q. lra. Qed.
Lemma C_nz (x : R) : x <> 0 -> RtoC x <> RtoC 0.
Proof. intros H Q. now apply RtoC_inj in Q. Qed.
Lemma Cinv_inv (z : C) : z <> RtoC 0 -> (/ / z)%C = z.
Proof. intros H. field. split; [exact H|exact C1_nz]. Qed.
Lemma left_ne (p : C) : fst p < 0 -> p <> RtoC 0.
Proof. intros H ->. cbn in H. lra. Qed.

Lemma inv_cc (z : C) : Cconj (/ z)%C = (/ Cconj z)%C.
Proof. unfold Cconj, Cinv. cbn [fst snd]. replace ((- snd z) ^ 2) with (snd z ^ 2) by ring. apply injective_projections; cbn [fst snd]; [reflexivity|]. unfold Rdiv. ring. Qed.

Section Inv.
Variables (N : nat) (a b : R).
Hypotheses (HN : (0 < N)%nat) (Ha : 0 < a) (Hb : 0 < b) (Hab : b * b = 1 + a * a).
Let q := epoles N a b.
Hypothesis Tie : forall i j, (i < N)%nat -> (j < N)%nat -> sin (theta N i) <> sin (theta N j) -> sin (theta N i) * sin (theta N j) <> Rsqr a.

Lemma inv_snd t : Rabs (snd (/ epole a b t)%C) = b * Rabs (sin t) / (a * a + Rsqr (sin t)).
Proof.
  unfold epole, Cinv. cbn [fst snd]. pose proof (sin2_cos2 t) as T. unfold Rsqr in *. assert (D : (- (a * cos t)) ^ 2 + (- (b * sin t)) ^ 2 = a * a + sin t * sin t).
  { replace ((- (a * cos t)) ^ 2 + (- (b * sin t)) ^ 2) with (a * a * (cos t * cos t) + b * b * (sin t * sin t)) by ring. rewrite Hab. replace (cos t * cos t) with (1 - sin t * sin t) by lra. ring. }
  rewrite D. unfold Rdiv. rewrite Rabs_mult. rewrite Rabs_inv. rewrite (Rabs_pos_eq (a * a + sin t * sin t)) by nra. f_equal. rewrite Ropp_involutive, Rabs_mult. now rewrite (Rabs_pos_eq b) by lra.
Qed.
Lemma sin_abs_idx i : (i < N)%nat -> exists j, (j < N)%nat /\ Rabs (sin (theta N i)) = sin (theta N j).
Proof.
  intros Hi. unfold Rabs. destruct (Rcase_abs _); [|now exists i]. exists (N - 1 - i)%nat. split; [lia|]. rewrite theta_sym by exact Hi. now rewrite sin_neg.
Qed.
Lemma theta_sin_eq i j : (i < N)%nat -> (j < N)%nat -> sin (theta N i) = sin (theta N j) -> theta N i = theta N j.
Proof. intros Hi Hj. apply sin_inj'; now apply theta_bound. Qed.
Lemma abs_sin_eq i j : (i < N)%nat -> (j < N)%nat -> Rabs (sin (theta N i)) = Rabs (sin (theta N j)) -> theta N i = theta N j \/ theta N i = - theta N j.
Proof.
  intros Hi Hj E. assert (sin (theta N i) = sin (theta N j) \/ sin (theta N i) = sin (- theta N j)) as [Q|Q].
  { rewrite sin_neg. unfold Rabs in E. destruct (Rcase_abs _), (Rcase_abs _); (left; lra) || (right; lra). }
  - left. now apply theta_sin_eq.
  - right. rewrite <- theta_sym in Q |- * by exact Hj. apply theta_sin_eq; [exact Hi|lia|exact Q].
Qed.
Lemma inv_in p : In p (map Cinv q) <-> exists i, (i < N)%nat /\ p = (/ epole a b (theta N i))%C.
Proof.
  unfold q. rewrite in_map_iff. split.
  - intros (x & <- & H). apply epoles_in in H as (i & Hi & ->). now exists i.
  - intros (i & Hi & ->). eexists. split; [reflexivity|]. apply epoles_in. now exists i.
Qed.
Lemma inv_left p : In p (map Cinv q) -> fst p < 0.
Proof.
  intros H. apply in_map_iff in H as (x & <- & H). pose proof (epoles_left N a b Ha x H) as L. unfold Cinv. cbn [fst]. assert (0 < fst x ^ 2 + snd x ^ 2) by nra.
  unfold Rdiv. pose proof (Rinv_0_lt_compat _ H0). nra.
Qed.
Lemma inv_nodup : NoDup (map Cinv q).
Proof.
  assert (forall l : list C, NoDup l -> (forall p, In p l -> fst p < 0) -> NoDup (map Cinv l)) as G.
  { induction l as [|p l IH]; intros ND HL; [constructor|]. inversion ND as [|? ? N1 N2]; subst. cbn [map]. constructor; [|apply IH; [exact N2|intros; apply HL; now right]].
    intros I. apply in_map_iff in I as (x & E & Hx). apply (f_equal Cinv) in E. rewrite !Cinv_inv in E by (apply left_ne, HL; first [now left|now right]). now subst x. }
  apply G; [now apply epoles_nodup|]. intros p. now apply epoles_left.
Qed.
Lemma inv_conj : conj_set (map Cinv q).
Proof.
  split; [exact inv_nodup|]. split.
  - intros p Hp. apply inv_in in Hp as (i & Hi & ->). apply inv_in. exists (N - 1 - i)%nat. split; [lia|]. rewrite theta_sym by exact Hi. rewrite <- epole_conj. now rewrite inv_cc.
  - intros p p' Hp Hp' E. apply inv_in in Hp as (i & Hi & ->). apply inv_in in Hp' as (j & Hj & ->). rewrite !inv_snd in E. unfold Rsqr in E.
    set (s := sin (theta N i)) in *. set (s' := sin (theta N j)) in *.
    assert (Es : forall x, x * x = Rabs x * Rabs x) by (intros x; rewrite <- Rabs_mult; symmetry; apply Rabs_pos_eq; nra).
    assert (Q : Rabs s * (a * a + s' * s') = Rabs s' * (a * a + s * s)).
    { assert (0 < a * a + s * s) by nra. assert (0 < a * a + s' * s') by nra. apply (f_equal (fun x => x * ((a * a + s * s) * (a * a + s' * s')))) in E.
      unfold Rdiv in E. apply Rmult_eq_reg_l with b; [|lra]. transitivity (b * Rabs s * / (a * a + s * s) * ((a * a + s * s) * (a * a + s' * s'))); [field; lra|]. rewrite E. field. lra. }
    assert (D : Rabs s = Rabs s').
    { destruct (Req_dec (Rabs s) (Rabs s')) as [|Ne]; [assumption|exfalso]. destruct (sin_abs_idx i Hi) as (i' & Hi' & Ei). destruct (sin_abs_idx j Hj) as (j' & Hj' & Ej). fold s in Ei. fold s' in Ej.
      apply (Tie i' j' Hi' Hj'); [congruence|]. rewrite <- Ei, <- Ej. rewrite (Es s), (Es s') in Q. unfold Rsqr.
      apply Rmult_eq_reg_l with (Rabs s - Rabs s'); [|lra]. lra. }
    destruct (abs_sin_eq i j Hi Hj D) as [-> | ->]; [now left|right]. rewrite <- epole_conj. rewrite inv_cc. now rewrite ?Cconj_conj.
Qed.
End Inv.

(** ** The zeros *)
Lemma zidx_in N i : In i (zidx N) <-> (i < N)%nat /\ (2 * i + 1 <> N)%nat.
Proof. unfold zidx. rewrite filter_In, in_seq, negb_true_iff, Nat.eqb_neq. lia. Qed.
Lemma sin_nz N i : (i < N)%nat -> sin (theta N i) = 0 <-> (2 * i + 1 = N)%nat.
Proof.
  intros Hi. pose proof (theta_bound N i Hi) as Bd. pose proof PI_RGT_0. assert (HN : 0 < INR N) by (apply lt_0_INR; lia). split; intros H0.
  - rewrite <- sin_0 in H0. apply sin_inj' in H0; [|exact Bd|lra]. pose proof (theta_eq N i ltac:(lia)) as Q. rewrite H0, Rmult_0_r in Q.
    symmetry in Q. apply Rmult_integral in Q as [Q|Q]; [lra|]. apply INR_eq. rewrite plus_INR, mult_INR. change (INR 2) with 2. change (INR 1) with 1. lra.
  - replace (theta N i) with 0; [apply sin_0|]. unfold theta. replace (2 * INR i - INR N + 1) with 0; [field; lra|]. rewrite <- H0, plus_INR, mult_INR. change (INR 2) with 2. change (INR 1) with 1. ring.
Qed.
Lemma izeros_in N z : In z (izeros N) <-> exists i, (i < N)%nat /\ (2 * i + 1 <> N)%nat /\ z = (0, / sin (theta N i)).
Proof.
  unfold izeros. rewrite in_map_iff. split.
  - intros (i & <- & H). apply zidx_in in H as (H & H'). now exists i.
  - intros (i & H & H' & ->). exists i. split; [reflexivity|]. now apply zidx_in.
Qed.
Lemma izeros_len N : (length (izeros N) <= N)%nat.
Proof. unfold izeros, zidx. rewrite map_length. apply Nat.le_trans with (length (seq 0 N)); [|now rewrite seq_length]. generalize (seq 0 N). intros l. induction l as [|x l IH]; [reflexivity|]. cbn [filter length]. destruct (negb _); cbn [length]; lia. Qed.
Lemma izeros_conj N : conj_set (izeros N).
Proof.
  split; [|split].
  - unfold izeros. assert (G : forall l, NoDup l -> (forall i, In i l -> (i < N)%nat /\ (2 * i + 1 <> N)%nat) -> NoDup (map (fun i => (0, / sin (theta N i))) l)).
    { induction l as [|i l IH]; intros ND H; [constructor|]. inversion ND as [|? ? N1 N2]; subst. cbn [map]. constructor; [|apply IH; [exact N2|intros; apply H; now right]].
      intros I. apply in_map_iff in I as (j & E & Hj). apply (f_equal (fun c : R * R => / snd c)) in E. cbn [snd] in E. rewrite !Rinv_inv in E.
      destruct (H i ltac:(now left)) as (Hi & _). destruct (H j ltac:(now right)) as (Hj' & _). apply theta_sin_eq in E; [|exact Hj'|exact Hi]. apply theta_inj in E; [|exact Hj']. now subst j. }
    apply G; [apply NoDup_filter, seq_NoDup|]. intros i. apply zidx_in.
  - intros z Hz. apply izeros_in in Hz as (i & Hi & Ho & ->). apply izeros_in. exists (N - 1 - i)%nat. repeat split; [lia|lia|]. rewrite theta_sym by exact Hi. unfold Cconj. cbn [fst snd].
    rewrite sin_neg, Rinv_opp. reflexivity.
  - intros z z' Hz Hz' E. apply izeros_in in Hz as (i & Hi & Hio & ->). apply izeros_in in Hz' as (j & Hj & Hjo & ->). cbn [snd] in E. rewrite !Rabs_inv in E. apply (f_equal Rinv) in E. rewrite !Rinv_inv in E.
    destruct (abs_sin_eq N ltac:(lia) i j Hi Hj E) as [-> | ->]; [now left|right]. unfold Cconj. cbn [fst snd]. now rewrite sin_neg, Rinv_opp, ?Ropp_involutive.
Qed.

(** ** The response *)
Fixpoint rprod (f : nat -> R) (l : list nat) : R := match l with [] => 1 | i :: l => f i * rprod f l end.
Definition zfac (N : nat) (x : R) : R := rprod (fun i => 1 - x * sin (theta N i)) (seq 0 N).
Lemma cprod_cons s p l : cprod s (p :: l) = ((s - p) * cprod s l)%C.
Proof. reflexivity. Qed.
Lemma nprod_cons p l : nprod (p :: l) = (- p * nprod l)%C.
Proof. reflexivity. Qed.
Lemma zprod N x : cprod (0, x) (izeros N) = (nprod (izeros N) * RtoC (zfac N x))%C.
Proof.
  unfold izeros, zidx, zfac. assert (G : forall l, (forall i, In i l -> (i < N)%nat) ->
    let m := map (fun i => (0, / sin (theta N i))) (filter (fun i => negb (2 * i + 1 =? N)) l) in cprod (0, x) m = (nprod m * RtoC (rprod (fun i => (1 - x * sin (theta N i))%R) l))%C).
  { induction l as [|i l IH]; intros H m; [unfold m, cprod, nprod; cbn; ring|]. specialize (IH ltac:(intros; apply H; now right)). cbn zeta in IH. unfold m. cbn [filter rprod]. pose proof (sin_nz N i (H i ltac:(now left))) as Sn.
    destruct (Nat.eqb_spec (2 * i + 1) N) as [Q|Q]; cbn [negb].
    - apply Sn in Q. rewrite IH, Q. replace (1 - x * 0) with 1 by ring. now rewrite Rmult_1_l.
    - assert (sin (theta N i) <> 0) by tauto. cbn [map]. rewrite cprod_cons, nprod_cons, IH. rewrite RtoC_mult.
      replace ((0, x) - (0, (/ sin (theta N i))%R))%C with (- (0%R, (/ sin (theta N i))%R) * RtoC (1 - x * sin (theta N i)))%C by (apply injective_projections; cbn; field; assumption). ring. }
  apply G. intros i Hi. apply in_seq in Hi. lia.
Qed.
Lemma cprod_R x f l : cprod (RtoC x) (map (fun i => RtoC (f i)) l) = RtoC (rprod (fun i => x - f i) l).
Proof. induction l as [|i l IH]; [reflexivity|]. cbn [map rprod]. rewrite cprod_cons, IH, RtoC_mult, RtoC_minus. reflexivity. Qed.
Lemma rprod_scale c f l : rprod (fun i => c * f i) l = c ^ length l * rprod f l.
Proof. induction l as [|i l IH]; cbn; [ring|]. rewrite IH. ring. Qed.
Lemma rprod_ext f g l : (forall i, In i l -> f i = g i) -> rprod f l = rprod g l.
Proof. induction l as [|i l IH]; intros H; [reflexivity|]. cbn. rewrite H by now left. rewrite IH; [reflexivity|]. intros; apply H; now right. Qed.
Lemma cos_half_odd N i : (0 < N)%nat -> cos (INR N * (theta N i - PI / 2)) = 0.
Proof.
  intros HN. replace (INR N * (theta N i - PI / 2)) with ((PI * (2 * INR i + 1)) / 2 - 2 * INR N * (PI / 2)).
  2: { pose proof (theta_eq N i HN). replace (INR N * (theta N i - PI / 2)) with (2 * INR N * theta N i / 2 - INR N * (PI / 2)) by field. rewrite H. field. }
  replace (PI * (2 * INR i + 1) / 2 - 2 * INR N * (PI / 2)) with (- (INR N * PI) + (INR i * PI + PI / 2)) by field.
  rewrite cos_plus, cos_neg, sin_neg. assert (S : forall n, sin (INR n * PI) = 0) by (intros n; replace (INR n) with (IZR (Z.of_nat n)) by (symmetry; apply INR_IZR_INZ); apply sin_eq_0_1; now exists (Z.of_nat n)).
  rewrite S. rewrite cos_plus, S, cos_PI2. ring.
Qed.
Lemma cheb_roots n y : cheb (S n) y = 2 ^ n * rprod (fun i => y - sin (theta (S n) i)) (seq 0 (S n)).
Proof.
  apply RtoC_inj. rewrite <- ccheb_R. set (l := map (fun i => RtoC (sin (theta (S n) i))) (seq 0 (S n))).
  assert (Ll : length l = S n) by (unfold l; rewrite map_length; apply seq_length).
  rewrite (factor l (RtoC (2 ^ n)) (ccheb (S n))).
  - unfold l. rewrite cprod_R, RtoC_mult. reflexivity.
  - rewrite Ll. apply isp_cheb.
  - unfold l. assert (G : forall m, NoDup m -> (forall i, In i m -> (i < S n)%nat) -> NoDup (map (fun i => RtoC (sin (theta (S n) i))) m)).
    { induction m as [|i m IH]; intros ND H; [constructor|]. inversion ND as [|? ? N1 N2]; subst. cbn [map]. constructor; [|apply IH; [exact N2|intros; apply H; now right]].
      intros I. apply in_map_iff in I as (j & E & Hj). apply RtoC_inj in E. apply theta_sin_eq in E; [|apply H; now right|apply H; now left]. apply theta_inj in E; [|apply H; now right]. now subst j. }
    apply G; [apply seq_NoDup|]. intros i Hi. apply in_seq in Hi. lia.
  - intros r Hr. apply in_map_iff in Hr as (i & <- & Hi). rewrite ccheb_R. rewrite <- cos_shift, cheb_cos. apply (f_equal RtoC).
    replace (INR (S n) * (PI / 2 - theta (S n) i)) with (- (INR (S n) * (theta (S n) i - PI / 2))) by ring. rewrite cos_neg. apply cos_half_odd. lia.
Qed.
Lemma zfac_cheb N x : (0 < N)%nat -> x <> 0 -> zfac N x * 2 ^ (N - 1) = x ^ N * cheb N (/ x).
Proof.
  intros HN Hx. destruct N as [|n]; [lia|]. rewrite cheb_roots. unfold zfac. rewrite (rprod_ext _ (fun i => x * (/ x - sin (theta (S n) i)))) by (intros i _; field; exact Hx).
  rewrite rprod_scale, seq_length. replace (S n - 1)%nat with n by lia. ring.
Qed.
Lemma zfac_0 N : zfac N 0 = 1.
Proof. unfold zfac. induction (seq 0 N) as [|i l IH]; [reflexivity|]. cbn. rewrite IH. ring. Qed.

(** (jx - 1/p) = (jx / (-p)) (j (-1/x) - p) *)
Lemma inv_prod (x : R) (l : list C) : x <> 0 -> (forall p, In p l -> p <> RtoC 0) -> (cprod (0, x) (map Cinv l) * cprod (RtoC 0) l)%C = (cpow (0, x) (length l) * cprod (0, (- / x)%R) l)%C.
Proof.
  intros Hx. induction l as [|p l IH]; intros H; [unfold cprod; cbn; ring|]. cbn [map length cpow]. rewrite !cprod_cons. specialize (IH ltac:(intros; apply H; now right)). pose proof (H p ltac:(now left)) as Hp.
  transitivity (((0, x) - / p) * (RtoC 0 - p) * (cprod (0, x) (map Cinv l) * cprod (RtoC 0) l))%C; [ring|]. rewrite IH.
  replace (((0, x) - / p) * (RtoC 0 - p))%C with ((0, x) * ((0, (- / x)%R) - p))%C; [ring|].
  assert (E : ((0, x) * (0, (- / x)%R))%C = RtoC 1) by (apply injective_projections; cbn; field; exact Hx). transitivity ((0, x) * (0, (- / x)%R) - (0, x) * p)%C; [ring|]. rewrite E. field. exact Hp.
Qed.
Lemma nprod_inv (l : list C) : (forall p, In p l -> p <> RtoC 0) -> (nprod (map Cinv l) * cprod (RtoC 0) l)%C = RtoC 1.
Proof.
  induction l as [|p l IH]; intros H; [unfold cprod, nprod; cbn; ring|]. cbn [map]. rewrite nprod_cons, cprod_cons. pose proof (H p ltac:(now left)) as Hp.
  transitivity (- / p * (RtoC 0 - p) * (nprod (map Cinv l) * cprod (RtoC 0) l))%C; [ring|]. rewrite IH by (intros; apply H; now right). field. exact Hp.
Qed.
Lemma mag2_pow x n : mag2 (cpow (0, x) n) = Rsqr (x ^ n).
Proof.
  induction n as [|n IH]; [cbn; apply mag2_R|]. cbn [cpow pow]. rewrite mag2_mult, IH, Rsqr_mult. f_equal. unfold mag2, Cmod. cbn [fst snd]. rewrite Rsqr_sqrt by nra. unfold Rsqr. ring.
Qed.

Lemma chebyshev2 argsort f N Wn rs : argsort_ok argsort -> cheby2_design f -> (0 < N)%nat -> 0 < Wn -> 0 < rs -> no_ties N rs ->
  exists S, ChebyshevII argsort f N Wn rs = Ok S /\ siso_filter S N /\ (forall s, eigenvalue S s -> fst s < 0) /\
    (forall w, w <> 0 -> exists h, responds S w h /\
       mag2 h = Rsqr (cheb N (Wn / w)) / (Rpower 10 (rs / 10) - 1 + Rsqr (cheb N (Wn / w)))) /\
    responds S 0 (RtoC 1).
Proof.
  intros HA HD HN HW HR HT. destruct (HD N Wn rs HN HW HR) as (z & p & E & P & PZ). unfold ChebyshevII. rewrite E. cbn [bind]. clear E. unfold no_ties in HT.
  pose proof (ripple_pos rs HR) as Hr. set (de := / ripple rs) in *. assert (Hde : 0 < de) by now apply Rinv_0_lt_compat.
  set (mu := mu_of N de) in *. pose proof (mu_pos N _ HN Hde) as Hmu. fold mu in Hmu. pose proof (sinh_pos mu Hmu) as Hs. pose proof (cosh_pos mu) as Hc.
  set (e := epoles N (sinh mu) (cosh mu)) in *. set (q := map Cinv e) in *.
  assert (HL : forall x, In x q -> fst x < 0) by (intros x Hx; apply (inv_left N _ _ Hs x Hx)).
  assert (HC : conj_set q) by (apply (inv_conj N _ _ HN Hs Hc (cosh_sinh mu) HT)).
  assert (Lq : length q = N) by (unfold q; rewrite map_length; apply epoles_length).
  assert (Hne : q <> []) by (intros Q; rewrite Q in Lq; cbn in Lq; lia).
  assert (He : forall x, In x e -> x <> RtoC 0) by (intros x Hx; apply left_ne; apply (epoles_left N _ _ Hs x Hx)).
  assert (M : forall x, mag2 (cprod (0, x) e) * (Rsqr de * 4 ^ (N - 1)) = 1 + Rsqr de * Rsqr (cheb N x)).
  { intros x. apply cheb_mod; [exact HN|exact Hmu|]. now apply mu_sinh. }
  destruct (cprod0_pos q HC) as (r & Hr0 & Er); [intros x Hx _; now apply HL|]. rewrite <- nprod_cprod in Er.
  destruct (cprod0_pos (izeros N) (izeros_conj N)) as (t & Ht & Et).
  { intros x Hx Q. apply izeros_in in Hx as (i & Hi & Ho & ->). cbn [snd] in Q. exfalso. revert Q. apply Rinv_neq_0_compat. rewrite (sin_nz N i Hi). exact Ho. }
  rewrite <- nprod_cprod in Et. assert (Hrt : 0 < r / t) by now apply Rdiv_lt_0_compat.
  replace (fst (nprod q / nprod (izeros N))%C) with (r / t) by (rewrite Er, Et, <- RtoC_div by lra; reflexivity).
  pose proof (izeros_len N) as Hlz.
  destruct (lowpass argsort (izeros N) q Wn (r / t) z p HA HW Hne HC (izeros_conj N) ltac:(lia) HL P PZ) as (S & ES & F1 & F2 & F3). rewrite Lq in ES, F1.
  exists S. repeat (split; [assumption|]).
  assert (F4 : forall w, responds S w (nprod q * RtoC (zfac N (w / Wn)) / cprod (0, (w / Wn)%R) q)%C).
  { intros w. specialize (F3 w). rewrite zprod, Et, Rabs_pos_eq in F3 by lra. rewrite Er. rewrite RtoC_div in F3 by lra.
    match goal with |- responds _ _ ?h => match type of F3 with responds _ _ ?h' => replace h with h'; [exact F3|] end end. field. split; [now apply left_nz|]. apply C_nz. lra. }
  split.
  - intros w Hw. eexists. split; [apply F4|]. set (x := w / Wn). assert (Hx : x <> 0) by (unfold x, Rdiv; apply Rmult_integral_contrapositive; split; [exact Hw|apply Rinv_neq_0_compat; lra]).
    replace (Wn / w) with (/ x) by (unfold x; field; lra). rewrite mag2_div by now apply left_nz. rewrite mag2_mult, mag2_R.
    pose proof (f_equal mag2 (inv_prod x e Hx He)) as I1. pose proof (f_equal mag2 (nprod_inv e He)) as I2. fold q in I1, I2. rewrite mag2_mult in I1, I2. rewrite mag2_mult in I1. rewrite mag2_R in I2. rewrite mag2_pow in I1.
    replace (length e) with N in I1 by (symmetry; apply epoles_length). pose proof (M (- / x)) as Mx. rewrite cheb_neg in Mx. pose proof (f_equal Rsqr (zfac_cheb N x HN Hx)) as Z. rewrite !Rsqr_mult in Z.
    assert (H4 : 0 < 4 ^ (N - 1)) by (apply pow_lt; lra). replace (Rsqr (2 ^ (N - 1))) with (4 ^ (N - 1)) in Z by (unfold Rsqr; rewrite <- Rpow_mult_distr; f_equal; ring).
    rewrite <- (ripple_sq rs HR). replace (1 + Rsqr (ripple rs) - 1) with (Rsqr (ripple rs)) by ring.
    assert (Hd : Rsqr de * Rsqr (ripple rs) = 1) by (rewrite <- Rsqr_mult; unfold de; rewrite Rinv_l by lra; apply Rsqr_1).
    assert (Hrr : 0 < Rsqr (ripple rs)) by (apply Rsqr_pos_lt; lra). assert (Hxx : 0 < Rsqr (x ^ N)) by (apply Rsqr_pos_lt, pow_nonzero, Hx).
    pose proof (mag2_pos _ (left_nz q x HL)) as Pq. pose proof (Rle_0_sqr (cheb N (/ x))) as Pc. rewrite Rsqr_1 in I2.
    set (A := mag2 (nprod q)) in *. set (B := mag2 (cprod (0, x) q)) in *. set (Cc := mag2 (cprod (RtoC 0) e)) in *. set (D := mag2 (cprod (0, - / x) e)) in *.
    set (T := Rsqr (cheb N (/ x))) in *. set (Zf := Rsqr (zfac N x)) in *. set (X := Rsqr (x ^ N)) in *. set (F := 4 ^ (N - 1)) in *. set (d2 := Rsqr de) in *. set (r2 := Rsqr (ripple rs)) in *.
    assert (D4 : D * F = r2 + T) by (transitivity (r2 * (D * (d2 * F))); [transitivity (d2 * r2 * (D * F)); [rewrite Hd|]; ring|]; rewrite Mx; transitivity (r2 + d2 * r2 * T); [ring|]; rewrite Hd; ring).
    assert (BA : B = A * X * D) by (transitivity (A * (B * Cc)); [transitivity (B * (A * Cc)); [rewrite I2|]; ring|]; rewrite I1; ring).
    assert (HAn : A <> 0) by (intros Q; rewrite Q, Rmult_0_l in I2; lra). assert (HD4 : D <> 0) by (intros Q; rewrite Q in D4; lra).
    rewrite BA, <- D4. replace Zf with (X * T / F) by (rewrite <- Z; field; lra). field. repeat split; lra.
  - specialize (F4 0). replace (0 / Wn) with 0 in F4 by (field; lra). rewrite zfac_0 in F4. change (0, 0) with (RtoC 0) in F4. rewrite <- nprod_cprod, Er in F4.
    replace (RtoC 1) with (RtoC r * RtoC 1 / RtoC r)%C at 1 by (field; apply C_nz; lra). exact F4.
Qed.

(** ** Designs taken as they come *)
Lemma cauer argsort f N Wn rp rs z p k : argsort_ok argsort -> f Ellip N Wn (Some rp) (Some rs) = Ok (z, p, k) ->
  conj_set p -> conj_set z -> (length z <= length p)%nat -> p <> [] -> exists S, Cauer argsort f N Wn rp rs = Ok S /\ filter_ok S z p k.
Proof. intros HA E H1 H2 H3 H4. unfold Cauer. rewrite E. cbn [bind]. now apply of_zpk_ok. Qed.
Lemma last_row_1 (a : nd2 Cring) : rows a = 1%nat -> last_row (re2 a) = re2 a.
Proof. destruct a as [r c e]. cbn [rows]. intros ->. reflexivity. Qed.
Lemma iirdesigned argsort g wp ws gpass gstop ft z p k : argsort_ok argsort -> g ft wp ws gpass gstop = Ok (z, p, k) ->
  conj_set p -> conj_set z -> (length z <= length p)%nat -> p <> [] -> exists S, IIRDesign argsort g wp ws gpass gstop ft = Ok S /\ filter_ok S z p k.
Proof.
  intros HA E HP HZ HL Hne. unfold IIRDesign. rewrite E. cbn [bind]. destruct (of_zpk_ok argsort z p k HA HP HZ HL Hne) as (S & ES & F). exists S. split; [|exact F]. rewrite <- ES. unfold of_zpk.
  destruct (zpk_good argsort z p k HA HP HZ HL Hne) as (T & ET & HSi & _ & _ & _). rewrite ET. cbn [bind]. destruct HSi as (V & _ & SNt & _).
  rewrite (last_row_1 (aCT T)) by exact SNt. rewrite (last_row_1 (aD T)) by (destruct (v_D _ V) as [Q _]; rewrite Q; exact SNt). reflexivity.
Qed.

(** ** Consequences for the magnitude *)
Lemma butter_half N : / (1 + 1 ^ (2 * N)) = / 2.
Proof. rewrite pow1. apply f_equal. ring. Qed.
Lemma butter_dec N x y : (0 < N)%nat -> Rabs x < Rabs y -> / (1 + y ^ (2 * N)) < / (1 + x ^ (2 * N)).
Proof.
  intros HN H. rewrite !pow_mult. rewrite <- (pow2_abs x), <- (pow2_abs y). assert (P : forall t, 0 <= (Rabs t ^ 2) ^ N) by (intros t; apply pow_le, pow2_ge_0).
  apply Rinv_lt_contravar; [pose proof (P x); pose proof (P y); nra|]. apply Rplus_lt_compat_l. pose proof (Rabs_pos x).
  assert (Rabs x ^ 2 < Rabs y ^ 2) by nra. assert (0 <= Rabs x ^ 2) by nra. revert H1 H2. generalize (Rabs x ^ 2) (Rabs y ^ 2). intros a b Hab Ha. clear - HN Hab Ha.
  induction N as [|[|n] IH]; [lia|cbn; lra|]. specialize (IH ltac:(lia)). change (a * a ^ S n < b * b ^ S n). assert (0 <= a ^ S n) by now apply pow_le. nra.
Qed.
Lemma div_abs w Wn : 0 < Wn -> Rabs (w / Wn) = Rabs w / Wn.
Proof. intros H. unfold Rdiv. now rewrite Rabs_mult, Rabs_inv, (Rabs_pos_eq Wn) by lra. Qed.
Lemma eps_pos rp : 0 < rp -> 0 < Rpower 10 (rp / 10) - 1.
Proof. intros H. pose proof (pow10_gt (rp / 10)). lra. Qed.
Lemma c1_pass N rp x : 0 < rp -> Rabs x <= 1 -> Rpower 10 (- rp / 10) <= / (1 + (Rpower 10 (rp / 10) - 1) * Rsqr (cheb N x)) <= 1.
Proof.
  intros HR H. pose proof (eps_pos rp HR) as He. pose proof (cheb_in N x H) as T1. pose proof (Rle_0_sqr (cheb N x)) as T0. replace (- rp / 10) with (- (rp / 10)) by field. rewrite Rpower_Ropp.
  split; [apply Rinv_le_contravar; nra|]. apply Rle_trans with (/ 1); [apply Rinv_le_contravar; nra|rewrite Rinv_1; lra].
Qed.
Lemma c1_edge N rp x : 0 < rp -> Rabs x = 1 -> / (1 + (Rpower 10 (rp / 10) - 1) * Rsqr (cheb N x)) = Rpower 10 (- rp / 10).
Proof. intros HR H. rewrite cheb_end by exact H. replace (- rp / 10) with (- (rp / 10)) by field. rewrite Rpower_Ropp. f_equal. ring. Qed.
Lemma c1_dec N rp x y : (0 < N)%nat -> 0 < rp -> 1 <= Rabs x -> Rabs x < Rabs y ->
  / (1 + (Rpower 10 (rp / 10) - 1) * Rsqr (cheb N y)) < / (1 + (Rpower 10 (rp / 10) - 1) * Rsqr (cheb N x)).
Proof.
  intros HN HR H1 H2. pose proof (eps_pos rp HR) as He. pose proof (cheb_mono N x y HN H1 H2). pose proof (Rle_0_sqr (cheb N x)). apply Rinv_lt_contravar; [|nra].
  apply Rmult_lt_0_compat; nra.
Qed.
(** T / (e + T) grows with T *)
Lemma frac_le e s t : 0 < e -> 0 <= s -> s <= t -> s / (e + s) <= t / (e + t).
Proof. intros He Hs Ht. apply (Rmult_le_reg_r ((e + s) * (e + t))); [nra|]. unfold Rdiv. replace (s * / (e + s) * ((e + s) * (e + t))) with (s * (e + t)) by (field; lra). replace (t * / (e + t) * ((e + s) * (e + t))) with (t * (e + s)) by (field; lra). nra. Qed.
Lemma frac_lt e s t : 0 < e -> 0 <= s -> s < t -> s / (e + s) < t / (e + t).
Proof. intros He Hs Ht. apply (Rmult_lt_reg_r ((e + s) * (e + t))); [nra|]. unfold Rdiv. replace (s * / (e + s) * ((e + s) * (e + t))) with (s * (e + t)) by (field; lra). replace (t * / (e + t) * ((e + s) * (e + t))) with (t * (e + s)) by (field; lra). nra. Qed.
Lemma frac_1 rs : 0 < rs -> 1 / (Rpower 10 (rs / 10) - 1 + 1) = Rpower 10 (- rs / 10).
Proof. intros H. replace (- rs / 10) with (- (rs / 10)) by field. rewrite Rpower_Ropp. unfold Rdiv. rewrite Rmult_1_l. f_equal. ring. Qed.
Lemma inv_abs Wn w : 0 < Wn -> w <> 0 -> Rabs (Wn / w) = Wn / Rabs w.
Proof. intros H Hw. unfold Rdiv. now rewrite Rabs_mult, Rabs_inv, (Rabs_pos_eq Wn) by lra. Qed.
Lemma div_le1 a b : 0 < b -> a <= b -> a / b <= 1.
Proof. intros Hb H. apply (Rmult_le_reg_r b); [exact Hb|]. unfold Rdiv. rewrite Rmult_assoc, Rinv_l by lra. lra. Qed.
Lemma div_ge1 a b : 0 < b -> b <= a -> 1 <= a / b.
Proof. intros Hb H. apply (Rmult_le_reg_r b); [exact Hb|]. unfold Rdiv. rewrite Rmult_assoc, Rinv_l by lra. lra. Qed.
Lemma div_mono a b c : 0 < c -> a < b -> a / c < b / c.
Proof. intros Hc H. unfold Rdiv. apply Rmult_lt_compat_r; [now apply Rinv_0_lt_compat|exact H]. Qed.

Lemma butter_shape N Wn w w' : (0 < N)%nat -> 0 < Wn -> Rabs w < Rabs w' -> / (1 + (w' / Wn) ^ (2 * N)) < / (1 + (w / Wn) ^ (2 * N)).
Proof. intros HN HW H. apply butter_dec; [exact HN|]. rewrite !div_abs by exact HW. now apply div_mono. Qed.
Lemma c1_shape N Wn rp : (0 < N)%nat -> 0 < Wn -> 0 < rp -> let m w := / (1 + (Rpower 10 (rp / 10) - 1) * Rsqr (cheb N (w / Wn))) in
  (forall w, Rabs w <= Wn -> Rpower 10 (- rp / 10) <= m w <= 1) /\ m Wn = Rpower 10 (- rp / 10) /\ forall w w', Wn <= Rabs w -> Rabs w < Rabs w' -> m w' < m w.
Proof.
  intros HN HW HR m. unfold m. split; [|split].
  - intros w Hw. apply c1_pass; [exact HR|]. rewrite div_abs by exact HW. now apply div_le1.
  - apply c1_edge; [exact HR|]. replace (Wn / Wn) with 1 by (field; lra). apply Rabs_R1.
  - intros w w' H1 H2. apply c1_dec; [exact HN|exact HR| |]; rewrite !div_abs by exact HW; [now apply div_ge1|now apply div_mono].
Qed.
Lemma c2_shape N Wn rs : (0 < N)%nat -> 0 < Wn -> 0 < rs -> let m w := Rsqr (cheb N (Wn / w)) / (Rpower 10 (rs / 10) - 1 + Rsqr (cheb N (Wn / w))) in
  (forall w, Wn <= Rabs w -> 0 <= m w <= Rpower 10 (- rs / 10)) /\ m Wn = Rpower 10 (- rs / 10) /\
  (forall w, w <> 0 -> m w < 1) /\ forall w w', w <> 0 -> Rabs w < Rabs w' -> Rabs w' <= Wn -> m w' < m w.
Proof.
  intros HN HW HR m. unfold m. pose proof (eps_pos rs HR) as He. assert (P : forall x, 0 <= Rsqr (cheb N x)) by (intros; apply Rle_0_sqr). split; [|split; [|split]].
  - intros w Hw. assert (w <> 0) by (intros ->; rewrite Rabs_R0 in Hw; lra). split.
    + apply Rmult_le_pos; [apply P|]. apply Rlt_le, Rinv_0_lt_compat. specialize (P (Wn / w)). lra.
    + rewrite <- frac_1 by exact HR. apply frac_le; [exact He|apply P|]. apply cheb_in. rewrite inv_abs by assumption. apply div_le1; [lra|exact Hw].
  - rewrite cheb_end; [now apply frac_1|]. replace (Wn / Wn) with 1 by (field; lra). apply Rabs_R1.
  - intros w Hw. specialize (P (Wn / w)). apply (Rmult_lt_reg_r (Rpower 10 (rs / 10) - 1 + Rsqr (cheb N (Wn / w)))); [lra|]. unfold Rdiv at 1. rewrite Rmult_assoc, Rinv_l by lra. lra.
  - intros w w' Hw H1 H2. assert (Pw : 0 < Rabs w) by now apply Rabs_pos_lt. assert (w' <> 0) by (intros ->; rewrite Rabs_R0 in H1; lra).
    apply frac_lt; [exact He|apply P|]. apply cheb_mono; [exact HN| |]; rewrite !inv_abs by assumption; [apply div_ge1; lra|].
    unfold Rdiv. apply Rmult_lt_compat_l; [exact HW|]. apply Rinv_lt_contravar; [nra|exact H1].
Qed.
