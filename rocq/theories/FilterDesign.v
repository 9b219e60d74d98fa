(** Butterworth and Chebyshev filters: what scipy is taken to return, and the systems that result. *)
From Coq Require Import List Arith Lia Bool Reals Lra Permutation.
From Coquelicot Require Import Complex.
From Verif Require Import Base LinAlg FirExtras AnalogSystem AnalogProofs Zpk ZpkProofs Filters FilterZpk FilterResp CplxLin TransferFn TransferProofs TransferExtra ChebPoly FilterPoles.
Import ListNotations.
Open Scope R_scope.

(** ** Specification: the analog lowpass designs of scipy.signal.iirfilter in exact arithmetic.
    Prototypes for the critical frequency 1 (buttap, cheb1ap, cheb2ap), then lp2lp_zpk: zeros and poles times Wn, gain times
    Wn^(number of poles - number of zeros).  The order of poles and zeros is left open. *)
Definition nprod (l : list C) : C := fold_right (fun p acc => (- p * acc)%C) (RtoC 1) l.
Definition ripple (rp : R) : R := sqrt (Rpower 10 (rp / 10) - 1).
Definition mu_of (N : nat) (eps : R) : R := arcsinh (/ eps) / INR N.

Definition iir := ftype -> nat -> R -> option R -> option R -> result zpk.
Definition butter_design (f : iir) : Prop := forall N Wn, (0 < N)%nat -> 0 < Wn ->
  exists p, f Butter N Wn None None = Ok ([], p, Wn ^ N) /\ Permutation p (map (Cmult (RtoC Wn)) (epoles N 1 1)).
Definition cheby1_design (f : iir) : Prop := forall N Wn rp, (0 < N)%nat -> 0 < Wn -> 0 < rp ->
  let q := epoles N (sinh (mu_of N (ripple rp))) (cosh (mu_of N (ripple rp))) in
  let k := if Nat.even N then fst (nprod q) / sqrt (1 + Rsqr (ripple rp)) else fst (nprod q) in
  exists p, f Cheby1 N Wn (Some rp) None = Ok ([], p, k * Wn ^ N) /\ Permutation p (map (Cmult (RtoC Wn)) q).
(** the zeros i / sin(theta), without the middle one when N is odd *)
Definition zidx (N : nat) : list nat := filter (fun i => negb (Nat.eqb (2 * i + 1) N)) (seq 0 N).
Definition izeros (N : nat) : list C := map (fun i => (0, / sin (theta N i))) (zidx N).
Definition cheby2_design (f : iir) : Prop := forall N Wn rs, (0 < N)%nat -> 0 < Wn -> 0 < rs ->
  let de := / ripple rs in
  let q := map Cinv (epoles N (sinh (mu_of N de)) (cosh (mu_of N de))) in
  exists z p, f Cheby2 N Wn None (Some rs) = Ok (z, p, fst (nprod q / nprod (izeros N))%C * Wn ^ (N - length (izeros N))) /\
    Permutation p (map (Cmult (RtoC Wn)) q) /\ Permutation z (map (Cmult (RtoC Wn)) (izeros N)).

(** ** Generic facts *)
Lemma responds_det S w h h' : responds S w h -> responds S w h' -> h = h'.
Proof.
  intros (_ & Ex & H) (_ & _ & H'). destruct (Ex (fun _ => RtoC 1)) as (x & Hx). pose proof (H _ x Hx) as E. rewrite (H' _ x Hx) in E.
  transitivity (h * RtoC 1)%C; [ring|]. rewrite <- E. ring.
Qed.
Lemma filter_perm S z z' p p' k : Permutation z z' -> Permutation p p' -> filter_ok S z p k -> filter_ok S z' p' k.
Proof.
  intros Pz Pp (H1 & H2 & H3). unfold filter_ok. rewrite <- (Permutation_length Pp). split; [exact H1|]. split.
  - intros s Hs. apply (Permutation_in _ Pp). now apply H2.
  - intros w Hw. rewrite <- (cprod_perm _ _ _ Pz), <- (cprod_perm _ _ _ Pp). apply H3. intros I. apply Hw. now apply (Permutation_in _ Pp).
Qed.
Lemma of_zpk_perm argsort z p k z' p' : argsort_ok argsort -> Permutation z z' -> Permutation p p' -> conj_set p' -> conj_set z' -> (length z' <= length p')%nat -> p' <> [] ->
  exists S, of_zpk argsort (z, p, k) = Ok S /\ filter_ok S z' p' k.
Proof.
  intros HA Pz Pp HP HZ HL Hne. destruct (of_zpk_ok argsort z p k HA) as (S & E & F).
  - now apply (conj_perm p' p (Permutation_sym Pp)).
  - now apply (conj_perm z' z (Permutation_sym Pz)).
  - now rewrite (Permutation_length Pz), (Permutation_length Pp).
  - intros ->. apply Hne. now apply Permutation_nil.
  - exists S. split; [exact E|]. now apply (filter_perm S z z' p p' k).
Qed.
Lemma nprod_cprod l : nprod l = cprod (RtoC 0) l.
Proof. unfold nprod, cprod. induction l as [|p l IH]; cbn [fold_right]; [reflexivity|]. rewrite IH. ring. Qed.

(** the product over a conjugate set without positive real numbers is positive *)
Lemma pairs_pos l : pairs l -> (forall p, In p l -> snd p = 0 -> fst p < 0) -> exists r, 0 < r /\ cprod (RtoC 0) l = RtoC r.
Proof.
  unfold cprod. induction l as [|p|p q l IH] using list_ind2; intros HP HL; cbn [fold_right].
  - exists 1. split; [lra|reflexivity].
  - exists (- fst p). cbn in HP. split; [pose proof (HL p ltac:(now left) HP); lra|]. destruct p as [x y]. cbn in *. subst y. apply injective_projections; cbn; ring.
  - destruct HP as (Hp & -> & HP). destruct IH as (r & Hr & ->); [exact HP|intros x Hx; apply HL; right; now right|]. exists (Rsqr (Cmod p) * r).
    assert (0 < Rsqr (Cmod p)).
    { apply Rsqr_pos_lt. intros Q. apply Cmod_eq_0 in Q. subst p. cbn in Hp. lra. }
    split; [nra|]. rewrite RtoC_mult, <- Cconj_mod. ring.
Qed.
Lemma conj_sorted l : conj_set l -> exists l', Permutation l l' /\ pairs l'.
Proof. intros H. destruct (sort_pairs ZpkExtra.isort l ZpkExtra.isort_ok H) as (l' & _ & P & Q). now exists l'. Qed.
Lemma cprod0_pos l : conj_set l -> (forall p, In p l -> snd p = 0 -> fst p < 0) -> exists r, 0 < r /\ cprod (RtoC 0) l = RtoC r.
Proof.
  intros HC HL. destruct (conj_sorted l HC) as (l' & P & Q). rewrite (cprod_perm _ _ _ P). apply pairs_pos; [exact Q|]. intros p Hp. apply HL. now apply (Permutation_in _ (Permutation_sym P)).
Qed.

(** ** Squared magnitudes *)
Definition mag2 (z : C) : R := Rsqr (Cmod z).
Lemma mag2_mult a b : mag2 (a * b)%C = mag2 a * mag2 b.
Proof. unfold mag2. now rewrite Cmod_mult, Rsqr_mult. Qed.
Lemma mag2_div a b : b <> RtoC 0 -> mag2 (a / b)%C = mag2 a / mag2 b.
Proof. intros H. unfold mag2. rewrite Cmod_div by exact H. apply Rsqr_div'. Qed.
Lemma mag2_R x : mag2 (RtoC x) = Rsqr x.
Proof. unfold mag2. rewrite Cmod_R. symmetry. apply Rsqr_abs. Qed.
Lemma mag2_pos a : a <> RtoC 0 -> 0 < mag2 a.
Proof. intros H. apply Rsqr_pos_lt. intros Q. apply H. now apply Cmod_eq_0. Qed.

Lemma scale_left Wn l p : 0 < Wn -> (forall q, In q l -> fst q < 0) -> In p (map (Cmult (RtoC Wn)) l) -> fst p < 0.
Proof. intros HW HL H. apply in_map_iff in H as (q & <- & Hq). cbn. pose proof (HL q Hq). nra. Qed.
Lemma left_ni (l : list C) (w : R) : (forall p, In p l -> fst p < 0) -> ~ In (0, w) l.
Proof. intros H I. apply H in I. cbn in I. lra. Qed.
Lemma left_nz (l : list C) (w : R) : (forall p, In p l -> fst p < 0) -> cprod (0, w) l <> RtoC 0.
Proof. intros H Q. apply cprod_in in Q. revert Q. now apply left_ni. Qed.

(** ** Prototypes moved to the critical frequency *)
Lemma lowpass argsort zq q Wn k z p : argsort_ok argsort -> 0 < Wn -> q <> [] -> conj_set q -> conj_set zq -> (length zq <= length q)%nat -> (forall x, In x q -> fst x < 0) ->
  Permutation p (map (Cmult (RtoC Wn)) q) -> Permutation z (map (Cmult (RtoC Wn)) zq) ->
  exists S, of_zpk argsort (z, p, k * Wn ^ (length q - length zq)) = Ok S /\ siso_filter S (length q) /\ (forall s, eigenvalue S s -> fst s < 0) /\
    forall w, responds S w (RtoC (Rabs k) * cprod (0, (w / Wn)%R) zq / cprod (0, (w / Wn)%R) q)%C.
Proof.
  intros HA HW Hne HC HZ HLn HL P PZ. assert (HL' : forall x, In x (map (Cmult (RtoC Wn)) q) -> fst x < 0) by (intros x; now apply scale_left).
  destruct (of_zpk_perm argsort z p (k * Wn ^ (length q - length zq)) _ _ HA PZ P) as (S & E & F1 & F2 & F3).
  - now apply conj_scale.
  - now apply conj_scale.
  - now rewrite !map_length.
  - destruct q; [congruence|discriminate].
  - exists S. split; [exact E|]. rewrite map_length in F1. split; [exact F1|]. split; [intros s Hs; apply HL', F2, Hs|]. intros w. specialize (F3 w (left_ni _ w HL')).
    rewrite !cprod_freq in F3 by lra.
    assert (HP : forall n, 0 < Wn ^ n) by (intros n; now apply pow_lt). assert (HP' : forall n, RtoC (Wn ^ n) <> RtoC 0) by (intros n Q; apply RtoC_inj in Q; specialize (HP n); lra).
    match type of F3 with responds _ _ ?h => replace (RtoC (Rabs k) * cprod (0, (w / Wn)%R) zq / cprod (0, (w / Wn)%R) q)%C with h; [exact F3|] end.
    replace (Wn ^ length q) with (Wn ^ (length q - length zq) * Wn ^ length zq) by (rewrite <- pow_add; f_equal; lia).
    rewrite Rabs_mult, (Rabs_pos_eq (Wn ^ (length q - length zq))) by (apply Rlt_le, HP). rewrite !RtoC_mult. field. split; [now apply left_nz|]. split; apply HP'.
Qed.

Lemma conj_nil : conj_set [].
Proof. repeat split; [constructor|tauto|intros a b []]. Qed.
Lemma allpole argsort q Wn k p : argsort_ok argsort -> 0 < Wn -> q <> [] -> conj_set q -> (forall x, In x q -> fst x < 0) -> Permutation p (map (Cmult (RtoC Wn)) q) ->
  exists S, of_zpk argsort ([], p, k * Wn ^ length q) = Ok S /\ siso_filter S (length q) /\ (forall s, eigenvalue S s -> fst s < 0) /\
    forall w, responds S w (RtoC (Rabs k) / cprod (0, (w / Wn)%R) q)%C.
Proof.
  intros HA HW Hne HC HL P. destruct (lowpass argsort [] q Wn k [] p HA HW Hne HC conj_nil ltac:(cbn; lia) HL P (Permutation_refl _)) as (S & E & F1 & F2 & F3).
  cbn [length] in E. rewrite Nat.sub_0_r in E. exists S. repeat (split; [assumption|]). intros w. specialize (F3 w). unfold cprod at 1 in F3. cbn [fold_right] in F3.
  now rewrite Cmult_1_r in F3.
Qed.

Lemma epoles_ne N a b : (0 < N)%nat -> epoles N a b <> [].
Proof. intros H Q. apply (f_equal (@length C)) in Q. rewrite epoles_length in Q. cbn in Q. lia. Qed.

Lemma butterworth argsort f N Wn : argsort_ok argsort -> butter_design f -> (0 < N)%nat -> 0 < Wn ->
  exists S, ButterWorth argsort f N Wn = Ok S /\ siso_filter S N /\ (forall s, eigenvalue S s -> fst s < 0) /\
    (forall w, exists h, responds S w h /\ mag2 h = / (1 + (w / Wn) ^ (2 * N))) /\ responds S 0 (RtoC 1).
Proof.
  intros HA HD HN HW. destruct (HD N Wn HN HW) as (p & E & P). unfold ButterWorth. rewrite E. cbn [bind]. assert (H1 : 0 < 1) by lra.
  destruct (allpole argsort (epoles N 1 1) Wn 1 p HA HW (epoles_ne N 1 1 HN) (epoles_conj N 1 1 H1) (epoles_left N 1 1 H1) P) as (S & ES & F1 & F2 & F3).
  rewrite epoles_length in ES, F1. rewrite Rmult_1_l in ES. exists S. split; [exact ES|]. split; [exact F1|]. split; [exact F2|].
  assert (M : forall w, mag2 (RtoC (Rabs 1) / cprod (0, (w / Wn)%R) (epoles N 1 1))%C = / (1 + (w / Wn) ^ (2 * N))).
  { intros w. rewrite mag2_div by (apply left_nz, epoles_left; lra). rewrite mag2_R, Rabs_R1. unfold mag2. rewrite butter_mod by exact HN. unfold Rsqr, Rdiv. ring. }
  split; [intros w; eexists; split; [apply F3|apply M]|].
  specialize (F3 0). specialize (M 0). replace (0 / Wn) with 0 in * by (field; lra). rewrite pow_i, Rplus_0_r, Rinv_1 in M by lia.
  destruct (cprod0_pos (epoles N 1 1)) as (r & Hr & Er); [now apply epoles_conj|intros q Hq _; apply (epoles_left N 1 1 H1 q Hq)|].
  change (0, 0) with (RtoC 0) in *. rewrite Er in *. rewrite Rabs_R1, mag2_div, !mag2_R in M by (intros Q; apply RtoC_inj in Q; lra).
  assert (r = 1) by (assert (Q : Rsqr r = 1) by (apply Rmult_eq_reg_r with (/ Rsqr r); [rewrite Rinv_r by (apply Rgt_not_eq, Rsqr_pos_lt; lra); unfold Rdiv in M; rewrite Rsqr_1 in M; lra|apply Rinv_neq_0_compat, Rgt_not_eq, Rsqr_pos_lt; lra]); unfold Rsqr in Q; nra).
  subst r. rewrite Rabs_R1 in F3. replace (RtoC 1) with (RtoC 1 / RtoC 1)%C by (field; intros Q; apply RtoC_inj in Q; lra). exact F3.
Qed.

(** ** Ripple *)
Lemma pow10_gt x : 0 < x -> 1 < Rpower 10 x.
Proof.
  intros H. rewrite <- (Rpower_O 10) by lra. apply Rpower_lt; lra.
Qed.
Lemma ripple_pos rp : 0 < rp -> 0 < ripple rp.
Proof. intros H. apply sqrt_lt_R0. pose proof (pow10_gt (rp / 10)). lra. Qed.
Lemma ripple_sq rp : 0 < rp -> 1 + Rsqr (ripple rp) = Rpower 10 (rp / 10).
Proof. intros H. unfold ripple. rewrite Rsqr_sqrt; [ring|]. pose proof (pow10_gt (rp / 10)). lra. Qed.
Lemma ripple_inv rp : 0 < rp -> / (1 + Rsqr (ripple rp)) = Rpower 10 (- rp / 10).
Proof. intros H. rewrite ripple_sq by exact H. rewrite <- Rpower_Ropp. f_equal. field. Qed.
Lemma mu_pos N e : (0 < N)%nat -> 0 < e -> 0 < mu_of N e.
Proof.
  intros HN He. unfold mu_of. apply Rdiv_lt_0_compat; [|now apply lt_0_INR]. rewrite <- arcsinh_0. apply arcsinh_lt. now apply Rinv_0_lt_compat.
Qed.
Lemma mu_sinh N e : (0 < N)%nat -> 0 < e -> sinh (INR N * mu_of N e) * e = 1.
Proof.
  intros HN He. unfold mu_of. replace (INR N * (arcsinh (/ e) / INR N)) with (arcsinh (/ e)) by (field; apply not_0_INR; lia). rewrite sinh_arcsinh. field. lra.
Qed.
Lemma sinh_pos x : 0 < x -> 0 < sinh x.
Proof. intros H. rewrite <- sinh_0. now apply sinh_lt. Qed.
Lemma cosh_pos x : 0 < cosh x.
Proof. unfold cosh. pose proof (exp_pos x). pose proof (exp_pos (- x)). lra. Qed.

(** ** Chebyshev polynomials inside and outside of [-1, 1] *)
Lemma cheb_even0 N : Rsqr (cheb N 0) = if Nat.even N then 1 else 0.
Proof.
  induction N as [| |n IH1 IH2] using nat_ind2; [cbn; unfold Rsqr; ring|cbn; unfold Rsqr; ring|]. rewrite cheb_SS. replace (2 * 0 * cheb (S n) 0 - cheb n 0) with (- cheb n 0) by ring.
  rewrite <- Rsqr_neg. exact IH1.
Qed.
Lemma cheb_in N x : Rabs x <= 1 -> Rsqr (cheb N x) <= 1.
Proof.
  intros H. assert (-1 <= x <= 1) by (unfold Rabs in H; destruct (Rcase_abs x); lra). rewrite <- (cos_acos x) by lra. rewrite cheb_cos. pose proof (COS_bound (INR N * acos x)). unfold Rsqr. nra.
Qed.
Lemma cosh_onto x : 1 <= x -> exists a, 0 <= a /\ x = cosh a.
Proof.
  intros H. exists (arcsinh (sqrt (x * x - 1))). assert (0 <= x * x - 1) by nra. split.
  - rewrite <- arcsinh_0. apply arcsinh_le. apply sqrt_pos.
  - set (a := arcsinh _). pose proof (cosh_sinh a) as E. unfold a in E at 3 4. rewrite sinh_arcsinh, sqrt_sqrt in E by assumption. pose proof (cosh_pos a). nra.
Qed.
Lemma cosh_mono a b : 0 <= a -> a < b -> cosh a < cosh b.
Proof.
  intros Ha Hb. pose proof (cosh_sinh a). pose proof (cosh_sinh b). pose proof (cosh_pos a). pose proof (cosh_pos b). pose proof (sinh_lt a b Hb).
  assert (0 <= sinh a) by (destruct Ha as [Ha| <-]; [apply Rlt_le, sinh_pos, Ha|rewrite sinh_0; lra]). nra.
Qed.
Lemma cheb_abs N x : Rsqr (cheb N (Rabs x)) = Rsqr (cheb N x).
Proof. unfold Rabs. destruct (Rcase_abs x); [apply cheb_neg|reflexivity]. Qed.
Lemma cheb_out N x : 1 <= Rabs x -> 1 <= Rsqr (cheb N x).
Proof.
  intros H. rewrite <- cheb_abs. destruct (cosh_onto _ H) as (a & Ha & ->). rewrite cheb_cosh. pose proof (cosh_sinh (INR N * a)). unfold Rsqr. nra.
Qed.
Lemma cheb_mono N x y : (0 < N)%nat -> 1 <= Rabs x -> Rabs x < Rabs y -> Rsqr (cheb N x) < Rsqr (cheb N y).
Proof.
  intros HN H H'. rewrite <- (cheb_abs N x), <- (cheb_abs N y). destruct (cosh_onto _ H) as (a & Ha & Ea). destruct (cosh_onto (Rabs y)) as (b & Hb & Eb); [lra|].
  rewrite Ea, Eb, !cheb_cosh. assert (a < b).
  { destruct (Rlt_le_dec a b) as [|Q]; [assumption|]. exfalso. destruct Q as [Q| ->]; [|lra]. pose proof (cosh_mono b a Hb Q). lra. }
  assert (0 < INR N) by now apply lt_0_INR. assert (INR N * a < INR N * b) by nra. assert (0 <= INR N * a) by nra.
  pose proof (cosh_mono (INR N * a) (INR N * b)). pose proof (cosh_pos (INR N * a)). unfold Rsqr. nra.
Qed.
Lemma cheb_end N x : Rabs x = 1 -> Rsqr (cheb N x) = 1.
Proof. intros H. apply Rle_antisym; [apply cheb_in; lra|apply cheb_out; lra]. Qed.

(** ** Chebyshev, type I *)
Lemma chebyshev1 argsort f N Wn rp : argsort_ok argsort -> cheby1_design f -> (0 < N)%nat -> 0 < Wn -> 0 < rp ->
  exists S, ChebyshevI argsort f N Wn rp = Ok S /\ siso_filter S N /\ (forall s, eigenvalue S s -> fst s < 0) /\
    (forall w, exists h, responds S w h /\ mag2 h = / (1 + (Rpower 10 (rp / 10) - 1) * Rsqr (cheb N (w / Wn)))) /\
    exists g, 0 < g /\ responds S 0 (RtoC g).
Proof.
  intros HA HD HN HW HR. destruct (HD N Wn rp HN HW HR) as (p & E & P). unfold ChebyshevI. rewrite E. cbn [bind]. clear E.
  set (mu := mu_of N (ripple rp)) in *. set (q := epoles N (sinh mu) (cosh mu)) in *. pose proof (ripple_pos rp HR) as Hr. pose proof (mu_pos N _ HN Hr) as Hmu. fold mu in Hmu.
  pose proof (sinh_pos mu Hmu) as Hs. pose proof (cosh_pos mu) as Hc. assert (HC : conj_set q) by (apply epoles_conj; lra). assert (HL : forall x, In x q -> fst x < 0) by (apply epoles_left; lra).
  assert (Lq : length q = N) by apply epoles_length. assert (Hne : q <> []) by now apply epoles_ne.
  assert (M : forall x, mag2 (cprod (0, x) q) * (Rsqr (ripple rp) * 4 ^ (N - 1)) = 1 + Rsqr (ripple rp) * Rsqr (cheb N x)).
  { intros x. apply cheb_mod; [exact HN|exact Hmu|]. now apply mu_sinh. }
  destruct (cprod0_pos q HC) as (r & Hr0 & Er); [intros x Hx _; now apply HL|]. rewrite nprod_cprod, Er in *. cbn [fst RtoC] in *.
  set (k := if Nat.even N then r / sqrt (1 + Rsqr (ripple rp)) else r) in *.
  assert (He : 0 < Rsqr (ripple rp)) by (apply Rsqr_pos_lt; lra). assert (H4 : 0 < 4 ^ (N - 1)) by (apply pow_lt; lra).
  assert (Hsq : 0 < sqrt (1 + Rsqr (ripple rp))) by (apply sqrt_lt_R0; lra).
  assert (Hk : 0 < k) by (unfold k; destruct (Nat.even N); [now apply Rdiv_lt_0_compat|exact Hr0]).
  assert (Ek : Rsqr k * (Rsqr (ripple rp) * 4 ^ (N - 1)) = 1).
  { pose proof (M 0) as M0. change (0, 0) with (RtoC 0) in M0. rewrite Er, mag2_R, cheb_even0 in M0. unfold k. destruct (Nat.even N).
    - rewrite Rsqr_div', Rsqr_sqrt by lra. unfold Rdiv. replace (Rsqr r * / (1 + Rsqr (ripple rp)) * (Rsqr (ripple rp) * 4 ^ (N - 1))) with (Rsqr r * (Rsqr (ripple rp) * 4 ^ (N - 1)) * / (1 + Rsqr (ripple rp))) by ring.
      rewrite M0, Rmult_1_r. field. lra.
    - rewrite M0. ring. }
  destruct (allpole argsort q Wn k p HA HW Hne HC HL P) as (S & ES & F1 & F2 & F3). rewrite Lq in ES, F1. exists S. repeat (split; [assumption|]). split.
  - intros w. eexists. split; [apply F3|]. rewrite mag2_div by now apply left_nz. rewrite mag2_R, <- Rsqr_abs. rewrite <- (ripple_sq rp HR).
    replace (1 + Rsqr (ripple rp) - 1) with (Rsqr (ripple rp)) by ring. rewrite <- (M (w / Wn)). pose proof (mag2_pos _ (left_nz q (w / Wn) HL)).
    apply Rmult_eq_reg_r with (Rsqr (ripple rp) * 4 ^ (N - 1)); [|apply Rgt_not_eq; nra]. unfold Rdiv. rewrite Rmult_assoc, (Rmult_comm (/ mag2 _)), <- Rmult_assoc, Ek. field. repeat split; lra.
  - exists (k / r). split; [now apply Rdiv_lt_0_compat|]. specialize (F3 0). replace (0 / Wn) with 0 in F3 by (field; lra). change (0, 0) with (RtoC 0) in F3. rewrite Er in F3.
    rewrite Rabs_pos_eq in F3 by lra. rewrite RtoC_div by lra. exact F3.
Qed.
