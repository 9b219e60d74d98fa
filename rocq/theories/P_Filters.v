(** Property theorems C89-C92: the standard filters. *)
From Coq Require Import List Arith Lia Bool Reals Lra Permutation.
From Coquelicot Require Import Complex.
From Verif Require Import Base LinAlg FirExtras AnalogSystem AnalogProofs Zpk ZpkProofs ZpkExtra Filters FilterZpk FilterResp CplxLin TransferFn TransferProofs TransferExtra ChebPoly FilterPoles FilterDesign FilterInv.
Import ListNotations.
Open Scope R_scope.

(** ** Specification *)
(** a stable filter with n states, one input, one output and no control *)
Definition stable_filter (S : asys Rring) (n : nat) : Prop := siso_filter S n /\ forall s, eigenvalue S s -> fst s < 0.
(** the squared magnitude response of S is m *)
Definition magnitude (S : asys Rring) (m : R -> R) : Prop := forall w, exists h, responds S w h /\ Rsqr (Cmod h) = m w.
Definition butter_mag (N : nat) (Wn w : R) : R := / (1 + (w / Wn) ^ (2 * N)).
Definition cheb1_mag (N : nat) (Wn rp w : R) : R := / (1 + (Rpower 10 (rp / 10) - 1) * Rsqr (cheb N (w / Wn))).
Definition cheb2_mag (N : nat) (Wn rs w : R) : R :=
  if Req_EM_T w 0 then 1 else Rsqr (cheb N (Wn / w)) / (Rpower 10 (rs / 10) - 1 + Rsqr (cheb N (Wn / w))).

Lemma mag_eq S m w h : magnitude S m -> responds S w h -> Rsqr (Cmod h) = m w.
Proof. intros H Hh. destruct (H w) as (h' & Hh' & E). now rewrite (responds_det S w h h' Hh Hh'). Qed.
Lemma mag_tfm pinv S n m w : siso_filter S n -> magnitude S m -> pinv_ok pinv n ->
  exists G, transfer_function_matrix pinv S false [w] = Ok [G] /\ rows G = 1%nat /\ cols G = 1%nat /\ Rsqr (Cmod (cent G O O)) = m w.
Proof.
  intros HS H P. destruct (H w) as (h & Hh & E). destruct (responds_tfm pinv S n w h HS Hh P) as (G & EG & R1 & R2 & EH). exists G. rewrite EH. auto.
Qed.

(** a design routine that meets the assumptions *)
Definition exact_iir : iir := fun ft N Wn rp rs =>
  match ft, rp, rs with
  | Butter, _, _ => Ok ([], map (Cmult (RtoC Wn)) (epoles N 1 1), Wn ^ N)
  | Cheby1, Some rp, _ => let q := epoles N (sinh (mu_of N (ripple rp))) (cosh (mu_of N (ripple rp))) in
      Ok ([], map (Cmult (RtoC Wn)) q, (if Nat.even N then fst (nprod q) / sqrt (1 + Rsqr (ripple rp)) else fst (nprod q)) * Wn ^ N)
  | Cheby2, _, Some rs => let q := map Cinv (epoles N (sinh (mu_of N (/ ripple rs))) (cosh (mu_of N (/ ripple rs)))) in
      Ok (map (Cmult (RtoC Wn)) (izeros N), map (Cmult (RtoC Wn)) q, fst (nprod q / nprod (izeros N))%C * Wn ^ (N - length (izeros N)))
  | _, _, _ => Exn ValueError
  end.
Lemma exact_butter : butter_design exact_iir.
Proof. intros N Wn _ _. eexists. split; [reflexivity|apply Permutation_refl]. Qed.
Lemma exact_cheby1 : cheby1_design exact_iir.
Proof. intros N Wn rp _ _ _ q k. eexists. split; [reflexivity|apply Permutation_refl]. Qed.
Lemma exact_cheby2 : cheby2_design exact_iir.
Proof. intros N Wn rs _ _ _ de q. eexists. eexists. split; [reflexivity|split; apply Permutation_refl]. Qed.

(** ** C89: Butterworth filters exist for every order, are stable, pass a constant unchanged, and have the magnitude
    1 / (1 + (w/Wn)^(2N)). *)
Theorem C89_butterworth : forall argsort f N Wn, argsort_ok argsort -> butter_design f -> (0 < N)%nat -> 0 < Wn ->
  exists S, ButterWorth argsort f N Wn = Ok S /\ stable_filter S N /\ magnitude S (butter_mag N Wn) /\ responds S 0 (RtoC 1).
Proof.
  intros argsort f N Wn HA HD HN HW. destruct (butterworth argsort f N Wn HA HD HN HW) as (S & E & H1 & H2 & H3 & H4). exists S. split; [exact E|]. split; [now split|]. split; [exact H3|exact H4].
Qed.
Print Assumptions C89_butterworth.
(** half the power at Wn, and monotone *)
Theorem C89_half_power : forall argsort f N Wn S, argsort_ok argsort -> butter_design f -> (0 < N)%nat -> 0 < Wn -> ButterWorth argsort f N Wn = Ok S ->
  (forall h, responds S Wn h -> Rsqr (Cmod h) = / 2) /\
  forall w w' h h', Rabs w < Rabs w' -> responds S w h -> responds S w' h' -> Rsqr (Cmod h') < Rsqr (Cmod h).
Proof.
  intros argsort f N Wn S HA HD HN HW E. destruct (C89_butterworth argsort f N Wn HA HD HN HW) as (S' & E' & _ & M & _). rewrite E in E'. apply Ok_inj in E'. subst S'. split.
  - intros h Hh. rewrite (mag_eq S _ Wn h M Hh). unfold butter_mag. replace (Wn / Wn) with 1 by (field; lra). apply butter_half.
  - intros w w' h h' Hw Hh Hh'. rewrite (mag_eq S _ w h M Hh), (mag_eq S _ w' h' M Hh'). now apply butter_shape.
Qed.
Print Assumptions C89_half_power.
(** transfer_function_matrix returns this response *)
Theorem C89_transfer_function : forall argsort f pinv N Wn w, argsort_ok argsort -> butter_design f -> pinv_ok pinv N -> (0 < N)%nat -> 0 < Wn ->
  exists S G, ButterWorth argsort f N Wn = Ok S /\ transfer_function_matrix pinv S false [w] = Ok [G] /\ rows G = 1%nat /\ cols G = 1%nat /\ Rsqr (Cmod (cent G O O)) = butter_mag N Wn w.
Proof.
  intros argsort f pinv N Wn w HA HD HP HN HW. destruct (C89_butterworth argsort f N Wn HA HD HN HW) as (S & E & (H1 & _) & M & _). destruct (mag_tfm pinv S N _ w H1 M HP) as (G & HG). exists S, G. now split.
Qed.
Print Assumptions C89_transfer_function.
Example C89_second_order : exists S G, ButterWorth isort exact_iir 2 3 = Ok S /\ sN S = 2%nat /\ transfer_function_matrix pinv2 S false [6] = Ok [G] /\ Rsqr (Cmod (cent G O O)) = / 17.
Proof.
  destruct (C89_transfer_function isort exact_iir pinv2 2 3 6 isort_ok exact_butter pinv2_2 ltac:(lia) ltac:(lra)) as (S & G & E & EG & _ & _ & HM). exists S, G. split; [exact E|]. split.
  - destruct (C89_butterworth isort exact_iir 2 3 isort_ok exact_butter ltac:(lia) ltac:(lra)) as (S' & E' & ((_ & Q & _) & _) & _). rewrite E in E'. apply Ok_inj in E'. now subst S'.
  - split; [exact EG|]. rewrite HM. unfold butter_mag. replace (6 / 3) with 2 by lra. cbn [Nat.mul Nat.add pow]. f_equal. ring.
Qed.
Example C89_high_order : exists S, ButterWorth isort exact_iir 7 1 = Ok S /\ stable_filter S 7 /\ magnitude S (butter_mag 7 1).
Proof. destruct (C89_butterworth isort exact_iir 7 1 isort_ok exact_butter ltac:(lia) ltac:(lra)) as (S & E & H1 & H2 & _). now exists S. Qed.

(** ** C90: Chebyshev filters of type I exist for every order, are stable, and have the magnitude 1 / (1 + eps^2 T_N(w/Wn)^2). *)
Theorem C90_chebyshev1 : forall argsort f N Wn rp, argsort_ok argsort -> cheby1_design f -> (0 < N)%nat -> 0 < Wn -> 0 < rp ->
  exists S, ChebyshevI argsort f N Wn rp = Ok S /\ stable_filter S N /\ magnitude S (cheb1_mag N Wn rp) /\ exists g, 0 < g /\ responds S 0 (RtoC g).
Proof.
  intros argsort f N Wn rp HA HD HN HW HR. destruct (chebyshev1 argsort f N Wn rp HA HD HN HW HR) as (S & E & H1 & H2 & H3 & H4). exists S. split; [exact E|]. split; [now split|]. split; [exact H3|exact H4].
Qed.
Print Assumptions C90_chebyshev1.
(** a ripple of rp dB up to Wn, -rp dB at Wn, decreasing from there *)
Theorem C90_ripple : forall argsort f N Wn rp S, argsort_ok argsort -> cheby1_design f -> (0 < N)%nat -> 0 < Wn -> 0 < rp -> ChebyshevI argsort f N Wn rp = Ok S ->
  (forall w h, Rabs w <= Wn -> responds S w h -> Rpower 10 (- rp / 10) <= Rsqr (Cmod h) <= 1) /\
  (forall h, responds S Wn h -> Rsqr (Cmod h) = Rpower 10 (- rp / 10)) /\
  forall w w' h h', Wn <= Rabs w -> Rabs w < Rabs w' -> responds S w h -> responds S w' h' -> Rsqr (Cmod h') < Rsqr (Cmod h).
Proof.
  intros argsort f N Wn rp S HA HD HN HW HR E. destruct (C90_chebyshev1 argsort f N Wn rp HA HD HN HW HR) as (S' & E' & _ & M & _). rewrite E in E'. apply Ok_inj in E'. subst S'.
  destruct (c1_shape N Wn rp HN HW HR) as (P1 & P2 & P3). split; [|split].
  - intros w h Hw Hh. rewrite (mag_eq S _ w h M Hh). now apply P1.
  - intros h Hh. now rewrite (mag_eq S _ Wn h M Hh).
  - intros w w' h h' H1 H2 Hh Hh'. rewrite (mag_eq S _ w h M Hh), (mag_eq S _ w' h' M Hh'). now apply P3.
Qed.
Print Assumptions C90_ripple.
Theorem C90_transfer_function : forall argsort f pinv N Wn rp w, argsort_ok argsort -> cheby1_design f -> pinv_ok pinv N -> (0 < N)%nat -> 0 < Wn -> 0 < rp ->
  exists S G, ChebyshevI argsort f N Wn rp = Ok S /\ transfer_function_matrix pinv S false [w] = Ok [G] /\ rows G = 1%nat /\ cols G = 1%nat /\ Rsqr (Cmod (cent G O O)) = cheb1_mag N Wn rp w.
Proof.
  intros argsort f pinv N Wn rp w HA HD HP HN HW HR. destruct (C90_chebyshev1 argsort f N Wn rp HA HD HN HW HR) as (S & E & (H1 & _) & M & _). destruct (mag_tfm pinv S N _ w H1 M HP) as (G & HG). exists S, G. now split.
Qed.
Print Assumptions C90_transfer_function.
Example C90_second_order : exists S G, ChebyshevI isort exact_iir 2 3 10 = Ok S /\ transfer_function_matrix pinv2 S false [6] = Ok [G] /\ Rsqr (Cmod (cent G O O)) = / 442.
Proof.
  destruct (C90_transfer_function isort exact_iir pinv2 2 3 10 6 isort_ok exact_cheby1 pinv2_2 ltac:(lia) ltac:(lra) ltac:(lra)) as (S & G & E & EG & _ & _ & HM). exists S, G. split; [exact E|]. split; [exact EG|].
  rewrite HM. unfold cheb1_mag. replace (10 / 10) with 1 by lra. rewrite Rpower_1 by lra. replace (6 / 3) with 2 by lra. cbn. unfold Rsqr. f_equal. ring.
Qed.
Example C90_high_order : exists S, ChebyshevI isort exact_iir 8 1 1 = Ok S /\ stable_filter S 8 /\ magnitude S (cheb1_mag 8 1 1).
Proof. destruct (C90_chebyshev1 isort exact_iir 8 1 1 isort_ok exact_cheby1 ltac:(lia) ltac:(lra) ltac:(lra)) as (S & E & H1 & H2 & _). now exists S. Qed.

(** ** C91: Chebyshev filters of type II, unless two poles that are not conjugate have imaginary parts of the same size. *)
Theorem C91_chebyshev2 : forall argsort f N Wn rs, argsort_ok argsort -> cheby2_design f -> (0 < N)%nat -> 0 < Wn -> 0 < rs -> no_ties N rs ->
  exists S, ChebyshevII argsort f N Wn rs = Ok S /\ stable_filter S N /\ magnitude S (cheb2_mag N Wn rs) /\ responds S 0 (RtoC 1).
Proof.
  intros argsort f N Wn rs HA HD HN HW HR HT. destruct (chebyshev2 argsort f N Wn rs HA HD HN HW HR HT) as (S & E & H1 & H2 & H3 & H4). exists S. split; [exact E|]. split; [now split|]. split; [|exact H4].
  intros w. unfold cheb2_mag. destruct (Req_EM_T w 0) as [->|Hw]; [|now apply H3]. exists (RtoC 1). split; [exact H4|]. rewrite Cmod_1. apply Rsqr_1.
Qed.
Print Assumptions C91_chebyshev2.
(** at least rs dB of attenuation from Wn on, decreasing up to Wn *)
Theorem C91_stopband : forall argsort f N Wn rs S, argsort_ok argsort -> cheby2_design f -> (0 < N)%nat -> 0 < Wn -> 0 < rs -> no_ties N rs -> ChebyshevII argsort f N Wn rs = Ok S ->
  (forall w h, Wn <= Rabs w -> responds S w h -> Rsqr (Cmod h) <= Rpower 10 (- rs / 10)) /\
  (forall h, responds S Wn h -> Rsqr (Cmod h) = Rpower 10 (- rs / 10)) /\
  forall w w' h h', Rabs w < Rabs w' -> Rabs w' <= Wn -> responds S w h -> responds S w' h' -> Rsqr (Cmod h') < Rsqr (Cmod h).
Proof.
  intros argsort f N Wn rs S HA HD HN HW HR HT E. destruct (C91_chebyshev2 argsort f N Wn rs HA HD HN HW HR HT) as (S' & E' & _ & M & _). rewrite E in E'. apply Ok_inj in E'. subst S'.
  destruct (c2_shape N Wn rs HN HW HR) as (P1 & P2 & P3 & P4). split; [|split].
  - intros w h Hw Hh. rewrite (mag_eq S _ w h M Hh). unfold cheb2_mag. destruct (Req_EM_T w 0) as [->|_]; [rewrite Rabs_R0 in Hw; lra|]. now apply P1.
  - intros h Hh. rewrite (mag_eq S _ Wn h M Hh). unfold cheb2_mag. destruct (Req_EM_T Wn 0); [lra|exact P2].
  - intros w w' h h' H1 H2 Hh Hh'. rewrite (mag_eq S _ w h M Hh), (mag_eq S _ w' h' M Hh'). unfold cheb2_mag. destruct (Req_EM_T w' 0) as [->|Hw']; [rewrite Rabs_R0 in H1; pose proof (Rabs_pos w); lra|].
    destruct (Req_EM_T w 0) as [->|Hw]; [now apply P3|now apply P4].
Qed.
Print Assumptions C91_stopband.
Theorem C91_transfer_function : forall argsort f pinv N Wn rs w, argsort_ok argsort -> cheby2_design f -> pinv_ok pinv N -> (0 < N)%nat -> 0 < Wn -> 0 < rs -> no_ties N rs ->
  exists S G, ChebyshevII argsort f N Wn rs = Ok S /\ transfer_function_matrix pinv S false [w] = Ok [G] /\ rows G = 1%nat /\ cols G = 1%nat /\ Rsqr (Cmod (cent G O O)) = cheb2_mag N Wn rs w.
Proof.
  intros argsort f pinv N Wn rs w HA HD HP HN HW HR HT. destruct (C91_chebyshev2 argsort f N Wn rs HA HD HN HW HR HT) as (S & E & (H1 & _) & M & _). destruct (mag_tfm pinv S N _ w H1 M HP) as (G & HG). exists S, G. now split.
Qed.
Print Assumptions C91_transfer_function.
(** there are no ties up to the third order *)
Lemma ties_3 N rs : (0 < N <= 3)%nat -> 0 < rs -> no_ties N rs.
Proof.
  intros HN HR i j Hi Hj Hd Q. assert (0 < Rsqr (sinh (mu_of N (/ ripple rs)))).
  { apply Rsqr_pos_lt, Rgt_not_eq, sinh_pos, mu_pos; [lia|]. now apply Rinv_0_lt_compat, ripple_pos. }
  assert (sin (theta N i) * sin (theta N j) <= 0); [|lra]. clear Q H.
  assert (O : (2 * i + 1 = N)%nat \/ (2 * j + 1 = N)%nat \/ (i = j)%nat \/ (i = N - 1 - j)%nat) by lia. destruct O as [O|[O|[O|O]]].
  - apply sin_nz in O; [|exact Hi]. rewrite O. lra.
  - apply sin_nz in O; [|exact Hj]. rewrite O. lra.
  - now subst i.
  - subst i. rewrite theta_sym, sin_neg by exact Hj. nra.
Qed.
Example C91_second_order : exists S G, ChebyshevII isort exact_iir 2 6 10 = Ok S /\ transfer_function_matrix pinv2 S false [3] = Ok [G] /\ Rsqr (Cmod (cent G O O)) = 49 / 58.
Proof.
  destruct (C91_transfer_function isort exact_iir pinv2 2 6 10 3 isort_ok exact_cheby2 pinv2_2 ltac:(lia) ltac:(lra) ltac:(lra) (ties_3 2 10 ltac:(lia) ltac:(lra))) as (S & G & E & EG & _ & _ & HM).
  exists S, G. split; [exact E|]. split; [exact EG|]. rewrite HM. unfold cheb2_mag. destruct (Req_EM_T 3 0); [lra|]. replace (10 / 10) with 1 by lra. rewrite Rpower_1 by lra. replace (6 / 3) with 2 by lra. cbn. unfold Rsqr. field.
Qed.
Example C91_third_order : exists S, ChebyshevII isort exact_iir 3 1 40 = Ok S /\ stable_filter S 3 /\ magnitude S (cheb2_mag 3 1 40).
Proof. destruct (C91_chebyshev2 isort exact_iir 3 1 40 isort_ok exact_cheby2 ltac:(lia) ltac:(lra) ltac:(lra) (ties_3 3 40 ltac:(lia) ltac:(lra))) as (S & E & H1 & H2 & _). now exists S. Qed.

(** ** C92: Cauer and IIRDesign realise the zeros, poles and gain that scipy returns, whenever poles and zeros are distinct conjugate
    sets with imaginary parts of different sizes; the sign of the gain is lost. *)
Theorem C92_cauer : forall argsort f N Wn rp rs z p k, argsort_ok argsort -> f Ellip N Wn (Some rp) (Some rs) = Ok (z, p, k) ->
  conj_set p -> conj_set z -> (length z <= length p)%nat -> p <> [] ->
  exists S, Cauer argsort f N Wn rp rs = Ok S /\ siso_filter S (length p) /\ (forall s, eigenvalue S s -> In s p) /\
    forall w, ~ In (0, w) p -> responds S w (RtoC (Rabs k) * cprod (0, w) z / cprod (0, w) p)%C.
Proof. exact cauer. Qed.
Print Assumptions C92_cauer.
Theorem C92_iirdesign : forall argsort g wp ws gpass gstop ft z p k, argsort_ok argsort -> g ft wp ws gpass gstop = Ok (z, p, k) ->
  conj_set p -> conj_set z -> (length z <= length p)%nat -> p <> [] ->
  exists S, IIRDesign argsort g wp ws gpass gstop ft = Ok S /\ siso_filter S (length p) /\ (forall s, eigenvalue S s -> In s p) /\
    forall w, ~ In (0, w) p -> responds S w (RtoC (Rabs k) * cprod (0, w) z / cprod (0, w) p)%C.
Proof. exact iirdesigned. Qed.
Print Assumptions C92_iirdesign.
Lemma two_set (x y : R) : y <> 0 -> conj_set [(x, y); (x, - y)].
Proof.
  intros Hy. split; [|split].
  - constructor; [|constructor; [tauto|constructor]]. intros [Q|[]]. apply (f_equal snd) in Q. cbn in Q. lra.
  - intros p [<-|[<-|[]]]; unfold Cconj; cbn [fst snd]; [now right; left|left]. now rewrite Ropp_involutive.
  - intros p p' [<-|[<-|[]]] [<-|[<-|[]]] _; unfold Cconj; cbn [fst snd]; rewrite ?Ropp_involutive; (now left) || (now right).
Qed.
(** a notch: zeros at +-2i, poles at -1 +- i *)
Definition notch_iir : iir := fun _ _ _ _ _ => Ok ([(0, 2); (0, -2)], [(-1, 1); (-1, -1)], 1 / 2).
Example C92_notch : exists S, Cauer isort notch_iir 2 1 1 40 = Ok S /\ responds S 2 (RtoC 0) /\ responds S 0 (RtoC 1).
Proof.
  destruct (C92_cauer isort notch_iir 2 1 1 40 _ _ _ isort_ok eq_refl) as (S & E & _ & _ & H).
  - exact (two_set (-1) 1 ltac:(lra)).
  - exact (two_set 0 2 ltac:(lra)).
  - cbn; lia.
  - discriminate.
  - exists S. split; [exact E|]. split.
    + replace (RtoC 0) with (RtoC (Rabs (1 / 2)) * cprod (0, 2) [(0, 2); (0, -2)] / cprod (0, 2) [(-1, 1); (-1, -1)])%C at 1.
      * apply H. intros [Q|[Q|[]]]; apply (f_equal fst) in Q; cbn in Q; lra.
      * unfold cprod at 1. cbn [fold_right]. unfold Cdiv. replace ((0, 2) - (0, 2))%C with (RtoC 0) by (apply injective_projections; cbn; ring). ring.
    + replace (RtoC 1) with (RtoC (Rabs (1 / 2)) * cprod (0, 0) [(0, 2); (0, -2)] / cprod (0, 0) [(-1, 1); (-1, -1)])%C at 1.
      * apply H. intros [Q|[Q|[]]]; apply (f_equal fst) in Q; cbn in Q; lra.
      * rewrite Rabs_pos_eq by lra. unfold cprod. cbn [fold_right]. apply injective_projections; cbn; field.
Qed.
(** "The system has the gain that scipy returned" is wrong for a negative gain. *)
Theorem C92_gain_sign_refuted : exists argsort f N Wn rp rs z p k S, argsort_ok argsort /\ f Ellip N Wn (Some rp) (Some rs) = Ok (z, p, k) /\
  conj_set p /\ conj_set z /\ (length z <= length p)%nat /\ Cauer argsort f N Wn rp rs = Ok S /\
  ~ responds S 0 (RtoC k * cprod (0, 0) z / cprod (0, 0) p)%C.
Proof.
  set (f := (fun _ _ _ _ _ => Ok ([(0, 2); (0, -2)], [(-1, 1); (-1, -1)], - (1 / 2))) : iir).
  destruct (C92_cauer isort f 2 1 1 40 _ _ _ isort_ok eq_refl (two_set (-1) 1 ltac:(lra)) (two_set 0 2 ltac:(lra)) ltac:(cbn; lia) ltac:(discriminate)) as (S & E & _ & _ & H).
  exists isort, f, 2%nat, 1, 1, 40, [(0, 2); (0, -2)], [(-1, 1); (-1, -1)], (- (1 / 2)), S.
  split; [exact isort_ok|]. split; [reflexivity|]. split; [exact (two_set (-1) 1 ltac:(lra))|]. split; [exact (two_set 0 2 ltac:(lra))|]. split; [cbn; lia|]. split; [exact E|].
  intros Q. specialize (H 0 ltac:(intros [W|[W|[]]]; apply (f_equal fst) in W; cbn in W; lra)). pose proof (responds_det S 0 _ _ H Q) as D.
  apply (f_equal fst) in D. rewrite Rabs_Ropp, Rabs_pos_eq in D by lra. unfold cprod in D. cbn in D. field_simplify in D; lra.
Qed.
Print Assumptions C92_gain_sign_refuted.
