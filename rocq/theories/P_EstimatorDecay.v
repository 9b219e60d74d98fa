(** Property theorems C106: the estimators with coefficients of stabilising Riccati solutions approach one common estimate.
    Vocabulary (EstimatorDecay.v), independent of the model: [decisions M s]: an endless stream of M decisions between 0 and 1;
    [prefix s n]: its first n entries; [within eps u v]: same length and entries at most eps apart;
    [batch_results], [fir_results], [iir_results] (P_Estimators.v): what the first n calls of [__next__] return. *)
From Coq Require Import List Arith Lia Bool Reals Lra ZArith.
From Flocq Require Import Core.
From Coquelicot Require Import Complex.
From Verif Require Import Base LinAlg Estimators BatchProofs BatchRun FirProofs EstProps FirExtras AnalogSystem AnalogProofs Signals DigitalControl DigitalControlProofs ControlKinds
  Integrators IntegratorsProofs Simulator Stability LinearOde PreSim Zpk FilterCoeff FilterCoeffProofs FilterOde FilterBackends FilterRun FilterExample P_Estimators
  Riccati RiccatiAlg RiccatiProofs RiccatiFilter RiccatiDecay RiccatiExample P_Riccati EstimatorDecay.
Import ListNotations.
Open Scope R_scope.

Definition zinf (M : nat) (s : nat -> list R) (p : Z) : list R := if (p <? 0)%Z then vzero (K := Rring) M else BatchRun.ctl (K := Rring) (s (Z.to_nat p)).
Lemma prefix_len s n : length (prefix s n) = n.
Proof. unfold prefix. now rewrite map_length, seq_length. Qed.
Lemma prefix_rows M s n : decisions M s -> Forall (fun x => length x = M) (prefix s n).
Proof. intros H. apply Forall_forall. intros x Hx. apply in_map_iff in Hx as (i & <- & _). apply H. Qed.
Lemma zsig_prefix M s n p : (p < Z.of_nat n)%Z -> zsig (K := Rring) M (prefix s n) p = zinf M s p.
Proof.
  intros Hp. unfold zsig, zinf. destruct (Z.ltb_spec p 0) as [L|L]; [reflexivity|]. unfold prefix. rewrite map_map.
  etransitivity; [apply (nth_indep _ _ (BatchRun.ctl (K := Rring) (s O))); rewrite map_length, seq_length; lia|].
  rewrite (map_nth (fun x => BatchRun.ctl (K := Rring) (s x)) (seq 0 n) O). rewrite seq_nth by lia. reflexivity.
Qed.
Lemma ctl_nth (x : list R) m : (m < length x)%nat -> nth m (BatchRun.ctl (K := Rring) x) 0 = nth m x 0 + nth m x 0 - 1.
Proof. revert m. induction x as [|v x IH]; intros [|m] H; cbn in H; try lia; [reflexivity|]. apply IH. lia. Qed.
Lemma zinf_bounded (S : asys Rring) s : decisions (sM S) s -> bounded S (zinf (sM S) s).
Proof.
  intros H p. unfold zinf. destruct (p <? 0)%Z.
  - split; [apply repeat_length|]. intros m Hm. unfold vzero. change (r0 Rring) with 0. rewrite nth_repeat, Rabs_R0. lra.
  - destruct (H (Z.to_nat p)) as [L B]. unfold BatchRun.ctl. split; [rewrite map_length; exact L|]. intros m Hm. specialize (B m Hm).
    change (Rabs (nth m (BatchRun.ctl (K := Rring) (s (Z.to_nat p))) 0) <= 1). rewrite ctl_nth by (rewrite L; exact Hm). apply Rabs_le. lra.
Qed.
Lemma window_prefix (S : asys Rring) (c : @coef Rring) s T (n m k : nat) : cM c = sM S -> (k + m <= T)%nat ->
  window_est (K := Rring) c (zsig (K := Rring) (cM c) (prefix s T)) n m (Z.of_nat k) = window_est (K := Rring) c (zinf (sM S) s) n m (Z.of_nat k).
Proof.
  intros E L. unfold window_est. rewrite E. do 2 f_equal; apply vsum_ext; intros i Hi; do 2 f_equal; apply zsig_prefix; lia.
Qed.
Lemma vadd_within eps (u v o : list R) : length o = length u -> within eps u v -> within eps (vadd (K := Rring) u o) (vadd (K := Rring) v o).
Proof.
  intros Lo [L H]. assert (LA : forall w : list R, length w = length u -> length (vadd (K := Rring) w o) = length u).
  { intros w Lw. rewrite (vadd_length (K := Rring)). transitivity (Nat.min (length u) (length u)); [f_equal; assumption|apply Nat.min_id]. }
  split; [exact (eq_trans (LA u eq_refl) (eq_sym (LA v (eq_sym L))))|]. intros i Hi. assert (Hi' : (i < length u)%nat) by (rewrite <- (LA u eq_refl); exact Hi). clear Hi. rename Hi' into Hi. rewrite (nth_vadd u o) by exact (eq_sym Lo). rewrite (nth_vadd v o) by exact (eq_trans (eq_sym L) (eq_sym Lo)). specialize (H i Hi).
  replace (nth i u 0 + nth i o 0 - (nth i v 0 + nth i o 0)) with (nth i u 0 - nth i v 0) by ring. exact H.
Qed.
Lemma within_mono e e' u v : e <= e' -> within e u v -> within e' u v.
Proof. intros He [L H]. split; [exact L|]. intros i Hi. eapply Rle_trans; [apply H, Hi|exact He]. Qed.

Section Coef.
Variables (S : asys Rring) (Af Ab Bf Bb WT : rmat).
Let c := to_coef S Af Ab Bf Bb WT.
Hypothesis Hwf : coef_wf c.
Variables (s : nat -> list R) (k : nat).
Hypothesis Hs : decisions (sM S) s.

Lemma batch_window K1 K2 limit T n : (1 <= K1)%nat -> (k < n)%nat -> ((k / K1 + 1) * K1 + K2 <= T)%nat -> (Z.of_nat (k + 1 + k / K1) <= limit)%Z ->
  (K2 < K1 + K2 - k mod K1)%nat /\
  nth_error (batch_results c K1 K2 limit (mkSrc (prefix s T) (SrcObj StopIteration)) n) k = Some (Ok (window_est c (zinf (sM S) s) k (K1 + K2 - k mod K1) (Z.of_nat k))).
Proof.
  intros HK Hn HT Hl. assert (D := Nat.div_mod k K1 ltac:(lia)). assert (M := Nat.mod_upper_bound k K1 ltac:(lia)). split; [lia|].
  rewrite (C22_batch_closed_form Rring c) by (auto; try (rewrite prefix_len; exact HT); apply prefix_rows, Hs).
  rewrite wiener_window by (auto; rewrite prefix_len; nia). rewrite (window_prefix S) by (try reflexivity; nia). reflexivity.
Qed.
Lemma fir_window_k K1 K2 ds offset limit T n j : (1 <= ds <= K1 + K2)%nat -> ((j + 1) * ds = k + K2)%nat -> (j < n)%nat -> (k + K2 <= T)%nat -> (limit = 0 \/ Z.of_nat (k + K2) <= limit)%Z ->
  nth_error (fir_results c K1 K2 ds offset limit (mkSrc (prefix s T) (SrcObj StopIteration)) n) j = Some (Ok (vadd (K := Rring) (window_est c (zinf (sM S) s) (Nat.min K1 k) K2 (Z.of_nat k)) offset)).
Proof.
  intros Hds Hj Hn HT Hl. rewrite (C23_fir_closed_form Rring c) by (auto; try (rewrite prefix_len; lia); try (rewrite Hj; exact Hl); try (apply prefix_rows, Hs); now left).
  rewrite Hj. replace (Z.of_nat (k + K2) - Z.of_nat K2)%Z with (Z.of_nat k) by lia. rewrite <- (window_prefix S c s T (Nat.min K1 k) K2 k) by (auto; lia).
  do 3 f_equal. destruct (Nat.le_gt_cases K1 k) as [L|L]; [now rewrite Nat.min_l by exact L|]. rewrite Nat.min_r by lia. apply window_lookback; [exact Hwf|lia|lia].
Qed.
Lemma iir_window_k K2 ds limit T n j : (1 <= K2)%nat -> (1 <= ds)%nat -> (j * ds + 1 = k + K2)%nat -> (j < n)%nat -> (k + K2 <= T)%nat -> (limit = 0 \/ Z.of_nat (k + K2) <= limit)%Z ->
  nth_error (iir_results c K2 ds limit (mkSrc (prefix s T) (SrcObj StopIteration)) n) j = Some (Ok (window_est c (zinf (sM S) s) k K2 (Z.of_nat k))).
Proof.
  intros HK Hds Hj Hn HT Hl. rewrite (C24_iir_closed_form Rring c) by (auto; try (rewrite prefix_len; lia); try (rewrite Hj; exact Hl); try (apply prefix_rows, Hs); now left).
  replace (Z.of_nat (j * ds) + 1 - Z.of_nat K2)%Z with (Z.of_nat k) by lia. rewrite <- (window_prefix S c s T k K2 k) by (auto; lia).
  do 2 f_equal. apply window_lookback; [exact Hwf|lia|lia].
Qed.
End Coef.

Lemma numpy_shape care_raw inv solve ivp expm S d eta2 Af Ab Bf Bb WT :
  sound S d care_raw inv solve ivp expm -> fits S d -> eta2 <> 0 -> 0 < ck_T (d_clk d) ->
  coefficients care_raw inv solve ivp expm S d eta2 BNumpy false = Ok (Af, Ab, Bf, Bb, WT) ->
  coef_wf (to_coef S Af Ab Bf Bb WT) /\ shaped S Af Bf /\ shaped S Ab Bb /\ rows WT = sL S /\ cols WT = sN S.
Proof.
  intros SO Fi He HT H. destruct (numpy_good_with care_raw inv solve ivp expm S d SO eta2 Af Ab Bf Bb WT Fi He ltac:(lra) H) as (Rm & Vf & Vb & HR & _ & _ & HW & HF & HB).
  split; [exact (coef_shape S d Af Ab Bf Bb WT _ _ _ _ HW HF HB)|]. destruct HW as (W1 & W2 & _), HF as [S1 _], HB as [S2 _]. tauto.
Qed.

(** C106: for every stream of decisions and every instant there is one value which the batch, FIR and IIR estimators all
    approximate: the error is geometric in the look-ahead and the look-back, with constants of the coefficients alone. *)
Theorem C106_agree : forall care_raw inv solve ivp expm S d eta2 Af Ab Bf Bb WT,
  sound S d care_raw inv solve ivp expm ->
  (forall A B Q Rm X, rows A = cols A -> symmetric_mat Q -> symmetric_mat Rm -> care_raw A B Q Rm = Ok X -> stabilising A B Q Rm X) ->
  fits S d -> eta2 <> 0 -> 0 < ck_T (d_clk d) ->
  coefficients care_raw inv solve ivp expm S d eta2 BNumpy false = Ok (Af, Ab, Bf, Bb, WT) ->
  let c := to_coef S Af Ab Bf Bb WT in
  exists C rho, 0 <= C /\ 0 <= rho < 1 /\ forall s k, decisions (sM S) s -> exists y, length y = sL S /\
    (forall K1 K2 limit T n, (1 <= K1)%nat -> (k < n)%nat -> ((k / K1 + 1) * K1 + K2 <= T)%nat -> (Z.of_nat (k + 1 + k / K1) <= limit)%Z ->
       exists e, nth_error (batch_results c K1 K2 limit (mkSrc (prefix s T) (SrcObj StopIteration)) n) k = Some (Ok e) /\ within (C * rho ^ (K2 + 1)) e y) /\
    (forall K1 K2 ds offset limit T n j, (1 <= ds <= K1 + K2)%nat -> length offset = sL S -> ((j + 1) * ds = k + K2)%nat -> (j < n)%nat -> (k + K2 <= T)%nat ->
       (limit = 0 \/ Z.of_nat (k + K2) <= limit)%Z ->
       exists e, nth_error (fir_results c K1 K2 ds offset limit (mkSrc (prefix s T) (SrcObj StopIteration)) n) j = Some (Ok e) /\
         within (C * (rho ^ K1 + rho ^ K2)) e (map (fun l => nth l y 0 + nth l offset 0) (seq 0 (sL S)))) /\
    (forall K2 ds limit T n j, (1 <= K2)%nat -> (1 <= ds)%nat -> (j * ds + 1 = k + K2)%nat -> (j < n)%nat -> (k + K2 <= T)%nat -> (limit = 0 \/ Z.of_nat (k + K2) <= limit)%Z ->
       exists e, nth_error (iir_results c K2 ds limit (mkSrc (prefix s T) (SrcObj StopIteration)) n) j = Some (Ok e) /\ within (C * rho ^ K2) e y).
Proof.
  intros care_raw inv solve ivp expm S d eta2 Af Ab Bf Bb WT SO ST Fi He HT H c.
  destruct (C104_forgets care_raw inv solve ivp expm S d eta2 Af Ab Bf Bb WT SO ST Fi He HT H) as [FF FB].
  destruct (numpy_shape care_raw inv solve ivp expm S d eta2 Af Ab Bf Bb WT SO Fi He HT H) as (Wf & (A1 & A2 & A3 & A4) & (B1 & B2 & B3 & B4) & W1 & W2).
  destruct (window_conv S Af Ab Bf Bb WT) as (C & rho & C0 & Hr & WC); auto. exists C, rho. split; [exact C0|]. split; [exact Hr|].
  intros s k Hs. destruct (WC (zinf (sM S) s) (Z.of_nat k) k (zinf_bounded S s Hs)) as (y & Ly & Hy). exists y. split; [exact Ly|].
  assert (PM : forall a b, (a <= b)%nat -> rho ^ b <= rho ^ a).
  { intros a b L. replace b with (a + (b - a))%nat by lia. rewrite pow_add. assert (0 <= rho ^ a) by (apply pow_le; lra). assert (rho ^ (b - a) <= 1 ^ (b - a)) by (apply pow_incr; lra). rewrite pow1 in *. nra. }
  split; [|split].
  - intros K1 K2 limit T n HK Hn HTT Hl. destruct (batch_window S Af Ab Bf Bb WT Wf s k Hs K1 K2 limit T n HK Hn HTT Hl) as [Lm E]. eexists. split; [exact E|].
    eapply within_mono; [|apply Hy; lia]. rewrite Nat.ltb_irrefl, Rplus_0_r. apply Rmult_le_compat_l; [exact C0|]. apply PM. lia.
  - intros K1 K2 ds offset limit T n j Hds Lo Hj Hn HTT Hl. eexists. split; [exact (fir_window_k S Af Ab Bf Bb WT Wf s k Hs K1 K2 ds offset limit T n j Hds Hj Hn HTT Hl)|].
    destruct (Hy (Nat.min K1 k) K2 ltac:(lia)) as [L1 L2].
    assert (WA : within (C * (rho ^ K1 + rho ^ K2)) (window_est (to_coef S Af Ab Bf Bb WT) (zinf (sM S) s) (Nat.min K1 k) K2 (Z.of_nat k)) y).
    { eapply within_mono; [|split; [exact L1|exact L2]]. apply Rmult_le_compat_l; [exact C0|]. assert (0 <= rho ^ K1) by (apply pow_le; lra). destruct (Nat.ltb_spec (Nat.min K1 k) k); [rewrite Nat.min_l by lia|]; lra. }
    assert (LW := window_len S Af Ab Bf Bb WT (conj W1 W2) (zinf (sM S) s) (Nat.min K1 k) K2 (Z.of_nat k)).
    replace (map (fun l => nth l y 0 + nth l offset 0) (seq 0 (sL S))) with (vadd (K := Rring) y offset).
    + apply vadd_within; [|exact WA]. exact (eq_trans Lo (eq_sym LW)).
    + assert (LV : length (vadd (K := Rring) y offset) = sL S) by (rewrite (vadd_length (K := Rring)); transitivity (Nat.min (sL S) (sL S)); [f_equal; assumption|apply Nat.min_id]).
      apply (nth_ext _ _ 0 0); [rewrite map_length, seq_length; exact LV|]. intros l Hl'. rewrite nth_vadd by exact (eq_trans Ly (eq_sym Lo)). assert (Hl2 : (l < sL S)%nat) by (rewrite <- LV; exact Hl'). now rewrite nth_seq_R.
  - intros K2 ds limit T n j HK Hds Hj Hn HTT Hl. eexists. split; [exact (iir_window_k S Af Ab Bf Bb WT Wf s k Hs K2 ds limit T n j HK Hds Hj Hn HTT Hl)|].
    eapply within_mono; [|apply Hy; lia]. rewrite Nat.ltb_irrefl, Rplus_0_r. lra.
Qed.
Print Assumptions C106_agree.

(** C106: hence any accuracy is reached by making look-ahead and look-back long enough, for all streams and instants alike. *)
Theorem C106_any_accuracy : forall care_raw inv solve ivp expm S d eta2 Af Ab Bf Bb WT,
  sound S d care_raw inv solve ivp expm ->
  (forall A B Q Rm X, rows A = cols A -> symmetric_mat Q -> symmetric_mat Rm -> care_raw A B Q Rm = Ok X -> stabilising A B Q Rm X) ->
  fits S d -> eta2 <> 0 -> 0 < ck_T (d_clk d) ->
  coefficients care_raw inv solve ivp expm S d eta2 BNumpy false = Ok (Af, Ab, Bf, Bb, WT) ->
  let c := to_coef S Af Ab Bf Bb WT in
  forall eps, 0 < eps -> exists K0, forall s k, decisions (sM S) s ->
    forall K1 K2 K1' K2' K2'' T n, (K0 <= K1')%nat -> (K0 <= K2)%nat -> (K0 <= K2')%nat -> (K0 <= K2'')%nat -> (1 <= K1)%nat -> (1 <= K2')%nat -> (1 <= K2'')%nat ->
      ((k / K1 + 1) * K1 + K2 <= T)%nat -> (k + K2' <= T)%nat -> (k + K2'' <= T)%nat -> (k + K1 + K2 + K2' + K2'' <= n)%nat ->
      exists b f i,
        nth_error (batch_results c K1 K2 (Z.of_nat (k + 1 + k / K1)) (mkSrc (prefix s T) (SrcObj StopIteration)) n) k = Some (Ok b) /\
        nth_error (fir_results c K1' K2' 1 (vzero (K := Rring) (sL S)) 0 (mkSrc (prefix s T) (SrcObj StopIteration)) n) (k + K2' - 1) = Some (Ok f) /\
        nth_error (iir_results c K2'' 1 0 (mkSrc (prefix s T) (SrcObj StopIteration)) n) (k + K2'' - 1) = Some (Ok i) /\
        within eps b f /\ within eps b i /\ within eps f i.
Proof.
  intros care_raw inv solve ivp expm S d eta2 Af Ab Bf Bb WT SO ST Fi He HT H c eps Heps.
  destruct (C106_agree care_raw inv solve ivp expm S d eta2 Af Ab Bf Bb WT SO ST Fi He HT H) as (C & rho & C0 & Hr & HA).
  destruct (pow_lt_1_zero rho ltac:(rewrite Rabs_right; lra) (eps / (4 * (C + 1))) ltac:(apply Rdiv_lt_0_compat; lra)) as [K0 HK0].
  exists K0. intros s k Hs K1 K2 K1' K2' K2'' T n L1 L2 L3 L4 G1 G2 G3 T1 T2 T3 Hn. destruct (HA s k Hs) as (y & Ly & HB & HF & HI).
  destruct (HB K1 K2 (Z.of_nat (k + 1 + k / K1)) T n G1 ltac:(lia) T1 ltac:(lia)) as (b & Eb & Wb).
  destruct (HF K1' K2' 1%nat (vzero (K := Rring) (sL S)) 0%Z T n (k + K2' - 1)%nat ltac:(lia) (vzero_length (K := Rring) _) ltac:(lia) ltac:(lia) T2 (or_introl eq_refl)) as (f & Ef & Wf).
  destruct (HI K2'' 1%nat 0%Z T n (k + K2'' - 1)%nat G3 ltac:(lia) ltac:(lia) ltac:(lia) T3 (or_introl eq_refl)) as (i & Ei & Wi).
  exists b, f, i. split; [exact Eb|]. split; [exact Ef|]. split; [exact Ei|].
  assert (Sm : forall q, (K0 <= q)%nat -> C * rho ^ q <= eps / 4).
  { intros q Hq. specialize (HK0 q Hq). rewrite Rabs_right in HK0 by (apply Rle_ge, pow_le; lra). assert (0 <= rho ^ q) by (apply pow_le; lra).
    apply Rle_trans with ((C + 1) * (eps / (4 * (C + 1)))); [nra|]. right. field. lra. }
  assert (Wf' : within (eps / 2) f y).
  { destruct Wf as [A B]. rewrite map_length, seq_length in A. split; [congruence|]. intros l Hl. specialize (B l Hl). rewrite nth_seq_R in B by congruence.
    assert (Z0 : nth l (vzero (K := Rring) (sL S)) 0 = 0) by (unfold vzero; apply nth_repeat). rewrite Z0 in B.
    rewrite Rplus_0_r in B. rewrite Rmult_plus_distr_l in B. eapply Rle_trans; [exact B|]. assert (X := Sm K1' L1). assert (Y := Sm K2' L3). lra. }
  assert (Wb' : within (eps / 4) b y) by (eapply within_mono; [|exact Wb]; apply Sm; lia). assert (Wi' : within (eps / 4) i y) by (eapply within_mono; [|exact Wi]; apply Sm; lia).
  assert (Tr : forall e1 e2 (u v : list R), within e1 u y -> within e2 v y -> e1 + e2 <= eps -> within eps u v).
  { intros e1 e2 u v [A B] [A' B'] Hee. split; [congruence|]. intros l Hl. specialize (B l Hl). specialize (B' l ltac:(rewrite A', <- A; exact Hl)).
    replace (nth l u 0 - nth l v 0) with ((nth l u 0 - nth l y 0) + - (nth l v 0 - nth l y 0)) by ring. eapply Rle_trans; [apply Rabs_triang|]. rewrite Rabs_Ropp. lra. }
  split; [apply (Tr (eps / 4) (eps / 2)); auto; lra|]. split; [apply (Tr (eps / 4) (eps / 4)); auto; lra|apply (Tr (eps / 2) (eps / 4)); auto; lra].
Qed.
Print Assumptions C106_any_accuracy.

(** C106: decisions that are changed at least a periods before and b periods after an instant change its estimate by at most C (rho^a + rho^b). *)
Theorem C106_local : forall care_raw inv solve ivp expm S d eta2 Af Ab Bf Bb WT,
  sound S d care_raw inv solve ivp expm ->
  (forall A B Q Rm X, rows A = cols A -> symmetric_mat Q -> symmetric_mat Rm -> care_raw A B Q Rm = Ok X -> stabilising A B Q Rm X) ->
  fits S d -> eta2 <> 0 -> 0 < ck_T (d_clk d) ->
  coefficients care_raw inv solve ivp expm S d eta2 BNumpy false = Ok (Af, Ab, Bf, Bb, WT) ->
  let c := to_coef S Af Ab Bf Bb WT in
  exists C rho, 0 <= C /\ 0 <= rho < 1 /\ forall s s' k a b, decisions (sM S) s -> decisions (sM S) s' -> (forall i, (k <= i + a)%nat -> (i < k + b)%nat -> s i = s' i) ->
    (forall K1 K2 limit T n, (1 <= K1)%nat -> (k < n)%nat -> ((k / K1 + 1) * K1 + K2 <= T)%nat -> (Z.of_nat (k + 1 + k / K1) <= limit)%Z ->
       exists e e', nth_error (batch_results c K1 K2 limit (mkSrc (prefix s T) (SrcObj StopIteration)) n) k = Some (Ok e) /\
         nth_error (batch_results c K1 K2 limit (mkSrc (prefix s' T) (SrcObj StopIteration)) n) k = Some (Ok e') /\ within (C * (rho ^ a + rho ^ b)) e e') /\
    (forall K1 K2 ds offset limit T n j, (1 <= ds <= K1 + K2)%nat -> length offset = sL S -> ((j + 1) * ds = k + K2)%nat -> (j < n)%nat -> (k + K2 <= T)%nat ->
       (limit = 0 \/ Z.of_nat (k + K2) <= limit)%Z ->
       exists e e', nth_error (fir_results c K1 K2 ds offset limit (mkSrc (prefix s T) (SrcObj StopIteration)) n) j = Some (Ok e) /\
         nth_error (fir_results c K1 K2 ds offset limit (mkSrc (prefix s' T) (SrcObj StopIteration)) n) j = Some (Ok e') /\ within (C * (rho ^ a + rho ^ b)) e e') /\
    (forall K2 ds limit T n j, (1 <= K2)%nat -> (1 <= ds)%nat -> (j * ds + 1 = k + K2)%nat -> (j < n)%nat -> (k + K2 <= T)%nat -> (limit = 0 \/ Z.of_nat (k + K2) <= limit)%Z ->
       exists e e', nth_error (iir_results c K2 ds limit (mkSrc (prefix s T) (SrcObj StopIteration)) n) j = Some (Ok e) /\
         nth_error (iir_results c K2 ds limit (mkSrc (prefix s' T) (SrcObj StopIteration)) n) j = Some (Ok e') /\ within (C * (rho ^ a + rho ^ b)) e e').
Proof.
  intros care_raw inv solve ivp expm S d eta2 Af Ab Bf Bb WT SO ST Fi He HT H c.
  destruct (C104_forgets care_raw inv solve ivp expm S d eta2 Af Ab Bf Bb WT SO ST Fi He HT H) as [FF FB].
  destruct (numpy_shape care_raw inv solve ivp expm S d eta2 Af Ab Bf Bb WT SO Fi He HT H) as (Wf & (A1 & A2 & A3 & A4) & (B1 & B2 & B3 & B4) & W1 & W2).
  destruct (window_local S Af Ab Bf Bb WT) as (C & rho & C0 & Hr & WC); auto. exists C, rho. split; [exact C0|]. split; [exact Hr|].
  intros s s' k a b Hs Hs' E.
  assert (W : forall n m, within (C * (rho ^ a + rho ^ b)) (window_est (to_coef S Af Ab Bf Bb WT) (zinf (sM S) s) n m (Z.of_nat k)) (window_est (to_coef S Af Ab Bf Bb WT) (zinf (sM S) s') n m (Z.of_nat k))).
  { intros n m. apply WC; [now apply zinf_bounded|now apply zinf_bounded|]. intros p Hp. unfold zinf. destruct (Z.ltb_spec p 0); [reflexivity|]. rewrite (E (Z.to_nat p)) by lia. reflexivity. }
  split; [|split].
  - intros K1 K2 limit T n HK Hn HTT Hl. eexists _, _. split; [apply (batch_window S Af Ab Bf Bb WT Wf s k Hs); assumption|]. split; [apply (batch_window S Af Ab Bf Bb WT Wf s' k Hs'); assumption|apply W].
  - intros K1 K2 ds offset limit T n j Hds Lo Hj Hn HTT Hl. eexists _, _. split; [apply (fir_window_k S Af Ab Bf Bb WT Wf s k Hs); assumption|].
    split; [apply (fir_window_k S Af Ab Bf Bb WT Wf s' k Hs'); assumption|]. apply vadd_within; [|apply W]. exact (eq_trans Lo (eq_sym (window_len S Af Ab Bf Bb WT (conj W1 W2) _ _ _ _))).
  - intros K2 ds limit T n j HK Hds Hj Hn HTT Hl. eexists _, _. split; [apply (iir_window_k S Af Ab Bf Bb WT Wf s k Hs); assumption|]. split; [apply (iir_window_k S Af Ab Bf Bb WT Wf s' k Hs'); assumption|apply W].
Qed.
Print Assumptions C106_local.

(** C106: and the coefficients that FIR and IIR estimator store decay geometrically away from the instant they estimate. *)
Theorem C106_taps : forall care_raw inv solve ivp expm S d eta2 Af Ab Bf Bb WT,
  sound S d care_raw inv solve ivp expm ->
  (forall A B Q Rm X, rows A = cols A -> symmetric_mat Q -> symmetric_mat Rm -> care_raw A B Q Rm = Ok X -> stabilising A B Q Rm X) ->
  fits S d -> eta2 <> 0 -> 0 < ck_T (d_clk d) ->
  coefficients care_raw inv solve ivp expm S d eta2 BNumpy false = Ok (Af, Ab, Bf, Bb, WT) ->
  let c := to_coef S Af Ab Bf Bb WT in
  exists C rho, 0 <= C /\ 0 <= rho < 1 /\ forall K1 K2 l m, (l < sL S)%nat -> (m < sM S)%nat ->
    (forall q, (q < K1)%nat -> Rabs (nth m (nth l (nth (K1 - 1 - q) (fir_h c K1 K2) []) []) 0) <= C * rho ^ q) /\
    (forall q, (q < K2)%nat -> Rabs (nth m (nth l (nth (K1 + q) (fir_h c K1 K2) []) []) 0) <= C * rho ^ q) /\
    (forall q, (q < K2)%nat -> Rabs (nth m (nth l (nth q (iir_h c K2) []) []) 0) <= C * rho ^ q).
Proof.
  intros care_raw inv solve ivp expm S d eta2 Af Ab Bf Bb WT SO ST Fi He HT H c.
  destruct (C104_forgets care_raw inv solve ivp expm S d eta2 Af Ab Bf Bb WT SO ST Fi He HT H) as [FF FB].
  destruct (numpy_shape care_raw inv solve ivp expm S d eta2 Af Ab Bf Bb WT SO Fi He HT H) as (Wf & (A1 & A2 & A3 & A4) & (B1 & B2 & B3 & B4) & W1 & W2).
  exact (taps S Af Ab Bf Bb WT (conj A1 A2) (conj B1 B2) (conj A3 A4) (conj B3 B4) (conj W1 W2) FF FB).
Qed.
Print Assumptions C106_taps.

(** The integrator with a step control meets the hypotheses; an alternating stream is a stream of decisions. *)
Definition alternating (i : nat) : list R := [if Nat.even i then 1 else 0].
Example C106_ex : sound integ (one_wave (WStep 0 1)) care1 inv1 solve1 ivp_step expm1 /\
  (forall A B Q Rm X, rows A = cols A -> symmetric_mat Q -> symmetric_mat Rm -> care1 A B Q Rm = Ok X -> stabilising A B Q Rm X) /\ fits integ (one_wave (WStep 0 1)) /\
  0 < ck_T (d_clk (one_wave (WStep 0 1))) /\ decisions (sM integ) alternating /\ prefix alternating 3 = [[1]; [0]; [1]] /\
  exists Af Ab Bf Bb WT, coefficients care1 inv1 solve1 ivp_step expm1 integ (one_wave (WStep 0 1)) 1 BNumpy false = Ok (Af, Ab, Bf, Bb, WT) /\ ent Af 0 0 = exp (-1).
Proof.
  destruct C104_forgets_ex as (H1 & H2 & H3 & H4). split; [exact H1|]. split; [exact H2|]. split; [exact H3|]. split; [cbn; lra|]. split; [|split; [reflexivity|exact H4]].
  intros i. split; [reflexivity|]. intros m Hm. cbn in Hm. replace m with O by lia. unfold alternating. cbn. destruct (Nat.even i); lra.
Qed.
(** Two streams that differ in decision 5 only agree on the 4 decisions before and 1 from instant 4 on. *)
Example C106_local_ex : let s' i := if Nat.eqb i 5 then [1] else alternating i in
  decisions (sM integ) s' /\ s' 5%nat <> alternating 5 /\ forall i, (4 <= i + 4)%nat -> (i < 4 + 1)%nat -> alternating i = s' i.
Proof.
  cbv zeta. split; [|split].
  - intros i. destruct (Nat.eqb i 5); (split; [reflexivity|]; intros m Hm; cbn in Hm; replace m with O by lia; unfold alternating; cbn; try destruct (Nat.even i); lra).
  - cbn. unfold alternating. cbn. intros E. injection E as E. lra.
  - intros i _ Hi. destruct (Nat.eqb_spec i 5); [lia|reflexivity].
Qed.
