(** Property theorems C109: what the estimates depend on.
    Vocabulary (ConversionError.v): [front_end S d lo hi s u x]: with input u and decisions s the analog system goes through the states x
    during the periods lo, ..., hi - 1; [observed S (x i)]: C^T x during period i; [solves_on S d F lo hi b z]: z' = F z + b during these periods;
    [input_drive]: B u; [observation_drive ... V y]: V C y / eta2; [fwdA], [bwdA] (FilterCoeffProofs.v): A - Vf C C^T / eta2, A + Vb C C^T / eta2. *)
From Coq Require Import List Arith Lia Bool Reals Lra ZArith.
From Flocq Require Import Core.
From Coquelicot Require Import Complex.
From Verif Require Import Base LinAlg Estimators BatchProofs BatchRun FirProofs EstProps FirExtras AnalogSystem AnalogProofs Signals DigitalControl DigitalControlProofs ControlKinds
  Integrators IntegratorsProofs Simulator Stability LinearOde PreSim Zpk FilterCoeff FilterCoeffProofs FilterOde FilterBackends FilterRun FilterExample P_Estimators
  Riccati RiccatiAlg RiccatiProofs RiccatiFilter RiccatiDecay RiccatiExample P_Riccati EstimatorDecay P_EstimatorDecay ConversionError.
Import ListNotations.
Open Scope R_scope.

(** e is what a batch, an FIR or an IIR estimator returns for instant k when it is fed with the stream s; lo, ..., hi - 1 are the periods
    whose decisions it has used. *)
Definition estimate_of (c : @coef Rring) (s : nat -> list R) (lo k hi : nat) (e : list R) : Prop :=
  (exists K1 K2 limit T n, (1 <= K1)%nat /\ (k < n)%nat /\ (hi <= T)%nat /\ (Z.of_nat (k + 1 + k / K1) <= limit)%Z /\ lo = 0%nat /\ hi = ((k / K1 + 1) * K1 + K2)%nat /\
     nth_error (batch_results c K1 K2 limit (mkSrc (prefix s T) (SrcObj StopIteration)) n) k = Some (Ok e)) \/
  (exists K1 K2 ds limit T n j, (1 <= ds <= K1 + K2)%nat /\ ((j + 1) * ds = k + K2)%nat /\ (j < n)%nat /\ (hi <= T)%nat /\ (limit = 0 \/ Z.of_nat hi <= limit)%Z /\
     lo = (k - K1)%nat /\ hi = (k + K2)%nat /\
     nth_error (fir_results c K1 K2 ds (vzero (K := Rring) (cL c)) limit (mkSrc (prefix s T) (SrcObj StopIteration)) n) j = Some (Ok e)) \/
  (exists K2 ds limit T n j, (1 <= K2)%nat /\ (1 <= ds)%nat /\ (j * ds + 1 = k + K2)%nat /\ (j < n)%nat /\ (hi <= T)%nat /\ (limit = 0 \/ Z.of_nat hi <= limit)%Z /\
     lo = 0%nat /\ hi = (k + K2)%nat /\
     nth_error (iir_results c K2 ds limit (mkSrc (prefix s T) (SrcObj StopIteration)) n) j = Some (Ok e)).

Lemma window_wiener (c : @coef Rring) M s lo k hi : (lo <= k <= hi)%nat ->
  window_est (K := Rring) c (zinf M s) (k - lo) (hi - k) (Z.of_nat k) = wiener (K := Rring) c (fun i => BatchRun.ctl (K := Rring) (s (lo + i)%nat)) (k - lo) (hi - k).
Proof.
  intros L. unfold window_est, wiener, lookahead_sum, lookback_sum. do 2 f_equal; apply vsum_ext; intros i Hi; do 2 f_equal; unfold zinf.
  - destruct (Z.ltb_spec (Z.of_nat k + Z.of_nat i) 0); [lia|]. do 2 f_equal. lia.
  - destruct (Z.ltb_spec (Z.of_nat k - 1 - Z.of_nat i) 0); [lia|]. do 2 f_equal. lia.
Qed.
Lemma estimate_wiener (S : asys Rring) Af Ab Bf Bb WT s lo k hi e : coef_wf (to_coef S Af Ab Bf Bb WT) -> rows WT = sL S -> cols WT = sN S -> decisions (sM S) s -> estimate_of (to_coef S Af Ab Bf Bb WT) s lo k hi e ->
  (lo <= k <= hi)%nat /\ e = wiener (K := Rring) (to_coef S Af Ab Bf Bb WT) (fun i => BatchRun.ctl (K := Rring) (s (lo + i)%nat)) (k - lo) (hi - k).
Proof.
  intros Wf W1 W2 Hs [H|[H|H]].
  - destruct H as (K1 & K2 & limit & T & n & HK & Hn & HT & Hl & -> & -> & H). destruct (batch_window S Af Ab Bf Bb WT Wf s k Hs K1 K2 limit T n HK Hn HT Hl) as [Lm E].
    assert (D := Nat.div_mod k K1 ltac:(lia)). assert (M := Nat.mod_upper_bound k K1 ltac:(lia)). assert (L : (0 <= k <= (k / K1 + 1) * K1 + K2)%nat) by nia. split; [exact L|].
    assert (E2 := eq_trans (eq_sym H) E). injection E2 as ->. rewrite <- (window_wiener _ (sM S)) by exact L. rewrite Nat.sub_0_r. f_equal. nia.
  - destruct H as (K1 & K2 & ds & limit & T & n & j & Hds & Hj & Hn & HT & Hl & -> & -> & H). assert (L : (k - K1 <= k <= k + K2)%nat) by lia. split; [exact L|].
    assert (E := fir_window_k S Af Ab Bf Bb WT Wf s k Hs K1 K2 ds (vzero (K := Rring) (cL (to_coef S Af Ab Bf Bb WT))) limit T n j Hds Hj Hn HT Hl). assert (E2 := eq_trans (eq_sym H) E). injection E2 as ->.
    rewrite <- (window_wiener _ (sM S)) by exact L.
    assert (LW : forall a b, length (window_est (K := Rring) (to_coef S Af Ab Bf Bb WT) (zinf (sM S) s) a b (Z.of_nat k)) = cL (to_coef S Af Ab Bf Bb WT)) by (intros; apply (window_len S Af Ab Bf Bb WT (conj W1 W2))).
    rewrite (vadd_0_r (K := Rring)) by apply LW. f_equal; lia.
  - destruct H as (K2 & ds & limit & T & n & j & HK & Hds & Hj & Hn & HT & Hl & -> & -> & H). assert (L : (0 <= k <= k + K2)%nat) by lia. split; [exact L|].
    assert (E := iir_window_k S Af Ab Bf Bb WT Wf s k Hs K2 ds limit T n j HK Hds Hj Hn HT Hl). assert (E2 := eq_trans (eq_sym H) E). injection E2 as ->.
    rewrite <- (window_wiener _ (sM S)) by exact L. f_equal; lia.
Qed.
Lemma stream_rows M s lo : decisions M s -> forall i, length (BatchRun.ctl (K := Rring) (s (lo + i)%nat)) = M.
Proof. intros H i. unfold BatchRun.ctl. rewrite map_length. apply H. Qed.
Lemma stream_vals M s lo : decisions M s -> forall i m, (m < M)%nat -> nth m (BatchRun.ctl (K := Rring) (s (lo + i)%nat)) 0 = 2 * nth m (s (lo + i)%nat) 0 - 1.
Proof. intros H i m Hm. assert (E := ctl_nth (s (lo + i)%nat) m ltac:(destruct (H (lo + i)%nat) as [-> _]; exact Hm)). lra. Qed.

Lemma zero_ctl (S : asys Rring) d F z : sol (sN S) F (ck_T (d_clk d)) (fun _ _ => 0) z -> sol (sN S) F (ck_T (d_clk d)) (FilterCoeffProofs.ctl S d (fun _ => 0)) z.
Proof. intros H. eapply sol_ext; [|exact H]. intros n t Hn Ht. cbv beta. symmetry. now apply ctl0. Qed.
(** uniqueness of trajectories, forwards and backwards *)
Lemma fwd_unique (S : asys Rring) d F Af Bf lo k b z z' : samples_fwd S d F Af Bf -> (lo <= k)%nat -> solves_on S d F lo k b z -> solves_on S d F lo k b z' ->
  (forall n, (n < sN S)%nat -> z lo n 0 = z' lo n 0) -> forall n, (n < sN S)%nat -> z k n 0 = z' k n 0.
Proof.
  intros (_ & _ & U) L H1 H2 H0. assert (H := solves_minus S d F lo k b b (fun _ _ _ => 0) z z' ltac:(intros; cbv beta; ring) H1 H2).
  assert (G : forall i, (lo + i <= k)%nat -> forall n, (n < sN S)%nat -> z (lo + i)%nat n 0 - z' (lo + i)%nat n 0 = 0).
  { induction i as [|i IH]; intros Hi n Hn; [rewrite Nat.add_0_r, H0 by exact Hn; ring|]. destruct (H (lo + i)%nat ltac:(lia)) as [Sz Ez]. replace (lo + Datatypes.S i)%nat with (lo + i + 1)%nat by lia. rewrite (Ez n Hn).
    assert (Sz' := zero_ctl _ _ _ _ Sz). rewrite (U (fun _ => 0) _ Sz' n Hn). rewrite !rsum_zero; [ring| |]; intros; [ring|]. rewrite IH by (auto; lia). ring. }
  intros n Hn. specialize (G (k - lo)%nat ltac:(lia) n Hn). replace (lo + (k - lo))%nat with k in G by lia. lra.
Qed.
Lemma bwd_unique (S : asys Rring) d F Ab Bb k hi b z z' : samples_bwd S d F Ab Bb -> (k <= hi)%nat -> solves_on S d F k hi b z -> solves_on S d F k hi b z' ->
  (forall n, (n < sN S)%nat -> z hi n 0 = z' hi n 0) -> forall n, (n < sN S)%nat -> z k n 0 = z' k n 0.
Proof.
  intros (_ & _ & U) L H1 H2 H0. assert (H := solves_minus S d F k hi b b (fun _ _ _ => 0) z z' ltac:(intros; cbv beta; ring) H1 H2).
  assert (G : forall i, (i <= hi - k)%nat -> forall n, (n < sN S)%nat -> z (hi - i)%nat n 0 - z' (hi - i)%nat n 0 = 0).
  { induction i as [|i IH]; intros Hi n Hn; [rewrite Nat.sub_0_r, H0 by exact Hn; ring|]. destruct (H (hi - Datatypes.S i)%nat ltac:(lia)) as [Sz Ez].
    assert (E := U (fun _ => 0) _ (zero_ctl _ _ _ _ Sz) n Hn). cbv beta in E. rewrite E. rewrite !rsum_zero; [ring| |]; intros; [ring|].
    rewrite <- Ez by assumption. replace (hi - Datatypes.S i + 1)%nat with (hi - i)%nat by lia. rewrite IH by (auto; lia). ring. }
  intros n Hn. specialize (G (hi - k)%nat ltac:(lia) n Hn). replace (hi - (hi - k))%nat with k in G by lia. lra.
Qed.

(** C109: the estimates are functions of the input, the observations and the states at both ends: they are W^T (ef - eb), where ef and eb
    are driven by B u and by the observations C^T x alone.  The decisions and the control have no other influence. *)
Theorem C109_estimate_is_error_difference : forall care_raw inv solve ivp expm S d eta2 Rm Vf Vb Af Ab Bf Bb WT,
  sound S d care_raw inv solve ivp expm -> fits S d -> eta2 <> 0 -> 0 < ck_T (d_clk d) ->
  riccati care_raw S eta2 = Ok (Rm, Vf, Vb) -> coefficients care_raw inv solve ivp expm S d eta2 BNumpy false = Ok (Af, Ab, Bf, Bb, WT) ->
  forall s lo k hi e u x, decisions (sM S) s -> estimate_of (to_coef S Af Ab Bf Bb WT) s lo k hi e -> front_end S d lo hi s u x ->
  let forwards ef := solves_on S d (fwdA S eta2 (ent Vf)) lo k (fun i n t => input_drive S (u i) n t + observation_drive S eta2 (ent Vf) (observed S (x i)) n t) ef /\ (forall n, (n < sN S)%nat -> ef lo n 0 = x lo n 0) in
  let backwards eb := solves_on S d (bwdA S eta2 (ent Vb)) k hi (fun i n t => input_drive S (u i) n t - observation_drive S eta2 (ent Vb) (observed S (x i)) n t) eb /\ (forall n, (n < sN S)%nat -> eb hi n 0 = x hi n 0) in
  (lo <= k <= hi)%nat /\ (exists ef, forwards ef) /\ (exists eb, backwards eb) /\
  forall ef eb, forwards ef -> backwards eb -> e = map (fun l => rsum (sN S) (fun n => ent WT l n * (ef k n 0 - eb k n 0))) (seq 0 (sL S)).
Proof.
  intros care_raw inv solve ivp expm S d eta2 Rm Vf Vb Af Ab Bf Bb WT SO Fi He HT HR H s lo k hi e u x Hs HE HX forwards backwards.
  destruct (numpy_good_with care_raw inv solve ivp expm S d SO eta2 Af Ab Bf Bb WT Fi He ltac:(lra) H) as (Rm' & Vf' & Vb' & HR' & _ & _ & HW & HF & HB).
  assert (EV := eq_trans (eq_sym HR) HR'). injection EV as <- <- <-.
  assert (Wf := coef_shape S d Af Ab Bf Bb WT _ _ _ _ HW HF HB). destruct (estimate_wiener S Af Ab Bf Bb WT s lo k hi e Wf (proj1 HW) (proj1 (proj2 HW)) Hs HE) as [L ->]. split; [exact L|].
  destruct (estimate_errors S d eta2 (ent Vf) (ent Vb) Af Ab Bf Bb WT HW HF HB _ lo k hi s u x L (stream_rows _ s lo Hs) ltac:(intros; now apply (stream_vals (sM S))) HX) as (ef & eb & F1 & F0 & B1 & B0 & E).
  split; [exists ef; split; assumption|]. split; [exists eb; split; assumption|]. intros ef' eb' [F1' F0'] [B1' B0']. etransitivity; [exact E|]. apply map_ext_in. intros l _. apply rsum_ext. intros n Hn. do 2 f_equal.
  - apply (fwd_unique S d _ Af Bf lo k _ ef ef' HF ltac:(lia) F1 F1'); [|exact Hn]. intros n' Hn'. now rewrite F0, F0'.
  - apply (bwd_unique S d _ Ab Bb k hi _ eb eb' HB ltac:(lia) B1 B1'); [|exact Hn]. intros n' Hn'. now rewrite B0, B0'.
Qed.
Print Assumptions C109_estimate_is_error_difference.

Lemma weigh_within (S : asys Rring) (WT : rmat) (C b1 b2 : R) (f g : nat -> R) : 0 <= C -> 0 <= b1 -> 0 <= b2 ->
  (forall n, (n < sN S)%nat -> Rabs (f n) <= b1) -> (forall n, (n < sN S)%nat -> Rabs (g n) <= b2) -> forall l, (l < sL S)%nat ->
  Rabs (rsum (sN S) (fun n => ent WT l n * (f n - g n))) <= sizeW S WT * (b1 + b2).
Proof.
  intros HC H1 H2 Hf Hg l Hl. eapply Rle_trans; [apply RiccatiDecay.rsum_abs|]. apply Rle_trans with ((b1 + b2) * rsum (sN S) (fun n => Rabs (ent WT l n))).
  - rewrite <- rsum_scale. apply rsum_le. intros n Hn. rewrite Rabs_mult, Rmult_comm. apply Rmult_le_compat_r; [apply Rabs_pos|]. unfold Rminus. eapply Rle_trans; [apply Rabs_triang|]. rewrite Rabs_Ropp. specialize (Hf n Hn). specialize (Hg n Hn). lra.
  - rewrite Rmult_comm. apply Rmult_le_compat_r; [lra|]. now apply rowW_le.
Qed.

(** the constants *)
Lemma constants care_raw inv solve ivp expm S d eta2 Rm Vf Vb Af Ab Bf Bb WT :
  sound S d care_raw inv solve ivp expm ->
  (forall A B Q Rm X, rows A = cols A -> symmetric_mat Q -> symmetric_mat Rm -> care_raw A B Q Rm = Ok X -> stabilising A B Q Rm X) ->
  fits S d -> eta2 <> 0 -> 0 < ck_T (d_clk d) ->
  riccati care_raw S eta2 = Ok (Rm, Vf, Vb) -> coefficients care_raw inv solve ivp expm S d eta2 BNumpy false = Ok (Af, Ab, Bf, Bb, WT) ->
  exists C rho, 0 <= C /\ 0 <= rho < 1 /\ forall lo k hi (x hf hb : nat -> nat -> R -> R) b X X', (lo <= k <= hi)%nat -> 0 <= b -> 0 <= X -> 0 <= X' ->
    solves_on S d (fwdA S eta2 (ent Vf)) lo k (fun i => observation_drive S eta2 (ent Vf) (observed S (x i))) hf ->
    solves_on S d (bwdA S eta2 (ent Vb)) k hi (fun i n t => - observation_drive S eta2 (ent Vb) (observed S (x i)) n t) hb ->
    observed_within S d lo hi x b -> starts S (hf lo) X -> starts S (hb hi) X' ->
    forall l, (l < sL S)%nat -> Rabs (rsum (sN S) (fun n => ent WT l n * (hf k n 0 - hb k n 0))) <= C * (b + rho ^ (k - lo) * X + rho ^ (hi - k) * X').
Proof.
  intros SO ST Fi He HT HR H. destruct (filters_stable care_raw S eta2 Rm Vf Vb (fi_valid _ _ Fi) He HR ST) as [[_ D1] [_ D2]].
  destruct (stable_tames _ _ _ HT D1) as (K1 & r1 & K10 & R1 & T1). destruct (stable_tames _ _ _ HT D2) as (K2 & r2 & K20 & R2 & T2).
  set (K := Rmax K1 K2). set (rho := Rmax r1 r2). assert (K1 <= K /\ K2 <= K) as [Q1 Q2] by (split; [apply Rmax_l|apply Rmax_r]). assert (r1 <= rho /\ r2 <= rho) as [Q3 Q4] by (split; [apply Rmax_l|apply Rmax_r]).
  assert (Hr : 0 <= rho < 1) by (split; [lra|unfold rho; apply Rmax_lub_lt; tauto]).
  apply (tames_mono _ _ _ K1 K r1 rho) in T1; [|lra|lra]. apply (tames_mono _ _ _ K2 K r2 rho) in T2; [|lra|lra].
  set (G := 1 + gain S eta2 (ent Vf) + gain S eta2 (ent Vb)). assert (G1 := gain_pos S eta2 (ent Vf)). assert (G2 := gain_pos S eta2 (ent Vb)). assert (SW := sizeW_pos S WT).
  exists (sizeW S WT * (K * G)), rho. split; [repeat apply Rmult_le_pos; unfold G; lra|]. split; [exact Hr|].
  intros lo k hi x hf hb b X X' L Hb HX HX' HF HB HO H0 H1 l Hl.
  assert (P1 : 0 <= rho ^ (k - lo) * X) by (apply Rmult_le_pos; [apply pow_le; lra|lra]). assert (P2 : 0 <= rho ^ (hi - k) * X') by (apply Rmult_le_pos; [apply pow_le; lra|lra]).
  assert (B1 := core_fwd S d eta2 (ent Vf) _ K rho lo k x hf b X ltac:(lra) T1 ltac:(lia) Hb HX HF ltac:(intros i r t Hi; apply HO; lia) H0).
  assert (B2 := core_bwd S d eta2 (ent Vb) _ K rho k hi x hb b X' ltac:(lra) T2 ltac:(lia) Hb HX' HB ltac:(intros i r t Hi; apply HO; lia) H1).
  assert (Z1 : 0 <= gain S eta2 (ent Vf) * b) by (apply Rmult_le_pos; lra). assert (Z2 : 0 <= gain S eta2 (ent Vb) * b) by (apply Rmult_le_pos; lra).
  eapply Rle_trans; [apply (weigh_within S WT 0 (K * (gain S eta2 (ent Vf) * b + rho ^ (k - lo) * X)) (K * (gain S eta2 (ent Vb) * b + rho ^ (hi - k) * X')) (fun n => hf k n 0) (fun n => hb k n 0)); [lra| | |exact B1|exact B2|exact Hl]; apply Rmult_le_pos; lra|].
  rewrite Rmult_assoc. apply Rmult_le_compat_l; [exact SW|]. rewrite <- Rmult_plus_distr_l, Rmult_assoc. apply Rmult_le_compat_l; [lra|]. unfold G. set (p := rho ^ (k - lo) * X) in *. set (q := rho ^ (hi - k) * X') in *.
  assert (0 <= (gain S eta2 (ent Vf) + gain S eta2 (ent Vb)) * (p + q)) by (apply Rmult_le_pos; lra). lra.
Qed.
Lemma map_within eps n (f g : nat -> R) : (forall l, (l < n)%nat -> Rabs (f l - g l) <= eps) -> within eps (map f (seq 0 n)) (map g (seq 0 n)).
Proof. intros H. split; [now rewrite !map_length|]. rewrite map_length, seq_length. intros i Hi. rewrite !nth_seq_R by exact Hi. now apply H. Qed.
Lemma wsum_minus n (w a b a' b' : nat -> R) : rsum n (fun i => w i * (a i - b i)) - rsum n (fun i => w i * (a' i - b' i)) = rsum n (fun i => w i * ((a i - a' i) - (b i - b' i))).
Proof.
  assert (E : rsum n (fun i => w i * (a i - a' i - (b i - b' i))) = 1 * rsum n (fun i => w i * (a i - b i)) + (-1) * rsum n (fun i => w i * (a' i - b' i))); [|rewrite E; ring].
  rewrite <- rsum_lin. apply rsum_ext. intros; ring.
Qed.

(** C109, conversion error: the estimate is the input, filtered forwards and backwards, up to an error of the order of the bound b on the
    observations, plus what is left of the states at the first and the last used period, which decays geometrically. *)
Theorem C109_conversion_error : forall care_raw inv solve ivp expm S d eta2 Rm Vf Vb Af Ab Bf Bb WT,
  sound S d care_raw inv solve ivp expm ->
  (forall A B Q Rm X, rows A = cols A -> symmetric_mat Q -> symmetric_mat Rm -> care_raw A B Q Rm = Ok X -> stabilising A B Q Rm X) ->
  fits S d -> eta2 <> 0 -> 0 < ck_T (d_clk d) ->
  riccati care_raw S eta2 = Ok (Rm, Vf, Vb) -> coefficients care_raw inv solve ivp expm S d eta2 BNumpy false = Ok (Af, Ab, Bf, Bb, WT) ->
  exists C rho, 0 <= C /\ 0 <= rho < 1 /\ forall s lo k hi e u x b X X', decisions (sM S) s -> estimate_of (to_coef S Af Ab Bf Bb WT) s lo k hi e -> front_end S d lo hi s u x ->
    0 <= b -> 0 <= X -> 0 <= X' -> observed_within S d lo hi x b -> starts S (x lo) X -> starts S (x hi) X' ->
    forall gf gb, solves_on S d (fwdA S eta2 (ent Vf)) lo k (fun i => input_drive S (u i)) gf -> (forall n, (n < sN S)%nat -> gf lo n 0 = 0) ->
      solves_on S d (bwdA S eta2 (ent Vb)) k hi (fun i => input_drive S (u i)) gb -> (forall n, (n < sN S)%nat -> gb hi n 0 = 0) ->
    within (C * (b + rho ^ (k - lo) * X + rho ^ (hi - k) * X')) e (map (fun l => rsum (sN S) (fun n => ent WT l n * (gf k n 0 - gb k n 0))) (seq 0 (sL S))).
Proof.
  intros care_raw inv solve ivp expm S d eta2 Rm Vf Vb Af Ab Bf Bb WT SO ST Fi He HT HR H.
  destruct (constants care_raw inv solve ivp expm S d eta2 Rm Vf Vb Af Ab Bf Bb WT SO ST Fi He HT HR H) as (C & rho & C0 & Hr & HC). exists C, rho. split; [exact C0|]. split; [exact Hr|].
  intros s lo k hi e u x b X X' Hs HE HX Hb HX0 HX0' HO H0 H1 gf gb GF GF0 GB GB0.
  destruct (C109_estimate_is_error_difference care_raw inv solve ivp expm S d eta2 Rm Vf Vb Af Ab Bf Bb WT SO Fi He HT HR H s lo k hi e u x Hs HE HX) as (L & (ef & EF & EF0) & (eb & EB & EB0) & EE).
  rewrite (EE ef eb (conj EF EF0) (conj EB EB0)). apply map_within. intros l Hl. rewrite wsum_minus.
  apply (HC lo k hi x (fun i n t => ef i n t - gf i n t) (fun i n t => eb i n t - gb i n t) b X X' L Hb HX0 HX0'); [| |exact HO| | |exact Hl].
  - eapply solves_minus; [|exact EF|exact GF]. intros i n t _ _. cbv beta. ring.
  - eapply solves_minus; [|exact EB|exact GB]. intros i n t _ _. cbv beta. ring.
  - intros n Hn. cbv beta. rewrite EF0, GF0, Rminus_0_r by exact Hn. now apply H0.
  - intros n Hn. cbv beta. rewrite EB0, GB0, Rminus_0_r by exact Hn. now apply H1.
Qed.
Print Assumptions C109_conversion_error.

(** C109: two runs with the same input, whatever their decisions, are estimated alike up to the size of the difference of their observations. *)
Theorem C109_same_input : forall care_raw inv solve ivp expm S d eta2 Rm Vf Vb Af Ab Bf Bb WT,
  sound S d care_raw inv solve ivp expm ->
  (forall A B Q Rm X, rows A = cols A -> symmetric_mat Q -> symmetric_mat Rm -> care_raw A B Q Rm = Ok X -> stabilising A B Q Rm X) ->
  fits S d -> eta2 <> 0 -> 0 < ck_T (d_clk d) ->
  riccati care_raw S eta2 = Ok (Rm, Vf, Vb) -> coefficients care_raw inv solve ivp expm S d eta2 BNumpy false = Ok (Af, Ab, Bf, Bb, WT) ->
  exists C rho, 0 <= C /\ 0 <= rho < 1 /\ forall s s' lo k hi e e' u x x' b X X', decisions (sM S) s -> decisions (sM S) s' ->
    estimate_of (to_coef S Af Ab Bf Bb WT) s lo k hi e -> estimate_of (to_coef S Af Ab Bf Bb WT) s' lo k hi e' -> front_end S d lo hi s u x -> front_end S d lo hi s' u x' ->
    let D i n t := x i n t - x' i n t in
    0 <= b -> 0 <= X -> 0 <= X' -> observed_within S d lo hi D b -> starts S (D lo) X -> starts S (D hi) X' ->
    within (C * (b + rho ^ (k - lo) * X + rho ^ (hi - k) * X')) e e'.
Proof.
  intros care_raw inv solve ivp expm S d eta2 Rm Vf Vb Af Ab Bf Bb WT SO ST Fi He HT HR H.
  destruct (constants care_raw inv solve ivp expm S d eta2 Rm Vf Vb Af Ab Bf Bb WT SO ST Fi He HT HR H) as (C & rho & C0 & Hr & HC). exists C, rho. split; [exact C0|]. split; [exact Hr|].
  intros s s' lo k hi e e' u x x' b X X' Hs Hs' HE HE' HX HXX' D Hb HX0 HX0' HO H0 H1.
  destruct (C109_estimate_is_error_difference care_raw inv solve ivp expm S d eta2 Rm Vf Vb Af Ab Bf Bb WT SO Fi He HT HR H s lo k hi e u x Hs HE HX) as (L & (ef & EF & EF0) & (eb & EB & EB0) & EE).
  destruct (C109_estimate_is_error_difference care_raw inv solve ivp expm S d eta2 Rm Vf Vb Af Ab Bf Bb WT SO Fi He HT HR H s' lo k hi e' u x' Hs' HE' HXX') as (_ & (ef' & EF' & EF0') & (eb' & EB' & EB0') & EE').
  rewrite (EE ef eb (conj EF EF0) (conj EB EB0)), (EE' ef' eb' (conj EF' EF0') (conj EB' EB0')). apply map_within. intros l Hl. rewrite wsum_minus.
  assert (DE : forall V i n t, observation_drive S eta2 V (observed S (D i)) n t = observation_drive S eta2 V (observed S (x i)) n t - observation_drive S eta2 V (observed S (x' i)) n t).
  { intros V i n t. rewrite <- drive_minus. apply drive_ext. intros r _. apply observed_minus. }
  apply (HC lo k hi D (fun i n t => ef i n t - ef' i n t) (fun i n t => eb i n t - eb' i n t) b X X' L Hb HX0 HX0'); [| |exact HO| | |exact Hl].
  - eapply solves_minus; [|exact EF|exact EF']. intros i n t _ _. cbv beta. rewrite DE. ring.
  - eapply solves_minus; [|exact EB|exact EB']. intros i n t _ _. cbv beta. rewrite DE. ring.
  - intros n Hn. cbv beta. rewrite EF0, EF0' by exact Hn. now apply H0.
  - intros n Hn. cbv beta. rewrite EB0, EB0' by exact Hn. now apply H1.
Qed.
Print Assumptions C109_same_input.

(** *** The integrator with a step control: the input -1 and the decisions 1 cancel, the state stays at 1/2; with a first decision 0 it moves to -3/2. *)
Definition ones (_ : nat) : list R := [1].
Definition late (i : nat) : list R := [if Nat.eqb i 0 then 0 else 1].
Definition minus_one (_ _ : nat) (_ : R) : R := -1.
Definition half (_ _ : nat) (_ : R) : R := 1 / 2.
Definition moved (i _ : nat) (t : R) : R := if Nat.eqb i 0 then 1 / 2 - 2 * t else - (3 / 2).
Definition sig_f (i _ : nat) (t : R) : R := exp (- (INR i + t)) - 1.
Definition sig_b (hi i _ : nat) (t : R) : R := 1 - exp (t + INR i - INR hi).
Lemma integ_ctl c n t : (n < 1)%nat -> 0 < t < 1 -> FilterCoeffProofs.ctl integ (one_wave (WStep 0 1)) c n t = c O.
Proof.
  intros Hn Ht. replace n with O by lia. unfold FilterCoeffProofs.ctl. change (sM integ) with 1%nat. rewrite rsum1. unfold wave, gent. cbn [one_wave d_resp nth w_eval]. rewrite Rle_bool_true by lra.
  change (ent (gammat integ) 0 0) with 1 || idtac. cbn. ring.
Qed.
Lemma integ_input u n t : (n < 1)%nat -> input_drive integ u n t = u O t.
Proof. intros Hn. replace n with O by lia. unfold input_drive. change (sL integ) with 1%nat. rewrite rsum1. cbn. ring. Qed.
Lemma integ_obs x r t : (r < 1)%nat -> observed integ x r t = x O t.
Proof. intros Hr. replace r with O by lia. unfold observed. change (sN integ) with 1%nat. rewrite rsum1. cbn. ring. Qed.
Lemma sol1 (F : nat -> nat -> R) (b z : nat -> R -> R) (f : R -> R) : (forall t, z O t = f t) -> (forall t, 0 < t < 1 -> derivable_pt_lim f t (F O O * f t + b O t)) -> (forall t, 0 <= t <= 1 -> continuity_pt f t) -> sol 1 F 1 b z.
Proof.
  intros E D C. split.
  - intros n t Hn Ht. replace n with O by lia. apply (continuity_pt_locally_ext f _ 1); [lra|intros; symmetry; apply E|apply C, Ht].
  - exists []. intros n t Hn Ht _. replace n with O by lia. rewrite rsum1, E. apply (derivable_ext f); [intros; symmetry; apply E|apply D, Ht].
Qed.
Lemma deriv_lin a c t : derivable_pt_lim (fun s => a + c * s) t c.
Proof.
  assert (X : derivable_pt_lim (fun s => a + c * s) t (0 + c * 1)).
  { apply (derivable_pt_lim_plus (fun _ => a) (fun s => c * s)); [apply derivable_pt_lim_const|]. apply (derivable_pt_lim_scal id c t 1). apply derivable_pt_lim_id. }
  replace (0 + c * 1) with c in X by ring. exact X.
Qed.
Lemma half_front lo hi : front_end integ (one_wave (WStep 0 1)) lo hi ones minus_one half.
Proof.
  intros i Hi. split; [|reflexivity]. apply (sol1 _ _ _ (fun _ => 1 / 2)); [reflexivity| |intros; apply continuity_pt_const; intros ? ?; reflexivity].
  intros t Ht. rewrite integ_ctl, integ_input by (auto; lra). cbn [ones nth]. unfold minus_one. replace (ent (aA integ) 0 0 * (1 / 2) + (-1 + (2 * 1 - 1))) with 0; [apply derivable_pt_lim_const|]. cbn. lra.
Qed.
Lemma moved_front hi : front_end integ (one_wave (WStep 0 1)) 0 hi late minus_one moved.
Proof.
  intros i Hi. assert (DL := deriv_lin).
  split.
  - destruct i as [|i].
    + apply (sol1 _ _ _ (fun t => 1 / 2 + (-2) * t)); [intros; unfold moved; cbn; ring| |].
      * intros t Ht. rewrite integ_ctl, integ_input by (auto; lra). cbn [late Nat.eqb nth]. unfold minus_one. replace (ent (aA integ) 0 0 * (1 / 2 + -2 * t) + (-1 + (2 * 0 - 1))) with (-2); [apply DL|]. cbn. ring.
      * intros. apply derivable_continuous_pt. eexists. apply DL.
    + apply (sol1 _ _ _ (fun t => - (3 / 2))); [intros; reflexivity| |intros; apply continuity_pt_const; intros ? ?; reflexivity].
      intros t Ht. rewrite integ_ctl, integ_input by (auto; lra). cbn [late Nat.eqb nth]. unfold minus_one. replace (ent (aA integ) 0 0 * - (3 / 2) + (-1 + (2 * 1 - 1))) with 0; [apply derivable_pt_lim_const|]. cbn. ring.
  - intros n Hn. rewrite Nat.add_1_r. unfold moved. cbn [Nat.eqb]. change (ck_T (d_clk (one_wave (WStep 0 1)))) with 1. destruct i; cbn [Nat.eqb]; lra.
Qed.
Lemma deriv_exp a c t : derivable_pt_lim (fun s => exp (a + c * s)) t (c * exp (a + c * t)).
Proof.
  rewrite Rmult_comm. apply (derivable_pt_lim_comp (fun s => a + c * s) exp); [apply deriv_lin|apply derivable_pt_lim_exp].
Qed.
Lemma sig_f_solves F lo hi : F O O = -1 -> solves_on integ (one_wave (WStep 0 1)) F lo hi (fun i => input_drive integ (minus_one i)) sig_f.
Proof.
  intros HF i Hi. split; [|intros n _; unfold sig_f; change (ck_T (d_clk (one_wave (WStep 0 1)))) with 1; rewrite plus_INR; cbn [INR]; do 3 f_equal; ring].
  assert (D : forall t, derivable_pt_lim (fun t => exp (- INR i + (-1) * t) + (-1)) t ((-1) * exp (- INR i + (-1) * t) + 0)).
  { intros t. apply (derivable_pt_lim_plus (fun t => exp (- INR i + (-1) * t)) (fun _ => -1)); [apply deriv_exp|apply derivable_pt_lim_const]. }
  apply (sol1 _ _ _ (fun t => exp (- INR i + (-1) * t) + (-1))).
  - intros t. unfold sig_f. unfold Rminus. do 2 f_equal. ring.
  - intros t Ht. rewrite integ_input by auto. unfold minus_one. rewrite HF. replace (-1 * (exp (- INR i + -1 * t) + -1) + -1) with ((-1) * exp (- INR i + (-1) * t) + 0) by ring. apply D.
  - intros. apply derivable_continuous_pt. eexists. apply D.
Qed.
Lemma sig_b_solves F k hi : F O O = 1 -> solves_on integ (one_wave (WStep 0 1)) F k hi (fun i => input_drive integ (minus_one i)) (sig_b hi).
Proof.
  intros HF i Hi. split; [|intros n _; unfold sig_b; change (ck_T (d_clk (one_wave (WStep 0 1)))) with 1; rewrite plus_INR; cbn [INR]; do 2 f_equal; ring].
  assert (D : forall t, derivable_pt_lim (fun t => 1 + (-1) * exp ((INR i - INR hi) + 1 * t)) t (0 + (-1) * (1 * exp ((INR i - INR hi) + 1 * t)))).
  { intros t. apply (derivable_pt_lim_plus (fun _ => 1) (fun t => (-1) * exp ((INR i - INR hi) + 1 * t))); [apply derivable_pt_lim_const|]. apply (derivable_pt_lim_scal (fun t => exp ((INR i - INR hi) + 1 * t)) (-1)). apply deriv_exp. }
  apply (sol1 _ _ _ (fun t => 1 + (-1) * exp ((INR i - INR hi) + 1 * t))).
  - intros t. unfold sig_b. replace (INR i - INR hi + 1 * t) with (t + INR i - INR hi) by ring. ring.
  - intros t Ht. rewrite integ_input by auto. unfold minus_one. rewrite HF. replace (1 * (1 + -1 * exp (INR i - INR hi + 1 * t)) + -1) with (0 + (-1) * (1 * exp ((INR i - INR hi) + 1 * t))) by ring. apply D.
  - intros. apply derivable_continuous_pt. eexists. apply D.
Qed.
Lemma ones_decisions : decisions (sM integ) ones /\ decisions (sM integ) late.
Proof. split; intros i; (split; [reflexivity|]); intros m Hm; cbn in Hm; replace m with O by lia; unfold ones, late; cbn; try destruct (Nat.eqb i 0); lra. Qed.

Example C109_ex : let d := one_wave (WStep 0 1) in sound integ d care1 inv1 solve1 ivp_step expm1 /\
  (forall A B Q Rm X, rows A = cols A -> symmetric_mat Q -> symmetric_mat Rm -> care1 A B Q Rm = Ok X -> stabilising A B Q Rm X) /\ fits integ d /\ 0 < ck_T (d_clk d) /\
  exists Rm Vf Vb Af Ab Bf Bb WT e e', riccati care1 integ 1 = Ok (Rm, Vf, Vb) /\ coefficients care1 inv1 solve1 ivp_step expm1 integ d 1 BNumpy false = Ok (Af, Ab, Bf, Bb, WT) /\
    decisions (sM integ) ones /\ decisions (sM integ) late /\ estimate_of (to_coef integ Af Ab Bf Bb WT) ones 0 3 5 e /\ estimate_of (to_coef integ Af Ab Bf Bb WT) late 0 3 5 e' /\
    front_end integ d 0 5 ones minus_one half /\ front_end integ d 0 5 late minus_one moved /\
    observed_within integ d 0 5 half (1 / 2) /\ starts integ (half 0%nat) (1 / 2) /\ starts integ (half 5%nat) (1 / 2) /\
    solves_on integ d (fwdA integ 1 (ent Vf)) 0 3 (fun i => input_drive integ (minus_one i)) sig_f /\ (forall n, (n < sN integ)%nat -> sig_f 0 n 0 = 0) /\
    solves_on integ d (bwdA integ 1 (ent Vb)) 3 5 (fun i => input_drive integ (minus_one i)) (sig_b 5) /\ (forall n, (n < sN integ)%nat -> sig_b 5 5 n 0 = 0) /\
    observed_within integ d 0 5 (fun i n t => half i n t - moved i n t) 2 /\ starts integ (fun n t => half 0%nat n t - moved 0 n t) 0 /\ starts integ (fun n t => half 5%nat n t - moved 5 n t) 2.
Proof.
  cbv zeta. destruct C104_forgets_ex as (SO & ST & Fi & _). split; [exact SO|]. split; [exact ST|]. split; [exact Fi|]. split; [cbn; lra|].
  destruct step_numpy as (Af & Ab & Bf & Bb & WT & E & _ & _ & _ & _ & (_ & _ & W)).
  destruct (numpy_good_with care1 inv1 solve1 ivp_step expm1 integ (one_wave (WStep 0 1)) SO 1 Af Ab Bf Bb WT Fi ltac:(lra) ltac:(cbn; lra) E) as (Rm & Vf & Vb & HR & QF & QB & HW & HF & HB).
  assert (Wf := coef_shape integ _ Af Ab Bf Bb WT _ _ _ _ HW HF HB).
  assert (Sq : ent Vf 0%nat 0%nat * ent Vf 0%nat 0%nat = 1 /\ ent Vb 0%nat 0%nat * ent Vb 0%nat 0%nat = 1).
  { destruct QF as [_ QF], QB as [_ QB]. specialize (QF 0%nat 0%nat ltac:(cbn; lia) ltac:(cbn; lia)). specialize (QB 0%nat 0%nat ltac:(cbn; lia) ltac:(cbn; lia)).
    unfold obsK in *. change (sN integ) with 1%nat in *. change (sL integ) with 1%nat in *. change (sNt integ) with 1%nat in *. rewrite !rsum1 in *. set (vf := ent Vf 0%nat 0%nat) in *. set (vb := ent Vb 0%nat 0%nat) in *. cbn in QF, QB. split; cbn [car Rring] in *; lra. }
  assert (Sm : (ent Vf 0%nat 0%nat + ent Vb 0%nat 0%nat) * (1/2) = 1).
  { destruct HW as (_ & _ & H). specialize (H 0%nat 0%nat ltac:(cbn; lia) ltac:(cbn; lia)). change (sN integ) with 1%nat in H. rewrite rsum1, W in H. exact H. }
  assert (V1 : ent Vf 0%nat 0%nat = 1 /\ ent Vb 0%nat 0%nat = 1) by (split; cbn [car Rring] in *; nra). destruct V1 as [V1 V2].
  destruct ones_decisions as [O1 O2].
  destruct (batch_window integ Af Ab Bf Bb WT Wf ones 3 O1 2 1 10 5 4 ltac:(lia) ltac:(lia) ltac:(cbn; lia) ltac:(cbn; lia)) as [_ E1].
  destruct (batch_window integ Af Ab Bf Bb WT Wf late 3 O2 2 1 10 5 4 ltac:(lia) ltac:(lia) ltac:(cbn; lia) ltac:(cbn; lia)) as [_ E2].
  eexists Rm, Vf, Vb, Af, Ab, Bf, Bb, WT, _, _. split; [exact HR|]. split; [exact E|]. split; [exact O1|]. split; [exact O2|].
  split; [left; exists 2%nat, 1%nat, 10%Z, 5%nat, 4%nat; split; [lia|]; split; [lia|]; split; [lia|]; split; [cbn; lia|]; split; [reflexivity|]; split; [reflexivity|exact E1]|]. split; [left; exists 2%nat, 1%nat, 10%Z, 5%nat, 4%nat; split; [lia|]; split; [lia|]; split; [lia|]; split; [cbn; lia|]; split; [reflexivity|]; split; [reflexivity|exact E2]|].
  split; [apply half_front|]. split; [apply moved_front|].
  split; [intros i r t _ Hr _; rewrite integ_obs by exact Hr; unfold half; rewrite Rabs_right; lra|]. split; [intros n _; unfold half; rewrite Rabs_right; lra|]. split; [intros n _; unfold half; rewrite Rabs_right; lra|].
  split; [apply sig_f_solves; unfold fwdA, obsK; change (sN integ) with 1%nat; change (sNt integ) with 1%nat; rewrite !rsum1, V1; cbn; lra|]. split; [intros n _; unfold sig_f; cbn [INR]; replace (- (0 + 0)) with 0 by ring; rewrite exp_0; ring|].
  split; [apply sig_b_solves; unfold bwdA, obsK; change (sN integ) with 1%nat; change (sNt integ) with 1%nat; rewrite !rsum1, V2; cbn; lra|]. split; [intros n _; unfold sig_b; replace (0 + INR 5 - INR 5) with 0 by ring; rewrite exp_0; ring|].
  split; [intros i r t _ Hr Ht; rewrite integ_obs by exact Hr; unfold half, moved; cbn in Ht; destruct (Nat.eqb i 0); apply Rabs_le; lra|].
  split; intros n _; unfold half, moved; cbn [Nat.eqb]; apply Rabs_le; lra.
Qed.
