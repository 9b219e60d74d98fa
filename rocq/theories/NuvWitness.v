(** One integrator as a concrete case of the theorems on the NUV estimator. *)
From Coq Require Import List Arith Lia Bool Reals Lra ZArith.
From Flocq Require Import Core.
From Coquelicot Require Import Coquelicot.
From Verif Require Import Base LinAlg FirExtras AnalogSystem AnalogProofs Signals DigitalControl Integrators IntegratorsProofs Simulator Stability LinearOde LinearExist PreSim Zpk FilterCoeff
  FilterCoeffProofs FilterOde FilterRun FilterExample Estimators Optimal NuvAlg NuvCost NuvArrival Nuv NuvProofs NuvPass NuvRun NuvBatch NuvCoeff NuvCont NuvCarry NuvTop NuvProtocol.
Import ListNotations.
Open Scope R_scope.

Definition wd : dc := one_wave (WStep 0 1).
(** one Euler step: exact, as the right-hand sides are constant here *)
Definition step1 (f : R -> list R -> result (list R)) (a b : R) (y : list R) : result (list R) :=
  match f b y with Ok v => Ok (map2 (fun x w => x + (b - a) * w) y v) | Exn e => Exn e end.

Lemma const_endpoint f b v y1 : (forall t x, 0 <= t <= b -> f t [x] = Ok [v]) -> 0 <= b -> step1 f 0 b [0] = Ok y1 -> endpoint f b [0] (Ok y1).
Proof.
  intros H Hb. unfold step1. rewrite H by lra. cbn [map2]. intros E. apply Ok_inj in E. subst y1. replace (0 + (b - 0) * v) with (v * b) by ring.
  apply (endpoint1 f b 0 (fun t => v * t) 0 (fun _ => v) []).
  - intros t x Ht. rewrite H by lra. do 2 f_equal. ring.
  - ring.
  - intros t _. apply derivable_continuous_pt. exists v. apply is_derive_Reals. auto_derive; [exact I|ring].
  - intros t _ _. apply is_derive_Reals. auto_derive; [exact I|ring].
Qed.
Lemma fwd_const m t x : 0 <= t <= 1 -> fwd_rhs integ wd (aA integ) m t [x] = match m with O => Ok [1] | _ => Exn IndexError end.
Proof.
  intros Ht. unfold fwd_rhs. cbn [integ aA]. rewrite (dotv1 (s11 0)) by reflexivity. cbn [bind]. unfold dc_impulse_response. cbn [wd one_wave d_clk ck_T d_resp d_M].
  rewrite (Rle_bool_true 0), (Rle_bool_true _ 1) by lra. cbn [andb]. destruct m as [|m]; [|destruct m; reflexivity]. cbn [nth_error]. unfold w_eval. rewrite ?Rle_bool_true by lra.
  cbn [bind repeat upd integ aG dotv_opt]. rewrite (dotv1 (s11 1)) by reflexivity. cbn [bind vadd map2 s11 ent]. cbn [radd Rring]. do 2 f_equal. ring.
Qed.
Lemma cov_const (BBT : rmat) b : (exists e, forall t x, vu_rhs expm1 integ BBT b t x = Exn e) \/ (rows BBT = 1%nat /\ cols BBT = 1%nat /\ forall t x, vu_rhs expm1 integ BBT b t x = Ok [ent BBT O O]).
Proof.
  unfold vu_rhs, expm1, scalar. cbn [integ aA tr s11 rows cols ent Nat.eqb andb bind]. destruct (Nat.eq_dec (cols BBT) 1) as [C|C].
  - destruct (Nat.eq_dec (rows BBT) 1) as [R|R].
    + right. split; [exact R|]. split; [exact C|]. intros t x. unfold dotm. cbn [rows cols s11 ent]. rewrite C. cbn [Nat.eqb bind rows cols]. rewrite R. cbn [Nat.eqb bind]. unfold flatten. cbn [rows cols seq flat_map map app ent s11].
      rewrite ksum_rsum, rsum1, ksum_rsum, rsum1. cbn [rmul Rring]. rewrite !Rmult_0_l, exp_0, Rmult_1_l, Rmult_1_r. reflexivity.
    + left. exists ValueError. intros t x. unfold dotm. cbn [rows cols s11 ent]. rewrite C. cbn [Nat.eqb bind rows cols]. destruct (rows BBT) as [|[|]]; [reflexivity|lia|reflexivity].
  - left. exists ValueError. intros t x. unfold dotm. cbn [rows cols s11 ent]. destruct (cols BBT) as [|[|]]; [reflexivity|lia|reflexivity].
Qed.
Lemma wit_sound : nuv_sound integ wd step1 expm1.
Proof.
  constructor.
  - exact expm1_sound.
  - intros m b y1 Hb. change (sN integ) with 1%nat. cbn [repeat]. change (ck_T (d_clk wd)) with 1 in Hb. destruct m as [|m].
    + apply const_endpoint with (v := 1); [|lra]. intros t x Ht. now rewrite fwd_const by lra.
    + unfold step1. rewrite fwd_const by lra. discriminate.
  - intros BBT b y1 Hb. change (sN integ * sN integ)%nat with 1%nat. cbn [repeat]. destruct (cov_const BBT b) as [[e E]|(_ & _ & E)].
    + unfold step1. rewrite E. discriminate.
    + apply const_endpoint with (v := ent BBT O O); [|exact Hb]. intros t x _. apply E.
Qed.
Lemma wit_inv : exact_inv (sNt integ) inv1.
Proof.
  constructor; [exact inv1_sound|]. intros M HR HC _ HP. change (sNt integ) with 1%nat in *. unfold inv1, scalar. rewrite HR, HC. cbn [Nat.eqb andb bind].
  assert (P : 0 < ent M O O). { specialize (HP (fun _ => 1)). unfold quad in HP. rewrite !rsum1 in HP. assert (X : 0 < 1 * (ent M O O * 1)) by (apply HP; exists O; split; [lia|lra]). lra. }
  destruct (Req_bool_spec (ent M O O) 0); [lra|]. eexists. reflexivity.
Qed.
Lemma wit_fits : fits integ wd.
Proof. apply fits_integ. exact I. Qed.
Lemma wit_symm : symmetric_outputs integ.
Proof. split; [reflexivity|]. intros i j Hi Hj. change (sN integ) with 1%nat in *. now rewrite (idx1 i Hi), (idx1 j Hj). Qed.
Lemma wit_init_over cov b gamma K1 K2 iters over : (1 <= over)%nat -> (1 <= K1)%Z -> (0 <= K2)%Z -> exists c st0, nuv_init step1 expm1 integ wd cov b gamma K1 K2 iters None over = Ok (c, st0) /\
  nTs c = 1 / INR over /\ nK1 c = Z.to_nat K1 /\ nK2 c = Z.to_nat K2 /\
  (ent (nAf c) O O = 1 /\ ent (nBf c) O O = 1 / INR over /\ ent (nVu c) O O = cov ^ 2 / INR over).
Proof.
  intros Ho H1 H2. unfold nuv_init. destruct (Z.ltb_spec K1 1); [lia|]. destruct (Z.ltb_spec K2 0); [lia|]. destruct (Nat.eqb_spec over 0); [lia|]. change (ck_T (d_clk wd)) with 1. assert (HO : 1 <= INR over) by (replace 1 with (INR 1) by reflexivity; apply le_INR; exact Ho).
  set (T := 1 / INR over). assert (ET : 0 <= T <= 1) by (unfold T, Rdiv; rewrite Rmult_1_l; split; [apply Rlt_le, Rinv_0_lt_compat; lra|rewrite <- Rinv_1; apply Rinv_le_contravar; lra]).
  unfold nuv_coefficients. unfold expm1 at 1, scalar at 1. cbn [integ aA s11 rows cols ent Nat.eqb andb bind]. fold integ. unfold columns. change (sM integ) with 1%nat. change (sN integ) with 1%nat. cbn [seq mapM repeat bind].
  unfold step1 at 1. change (s11 0) with (aA integ). rewrite fwd_const by lra. cbn [map2 bind].
  set (Q := dotm (aB integ) (scalem cov (tr (aB integ)))). assert (EQ : exists BBT, Q = Ok BBT /\ rows BBT = 1%nat /\ cols BBT = 1%nat /\ ent BBT O O = cov).
  { eexists. split; [reflexivity|]. cbn [rows cols ent integ aB s11 tr scalem mapm]. split; [reflexivity|]. split; [reflexivity|]. rewrite ksum_rsum, rsum1. cbn. ring. }
  destruct EQ as (BBT & -> & RB & CB & EB). cbn [bind Nat.mul Nat.add repeat]. unfold step1.
  destruct (cov_const BBT T) as [[e E]|(_ & _ & E)].
  - exfalso. specialize (E 0 []). revert E. unfold vu_rhs, expm1, scalar. cbn [integ aA tr s11 rows cols ent Nat.eqb andb bind]. unfold dotm. cbn [rows cols s11 ent]. rewrite CB. cbn [Nat.eqb bind rows cols]. rewrite RB. discriminate.
  - rewrite E. cbn [map2 bind]. eexists _, _. split; [reflexivity|]. cbn [nTs nK1 nK2 nAf nBf nVu]. split; [reflexivity|]. split; [reflexivity|]. split; [reflexivity|].
    cbn [ent s11 scalem mapm reshape Nat.mul Nat.add nth]. rewrite EB. split; [rewrite Rmult_0_l; apply exp_0|]. split; [change (0 + (T - 0) * 1 = T :> R)|change (cov * (0 + (T - 0) * cov) = cov ^ 2 / INR over :> R)]; unfold T; field; lra.
Qed.

Lemma wit_init cov b gamma K1 K2 iters : (1 <= K1)%Z -> (0 <= K2)%Z -> exists c st0, nuv_init step1 expm1 integ wd cov b gamma K1 K2 iters None 1 = Ok (c, st0) /\
  nTs c = 1 /\ nK1 c = Z.to_nat K1 /\ nK2 c = Z.to_nat K2 /\
  (ent (nAf c) O O = 1 /\ ent (nBf c) O O = 1 /\ ent (nVu c) O O = cov ^ 2).
Proof.
  intros H1 H2. destruct (wit_init_over cov b gamma K1 K2 iters 1 (Nat.le_refl _) H1 H2) as (c & st0 & A & B & C & D & E & F & G). exists c, st0. cbn [INR] in *. rewrite Rdiv_1 in *. rewrite B, F, G. auto 10.
Qed.

(** *** The second estimate is not 0 *)
Lemma wit_nonzero cov b gamma : cov <> 0 -> exists c st0 est, nuv_init step1 expm1 integ wd cov b gamma 2 0 0 None 1 = Ok (c, st0) /\ nTs c = 1 /\ nK1 c = 2%nat /\ nK2 c = 0%nat /\
  nth_error (outcomes inv1 c st0 [[1]; [1]] (SrcObj StopIteration) 2) 1 = Some (Ok est) /\ nth O est 0 <> 0.
Proof.
  intros Hc. destruct (wit_init cov b gamma 2 0 0 ltac:(lia) ltac:(lia)) as (c & st0 & HI & ET & E1' & E2' & EA & EB & EU).
  destruct (init_inv _ _ _ _ _ _ _ _ _ _ _ _ _ _ HI) as (P1 & P2 & P3 & ES & Ec & Eb & Eg & E1 & E2 & Ei & Eo & _ & HC & E0).
  assert (HT : 0 <= nTs c <= ck_T (d_clk wd)) by (rewrite ET; cbn; lra). rewrite <- ES, <- Ec in HC. assert (NS := wit_sound). assert (FI := wit_fits). assert (HS := wit_symm). assert (EI := wit_inv). rewrite <- ES in NS, FI, HS, EI.
  assert (Z := top_sizes c wd step1 expm1 NS FI HC HT). assert (K1 : nK1 c = 2%nat) by (rewrite E1; reflexivity). assert (K2 : nK2 c = 0%nat) by (rewrite E2; reflexivity). assert (K3 : nK3 c = 2%nat) by (unfold nK3; lia).
  assert (E0' : st0 = mkN None (nK1 c) false (repeat (repeat 0 (sM (nS c))) (nK3 c)) 0 (repeat 0 (sN (nS c))) (scalem (10 ^ 12) (eye2 (K := Rring) (sN (nS c)) (sN (nS c)))) (repeat 1 (sNt (nS c))) (repeat 1 (sNt (nS c))) (repeat (repeat 0 (sL (nS c))) (nK1 c))) by (rewrite ES; exact E0).
  assert (H1 : (1 <= nK1 c)%nat) by lia. assert (Hg : n_iter c <> O -> n_gamma c <> 0) by (rewrite Ei; contradiction). assert (Ho : (1 <= n_over c)%nat) by lia.
  assert (HF : List.Forall (fun x : list R => length x = sM (nS c)) [[1]; [1]]) by (rewrite ES; repeat constructor).
  destruct (NuvBatch.run inv1 c EI Z HS H1 Hg Ho [[1]; [1]] HF (SrcObj StopIteration) ltac:(rewrite Eo; reflexivity) ltac:(rewrite Eo; reflexivity) _ (start_at c [[1]; [1]] (SrcObj StopIteration) H1 st0 E0') O ltac:(rewrite K1, K3, Eo; cbn; lia)) as (A1 & A2 & (w1 & w2 & B & _) & OU).
  set (st' := snd (calls (n_next inv1 c) (1 * nK1 c) _)) in *. exists c, st0, (nth 1 (n_est st') []). split; [exact HI|]. split; [exact ET|]. split; [exact K1|]. split; [exact K2|].
  split; [apply (OU 1%nat 2%nat); lia|]. destruct (ba_sol _ _ _ _ _ _ _ _ _ _ _ B) as (v1 & v2 & x & p & RW & V1 & V2 & Es & Le). rewrite ES in Es. specialize (Es 1%nat O ltac:(lia) ltac:(cbn; lia)).
  change (fv (nth 1 (n_est st') []) O <> 0). rewrite Es. change (sN integ) with 1%nat. rewrite rsum1, Ei, Ec. cbn [integ aB s11 ent]. intros Q. assert (P0 : p O 1%nat O = 0) by nra.
  destruct RW as [R0 RW]. destruct (RW O ltac:(lia)) as [(_ & [[X0 X1] AD] & _) _]. cbn [win w_N w_P w_K w_A w_Bs w_C w_m w_V w_U] in *. rewrite ES, K3 in *. change (sN integ) with 1%nat in *. change (sNt integ) with 1%nat in *.
  assert (D0 := AD O O ltac:(lia) ltac:(lia)). assert (D1 := AD 1%nat O ltac:(lia) ltac:(lia)). specialize (X0 O ltac:(lia)). specialize (X1 O O ltac:(lia) ltac:(lia)).
  assert (VV : forall k, (k < 2)%nat -> v1 O k O = 1 /\ v2 O k O = 1).
  { intros k Hk. destruct (R0 k O Hk ltac:(lia)) as [-> ->]. rewrite E0'. unfold after_calls. cbn [calls snd Nat.mul]. destruct k; cbn; auto. }
  cbn [Nat.ltb Nat.leb] in D0, D1. unfold apT, resid, output in D0, D1. cbn [win w_N w_P w_K w_A w_Bs w_C w_m w_V w_U] in D0, D1. rewrite ES in D0, D1. change (sN integ) with 1%nat in D0, D1. rewrite !rsum1 in *.
  destruct (VV O ltac:(lia)) as [Va Vb]. destruct (VV 1%nat ltac:(lia)) as [Vc Vd]. rewrite Va, Vb in D0. rewrite Vc, Vd in D1. cbn [integ aCT s11 ent] in D0, D1. rewrite P0 in *.
  rewrite EA, EU in *. assert (X2 : x O O O = 10 ^ 12 * - p O O O). { rewrite X0. rewrite E0'. cbn [Nat.mul calls snd set_iterator n_m0 n_V0]. cbn. lra. }
  assert (BS : Bsf c (nth 0 (segment (stream (n_over c) [[1]; [1]]) (0 * nK1 c) 2) []) O = 1).
  { unfold Bsf, ap. rewrite ES. change (sM integ) with 1%nat. rewrite rsum1, EB, Eo. cbn. lra. }
  rewrite BS in X1. lra.
Qed.


(** *** The state one period later costs more *)
Lemma integ_ctl (s : nat -> R) n t : 0 < t < 1 -> (n < 1)%nat -> ctl integ wd s n t = s O.
Proof.
  intros Ht Hn. rewrite (idx1 n Hn). unfold ctl. change (sM integ) with 1%nat. rewrite rsum1. unfold gent, wave. cbn [integ aG s11 ent wd one_wave d_resp nth w_eval]. rewrite Rle_bool_true by lra. ring.
Qed.
Lemma integ_step (s : nat -> R) u x : driven integ wd 1 s u x -> integral 1 (u O) (x O 1 - x O 0 - s O).
Proof.
  intros [C [ex D]]. change (sN integ) with 1%nat in *. exists (fun t => x O t - s O * t), ex. split; [|split].
  - intros t Ht. apply (continuity_pt_minus (x O) (fun t => s O * t)); [apply C; [lia|exact Ht]|]. apply derivable_continuous_pt. exists (s O). apply is_derive_Reals. auto_derive; [exact I|ring].
  - intros t Ht Hn. specialize (D O t ltac:(lia) Ht Hn). rewrite integ_ctl in D by (auto; lia). change (sL integ) with 1%nat in D. rewrite !rsum1 in D. cbn [integ aA aB s11 ent] in D.
    replace (u O t) with ((0 * x O t + (1 * u O t + s O)) - s O) by ring. apply (derivable_pt_lim_minus (x O) (fun t => s O * t)); [exact D|]. apply is_derive_Reals. auto_derive; [exact I|ring].
  - ring.
Qed.
Lemma integ_energy u w E : integral 1 (u O) w -> input_energy integ 1 u E -> w ^ 2 <= E.
Proof.
  intros H1 H2. unfold input_energy in H2. change (sL integ) with 1%nat in H2.
  assert (H3 : integral 1 (fun _ => 1) 1) by (exists (fun t => t), []; split; [intros t _; apply derivable_continuous_pt; exists 1; apply derivable_pt_lim_id|split; [intros t _ _; apply derivable_pt_lim_id|ring]]).
  assert (X := int_lin 1 _ _ 1 1 _ _ H2 (int_lin 1 _ _ (- 2 * w) (w ^ 2) _ _ H1 H3)). apply int_nonneg in X; [nra|lra|]. intros t Ht. cbv beta. rewrite rsum1. unfold Rsqr. assert (Q := pow2_ge_0 (u O t - w)). lra.
Qed.

Lemma wit_not_carried m0 V0 s v1 v2 m V : let w := sampled_outputs integ 2 m0 V0 in
  m0 O = 0 -> V0 O O = 10 ^ 12 -> s O O = 1 -> v1 O O = 1 -> v2 O O = 1 -> m O = 0 -> V O O = 10 ^ 12 -> ~ carried integ wd 1 1 1 w v1 v2 s 1 m V.
Proof.
  intros w Hm0 HV0 Hs H1 H2 Hm HV (c0 & Y1 & Y2). destruct (Y1 (fun _ => 0)) as (u & x & Tr & X & a0 & E & X0 & HE & EI).
  cbn [w sampled_outputs w_N w_P w_m w_V] in *. change (sN integ) with 1%nat in *. change (sNt integ) with 1%nat in *.
  destruct (Tr O ltac:(lia)) as [D Q]. specialize (Q O ltac:(cbn; lia)). specialize (X O ltac:(lia)). specialize (X0 O ltac:(lia)). specialize (HE O ltac:(lia)).
  assert (G := integ_energy _ _ _ (integ_step _ _ _ D) HE). unfold quad, output, ap in *. cbn [w sampled_outputs w_N w_C integ aCT s11 ent] in *. rewrite !rsum1 in *. rewrite Hm0, HV0, Hs, Hm, HV, H1, H2, <- Q in *.
  assert (Up : c0 <= 2).
  { specialize (Y2 (fun _ _ _ => 0) (fun k n t => if Nat.eqb k 0 then t else 1) 2 (fun _ => 0)). unfold dotr, quad in Y2. rewrite !rsum1 in Y2. cbn [Nat.eqb] in Y2.
    assert (Z : c0 + 2 * (0 * (1 - m O)) - 0 * (V O O * 0) <= 2); [apply Y2|lra].
    - intros k Hk. assert (k = O) by lia. subst k. split; [|intros n _; reflexivity]. cbn [Nat.eqb]. split.
      + intros n t _ _. apply derivable_continuous_pt. exists 1. apply derivable_pt_lim_id.
      + exists []. intros n t Hn Ht _. change (sN integ) with 1%nat in *. rewrite integ_ctl by assumption. rewrite (idx1 n Hn). change (sL integ) with 1%nat. rewrite !rsum1. cbn [integ aA aB s11 ent]. rewrite Hs. replace (0 * t + (1 * 0 + 1)) with 1 by ring. apply derivable_pt_lim_id.
    - exists (fun _ => 0), (fun _ => 0). cbn [w sampled_outputs w_N w_P w_m w_V]. change (sN integ) with 1%nat. change (sNt integ) with 1%nat. split; [|split].
      + intros n Hn. cbn [Nat.eqb]. rewrite rsum1, (idx1 n Hn), Hm0. ring.
      + intros i Hi. unfold input_energy. change (sL integ) with 1%nat. exists (fun _ => 0), []. split; [intros t _; apply continuity_pt_const; intros ? ?; reflexivity|]. split; [|ring]. intros t _ _. rewrite rsum1. unfold Rsqr. rewrite Rmult_0_l. apply (derivable_pt_lim_const 0).
      + unfold quad, output. cbn [w sampled_outputs w_N w_C integ aCT s11 ent]. rewrite !rsum1. cbn [Nat.eqb]. rewrite H1, H2. field. }
  assert (N1 := pow2_ge_0 (x O O 0)). assert (N2 := pow2_ge_0 (x 1%nat O 0 - x O O 0 - 1)). rewrite X in *.
  assert (N3 : 0 <= a0 O * (10 ^ 12 * a0 O)) by nra. nra.
Qed.
