(** Facts about get_chain_of_integrator, get_leap_frog and the conversions of fom.py. *)
From Coq Require Import List Arith Lia Bool Reals Lra.
From Flocq Require Import Core.
From Verif Require Import Base LinAlg FirExtras AnalogSystem AnalogProofs Signals DigitalControl DigitalControlProofs Fom Integrators IntegratorsProofs Simulator Stability.
Import ListNotations.
Open Scope R_scope.

(** *** Powers and logarithms *)
Lemma ln10_pos : 0 < ln 10.
Proof. rewrite <- ln_1. apply ln_increasing; lra. Qed.
Lemma ln2_pos : 0 < ln 2.
Proof. rewrite <- ln_1. apply ln_increasing; lra. Qed.
Lemma ppow_pos x y : 0 < ppow x y.
Proof. apply exp_pos. Qed.
Lemma ppow_log10 x : 0 < x -> ppow 10 (log10 x) = x.
Proof. intros H. unfold ppow, log10. assert (P := ln10_pos). replace (ln x / ln 10 * ln 10) with (ln x) by (field; lra). now apply exp_ln. Qed.
Lemma log10_ppow y : log10 (ppow 10 y) = y.
Proof. unfold ppow, log10. rewrite ln_exp. assert (P := ln10_pos). field. lra. Qed.
Lemma ppow_plus x y z : ppow x (y + z) = ppow x y * ppow x z.
Proof. unfold ppow. rewrite <- exp_plus. f_equal. ring. Qed.
Lemma ppow_INR x n : 0 < x -> ppow x (INR n) = x ^ n.
Proof.
  intros H. induction n as [|n IH]; [unfold ppow; rewrite Rmult_0_l; apply exp_0|].
  rewrite S_INR, ppow_plus, IH. cbn [pow]. unfold ppow at 1. rewrite Rmult_1_l, exp_ln by exact H. ring.
Qed.
Lemma ppow_root x n : 0 < x -> (1 <= n)%nat -> ppow x (1 / INR n) ^ n = x.
Proof.
  intros H Hn. rewrite <- ppow_INR by apply ppow_pos. unfold ppow. rewrite ln_exp.
  assert (0 < INR n) by (apply lt_0_INR; lia). replace (INR n * (1 / INR n * ln x)) with (ln x) by (field; lra). now apply exp_ln.
Qed.
Lemma log10_mult x y : 0 < x -> 0 < y -> log10 (x * y) = log10 x + log10 y.
Proof. intros. unfold log10. rewrite ln_mult by assumption. field. assert (P := ln10_pos). lra. Qed.
Lemma log10_lt x y : 0 < x -> x < y -> log10 x < log10 y.
Proof. intros. unfold log10. apply Rmult_lt_compat_r; [apply Rinv_0_lt_compat, ln10_pos|now apply ln_increasing]. Qed.
Lemma twenty_pos : 0 < twenty_log_2.
Proof. unfold twenty_log_2, log10. assert (A := ln2_pos). assert (B := ln10_pos). assert (0 < ln 2 / ln 10) by (apply Rdiv_lt_0_compat; lra). lra. Qed.

(** the power ratio of [ENOB] bits is 3/2 * 4^ENOB *)
Lemma snr_of_enob ENOB : snr_from_dB (enob_to_snr ENOB) = 3 / 2 * exp (ENOB * ln 4).
Proof.
  unfold snr_from_dB, enob_to_snr, ppow, twenty_log_2, quantization_noise_offset, log10.
  assert (P := ln10_pos).
  replace ((ENOB * (20 * (ln 2 / ln 10)) + 20 * (ln (sqrt 6 / 2) / ln 10)) / 10 * ln 10) with (ENOB * (2 * ln 2) + 2 * ln (sqrt 6 / 2)) by (field; lra).
  rewrite exp_plus. replace (2 * ln 2) with (ln 4).
  2:{ replace 4 with (2 * 2) by ring. rewrite ln_mult by lra. ring. }
  assert (S6 : 0 < sqrt 6) by (apply sqrt_lt_R0; lra).
  replace (2 * ln (sqrt 6 / 2)) with (ln (sqrt 6 / 2 * (sqrt 6 / 2))) by (rewrite ln_mult by lra; ring).
  replace (sqrt 6 / 2 * (sqrt 6 / 2)) with (3 / 2). 2:{ assert (E := sqrt_sqrt 6 ltac:(lra)). replace (sqrt 6 / 2 * (sqrt 6 / 2)) with (sqrt 6 * sqrt 6 / 4) by field. rewrite E. field. }
  rewrite exp_ln by lra. ring.
Qed.
Lemma enob_inverse SNR : enob_to_snr (snr_to_enob SNR) = SNR.
Proof. unfold enob_to_snr, snr_to_enob. assert (P := twenty_pos). field. lra. Qed.

(** *** The pieces *)
Lemma default_clock_ok T : 2 / 100000000000000 <= T -> default_clock T = Ok (mkClock T (1 / 100000000000000) 0 (1 / 2) 1).
Proof.
  intros H. unfold default_clock, clock_init, max_step. rewrite Rlt_bool_false by lra. rewrite Rle_bool_false by lra. cbn [orb].
  rewrite Rmin_left by lra. rewrite Rlt_bool_false by lra. rewrite Rlt_bool_false by lra. do 2 f_equal. lra.
Qed.
Lemma default_clock_short T : T < 2 / 100000000000000 -> default_clock T = Exn GenericException.
Proof.
  intros H. unfold default_clock, clock_init, max_step. rewrite Rlt_bool_false by lra. rewrite Rle_bool_false by lra. cbn [orb].
  rewrite Rmin_left by lra. now rewrite Rlt_bool_true by lra.
Qed.

Definition eye_m (kappa : R) (N : nat) : nd2 Rring := mk2 (K := Rring) N N (fun i j => if Nat.eqb i j then kappa else 0).
Lemma gain_square (m : nd2 Rring) N i j : rows m = N -> cols m = N -> (i < N)%nat -> (j < N)%nat -> gain m i j = ent m i j.
Proof.
  intros HR HC Hi Hj. unfold gain. rewrite HC. destruct (Nat.eqb_spec N 1) as [->|]; [|reflexivity].
  replace i with 0%nat by lia. replace j with 0%nat by lia. reflexivity.
Qed.
Lemma ncontrols_square (m : nd2 Rring) N : rows m = N -> cols m = N -> ncontrols m = N.
Proof. intros HR HC. unfold ncontrols. rewrite HC, HR. destruct (Nat.eqb_spec N 1); auto. Qed.

Lemma coi_eye beta rho kappa N : (1 <= N)%nat -> kappa <> 0 ->
  exists S, coi_init (repeat beta N) (repeat rho N) (kappa_eye kappa N) = Ok S /\ valid S /\
    integrator_system S (repeat beta N) (repeat 0 (N - 1)) (repeat rho N) (eye_m kappa N).
Proof.
  intros HN Hk. destruct (coi_init_ok (repeat beta N) (repeat rho N) (eye_m kappa N)) as (S & E & V & H).
  - now rewrite repeat_length.
  - now rewrite !repeat_length.
  - now rewrite repeat_length.
  - rewrite repeat_length. intros m Hm. rewrite (ncontrols_square _ N) in Hm by reflexivity. exists m. split; [exact Hm|].
    rewrite (gain_square _ N) by auto. cbn [eye_m ent]. now rewrite Nat.eqb_refl.
  - exists S. split; [exact E|]. split; [exact V|]. now rewrite repeat_length in H.
Qed.

(** a frontend with the default control *)
Definition default_frontend (S : asys Rring) (d : dc) (h : heap) (beta alpha rho kap : list R) (T : R) : Prop :=
  let N := length beta in
  valid S /\ integrator_system S beta alpha rho (diag0 kap) /\ length kap = N /\ plain d N /\ wf d h /\ ck_T (d_clk d) = T.

(** systems with the same gains are indistinguishable *)
Lemma integrator_gain_ext S beta alpha rho k k' : integrator_system S beta alpha rho k -> ncontrols k' = ncontrols k ->
  (forall n m, (n < length beta)%nat -> (m < ncontrols k)%nat -> gain k' n m = gain k n m) -> integrator_system S beta alpha rho k'.
Proof.
  intros (D1 & D2 & D3 & D4 & HD & HO & HC) Hn Hg. unfold integrator_system. rewrite Hn. do 4 (split; [assumption|]). split; [|split; [exact HO|]].
  - intros x u s Hx Hs. rewrite HD by assumption. f_equal. apply map_ext_in. intros n Hi. apply in_seq in Hi. f_equal.
    apply rsum_ext. intros m Hm. rewrite Hg by lia. reflexivity.
  - intros x u s Hx Hs. rewrite HC by assumption. f_equal. apply map_ext_in. intros m Hi. apply in_seq in Hi.
    unfold colnorm. rewrite (rsum_ext (length beta) (fun n => gain k n m * gain k n m) (fun n => gain k' n m * gain k' n m)) by (intros; rewrite Hg by lia; reflexivity).
    f_equal. f_equal. apply rsum_ext. intros n Hn'. rewrite Hg by lia. reflexivity.
Qed.
Lemma eye_diag0 kappa N n m : (n < N)%nat -> (m < N)%nat -> gain (diag0 (repeat kappa N)) n m = gain (eye_m kappa N) n m.
Proof.
  intros Hn Hm. rewrite (gain_square _ N) by (cbn [diag0 rows cols]; rewrite ?repeat_length; auto). rewrite (gain_square (eye_m kappa N) N) by auto.
  cbn [diag0 eye_m ent]. destruct (Nat.eqb n m); [|reflexivity]. now apply nth_repeat_lt.
Qed.
Lemma diag0_diagonal kap : diagonal_gain (diag0 kap) kap.
Proof.
  split; [apply ncontrols_square; reflexivity|]. intros n m Hn Hm. now rewrite (gain_square _ (length kap)).
Qed.

Lemma coi_eye' beta rho kappa N : (1 <= N)%nat -> kappa <> 0 ->
  exists S, coi_init (repeat beta N) (repeat rho N) (kappa_eye kappa N) = Ok S /\ valid S /\
    integrator_system S (repeat beta N) (repeat 0 (N - 1)) (repeat rho N) (diag0 (repeat kappa N)).
Proof.
  intros HN Hk. destruct (coi_eye beta rho kappa N HN Hk) as (S & E & V & H). exists S. split; [exact E|]. split; [exact V|].
  eapply integrator_gain_ext; [exact H| |].
  - rewrite (ncontrols_square _ N), (ncontrols_square _ N); auto; cbn [diag0 rows cols]; now rewrite repeat_length.
  - rewrite repeat_length, (ncontrols_square (eye_m kappa N) N) by reflexivity. intros. now apply eye_diag0.
Qed.

(** adding [c] to the diagonal of A *)
Lemma add_diagonal S beta alpha rho k c : valid S -> aG S <> None -> aGt S <> None -> integrator_system S beta alpha rho k -> length rho = length beta ->
  let S' := mkAS (mk2 (K := Rring) (rows (aA S)) (cols (aA S)) (fun i j => ent (aA S) i j + (if Nat.eqb i j then c else 0)))
              (aB S) (aCT S) (aG S) (aGt S) (aD S) (aBt S) (aAt S) in
  valid S' /\ integrator_system S' beta alpha (map (fun r => r + c) rho) k.
Proof.
  intros V NG NGt (D1 & D2 & D3 & D4 & HD & HO & HC) Lr S'.
  assert (V' : valid S') by (destruct V; constructor; assumption). split; [exact V'|].
  assert (LX : forall x : list R, length x = length beta -> length x = sN S) by (intros; congruence).
  unfold integrator_system. change (sN S') with (sN S). change (sL S') with (sL S). change (sM S') with (sM S). change (sMt S') with (sMt S).
  do 4 (split; [assumption|]). split; [|split; [exact HO|]].
  - intros x u s Hx Hs. specialize (HD x u s Hx Hs).
    rewrite derivative_rhs in HD; [|exact V|exact NG|now apply LX|now rewrite D2|rewrite D3; exact Hs].
    rewrite derivative_rhs; [|exact V'|exact NG|apply LX; exact Hx|change (sL S') with (sL S); now rewrite D2|change (sM S') with (sM S); rewrite D3; exact Hs].
    apply Ok_inj in HD. f_equal. unfold rhs in *. change (sN S') with (sN S). rewrite D1 in *.
    apply list_ext with (d := 0); [now rewrite !map_length|]. intros n Hn. rewrite map_length, seq_length in Hn.
    assert (HDn := f_equal (fun l => nth n l 0) HD). cbn beta in HDn.
    etransitivity; [apply nth_seq_R; exact Hn|]. rewrite nth_seq_R by exact Hn.
    assert (HL : forall f : nat -> R, nth n (@map nat (car Rring) f (seq 0 (length beta))) 0 = f n) by (intros; now apply nth_seq_R).
    rewrite HL in HDn. rewrite nth_seq_R in HDn by exact Hn.
    rewrite nth_indep with (d' := 0 + c) by (rewrite map_length; lia). rewrite (map_nth (fun r => r + c)).
    assert (EL : lin (aA S') x n = lin (aA S) x n + c * nth n x 0).
    { rewrite !lin_rsum. unfold S'. cbn [aA cols ent]. rewrite (v_A _ V), D1.
      rewrite (rsum_ext _ _ (fun k0 => ent (aA S) n k0 * nth k0 x 0 + (if Nat.eqb k0 n then c * nth k0 x 0 else 0))).
      - rewrite rsum_add. f_equal. now apply (rsum_single (length beta) n (fun i => c * nth i x 0)).
      - intros i Hi. rewrite (Nat.eqb_sym n i). destruct (Nat.eqb i n); cbv [car Rring]; ring. }
    rewrite EL. change (aB S') with (aB S). change (aG S') with (aG S). cbv [car radd Rring] in HDn |- *. rewrite Rmult_plus_distr_r. lra.
  - exact HC.
Qed.

(** *** What the synthesis functions return *)
Lemma bind_ok {A B} (r : result A) (f : A -> result B) b : bind r f = Ok b -> exists a, r = Ok a /\ f a = Ok b.
Proof. destruct r as [a|e]; [|discriminate]. eauto. Qed.
Lemma default_clock_inv T clk : default_clock T = Ok clk -> 2 / 100000000000000 <= T /\ ck_T clk = T /\ 0 <= ck_tt clk.
Proof.
  intros H. destruct (Rlt_dec T (2 / 100000000000000)) as [L|L]; [rewrite default_clock_short in H by exact L; discriminate|].
  rewrite default_clock_ok in H by lra. apply Ok_inj in H. subst clk. cbn [ck_T ck_tt]. lra.
Qed.
Lemma coi_empty kappa (beta rho : R) : coi_init (repeat beta 0) (repeat rho 0) kappa = Exn IndexError.
Proof. reflexivity. Qed.

Lemma frontend_default h clk N d h' : dc_init h clk N None 0 None = Ok (d, h') -> 0 <= ck_tt clk ->
  plain d N /\ wf d h' /\ d_clk d = clk /\ h' = h ++ repeat (mkArr false (repeat 0 N)) 3.
Proof.
  intros E H. destruct (dc_init_plain _ _ _ _ _ E H) as (A & B & C). destruct (dc_init_ok _ _ _ _ _ _ _ _ E) as (_ & _ & _ & _ & _ & _ & _ & _ & _ & _ & _ & _ & F). auto.
Qed.

Lemma coi_osr_inv OSR N BW rho h S d h' : coi_osr OSR N BW rho h = Ok (S, d, h') ->
  let T := 1 / (2 * BW * OSR) in let beta := BW * OSR in
  (1 <= N)%nat /\ 2 / 100000000000000 <= T /\ 0 < beta /\
  default_frontend S d h' (repeat beta N) (repeat 0 (N - 1)) (repeat rho N) (repeat beta N) T.
Proof.
  intros H T beta. unfold coi_osr in H. destruct (Req_bool_spec (2 * BW * OSR) 0) as [Z|Z]; [discriminate|]. fold T in H.
  destruct (Nat.eq_dec N 0) as [->|HN]; [rewrite coi_empty in H; discriminate|].
  assert (Eb : 1 / (2 * T) = beta) by (unfold T, beta; field; split; intros E; apply Z; rewrite E; ring). rewrite Eb in H.
  assert (Hb : beta <> 0) by (unfold beta; intros E; apply Z; lra).
  destruct (coi_eye' beta rho beta N ltac:(lia) Hb) as (S' & ES & V & HS). rewrite ES in H. cbn [bind] in H.
  apply bind_ok in H as (clk & Ec & H). apply bind_ok in H as ([d' h1] & Ed & H). apply Ok_inj in H. inversion H; subst S' d' h1; clear H.
  destruct (default_clock_inv T clk Ec) as (HT & ET & Htt).
  destruct (frontend_default _ _ _ _ _ Ed Htt) as (P & W & C & _).
  split; [lia|]. split; [exact HT|]. split.
  - assert (0 < 2 * beta); [|lra]. replace (2 * beta) with (/ T). 2:{ unfold T, beta. field. split; intros E; apply Z; rewrite E; ring. }
    apply Rinv_0_lt_compat. lra.
  - unfold default_frontend. rewrite !repeat_length. rewrite C. auto 10.
Qed.

(** the integrator gain of an ENOB specification *)
Definition coi_gamma (xi ENOB : R) (N : nat) : R := ppow (xi / coi_gi N * snr_from_dB (enob_to_snr ENOB)) (1 / (2 * INR N)).
Lemma coi_gamma_spec xi ENOB N : (1 <= N)%nat -> 0 < xi -> 0 < coi_gamma xi ENOB N /\
  coi_gamma xi ENOB N ^ (2 * N) * (2 * INR N + 1) = xi * (3 / 2 * exp (ENOB * ln 4)).
Proof.
  intros HN Hx. split; [apply ppow_pos|]. unfold coi_gamma, coi_gi.
  assert (P : 0 < INR N) by (apply lt_0_INR; lia). replace (2 * INR N) with (INR (2 * N)) at 2 by (rewrite mult_INR; reflexivity).
  rewrite snr_of_enob. assert (0 < exp (ENOB * ln 4)) by apply exp_pos.
  rewrite ppow_root; [field; lra| |lia]. apply Rmult_lt_0_compat; [apply Rdiv_lt_0_compat; lra|lra].
Qed.
Lemma pow_pos_inj x y n : 0 < x -> 0 < y -> (1 <= n)%nat -> x ^ n = y ^ n -> x = y.
Proof.
  intros Hx Hy Hn E. apply ln_inv; auto. apply (f_equal ln) in E. rewrite !ln_pow in E by assumption.
  apply Rmult_eq_reg_l in E; [exact E|]. assert (0 < INR n) by (apply lt_0_INR; lia). lra.
Qed.

Definition shift_diag (S : asys Rring) (c : R) : asys Rring :=
  mkAS (mk2 (K := Rring) (rows (aA S)) (cols (aA S)) (fun i j => ent (aA S) i j + (if Nat.eqb i j then c else 0)))
    (aB S) (aCT S) (aG S) (aGt S) (aD S) (aBt S) (aAt S).

Lemma step_responses h clk N t0 r : r = WStep t0 1 \/ (exists tau, r = WRC tau t0 1) ->
  (0 <= t0 <= ck_T clk -> dc_init h clk N (Some (repeat r N)) 0 None =
     Ok (mkDC clk N (repeat r N) 0 (repeat 0 N) KBin (length h) (length h + 1) (length h + 2), h ++ repeat (mkArr false (repeat 0 N)) 3)) /\
  ((1 <= N)%nat -> ~ (0 <= t0 <= ck_T clk) -> forall v, dc_init h clk N (Some (repeat r N)) 0 None <> Ok v).
Proof.
  intros Hr. assert (E0 : w_t0 r = t0) by (destruct Hr as [-> | (tau & ->)]; reflexivity).
  split.
  - intros Ht. assert (X : exists d h', dc_init h clk N (Some (repeat r N)) 0 None = Ok (d, h')).
    { apply dc_init_iff. split; [lra|]. split; [discriminate|]. intros l El. inversion El; subst l. rewrite repeat_length. split; [reflexivity|]. split.
      - intros w Hw. apply repeat_spec in Hw. subst w. now rewrite E0.
      - intros i Hi. rewrite !nth_repeat_lt by lia. lra. }
    destruct X as (d & h' & E). rewrite E. unfold dc_init in E. rewrite Rlt_bool_false in E by lra.
    apply bind_ok in E as (l & El & E). unfold init_resp in El. destruct (negb _); [discriminate|]. destruct (_ && _); [|discriminate].
    apply Ok_inj in El. subst l. symmetry. exact E.
  - intros HN Ht [d h'] E. apply Ht. rewrite <- E0.
    destruct (proj1 (dc_init_iff h clk N (Some (repeat r N)) 0 None) (ex_intro _ d (ex_intro _ h' E))) as (_ & _ & H).
    destruct (H _ eq_refl) as (_ & H' & _). apply H'. destruct N; [lia|]. now left.
Qed.

Lemma map_repeat' (f : R -> R) x n : map f (repeat x n) = repeat (f x) n.
Proof. induction n; cbn; congruence. Qed.

Lemma coi_enob_inv k ENOB N BW h S d h' : coi_enob k ENOB N BW h = Ok (S, d, h') -> k_swcap k = false ->
  let xi := dflt (k_xi k) (23 / 10000) in
  let omega := 2 * PI * BW in
  let gamma := coi_gamma xi ENOB N in
  let beta := - (gamma * omega) in
  let rho := (if k_local k then - omega / gamma else dflt (k_rho k) 0) + (if k_fg k then - omega / gamma ^ (2 * N) else 0) in
  let T := 1 / (2 * Rabs beta) in
  (1 <= N)%nat /\ 0 < xi /\ BW <> 0 /\ 2 / 100000000000000 <= T /\ 0 <= dflt (k_excess k) 0 <= 1 /\
  default_frontend S d h' (repeat beta N) (repeat 0 (N - 1)) (repeat rho N) (repeat beta N) T.
Proof.
  intros H Hsw xi omega gamma beta rho T. unfold coi_enob in H. rewrite Hsw in H. fold xi omega in H.
  destruct (Nat.eqb_spec N 0) as [|HN]; [discriminate|]. destruct (Rle_bool_spec (xi / coi_gi N * snr_from_dB (enob_to_snr ENOB)) 0) as [|Hp]; [discriminate|].
  change (ppow (xi / coi_gi N * snr_from_dB (enob_to_snr ENOB)) (1 / (2 * INR N))) with gamma in H.
  assert (Eb : - gamma * omega = beta) by (unfold beta; ring). rewrite Eb in H.
  destruct (Req_bool_spec (Rabs (2 * beta)) 0) as [|Hz]; [discriminate|].
  assert (ET : 1 / Rabs (2 * beta) = T) by (unfold T; rewrite Rabs_mult, (Rabs_pos_eq 2) by lra; reflexivity). rewrite ET in H.
  assert (Hb : beta <> 0) by (intros E; apply Hz; rewrite E, Rmult_0_r; apply Rabs_R0).
  set (rho0 := if k_local k then - omega / gamma else dflt (k_rho k) 0) in *.
  destruct (coi_eye' beta rho0 beta N ltac:(lia) Hb) as (S' & ES & V & HS). rewrite ES in H. cbn [bind] in H.
  apply bind_ok in H as ([[kk d1] h1] & E1 & H).
  apply bind_ok in E1 as (c1 & Ec & E1). apply bind_ok in E1 as ([d2 h2] & Ed & E1). apply bind_ok in E1 as (c2 & Ec2 & E1).
  apply bind_ok in E1 as ([d3 h3] & Ed3 & E1). apply Ok_inj in E1. inversion E1; subst kk d3 h3; clear E1.
  rewrite ES in H. cbn [bind] in H. apply Ok_inj in H.
  destruct (default_clock_inv T c1 Ec) as (HT & ET1 & _). destruct (default_clock_inv T c2 Ec2) as (_ & ET2 & Htt).
  destruct (frontend_default _ _ _ _ _ Ed3 Htt) as (P & W & C & _).
  assert (G0 : aG S' <> None).
  { destruct HS as (_ & _ & DM & _). unfold sM in DM. destruct (aG S'); [discriminate|]. intros _. unfold ncontrols in DM. cbn [diag0 rows cols] in DM. rewrite repeat_length in DM. destruct (Nat.eqb N 1); lia. }
  assert (G1 : aGt S' <> None).
  { destruct HS as (_ & _ & _ & DM & _). unfold sMt in DM. destruct (aGt S'); [discriminate|]. intros _. unfold ncontrols in DM. cbn [diag0 rows cols] in DM. rewrite repeat_length in DM. destruct (Nat.eqb N 1); lia. }
  split; [lia|]. split.
  { assert (Q : 0 < snr_from_dB (enob_to_snr ENOB)) by apply ppow_pos. assert (0 < coi_gi N) by (unfold coi_gi; assert (A := pos_INR N); lra).
    apply Rnot_le_lt. intros L. assert (xi / coi_gi N <= 0); [|nra]. unfold Rdiv. assert (0 < / coi_gi N) by now apply Rinv_0_lt_compat. nra. }
  split; [intros E; apply Hb; unfold beta, omega; rewrite E; ring|]. split; [exact HT|]. split.
  { destruct (Rle_dec 0 (dflt (k_excess k) 0)) as [A|A]; [destruct (Rle_dec (dflt (k_excess k) 0) 1) as [B|B]; [lra|]|]; exfalso;
    (refine (proj2 (step_responses h c1 N (T * dflt (k_excess k) 0) (WStep (T * dflt (k_excess k) 0) 1) (or_introl eq_refl)) ltac:(lia) _ _ Ed); rewrite ET1; nra). }
  unfold default_frontend. rewrite !repeat_length.
  destruct (add_diagonal S' (repeat beta N) (repeat 0 (N - 1)) (repeat rho0 N) (diag0 (repeat beta N)) (- omega / gamma ^ (2 * N)) V G0 G1 HS) as (V2 & H2); [now rewrite !repeat_length|].
  inversion H as [[HS' Hd Hh]]. subst d1 h1. clear H.
  split; [destruct (k_fg k); [exact V2|exact V]|]. split; [|rewrite C; auto].
  unfold rho. destruct (k_fg k).
  - rewrite map_repeat' in H2. exact H2.
  - rewrite Rplus_0_r. exact HS.
Qed.

(** every frontend returned with the default control *)
Lemma get_coi_inv k h S d h' : get_coi k h = Ok (S, d, h') -> k_swcap k = false ->
  exists N beta rho T, k_N k = Some N /\ (1 <= N)%nat /\ 0 < T /\ 2 * T * Rabs beta = 1 /\
    (dflt (k_rho k) 0 <= 0 -> (forall BW, k_BW k = Some BW -> 0 <= BW) -> rho <= 0) /\
    default_frontend S d h' (repeat beta N) (repeat 0 (N - 1)) (repeat rho N) (repeat beta N) T.
Proof.
  intros H Hsw. unfold get_coi in H. destruct (k_N k) as [N|]; [|discriminate].
  assert (OS : forall o BW, coi_osr o N BW (dflt (k_rho k) 0) h = Ok (S, d, h') ->
    exists N0 beta rho T, Some N = Some N0 /\ (1 <= N0)%nat /\ 0 < T /\ 2 * T * Rabs beta = 1 /\
    (dflt (k_rho k) 0 <= 0 -> (forall BW, k_BW k = Some BW -> 0 <= BW) -> rho <= 0) /\
    default_frontend S d h' (repeat beta N0) (repeat 0 (N0 - 1)) (repeat rho N0) (repeat beta N0) T).
  { intros o BW E. destruct (coi_osr_inv _ _ _ _ _ _ _ _ E) as (HN & HT & Hb & HF).
    exists N, (BW * o), (dflt (k_rho k) 0), (1 / (2 * BW * o)). split; [reflexivity|]. split; [exact HN|]. split; [lra|]. split; [|auto].
    rewrite Rabs_pos_eq by lra. field. split; intros Z; rewrite Z in Hb; lra. }
  assert (EN : forall e BW, k_BW k = Some BW -> coi_enob k e N BW h = Ok (S, d, h') ->
    exists N0 beta rho T, Some N = Some N0 /\ (1 <= N0)%nat /\ 0 < T /\ 2 * T * Rabs beta = 1 /\
    (dflt (k_rho k) 0 <= 0 -> (forall BW, k_BW k = Some BW -> 0 <= BW) -> rho <= 0) /\
    default_frontend S d h' (repeat beta N0) (repeat 0 (N0 - 1)) (repeat rho N0) (repeat beta N0) T).
  { intros e BW EBW E. destruct (coi_enob_inv _ _ _ _ _ _ _ _ E Hsw) as (HN & Hxi & HB & HT & _ & HF).
    destruct (coi_gamma_spec (dflt (k_xi k) (23 / 10000)) e N HN Hxi) as [Hg _].
    set (g := coi_gamma (dflt (k_xi k) (23 / 10000)) e N) in *. set (b := - (g * (2 * PI * BW))) in *.
    assert (HPI := PI_RGT_0).
    assert (Hb : b <> 0). { unfold b. intros Z. assert (g * (2 * PI * BW) = 0) by lra. apply Rmult_integral in H0 as [|]; [lra|]. apply Rmult_integral in H0 as [|]; lra. }
    assert (HA : 0 < Rabs b) by now apply Rabs_pos_lt.
    eexists N, b, _, _. split; [reflexivity|]. split; [exact HN|]. split; [|split; [|split; [|exact HF]]].
    - lra.
    - field. lra.
    - intros Hr HBW. assert (BWp := HBW BW EBW). assert (Hgp : 0 < g ^ (2 * N)) by now apply pow_lt.
      assert (Hdiv : forall q, 0 < q -> - (2 * PI * BW) / q <= 0).
      { intros q Hq. unfold Rdiv. assert (0 < / q) by now apply Rinv_0_lt_compat. assert (0 <= 2 * PI * BW) by nra. nra. }
      assert (A := Hdiv g Hg). assert (B := Hdiv _ Hgp).
      destruct (k_local k), (k_fg k); lra. }
  destruct (k_BW k) as [BW|] eqn:EBW.
  - destruct (k_ENOB k) as [e|]; [eapply EN; [reflexivity|exact H]|]. destruct (k_SNR k) as [s|]; [eapply EN; [reflexivity|exact H]|].
    destruct (k_OSR k) as [o|]; [|discriminate]. eapply OS; exact H.
  - destruct (k_OSR k) as [o|]; [|discriminate]. destruct (k_T k) as [T|]; [|discriminate].
    destruct (Req_bool (2 * T * o) 0); [discriminate|]. eapply OS; exact H.
Qed.

(** the closed loop of every such frontend *)
Lemma coi_closed_loop k h S d h' ivp s0 (u : R -> R) : get_coi k h = Ok (S, d, h') -> k_swcap k = false ->
  dflt (k_rho k) 0 <= 0 -> (forall BW, k_BW k = Some BW -> 0 <= BW) ->
  base_init S d h' 1 None = Ok s0 -> (forall t, 0 <= t -> Rabs (u t) <= 1) ->
  (forall i s, full_run ivp S [u] i s0 = Ok s -> answers_exactly ivp S [u] s) ->
  exists N, k_N k = Some N /\ sN S = N /\ forall i, exists s, full_run ivp S [u] i s0 = Ok s /\ s_t s = INR i * ck_T (d_clk d) /\
    length (s_x s) = N /\ bounded N (s_x s) /\
    exists h, observe_update S (inputs_at S [u] (0 + s_t s)) s = Ok h /\
    forall y, solves (full_rhs S [u] s h) 0 (ck_T (d_clk d)) (s_x s) y -> forall t, 0 <= t <= ck_T (d_clk d) -> bounded N (y t).
Proof.
  intros H Hsw Hr HB Hi Hu Hex. destruct (get_coi_inv _ _ _ _ _ H Hsw) as (N & beta & rho & T & EN & HN & HT & HTb & Hrho & HF).
  specialize (Hrho Hr HB). destruct HF as (V & HS & Lk & HP & HW & ET). rewrite repeat_length in *.
  assert (HsN : sN S = N) by (destruct HS as (D & _); now rewrite D, repeat_length).
  assert (Hi' : s0 = mkSim 0 (repeat 0 N) d h').
  { unfold base_init in Hi. destruct HS as (_ & DL & _). rewrite DL in Hi. cbn in Hi. apply Ok_inj in Hi. now rewrite <- Hi, HsN. }
  exists N. split; [exact EN|]. split; [exact HsN|]. intros i.
  assert (HA := Rabs_pos beta).
  assert (Hb : beta <> 0) by (intros Z; rewrite Z, Rabs_R0 in HTb; lra).
  destruct (loop_run ivp S (repeat beta N) (repeat rho N) (diag0 (repeat beta N)) (repeat beta N) d s0 u) with (i := i) as (s & Es & _ & _ & Et & L & B & HH);
    rewrite ?repeat_length; auto.
  - apply diag0_diagonal.
  - unfold stabilising. rewrite !repeat_length. do 3 (split; [auto|]). split; [lra|]. intros n Hn. rewrite !nth_repeat_lt by exact Hn. rewrite ET.
    split; [exact Hrho|]. split; [exact Hb|]. split; [lra|]. lra.
  - now rewrite Hi'.
  - now rewrite Hi'.
  - rewrite Hi'. cbn [s_t]. lra.
  - rewrite Hi'. cbn [s_x]. now rewrite repeat_length.
  - rewrite Hi'. cbn [s_x]. intros n Hn. rewrite nth_repeat, Rabs_R0. lra.
  - rewrite repeat_length in *. exists s. split; [exact Es|]. split; [rewrite Et, Hi'; cbn [s_t]; lra|]. split; [exact L|]. split; [exact B|]. exact HH.
Qed.

(** *** Acceptance *)
Lemma coi_osr_iff OSR N BW rho h : (exists v, coi_osr OSR N BW rho h = Ok v) <-> (1 <= N)%nat /\ BW * OSR <> 0 /\ 2 / 100000000000000 <= 1 / (2 * BW * OSR).
Proof.
  split.
  - intros ([[S d] h'] & E). destruct (coi_osr_inv _ _ _ _ _ _ _ _ E) as (A & B & C & _). split; [exact A|]. split; [lra|exact B].
  - intros (HN & Hz & HT). unfold coi_osr. destruct (Req_bool_spec (2 * BW * OSR) 0) as [Z|Z]; [exfalso; apply Hz; lra|].
    set (T := 1 / (2 * BW * OSR)) in *. assert (Hb : 1 / (2 * T) <> 0). { apply Rgt_not_eq. unfold Rdiv. rewrite Rmult_1_l. apply Rinv_0_lt_compat. lra. }
    destruct (coi_eye' (1 / (2 * T)) rho (1 / (2 * T)) N HN Hb) as (S & ES & _). rewrite ES. cbn [bind]. rewrite default_clock_ok by exact HT. cbn [bind].
    unfold dc_init. rewrite Rlt_bool_false by lra. cbn [init_resp bind]. eauto.
Qed.

Lemma coi_enob_accepts k ENOB N BW h : (1 <= N)%nat -> 0 < dflt (k_xi k) (23 / 10000) -> BW <> 0 ->
  2 / 100000000000000 <= 1 / (2 * Rabs (coi_gamma (dflt (k_xi k) (23 / 10000)) ENOB N * (2 * PI * BW))) ->
  0 <= dflt (k_excess k) 0 <= 1 -> exists v, coi_enob k ENOB N BW h = Ok v.
Proof.
  intros HN Hxi HB HT He. set (xi := dflt (k_xi k) (23 / 10000)) in *. destruct (coi_gamma_spec xi ENOB N HN Hxi) as [Hg _].
  unfold coi_enob. fold xi. destruct (Nat.eqb_spec N 0) as [|_]; [lia|].
  assert (Hp : 0 < xi / coi_gi N * snr_from_dB (enob_to_snr ENOB)).
  { apply Rmult_lt_0_compat; [|apply ppow_pos]. apply Rdiv_lt_0_compat; [exact Hxi|]. unfold coi_gi. assert (A := pos_INR N). lra. }
  rewrite Rle_bool_false by exact Hp. change (ppow (xi / coi_gi N * snr_from_dB (enob_to_snr ENOB)) (1 / (2 * INR N))) with (coi_gamma xi ENOB N).
  set (g := coi_gamma xi ENOB N) in *. set (b := - g * (2 * PI * BW)).
  assert (HPI := PI_RGT_0).
  assert (Hb : b <> 0). { unfold b. intros Z. apply Rmult_integral in Z as [|Z]; [lra|]. apply Rmult_integral in Z as [|]; lra. }
  destruct (Req_bool_spec (Rabs (2 * b)) 0) as [Z|_]; [exfalso; apply (Rabs_no_R0 (2 * b)); [lra|exact Z]|].
  assert (ET : 1 / Rabs (2 * b) = 1 / (2 * Rabs (g * (2 * PI * BW)))).
  { rewrite Rabs_mult, (Rabs_pos_eq 2) by lra. unfold b. replace (- g * (2 * PI * BW)) with (- (g * (2 * PI * BW))) by ring. now rewrite Rabs_Ropp. }
  rewrite ET. set (T := 1 / (2 * Rabs (g * (2 * PI * BW)))) in *.
  set (rho0 := if k_local k then _ else _).
  destruct (coi_eye' b rho0 b N HN Hb) as (S & ES & _). rewrite ES. cbn [bind].
  destruct (k_swcap k).
  - rewrite default_clock_ok by exact HT. cbn [bind].
    rewrite (proj1 (step_responses h _ N (T * dflt (k_excess k) 0) (WRC (1 / (Rabs b * 50)) (T * dflt (k_excess k) 0) 1) (or_intror (ex_intro _ _ eq_refl)))) by (cbn [ck_T]; nra).
    cbn [bind]. destruct (coi_eye' b rho0 (1 / 2 * b * 50) N HN ltac:(lra)) as (S2 & ES2 & _). rewrite ES2. cbn [bind]. eauto.
  - rewrite default_clock_ok by exact HT. cbn [bind].
    rewrite (proj1 (step_responses h _ N (T * dflt (k_excess k) 0) (WStep (T * dflt (k_excess k) 0) 1) (or_introl eq_refl))) by (cbn [ck_T]; nra).
    cbn [bind]. unfold dc_init. rewrite Rlt_bool_false by lra. cbn [init_resp bind]. rewrite ES. cbn [bind]. eauto.
Qed.

(** the switched-capacitor control *)
Lemma coi_enob_swcap k ENOB N BW h S d h' : coi_enob k ENOB N BW h = Ok (S, d, h') -> k_swcap k = true -> k_fg k = false ->
  let omega := 2 * PI * BW in
  let gamma := coi_gamma (dflt (k_xi k) (23 / 10000)) ENOB N in
  let beta := - (gamma * omega) in
  let rho := if k_local k then - omega / gamma else dflt (k_rho k) 0 in
  let T := 1 / (2 * Rabs beta) in
  valid S /\ integrator_system S (repeat beta N) (repeat 0 (N - 1)) (repeat rho N) (diag0 (repeat (25 * beta) N)) /\
  beta <> 0 /\ wf d h' /\ d_M d = N /\ ck_T (d_clk d) = T /\ d_tdelay d = 0 /\ d_kind d = KBin /\
  d_resp d = repeat (WRC (1 / (50 * Rabs beta)) (T * dflt (k_excess k) 0) 1) N.
Proof.
  intros H Hsw Hfg omega gamma beta rho T. unfold coi_enob in H. rewrite Hsw, Hfg in H. fold omega in H. set (xi := dflt (k_xi k) (23 / 10000)) in *.
  destruct (Nat.eqb_spec N 0) as [|HN]; [discriminate|]. destruct (Rle_bool (xi / coi_gi N * snr_from_dB (enob_to_snr ENOB)) 0); [discriminate|].
  change (ppow (xi / coi_gi N * snr_from_dB (enob_to_snr ENOB)) (1 / (2 * INR N))) with gamma in H.
  assert (Eb : - gamma * omega = beta) by (unfold beta; ring). rewrite Eb in H.
  destruct (Req_bool_spec (Rabs (2 * beta)) 0) as [|Hz]; [discriminate|].
  assert (ET : 1 / Rabs (2 * beta) = T) by (unfold T; rewrite Rabs_mult, (Rabs_pos_eq 2) by lra; reflexivity). rewrite ET in H.
  assert (Hb : beta <> 0) by (intros E; apply Hz; rewrite E, Rmult_0_r; apply Rabs_R0).
  fold rho in H. destruct (coi_eye' beta rho beta N ltac:(lia) Hb) as (S' & ES & _). rewrite ES in H. cbn [bind] in H.
  apply bind_ok in H as ([[kk d1] h1] & E1 & H).
  apply bind_ok in E1 as (c1 & Ec & E1). apply bind_ok in E1 as ([d2 h2] & Ed & E1). apply Ok_inj in E1. inversion E1; subst kk d2 h2; clear E1.
  replace (1 / 2 * beta * 50) with (25 * beta) in H by field.
  destruct (coi_eye' beta rho (25 * beta) N ltac:(lia) ltac:(lra)) as (S2 & ES2 & V & HS). rewrite ES2 in H. cbn [bind] in H. apply Ok_inj in H. inversion H; subst S2 d1 h1; clear H.
  destruct (default_clock_inv T c1 Ec) as (_ & ET1 & _).
  destruct (dc_init_ok _ _ _ _ _ _ _ _ Ed) as (W & HM & Hc & Htd & Hk & Hr & _).
  split; [exact V|]. split; [exact HS|]. split; [exact Hb|]. split; [exact W|]. split; [exact HM|]. rewrite Hc. split; [exact ET1|]. split; [exact Htd|]. split; [exact Hk|].
  rewrite Hr. now rewrite (Rmult_comm (Rabs beta) 50).
Qed.

(** the excess delay *)
Definition with_excess (k : kwargs) (e : option R) : kwargs :=
  mkKw (k_ENOB k) (k_SNR k) (k_OSR k) (k_N k) (k_BW k) (k_T k) (k_xi k) (k_delta k) (k_rho k) (k_local k) e (k_swcap k) (k_fg k).

Lemma coi_enob_excess k e e' ENOB N BW h : k_swcap k = false -> 0 <= dflt e 0 <= 1 -> 0 <= dflt e' 0 <= 1 ->
  coi_enob (with_excess k e) ENOB N BW h = coi_enob (with_excess k e') ENOB N BW h.
Proof.
  intros Hsw He He'. unfold coi_enob. cbn [with_excess k_xi k_local k_rho k_excess k_swcap k_fg]. rewrite Hsw.
  destruct (Nat.eqb N 0); [reflexivity|]. destruct (Rle_bool _ 0); [reflexivity|].
  set (g := ppow _ _). set (b := - g * _). destruct (Req_bool_spec (Rabs (2 * b)) 0) as [|Hz]; [reflexivity|].
  set (T := 1 / Rabs (2 * b)). set (rho := if k_local k then _ else _). destruct (coi_init _ _ _) as [S|]; [|reflexivity]. cbn [bind].
  destruct (default_clock T) as [clk|] eqn:Ec; [|reflexivity]. cbn [bind].
  destruct (default_clock_inv T clk Ec) as (HT & ET & _).
  rewrite (proj1 (step_responses h clk N (T * dflt e 0) _ (or_introl eq_refl))) by (rewrite ET; nra).
  rewrite (proj1 (step_responses h clk N (T * dflt e' 0) _ (or_introl eq_refl))) by (rewrite ET; nra). reflexivity.
Qed.
Lemma get_coi_excess k e e' h : k_swcap k = false -> 0 <= dflt e 0 <= 1 -> 0 <= dflt e' 0 <= 1 ->
  get_coi (with_excess k e) h = get_coi (with_excess k e') h.
Proof.
  intros Hsw He He'. unfold get_coi. cbn [with_excess k_N k_BW k_ENOB k_SNR k_OSR k_T k_rho].
  destruct (k_N k); [|reflexivity]. destruct (k_BW k); [|reflexivity]. destruct (k_ENOB k); [now apply coi_enob_excess|].
  destruct (k_SNR k); [now apply coi_enob_excess|]. reflexivity.
Qed.

(** *** Leap-frog *)
Lemma lf_build_inv N beta alpha kappa delta T h S d h' : lf_build N beta alpha 0 kappa delta T h = Ok (S, d, h') -> kappa <> 0 -> delta <> 0 ->
  (1 <= N)%nat /\ 2 / 100000000000000 <= T /\
  default_frontend S d h' (repeat beta N) (repeat alpha (N - 1)) (repeat 0 N) (map (fun n => kappa * delta ^ n) (seq 0 N)) T.
Proof.
  intros H Hk Hd. unfold lf_build in H. destruct (Nat.eqb_spec N 0) as [|HN]; [discriminate|].
  set (kap := map (fun n => kappa * delta ^ n) (seq 0 N)) in *. assert (Lk : length kap = N) by (unfold kap; now rewrite map_length, seq_length).
  destruct (lf_init_ok (repeat beta N) (repeat alpha (N - 1)) (repeat 0 N) (diag0 kap)) as (S' & ES & V & HS); rewrite ?repeat_length; cbn [diag0 rows cols]; auto; [lia| |].
  { intros m Hm. destruct (diag0_diagonal kap) as [A B]. rewrite A, Lk in Hm. exists m. split; [exact Hm|]. rewrite B, Nat.eqb_refl by lia.
    unfold kap. rewrite nth_seq_R by exact Hm. apply Rmult_integral_contrapositive_currified; [exact Hk|]. now apply pow_nonzero. }
  rewrite ES in H. cbn [bind] in H. apply bind_ok in H as (clk & Ec & H). apply bind_ok in H as ([d' h1] & Ed & H). apply Ok_inj in H. inversion H; subst S' d' h1; clear H.
  destruct (default_clock_inv T clk Ec) as (HT & ET & Htt). destruct (frontend_default _ _ _ _ _ Ed Htt) as (P & W & C & _).
  split; [lia|]. split; [exact HT|]. unfold default_frontend. rewrite !repeat_length, C. auto 10.
Qed.
Lemma lf_build_accepts N beta alpha kappa delta T h : (1 <= N)%nat -> 2 / 100000000000000 <= T -> kappa <> 0 -> delta <> 0 -> exists v, lf_build N beta alpha 0 kappa delta T h = Ok v.
Proof.
  intros HN HT Hk Hd. unfold lf_build. destruct (Nat.eqb_spec N 0) as [|_]; [lia|].
  set (kap := map (fun n => kappa * delta ^ n) (seq 0 N)) in *. assert (Lk : length kap = N) by (unfold kap; now rewrite map_length, seq_length).
  destruct (lf_init_ok (repeat beta N) (repeat alpha (N - 1)) (repeat 0 N) (diag0 kap)) as (S' & ES & _); rewrite ?repeat_length; cbn [diag0 rows cols]; auto.
  { intros m Hm. destruct (diag0_diagonal kap) as [A B]. rewrite A, Lk in Hm. exists m. split; [exact Hm|]. rewrite B, Nat.eqb_refl by lia.
    unfold kap. rewrite nth_seq_R by exact Hm. apply Rmult_integral_contrapositive_currified; [exact Hk|]. now apply pow_nonzero. }
  rewrite ES. cbn [bind]. rewrite default_clock_ok by exact HT. cbn [bind]. unfold dc_init. rewrite Rlt_bool_false by lra. cbn [init_resp bind]. eauto.
Qed.

(** the relations between the parameters of every leap-frog frontend, for bandwidth [BW] and distribution [delta] *)
Definition lf_relations (BW delta beta alpha T : R) : Prop :=
  0 < T /\ beta <> 0 /\ 2 * T * Rabs beta = Rabs delta /\ alpha * beta = - (PI * BW) ^ 2.

Lemma lf_osr_inv k OSR N BW h S d h' : lf_osr k OSR N BW h = Ok (S, d, h') ->
  let delta := dflt (k_delta k) 1 in let beta := delta * (OSR * BW) in let alpha := - (PI * BW) ^ 2 / beta in let T := 1 / (2 * OSR * BW) in
  (1 <= N)%nat /\ 2 / 100000000000000 <= T /\ delta <> 0 /\ 0 < OSR * BW /\ lf_relations BW delta beta alpha T /\
  default_frontend S d h' (repeat beta N) (repeat alpha (N - 1)) (repeat 0 N) (map (fun n => beta * delta ^ n) (seq 0 N)) T.
Proof.
  intros H delta beta alpha T. unfold lf_osr in H. destruct (Req_bool_spec (2 * OSR * BW) 0) as [|Z]; [discriminate|]. fold delta T in H.
  assert (HPI := PI_RGT_0).
  assert (Eb : delta * OSR / (2 * PI) * (2 * PI * BW) = beta) by (unfold beta; field; lra). rewrite Eb in H.
  destruct (Req_bool_spec beta 0) as [|Zb]; [discriminate|].
  assert (Ea : - (2 * PI * BW / 2) ^ 2 / beta = alpha) by (unfold alpha; f_equal; field). rewrite Ea in H.
  assert (Hd : delta <> 0) by (intros E; apply Zb; unfold beta; rewrite E; ring).
  destruct (lf_build_inv _ _ _ _ _ _ _ _ _ _ H Zb Hd) as (HN & HT & HF).
  assert (Hob : 0 < OSR * BW). { assert (0 < 2 * OSR * BW); [|lra]. apply Rinv_0_lt_compat in HT as HT' || idtac. assert (Q : 0 < T) by lra. unfold T in Q. apply Rinv_0_lt_compat in Q. unfold Rdiv in Q. rewrite Rmult_1_l, Rinv_inv in Q. exact Q. }
  split; [exact HN|]. split; [exact HT|]. split; [exact Hd|]. split; [exact Hob|]. split; [|exact HF].
  split; [lra|]. split; [exact Zb|]. split.
  - unfold beta. rewrite Rabs_mult, (Rabs_pos_eq (OSR * BW)) by lra. unfold T. field. split; intros E; rewrite E in Hob; lra.
  - unfold alpha. field. exact Zb.
Qed.

Definition lf_gamma (gi : nat -> R) (xi ENOB : R) (N : nat) : R := ppow (xi / gi N * snr_from_dB (enob_to_snr ENOB)) (1 / (2 * INR N)).
Lemma lf_gamma_spec gi xi ENOB N : (1 <= N)%nat -> 0 < xi / gi N -> 0 < lf_gamma gi xi ENOB N /\
  lf_gamma gi xi ENOB N ^ (2 * N) = xi / gi N * (3 / 2 * exp (ENOB * ln 4)).
Proof.
  intros HN Hx. split; [apply ppow_pos|]. unfold lf_gamma. replace (2 * INR N) with (INR (2 * N)) by (rewrite mult_INR; reflexivity).
  rewrite snr_of_enob. assert (0 < exp (ENOB * ln 4)) by apply exp_pos. apply ppow_root; [|lia]. apply Rmult_lt_0_compat; lra.
Qed.

Lemma lf_enob_inv gi k ENOB N BW h S d h' : lf_enob gi k ENOB N BW h = Ok (S, d, h') ->
  let delta := dflt (k_delta k) 1 in let xi := dflt (k_xi k) (4 / 1000) in let gamma := lf_gamma gi xi ENOB N in
  let beta := - (2 * PI * BW * gamma * delta) in let alpha := PI * BW / (2 * gamma * delta) in let T := 1 / (4 * PI * Rabs BW * gamma) in
  (1 <= N)%nat /\ 2 / 100000000000000 <= T /\ delta <> 0 /\ BW <> 0 /\ 0 < xi / gi N /\ lf_relations BW delta beta alpha T /\
  default_frontend S d h' (repeat beta N) (repeat alpha (N - 1)) (repeat 0 N) (map (fun n => beta * delta ^ n) (seq 0 N)) T.
Proof.
  intros H delta xi gamma beta alpha T. unfold lf_enob in H. fold delta xi in H. assert (HPI := PI_RGT_0).
  destruct (Nat.eqb_spec N 0) as [|HN]; [discriminate|]. destruct (Req_bool_spec (gi N) 0) as [|Hg0]; [discriminate|].
  destruct (Rle_bool_spec (xi / gi N * snr_from_dB (enob_to_snr ENOB)) 0) as [|Hp]; [discriminate|].
  change (ppow (xi / gi N * snr_from_dB (enob_to_snr ENOB)) (1 / (2 * INR N))) with gamma in H.
  assert (Hg : 0 < gamma) by apply ppow_pos.
  destruct (Req_bool_spec (2 * (gamma * delta)) 0) as [|Hgd]; [discriminate|].
  destruct (Req_bool_spec delta 0) as [|Hd]; [discriminate|]. cbn [orb] in H.
  assert (EX : 2 * (2 * PI * BW) * (gamma * delta) / delta = 4 * PI * BW * gamma) by (field; exact Hd). rewrite EX in H.
  destruct (Req_bool_spec (Rabs (4 * PI * BW * gamma)) 0) as [|Hz]; [discriminate|].
  assert (EA : Rabs (4 * PI * BW * gamma) = 4 * PI * Rabs BW * gamma).
  { rewrite !Rabs_mult. rewrite (Rabs_pos_eq 4), (Rabs_pos_eq PI), (Rabs_pos_eq gamma) by lra. reflexivity. }
  rewrite EA in H. fold T in H.
  assert (HB : BW <> 0) by (intros E; apply Hz; rewrite E; replace (4 * PI * 0 * gamma) with 0 by ring; apply Rabs_R0).
  assert (Eb : - (2 * PI * BW / 2) * (2 * (gamma * delta)) = beta) by (unfold beta; field). rewrite Eb in H.
  assert (Ea : 2 * PI * BW / 2 / (2 * (gamma * delta)) = alpha) by (unfold alpha; field; split; lra). rewrite Ea in H.
  assert (Zb : beta <> 0).
  { unfold beta. apply Ropp_neq_0_compat. do 4 (apply Rmult_integral_contrapositive_currified; [|assumption || (apply Rgt_not_eq; lra)]). apply Rgt_not_eq; lra. }
  destruct (lf_build_inv _ _ _ _ _ _ _ _ _ _ H Zb Hd) as (HN' & HT & HF).
  split; [exact HN'|]. split; [exact HT|]. split; [exact Hd|]. split; [exact HB|].
  assert (HAB : 0 < Rabs BW) by now apply Rabs_pos_lt.
  split.
  { assert (Q : 0 < snr_from_dB (enob_to_snr ENOB)) by apply ppow_pos. apply Rnot_le_lt. intros L. nra. }
  split; [|exact HF]. split; [lra|]. split; [exact Zb|]. split.
  - unfold beta. rewrite Rabs_Ropp, !Rabs_mult. rewrite (Rabs_pos_eq 2), (Rabs_pos_eq PI), (Rabs_pos_eq gamma) by lra. unfold T. field. repeat split; lra.
  - unfold alpha, beta. field. split; lra.
Qed.

Lemma get_lf_inv gi k h S d h' : get_lf gi k h = Ok (S, d, h') ->
  exists N BW beta alpha T, k_N k = Some N /\ (1 <= N)%nat /\
    match k_BW k with Some b => BW = b | None => exists o T, k_OSR k = Some o /\ k_T k = Some T /\ 2 * BW * o * T = 1 end /\ BW <> 0 /\
    lf_relations BW (dflt (k_delta k) 1) beta alpha T /\ dflt (k_delta k) 1 <> 0 /\
    default_frontend S d h' (repeat beta N) (repeat alpha (N - 1)) (repeat 0 N) (map (fun n => beta * dflt (k_delta k) 1 ^ n) (seq 0 N)) T.
Proof.
  intros H. unfold get_lf in H. destruct (k_N k) as [N|]; [|discriminate].
  assert (OS : forall o BW, lf_osr k o N BW h = Ok (S, d, h') -> exists beta alpha T, (1 <= N)%nat /\ BW <> 0 /\ lf_relations BW (dflt (k_delta k) 1) beta alpha T /\ dflt (k_delta k) 1 <> 0 /\
    default_frontend S d h' (repeat beta N) (repeat alpha (N - 1)) (repeat 0 N) (map (fun n => beta * dflt (k_delta k) 1 ^ n) (seq 0 N)) T).
  { intros o BW E. destruct (lf_osr_inv _ _ _ _ _ _ _ _ E) as (A & _ & B & C & D & F). eexists _, _, _. split; [exact A|]. split; [intros Z; rewrite Z in C; lra|]. split; [exact D|]. split; [exact B|exact F]. }
  assert (EN : forall e BW, lf_enob gi k e N BW h = Ok (S, d, h') -> exists beta alpha T, (1 <= N)%nat /\ BW <> 0 /\ lf_relations BW (dflt (k_delta k) 1) beta alpha T /\ dflt (k_delta k) 1 <> 0 /\
    default_frontend S d h' (repeat beta N) (repeat alpha (N - 1)) (repeat 0 N) (map (fun n => beta * dflt (k_delta k) 1 ^ n) (seq 0 N)) T).
  { intros e BW E. destruct (lf_enob_inv _ _ _ _ _ _ _ _ _ E) as (A & _ & B & C & _ & D & F). eexists _, _, _. split; [exact A|]. split; [exact C|]. split; [exact D|]. split; [exact B|exact F]. }
  assert (X : exists BW, match k_BW k with Some b => BW = b | None => exists o T, k_OSR k = Some o /\ k_T k = Some T /\ 2 * BW * o * T = 1 end /\
     ((exists e, lf_enob gi k e N BW h = Ok (S, d, h')) \/ (exists o, lf_osr k o N BW h = Ok (S, d, h')))).
  { destruct (k_BW k) as [BW|].
    - exists BW. split; [reflexivity|]. destruct (k_ENOB k) as [e|]; [eauto|]. destruct (k_OSR k) as [o|]; [eauto|]. destruct (k_SNR k) as [s|]; [eauto|discriminate].
    - destruct (k_OSR k) as [o|]; [|discriminate]. destruct (k_T k) as [T|]; [|discriminate]. destruct (Req_bool_spec (2 * o * T) 0) as [|Z]; [discriminate|].
      exists (1 / (2 * o * T)). split.
      + exists o, T. split; [reflexivity|]. split; [reflexivity|]. field. split; intros E; apply Z; rewrite E; ring.
      + destruct (k_ENOB k); eauto. }
  destruct X as (BW & HB & [[e E]|[o E]]).
  - destruct (EN e BW E) as (beta & alpha & T & A). exists N, BW, beta, alpha, T. tauto.
  - destruct (OS o BW E) as (beta & alpha & T & A). exists N, BW, beta, alpha, T. tauto.
Qed.
