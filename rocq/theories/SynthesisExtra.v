(** Further facts about the synthesis functions, and an exact solver for one integrator. *)
From Coq Require Import List Arith Lia Bool Reals Lra.
From Flocq Require Import Core.
From Coquelicot Require Import Coquelicot.
From Verif Require Import Base LinAlg FirExtras AnalogSystem AnalogProofs Signals DigitalControl DigitalControlProofs Fom Integrators IntegratorsProofs Simulator Stability SynthesisProofs.
Import ListNotations.
Open Scope R_scope.

(** charge delivered by the switched-capacitor control over one period *)
Lemma swcap_charge beta (Hb : beta <> 0) : let tau := 1 / (50 * Rabs beta) in let T := 1 / (2 * Rabs beta) in
  (forall t, 0 <= t -> w_eval (WRC tau 0 1) t = Ok (exp (- t / tau))) /\
  is_RInt (fun t => 25 * beta * exp (- t / tau)) 0 T (beta * T * (1 - exp (- 25))).
Proof.
  intros tau T. assert (HA : 0 < Rabs beta) by now apply Rabs_pos_lt.
  assert (Ht : 0 < tau) by (unfold tau; apply Rdiv_lt_0_compat; lra). assert (HT : 0 < T) by (unfold T; apply Rdiv_lt_0_compat; lra).
  split.
  { intros t H. cbn [w_eval]. rewrite Rlt_bool_false by exact H. destruct (Req_bool_spec tau 0); [lra|]. rewrite Rmult_1_l. do 3 f_equal. ring. }
  set (F := fun t => - (25 * beta * tau) * exp (- t / tau)).
  replace (beta * T * (1 - exp (- 25))) with (minus (F T) (F 0)).
  - apply (is_RInt_derive F).
    + intros x _. unfold F. auto_derive; [trivial|]. unfold Rdiv. set (e := exp _). clearbody e tau. field. lra.
    + intros x _. apply (continuous_scal_r (25 * beta) (fun t => exp (- t / tau)) x). apply (continuous_comp (fun t => - t / tau) exp).
      * apply (ex_derive_continuous (fun t => - t / tau)). auto_derive. trivial.
      * apply continuous_exp.
  - unfold F, minus, plus, opp. cbn. replace (- T / tau) with (- 25) by (unfold T, tau; field; lra). replace (- 0 / tau) with 0 by (field; lra). rewrite exp_0.
    replace (25 * beta * tau) with (beta * T) by (unfold T, tau; field; lra). ring.
Qed.

(** *** The hypotheses of the stability theorem can be met: one integrator, constant input, forward Euler (exact here) *)
Definition euler (f : R -> list R -> result (list R)) (a b : R) (y : list R) : result (list R) :=
  match f b y with Ok v => Ok (map2 (fun x w => x + (b - a) * w) y v) | Exn e => Exn e end.

Lemma euler_exact S d h0 beta c : default_frontend S d h0 [beta] [] [0] [beta] (ck_T (d_clk d)) -> 0 <= ck_T (d_clk d) -> forall s0, s0 = mkSim 0 [0] d h0 ->
  forall i s, full_run euler S [fun _ => c] i s0 = Ok s -> answers_exactly euler S [fun _ => c] s.
Proof.
  intros (V & HS & _ & HP & HW & _) HT s0 E0. set (u := fun _ : R => c). cbn [length] in *.
  destruct (diag0_diagonal [beta]) as [Hnc Hge]. cbn [length] in Hnc.
  pose proof HS as (DN & DL & DM & _ & HD & _ & HO). cbn [length] in *. rewrite Hnc in *.
  assert (RHS : forall s h, s_d s = d -> wf d h -> forall t y, 0 <= t -> length y = 1%nat -> full_rhs S [u] s h t y = Ok [beta * c + beta * rd h (d_dec d) 0%nat]).
  { intros s h Ed W t y Ht Hy. unfold full_rhs. rewrite Ed. rewrite (plain_contribution d 1 h t HP W Ht). cbn [bind map seq].
    rewrite HD by (auto; reflexivity). cbn [map seq]. do 2 f_equal. rewrite rsum_S, rsum_0. rewrite Hge by (cbn; lia). cbn. unfold u. ring. }
  assert (OU : forall s, s_d s = d -> wf d (s_h s) -> length (s_x s) = 1%nat -> exists h, observe_update S (inputs_at S [u] (0 + s_t s)) s = Ok h /\ wf d h).
  { intros s Ed W L. unfold observe_update. rewrite Ed, (plain_contribution d 1 (s_h s) 0 HP W (Rle_refl 0)). cbn [bind inputs_at map].
    rewrite HO by (auto; reflexivity). cbn [bind]. set (st := map _ (seq 0 1)).
    destruct (plain_update d 1 (s_h s) st HP W) as (h & EU & W' & _); [unfold st; cbn; lia|]. rewrite EU. eauto. }
  assert (Inv : forall i s, full_run euler S [u] i s0 = Ok s -> s_d s = d /\ wf d (s_h s) /\ length (s_x s) = 1%nat).
  { induction i as [|i IH]; intros s E; cbn [full_run] in E.
    - apply Ok_inj in E. rewrite <- E, E0. cbn. auto.
    - apply bind_ok in E as (s1 & E1 & E). destruct (IH s1 E1) as (Ed & W & L). apply bind_ok in E as ([r s2] & E2 & E). apply Ok_inj in E. subst s2.
      unfold full_next in E2. apply bind_ok in E2 as (h & Eh & E2). apply bind_ok in E2 as (x & Ex & E2). apply Ok_inj in E2. inversion E2 as [[Er Es]].
      assert (Wh : wf d h).
      { destruct (OU s1 Ed W L) as (h2 & E3 & W2). rewrite E3 in Eh. apply Ok_inj in Eh. now subst h2. }
      cbn. rewrite Ed. split; [reflexivity|]. split; [exact Wh|]. unfold euler in Ex. rewrite (RHS s1 h Ed Wh) in Ex; [|rewrite Ed; exact HT|exact L].
      apply Ok_inj in Ex. rewrite <- Ex. destruct (s_x s1) as [|x1 [|]]; cbn in L; try lia. reflexivity. }
  intros i s E h Eh. destruct (Inv i s E) as (Ed & W & L). destruct (OU s Ed W L) as (h2 & E3 & W2). rewrite E3 in Eh. apply Ok_inj in Eh. subst h2.
  destruct (s_x s) as [|x1 [|]] eqn:Ex; cbn in L; try lia. set (v := beta * c + beta * rd h (d_dec d) 0%nat).
  exists (fun t => [x1 + t * v]). rewrite Ed. split.
  - split; [f_equal; ring|]. split; [reflexivity|]. split.
    + intros n t _. destruct n as [|n].
      * cbn [nth]. apply (continuity_pt_plus (fct_cte x1) (fun t => t * v)); [apply continuity_pt_const; now intros ? ?|].
        apply (continuity_pt_mult id (fct_cte v)); [apply derivable_continuous_pt, derivable_pt_id|apply continuity_pt_const; now intros ? ?].
      * cbn [nth]. apply continuity_pt_ext with (f := fct_cte 0); [intros; now destruct n|]. apply continuity_pt_const; now intros ? ?.
    + intros t Ht. exists [v]. split; [apply RHS; auto; lra|]. split; [reflexivity|]. intros n Hn. cbn in Hn. replace n with 0%nat by lia. cbn [nth].
      assert (X : derivable_pt_lim (fun s => x1 + s * v) t (0 + (1 * v + t * 0))); [|now replace (0 + (1 * v + t * 0)) with v in X by ring].
      apply (derivable_pt_lim_plus (fct_cte x1) (fun s => s * v)); [apply derivable_pt_lim_const|].
      apply (derivable_pt_lim_mult id (fct_cte v)); [apply derivable_pt_lim_id|apply derivable_pt_lim_const].
  - unfold euler. rewrite (RHS s h Ed W2) by (auto; reflexivity). cbn [map2]. fold v. do 2 f_equal. ring.
Qed.

(** *** Degenerate arguments of the constructors *)
Lemma gamma_tilde_zero (G : nd2 Rring) m : (1 <= rows G)%nat -> (m < cols G)%nat -> (forall n, (n < rows G)%nat -> ent G n m = 0) -> gamma_tilde G = Exn ArithmeticError.
Proof.
  intros HR Hm HZ. unfold gamma_tilde. cbn [cols rows]. destruct (Nat.eqb_spec (rows G) 0); [lia|]. cbn [negb andb].
  match goal with |- context [existsb ?f ?l] => assert (E : existsb f l = true) end; [|now rewrite E].
  apply existsb_exists. exists m. split; [apply in_seq; lia|]. rewrite rownorm_rsum. cbn [cols ent].
  rewrite rsum_zero.
  - rewrite sqrt_0. now apply Req_bool_true.
  - intros i Hi. rewrite HZ by exact Hi. cbv [car Rring]. ring.
Qed.
Lemma finish_zero (A : nd2 Rring) beta (k : nd2 Rring) m : (1 <= length beta)%nat -> rows k = length beta -> (m < ncontrols k)%nat ->
  (forall n, (n < length beta)%nat -> gain k n m = 0) -> finish_init A beta (D2 k) = Exn ArithmeticError.
Proof.
  intros HN Rk Hm HZ. destruct beta as [|b beta]; [cbn in HN; lia|]. unfold finish_init, first_input. cbn [bind].
  destruct (gamma_of_ok k) as (G & EG & RG & CG & HG). rewrite EG. cbn [bind].
  rewrite (gamma_tilde_zero G m); [reflexivity|lia|lia|]. intros n Hn. rewrite HG by lia. apply HZ. lia.
Qed.
Lemma coi_zero beta rho k m : (1 <= length beta)%nat -> length rho = length beta -> rows k = length beta -> (m < ncontrols k)%nat ->
  (forall n, (n < length beta)%nat -> gain k n m = 0) -> coi_init beta rho (D2 k) = Exn ArithmeticError.
Proof.
  intros HN Lr Rk Hm HZ. unfold coi_init. rewrite Lr, Nat.eqb_refl. cbn [bind]. destruct (coi_A_ok beta rho Lr HN) as (A & EA & _). rewrite EA. cbn [bind].
  now apply finish_zero with m.
Qed.
Lemma lf_zero beta alpha rho k m : (1 <= length beta)%nat -> length rho = length beta -> (length alpha = length beta - 1)%nat -> rows k = length beta -> (m < ncontrols k)%nat ->
  (forall n, (n < length beta)%nat -> gain k n m = 0) -> lf_init beta alpha rho (D2 k) = Exn ArithmeticError.
Proof.
  intros HN Lr La Rk Hm HZ. unfold lf_init. destruct (lf_A_ok beta alpha rho Lr HN La) as (A & EA & _).
  destruct (bcast_add (diagp1 alpha) (diagm1 (tl beta))) as [A1|]; [|discriminate]. cbn [bind] in EA |- *. rewrite EA. cbn [bind]. now apply finish_zero with m.
Qed.

(** a single [rho] is broadcast into every entry of A *)
Lemma coi_broadcast beta r k : (2 <= length beta)%nat -> rows k = length beta -> (1 <= cols k)%nat -> controls_act (length beta) k ->
  exists S, coi_init beta [r] (D2 k) = Ok S /\ rows (aA S) = length beta /\ cols (aA S) = length beta /\
    forall i j, (i < length beta)%nat -> (j < length beta)%nat -> ent (aA S) i j = r + (if Nat.eqb i (Datatypes.S j) then nth i beta 0 else 0).
Proof.
  intros HN Rk Ck Hk. unfold coi_init. destruct (Nat.eqb_spec (length beta) (length [r])) as [E|_]; [cbn in E; lia|].
  destruct (Nat.eqb_spec (cols k) 0); [lia|]. cbn [bind].
  destruct beta as [|b0 [|b1 beta]]; cbn [length] in HN; try lia. cbn [tl].
  set (bl := b1 :: beta) in *.
  assert (E : bcast_add (diag0 [r]) (diagm1 bl) = Ok (mk2 (K := Rring) (Datatypes.S (length bl)) (Datatypes.S (length bl))
            (fun i j => ent (diag0 [r]) (bidx 1 i) (bidx 1 j) + ent (diagm1 bl) (bidx (Datatypes.S (length bl)) i) (bidx (Datatypes.S (length bl)) j)))).
  { unfold bcast_add. cbn [diag0 diagm1 rows cols length]. unfold bdim. cbn. reflexivity. }
  rewrite E. cbn [bind].
  destruct (finish_ok (mk2 (K := Rring) (Datatypes.S (length bl)) (Datatypes.S (length bl))
            (fun i j => ent (diag0 [r]) (bidx 1 i) (bidx 1 j) + ent (diagm1 bl) (bidx (Datatypes.S (length bl)) i) (bidx (Datatypes.S (length bl)) j))) (b0 :: bl) k)
    as (S & G & Gt & ES & _ & EA & _); auto; [cbn; lia|].
  exists S. split; [exact ES|]. rewrite EA. cbn [rows cols]. split; [reflexivity|]. split; [reflexivity|]. intros i j Hi Hj. cbn [ent].
  cbn [length] in Hi, Hj. rewrite (bidx_in (Datatypes.S (length bl)) i), (bidx_in (Datatypes.S (length bl)) j) by (cbn [length] in *; lia). cbn [diag0 diagm1 ent bidx Nat.eqb nth]. f_equal.
  destruct (Nat.eqb_spec i (Datatypes.S j)) as [->|]; reflexivity.
Qed.

(** *** Acceptance of leap-frog specifications *)
Lemma lf_osr_iff k OSR N BW h : (exists v, lf_osr k OSR N BW h = Ok v) <->
  (1 <= N)%nat /\ dflt (k_delta k) 1 <> 0 /\ OSR * BW <> 0 /\ 2 / 100000000000000 <= 1 / (2 * OSR * BW).
Proof.
  split.
  - intros ([[S d] h'] & E). destruct (lf_osr_inv _ _ _ _ _ _ _ _ E) as (A & B & C & D & _). split; [exact A|]. split; [exact C|]. split; [lra|exact B].
  - intros (HN & Hd & Hz & HT). unfold lf_osr. destruct (Req_bool_spec (2 * OSR * BW) 0) as [Z|Z]; [exfalso; apply Hz; lra|].
    assert (HPI := PI_RGT_0). set (delta := dflt (k_delta k) 1) in *.
    assert (Eb : delta * OSR / (2 * PI) * (2 * PI * BW) = delta * (OSR * BW)) by (field; lra). rewrite Eb.
    assert (Hb : delta * (OSR * BW) <> 0) by now apply Rmult_integral_contrapositive_currified.
    destruct (Req_bool_spec (delta * (OSR * BW)) 0) as [|_]; [contradiction|]. now apply lf_build_accepts.
Qed.
Lemma lf_enob_accepts gi k ENOB N BW h : (1 <= N)%nat -> dflt (k_delta k) 1 <> 0 -> BW <> 0 -> 0 < dflt (k_xi k) (4 / 1000) / gi N -> gi N <> 0 ->
  2 / 100000000000000 <= 1 / (4 * PI * Rabs BW * lf_gamma gi (dflt (k_xi k) (4 / 1000)) ENOB N) -> exists v, lf_enob gi k ENOB N BW h = Ok v.
Proof.
  intros HN Hd HB Hx Hg0 HT. unfold lf_enob. set (xi := dflt (k_xi k) (4 / 1000)) in *. set (delta := dflt (k_delta k) 1) in *. assert (HPI := PI_RGT_0).
  destruct (Nat.eqb_spec N 0) as [|_]; [lia|]. destruct (Req_bool_spec (gi N) 0) as [|_]; [contradiction|].
  rewrite Rle_bool_false by (apply Rmult_lt_0_compat; [exact Hx|apply ppow_pos]).
  change (ppow (xi / gi N * snr_from_dB (enob_to_snr ENOB)) (1 / (2 * INR N))) with (lf_gamma gi xi ENOB N).
  set (g := lf_gamma gi xi ENOB N) in *. assert (Hg : 0 < g) by apply ppow_pos.
  assert (Hgd : g * delta <> 0) by (apply Rmult_integral_contrapositive_currified; [lra|exact Hd]).
  destruct (Req_bool_spec (2 * (g * delta)) 0) as [Z|_]; [exfalso; apply Hgd; lra|].
  destruct (Req_bool_spec delta 0) as [|_]; [contradiction|]. cbn [orb].
  assert (EX : 2 * (2 * PI * BW) * (g * delta) / delta = 4 * PI * BW * g) by (field; exact Hd). rewrite EX.
  assert (EA : Rabs (4 * PI * BW * g) = 4 * PI * Rabs BW * g) by (rewrite !Rabs_mult; rewrite (Rabs_pos_eq 4), (Rabs_pos_eq PI), (Rabs_pos_eq g) by lra; reflexivity).
  rewrite EA. assert (HA : 0 < Rabs BW) by now apply Rabs_pos_lt.
  assert (0 < 4 * PI * Rabs BW * g) by (apply Rmult_lt_0_compat; [apply Rmult_lt_0_compat; lra|exact Hg]).
  destruct (Req_bool_spec (4 * PI * Rabs BW * g) 0) as [|_]; [lra|]. apply lf_build_accepts; auto.
  apply Rmult_integral_contrapositive_currified; [|lra]. apply Ropp_neq_0_compat. unfold Rdiv.
  apply Rmult_integral_contrapositive_currified; [|lra]. apply Rmult_integral_contrapositive_currified; [lra|exact HB].
Qed.
