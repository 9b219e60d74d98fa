(** The filters of the estimators forget geometrically. *)
From Coq Require Import List Arith Lia Bool Reals Lra.
From Flocq Require Import Core.
From Coquelicot Require Import Complex.
From Verif Require Import Base LinAlg FirExtras AnalogSystem AnalogProofs Signals DigitalControl Simulator Integrators IntegratorsProofs LinearOde Zpk CplxLin FilterCoeff FilterCoeffProofs FilterOde Riccati RiccatiAlg RiccatiProofs.
Import ListNotations.
Open Scope R_scope.

(** M applied k times *)
Definition app (n : nat) (M : nat -> nat -> R) (x : nat -> R) (i : nat) : R := rsum n (fun j => M i j * x j).
Definition power (n : nat) (M : nat -> nat -> R) (k : nat) (x : nat -> R) : nat -> R := Nat.iter k (app n M) x.
(** what is left of any x after k applications of M is at most K rho^k |x|, for some rho < 1 *)
Definition forgets (n : nat) (M : nat -> nat -> R) : Prop := exists K rho, 0 <= K /\ 0 <= rho < 1 /\
  forall x k i, (i < n)%nat -> Rabs (power n M k x i) <= K * rho ^ k * rsum n (fun j => Rabs (x j)).

Lemma rsum_lin n a b (f g : nat -> R) : rsum n (fun i => a * f i + b * g i) = a * rsum n f + b * rsum n g.
Proof. now rewrite rsum_add, !rsum_scale. Qed.
Lemma rsum_abs n f : Rabs (rsum n f) <= rsum n (fun i => Rabs (f i)).
Proof. induction n as [|n IH]; [rewrite !rsum_0, Rabs_R0; lra|]. rewrite !rsum_S. eapply Rle_trans; [apply Rabs_triang|]. lra. Qed.
Lemma term_le n f j : (forall i, (i < n)%nat -> 0 <= f i) -> (j < n)%nat -> f j <= rsum n f.
Proof.
  intros H Hj. apply Rle_trans with (rsum n (fun i => if Nat.eqb i j then f i else 0)); [rewrite rsum_single by exact Hj; lra|].
  apply rsum_le. intros i Hi. specialize (H i Hi). destruct (Nat.eqb i j); lra.
Qed.
Lemma csum_fst n f : fst (csum n f) = rsum n (fun i => fst (f i)).
Proof. induction n as [|n IH]; [now rewrite rsum_0|]. cbn [csum]. rewrite rsum_S, <- IH. reflexivity. Qed.
Lemma csum_snd n f : snd (csum n f) = rsum n (fun i => snd (f i)).
Proof. induction n as [|n IH]; [now rewrite rsum_0|]. cbn [csum]. rewrite rsum_S, <- IH. reflexivity. Qed.

Section Lyapunov.
Variables (n : nat) (M : nat -> nat -> R) (T Ti : nat -> nat -> C) (lam : nat -> C) (al : R).
Hypothesis IV : inverse_of n T Ti.
Hypothesis AL : forall k, (k < n)%nat -> fst (lam k) <= al.
Hypothesis EV : forall k j, (k < n)%nat -> (j < n)%nat -> csum n (fun i => (T k i * RtoC (M i j))%C) = (lam k * T k j)%C.

Definition yr (x : nat -> R) (k : nat) : R := rsum n (fun i => fst (T k i) * x i).
Definition yi (x : nat -> R) (k : nat) : R := rsum n (fun i => snd (T k i) * x i).
Definition nrm (x : nat -> R) : R := rsum n (fun k => yr x k * yr x k + yi x k * yi x k).

Lemma EVr k j : (k < n)%nat -> (j < n)%nat -> rsum n (fun i => fst (T k i) * M i j) = fst (lam k) * fst (T k j) - snd (lam k) * snd (T k j).
Proof.
  intros Hk Hj. assert (H := f_equal fst (EV k j Hk Hj)). rewrite csum_fst in H. cbn [Cmult fst snd] in H. rewrite <- H. apply rsum_ext. intros. cbn [Cmult RtoC fst snd]. ring.
Qed.
Lemma EVi k j : (k < n)%nat -> (j < n)%nat -> rsum n (fun i => snd (T k i) * M i j) = fst (lam k) * snd (T k j) + snd (lam k) * fst (T k j).
Proof.
  intros Hk Hj. assert (H := f_equal snd (EV k j Hk Hj)). rewrite csum_snd in H. cbn [Cmult fst snd] in H. rewrite <- H. apply rsum_ext. intros. cbn [Cmult RtoC fst snd]. ring.
Qed.
Lemma app_row (c : nat -> R) (x : nat -> R) : rsum n (fun i => c i * app n M x i) = rsum n (fun j => rsum n (fun i => c i * M i j) * x j).
Proof.
  unfold app. rewrite (rsum_ext n _ (fun i => rsum n (fun j => c i * M i j * x j))).
  - rewrite rsum_swap. apply rsum_ext. intros j Hj. rewrite Rmult_comm, <- rsum_scale. apply rsum_ext. intros; ring.
  - intros i Hi. rewrite <- rsum_scale. apply rsum_ext. intros; ring.
Qed.
Lemma yr_app x k : (k < n)%nat -> yr (app n M x) k = fst (lam k) * yr x k - snd (lam k) * yi x k.
Proof.
  intros Hk. unfold yr, yi. rewrite app_row. rewrite (rsum_ext n _ (fun j => fst (lam k) * (fst (T k j) * x j) + (- snd (lam k)) * (snd (T k j) * x j))).
  - rewrite rsum_lin. ring.
  - intros j Hj. rewrite EVr by assumption. ring.
Qed.
Lemma yi_app x k : (k < n)%nat -> yi (app n M x) k = fst (lam k) * yi x k + snd (lam k) * yr x k.
Proof.
  intros Hk. unfold yr, yi. rewrite app_row. rewrite (rsum_ext n _ (fun j => fst (lam k) * (snd (T k j) * x j) + snd (lam k) * (fst (T k j) * x j))).
  - rewrite rsum_lin. ring.
  - intros j Hj. rewrite EVi by assumption. ring.
Qed.

Lemma nrm_sol Tt b z : 0 <= Tt -> (forall i t, (i < n)%nat -> b i t = 0) -> sol n M Tt b z -> nrm (fun i => z i Tt) <= exp (2 * al * Tt) * nrm (fun i => z i 0).
Proof.
  intros HT Hb [Cz [ex Dz]].
  set (g := fun t => nrm (fun i => z i t)). set (E := fun t => exp (2 * al * t)).
  assert (DE : forall s, derivable_pt_lim E s (2 * al * E s)).
  { intros s. unfold E. replace (2 * al * exp (2 * al * s)) with (exp (2 * al * s) * (2 * al * 1)) by ring.
    apply (derivable_pt_lim_comp (fun s => 2 * al * s) exp); [|apply derivable_pt_lim_exp]. apply (derivable_pt_lim_scal id (2 * al) s 1). apply derivable_pt_lim_id. }
  set (x := fun t i => z i t).
  set (g' := fun t => rsum n (fun k => (yr (app n M (x t)) k * yr (x t) k + yr (x t) k * yr (app n M (x t)) k) + (yi (app n M (x t)) k * yi (x t) k + yi (x t) k * yi (app n M (x t)) k))).
  assert (Cs : forall (c : nat -> R) t, 0 <= t <= Tt -> continuity_pt (fun t => rsum n (fun i => c i * z i t)) t).
  { intros c t Ht. apply continuity_rsum. intros i Hi. apply (continuity_pt_scal (z i) (c i)). auto. }
  assert (Ds : forall (c : nat -> R) t, 0 < t < Tt -> ~ In t ex -> derivable_pt_lim (fun t => rsum n (fun i => c i * z i t)) t (rsum n (fun i => c i * app n M (x t) i))).
  { intros c t Ht Hi. apply derivable_rsum. intros i Hi'. apply (derivable_pt_lim_scal (z i) (c i)). assert (D := Dz i t Hi' Ht Hi). rewrite Hb, Rplus_0_r in D by exact Hi'. exact D. }
  enough (G : forall t, 0 <= t <= Tt -> g t - E t * g 0 <= 0) by (assert (G1 := G Tt ltac:(lra)); unfold g, E in G1; lra).
  apply comparison_ex with (ex := ex) (g' := fun t => g' t - 2 * al * E t * g 0) (rho := 2 * al).
  - intros t Ht. apply (continuity_pt_minus g (fun t => E t * g 0)).
    + unfold g, nrm. apply continuity_rsum. intros k Hk. apply (continuity_pt_plus (fun t => yr (x t) k * yr (x t) k) (fun t => yi (x t) k * yi (x t) k)).
      * apply (continuity_pt_mult (fun t => yr (x t) k) (fun t => yr (x t) k)); apply Cs; exact Ht.
      * apply (continuity_pt_mult (fun t => yi (x t) k) (fun t => yi (x t) k)); apply Cs; exact Ht.
    + apply derivable_continuous_pt. exists (2 * al * E t * g 0). replace (2 * al * E t * g 0) with (2 * al * E t * g 0 + E t * 0) by ring.
      apply (derivable_pt_lim_mult E (fun _ => g 0)); [apply DE|apply derivable_pt_lim_const].
  - intros t Ht Hi. split.
    + apply (derivable_pt_lim_minus g (fun t => E t * g 0)).
      * unfold g, nrm, g'. apply derivable_rsum. intros k Hk. apply (derivable_pt_lim_plus (fun t => yr (x t) k * yr (x t) k) (fun t => yi (x t) k * yi (x t) k)).
        -- apply (derivable_pt_lim_mult (fun t => yr (x t) k) (fun t => yr (x t) k)); apply Ds; assumption.
        -- apply (derivable_pt_lim_mult (fun t => yi (x t) k) (fun t => yi (x t) k)); apply Ds; assumption.
      * replace (2 * al * E t * g 0) with (2 * al * E t * g 0 + E t * 0) by ring. apply (derivable_pt_lim_mult E (fun _ => g 0)); [apply DE|apply derivable_pt_lim_const].
    + enough (H : g' t <= 2 * al * g t) by lra. unfold g', g, nrm. rewrite <- rsum_scale. apply rsum_le. intros k Hk. rewrite yr_app, yi_app by exact Hk.
      change (fun i => z i t) with (x t). assert (A1 := AL k Hk). set (p := yr (x t) k). set (q := yi (x t) k).
      match goal with |- ?l <= _ => replace l with (2 * fst (lam k) * (p * p + q * q)) by (unfold p, q; ring) end. assert (0 <= p * p + q * q) by nra. nra.
  - unfold E. rewrite Rmult_0_r, exp_0. unfold g. lra.
Qed.

Lemma nrm_pos x : 0 <= nrm x.
Proof. apply rsum_nonneg. intros. nra. Qed.
Definition ka : R := rsum n (fun k => rsum n (fun i => Rabs (fst (T k i)) + Rabs (snd (T k i)))).
Definition kb : R := rsum n (fun i => rsum n (fun k => Rabs (fst (Ti i k)) + Rabs (snd (Ti i k)))).
Lemma ka_pos : 0 <= ka.
Proof. apply rsum_nonneg. intros. apply rsum_nonneg. intros. assert (0 <= Rabs (fst (T i i0))) by apply Rabs_pos. assert (0 <= Rabs (snd (T i i0))) by apply Rabs_pos. lra. Qed.
Lemma kb_pos : 0 <= kb.
Proof. apply rsum_nonneg. intros. apply rsum_nonneg. intros. assert (0 <= Rabs (fst (Ti i i0))) by apply Rabs_pos. assert (0 <= Rabs (snd (Ti i i0))) by apply Rabs_pos. lra. Qed.

Lemma y_le x k : (k < n)%nat -> Rabs (yr x k) <= ka * rsum n (fun j => Rabs (x j)) /\ Rabs (yi x k) <= ka * rsum n (fun j => Rabs (x j)).
Proof.
  intros Hk. set (s := rsum n (fun j => Rabs (x j))).
  assert (S0 : forall j, (j < n)%nat -> 0 <= Rabs (x j) <= s) by (intros j Hj; split; [apply Rabs_pos|apply (term_le n (fun j => Rabs (x j))); [intros; apply Rabs_pos|exact Hj]]).
  assert (S1 : 0 <= s) by (apply rsum_nonneg; intros; apply Rabs_pos).
  assert (G : forall c : nat -> R, (forall i, (i < n)%nat -> Rabs (c i) <= Rabs (fst (T k i)) + Rabs (snd (T k i))) -> Rabs (rsum n (fun i => c i * x i)) <= ka * s).
  { intros c Hc. eapply Rle_trans; [apply rsum_abs|]. apply Rle_trans with (rsum n (fun i => s * (Rabs (fst (T k i)) + Rabs (snd (T k i))))).
    - apply rsum_le. intros i Hi. rewrite Rabs_mult. specialize (Hc i Hi). specialize (S0 i Hi). assert (0 <= Rabs (c i)) by apply Rabs_pos. nra.
    - rewrite rsum_scale, (Rmult_comm ka). apply Rmult_le_compat_l; [exact S1|].
      apply (term_le n (fun k => rsum n (fun i => Rabs (fst (T k i)) + Rabs (snd (T k i))))); [|exact Hk].
      intros a _. apply rsum_nonneg. intros b _. assert (0 <= Rabs (fst (T a b))) by apply Rabs_pos. assert (0 <= Rabs (snd (T a b))) by apply Rabs_pos. lra. }
  split; apply G; intros i Hi; [assert (0 <= Rabs (snd (T k i))) by apply Rabs_pos|assert (0 <= Rabs (fst (T k i))) by apply Rabs_pos]; lra.
Qed.
Lemma nrm_le x : nrm x <= 2 * INR n * (ka * rsum n (fun j => Rabs (x j))) ^ 2.
Proof.
  set (B := ka * rsum n (fun j => Rabs (x j))). apply Rle_trans with (rsum n (fun _ => 2 * B ^ 2)).
  - apply rsum_le. intros k Hk. destruct (y_le x k Hk) as [H1 H2]. fold B in H1, H2.
    assert (forall a, Rabs a <= B -> a * a <= B ^ 2). { intros a Ha. replace (a * a) with (Rabs a * Rabs a) by (rewrite <- Rabs_mult; apply Rabs_pos_eq; nra). assert (0 <= Rabs a) by apply Rabs_pos. nra. }
    pose proof (H _ H1). pose proof (H _ H2). lra.
  - clear. assert (forall m, rsum m (fun _ => 2 * B ^ 2) = 2 * INR m * B ^ 2); [|now rewrite H; right].
    induction m; [rewrite rsum_0; cbn; ring|]. rewrite rsum_S, IHm, S_INR. ring.
Qed.
Lemma x_of_y x i : (i < n)%nat -> x i = rsum n (fun k => fst (Ti i k) * yr x k - snd (Ti i k) * yi x k).
Proof.
  clear AL EV. intros Hi. destruct IV as [_ I].
  assert (E : csum n (fun k => (Ti i k * csum n (fun j => (T k j * RtoC (x j))%C))%C) = RtoC (x i)).
  { rewrite (csum_ext n _ (fun k => csum n (fun j => (Ti i k * T k j * RtoC (x j))%C))).
    - rewrite csum_swap. rewrite (csum_ext n _ (fun j => if Nat.eqb j i then RtoC (x j) else RtoC 0)); [now apply (csum_single n i (fun j => RtoC (x j)))|].
      intros j Hj. rewrite (csum_ext n _ (fun k => (RtoC (x j) * (Ti i k * T k j))%C)) by (intros; ring). rewrite csum_scale.
      assert (E := I i j Hi Hj). unfold cmul in E. rewrite E. unfold unit. rewrite (Nat.eqb_sym i j). destruct (Nat.eqb j i); ring.
    - intros k Hk. rewrite <- csum_scale. apply csum_ext. intros; ring. }
  apply (f_equal fst) in E. rewrite csum_fst in E. cbn [RtoC fst] in E. rewrite <- E. apply rsum_ext. intros k Hk. cbn [Cmult fst snd]. rewrite csum_fst, csum_snd. unfold yr, yi.
  rewrite (rsum_ext n (fun i => fst (T k i * RtoC (x i))%C) (fun i => fst (T k i) * x i)) by (intros; cbn [Cmult RtoC fst snd]; ring).
  rewrite (rsum_ext n (fun i => snd (T k i * RtoC (x i))%C) (fun i => snd (T k i) * x i)) by (intros; cbn [Cmult RtoC fst snd]; ring). reflexivity.
Qed.
Lemma x_le x i : (i < n)%nat -> Rabs (x i) <= kb * sqrt (nrm x).
Proof.
  intros Hi. rewrite (x_of_y x i Hi). eapply Rle_trans; [apply rsum_abs|]. set (s := sqrt (nrm x)).
  assert (Y : forall k, (k < n)%nat -> Rabs (yr x k) <= s /\ Rabs (yi x k) <= s).
  { intros k Hk. assert (H : yr x k * yr x k + yi x k * yi x k <= nrm x) by (apply (term_le n (fun k => yr x k * yr x k + yi x k * yi x k)); [intros; nra|exact Hk]).
    split; rewrite <- sqrt_Rsqr_abs; apply sqrt_le_1_alt; unfold Rsqr; nra. }
  assert (S1 : 0 <= s) by apply sqrt_pos.
  apply Rle_trans with (rsum n (fun k => s * (Rabs (fst (Ti i k)) + Rabs (snd (Ti i k))))).
  - apply rsum_le. intros k Hk. destruct (Y k Hk) as [H1 H2]. unfold Rminus. eapply Rle_trans; [apply Rabs_triang|]. rewrite Rabs_Ropp, !Rabs_mult.
    assert (0 <= Rabs (fst (Ti i k))) by apply Rabs_pos. assert (0 <= Rabs (snd (Ti i k))) by apply Rabs_pos. assert (0 <= Rabs (yr x k)) by apply Rabs_pos. assert (0 <= Rabs (yi x k)) by apply Rabs_pos. nra.
  - rewrite rsum_scale, (Rmult_comm kb). apply Rmult_le_compat_l; [exact S1|]. apply (term_le n (fun i => rsum n (fun k => Rabs (fst (Ti i k)) + Rabs (snd (Ti i k))))); [|exact Hi].
    intros a _. apply rsum_nonneg. intros b _. assert (0 <= Rabs (fst (Ti a b))) by apply Rabs_pos. assert (0 <= Rabs (snd (Ti a b))) by apply Rabs_pos. lra.
Qed.

(** a matrix that contracts [nrm] forgets *)
Lemma contract_forgets (P : nat -> nat -> R) rho : 0 <= rho < 1 -> (forall x, nrm (app n P x) <= rho ^ 2 * nrm x) -> forgets n P.
Proof.
  intros Hr HP. exists (kb * (sqrt (2 * INR n) * ka)), rho.
  assert (0 <= sqrt (2 * INR n)) by apply sqrt_pos. assert (K0 := ka_pos). assert (K1 := kb_pos).
  split; [apply Rmult_le_pos; [exact K1|now apply Rmult_le_pos]|]. split; [exact Hr|]. intros x k i Hi.
  assert (Hk : nrm (power n P k x) <= (rho ^ k) ^ 2 * nrm x).
  { clear i Hi. induction k as [|k IH]; [cbn; lra|]. change (power n P (S k) x) with (app n P (power n P k x)). eapply Rle_trans; [apply HP|].
    replace ((rho ^ S k) ^ 2 * nrm x) with (rho ^ 2 * ((rho ^ k) ^ 2 * nrm x)) by (cbn [pow]; ring). apply Rmult_le_compat_l; [nra|exact IH]. }
  eapply Rle_trans; [apply x_le; exact Hi|]. rewrite !(Rmult_assoc kb). apply Rmult_le_compat_l; [exact K1|].
  assert (R0 : 0 <= rho ^ k) by (apply pow_le; lra). set (s := rsum n (fun j => Rabs (x j))). assert (S1 : 0 <= s) by (apply rsum_nonneg; intros; apply Rabs_pos).
  apply Rle_trans with (sqrt ((rho ^ k) ^ 2 * (2 * INR n * (ka * s) ^ 2))).
  - apply sqrt_le_1_alt. eapply Rle_trans; [exact Hk|]. apply Rmult_le_compat_l; [nra|]. apply nrm_le.
  - assert (0 <= INR n) by apply pos_INR. rewrite sqrt_mult_alt by nra. rewrite sqrt_pow2 by exact R0. rewrite sqrt_mult_alt by lra. rewrite sqrt_pow2 by (apply Rmult_le_pos; assumption). right. ring.
Qed.
End Lyapunov.

Lemma max_below n (f : nat -> R) : (forall k, (k < n)%nat -> f k < 0) -> exists al, al < 0 /\ forall k, (k < n)%nat -> f k <= al.
Proof.
  induction n as [|n IH]; intros H; [exists (-1); split; [lra|intros; lia]|]. destruct IH as (al & A1 & A2); [intros; apply H; lia|].
  exists (Rmax al (f n)). split; [apply Rmax_lub_lt; [exact A1|apply H; lia]|]. intros k Hk. destruct (Nat.eq_dec k n) as [->|]; [apply Rmax_r|]. eapply Rle_trans; [apply A2; lia|apply Rmax_l].
Qed.

Lemma nrm_ext n T x y : (forall i, (i < n)%nat -> x i = y i) -> nrm n T x = nrm n T y.
Proof.
  intros H. unfold nrm. apply rsum_ext. intros k Hk. assert (E : yr n T x k = yr n T y k) by (apply rsum_ext; intros; now rewrite H). assert (E' : yi n T x k = yi n T y k) by (apply rsum_ext; intros; now rewrite H).
  now rewrite E, E'.
Qed.
Lemma ctl0 (S : asys Rring) d n t : (n < sN S)%nat -> ctl S d (fun _ => 0) n t = 0.
Proof. intros Hn. unfold ctl. apply rsum_zero. intros. ring. Qed.
Lemma fwd_forgets (S : asys Rring) d F Af Bf : 0 < ck_T (d_clk d) -> samples_fwd S d F Af Bf -> diag_stable (sN S) F -> forgets (sN S) (ent Af).
Proof.
  intros HT (_ & E & U) (T & Ti & lam & I & L & EV). destruct (max_below (sN S) (fun k => fst (lam k)) L) as (al & A1 & A2).
  set (Tt := ck_T (d_clk d)) in *. apply (contract_forgets (sN S) T Ti I (ent Af) (exp (al * Tt))).
  - split; [left; apply exp_pos|]. rewrite <- exp_0. apply exp_increasing. nra.
  - intros x. destruct (E (fun _ => 0) x) as (z & Sz & H0). replace (exp (al * Tt) ^ 2) with (exp (2 * al * Tt)) by (cbn [pow]; rewrite Rmult_1_r, <- exp_plus; f_equal; ring).
    rewrite (nrm_ext _ _ _ (fun i => z i Tt)), (nrm_ext _ _ x (fun i => z i 0)).
    + apply (nrm_sol (sN S) F T lam al A2 EV Tt (ctl S d (fun _ => 0)) z); [lra| |exact Sz]. intros; now apply ctl0.
    + intros i Hi. now rewrite H0.
    + intros i Hi. rewrite (U _ z Sz i Hi). rewrite (rsum_zero (sM S)) by (intros; ring). rewrite Rplus_0_r. apply rsum_ext. intros j Hj. now rewrite H0.
Qed.
Lemma bwd_forgets (S : asys Rring) d F Ab Bb : 0 < ck_T (d_clk d) -> samples_bwd S d F Ab Bb -> diag_stable (sN S) (fun i j => - F i j) -> forgets (sN S) (ent Ab).
Proof.
  intros HT (_ & E & U) (T & Ti & lam & I & L & EV). destruct (max_below (sN S) (fun k => fst (lam k)) L) as (al & A1 & A2).
  set (Tt := ck_T (d_clk d)) in *. apply (contract_forgets (sN S) T Ti I (ent Ab) (exp (al * Tt))).
  - split; [left; apply exp_pos|]. rewrite <- exp_0. apply exp_increasing. nra.
  - intros x. destruct (E (fun _ => 0) x) as (z & Sz & H0). replace (exp (al * Tt) ^ 2) with (exp (2 * al * Tt)) by (cbn [pow]; rewrite Rmult_1_r, <- exp_plus; f_equal; ring).
    rewrite (nrm_ext _ _ _ (fun i => (fun n t => z n (Tt - t)) i Tt)), (nrm_ext _ _ x (fun i => (fun n t => z n (Tt - t)) i 0)).
    + apply (nrm_sol (sN S) (fun i j => - F i j) T lam al A2 EV Tt (fun n t => - ctl S d (fun _ => 0) n (Tt - t)) (fun n t => z n (Tt - t))); [lra| |exact (sol_rev _ _ _ _ _ Sz)]. intros; rewrite ctl0 by assumption; ring.
    + intros i Hi. rewrite Rminus_0_r. now rewrite H0.
    + intros i Hi. replace (Tt - Tt) with 0 by ring. rewrite (U _ z Sz i Hi). rewrite (rsum_zero (sM S)) by (intros; ring). rewrite Rplus_0_r. apply rsum_ext. intros j Hj. now rewrite H0.
Qed.
