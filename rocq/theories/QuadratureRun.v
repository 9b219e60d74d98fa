(** The quadrature front end in the rotating frame. *)
From Coq Require Import List Arith Lia Bool Reals Lra.
From Coquelicot Require Import Complex.
From Flocq Require Import Core.
From Verif Require Import Base LinAlg FirExtras AnalogSystem AnalogProofs ChainProofs Signals DigitalControl DigitalControlProofs Fom Integrators IntegratorsProofs Simulator Stability SynthesisProofs LinearOde LcCircuit LeapFrogPoles Quadrature QuadratureProofs.
Import ListNotations.
Open Scope R_scope.

(** g e^{-i th} (x + i y): real and imaginary part *)
Definition turnI (g th : R) (x y : list R) : list R := map (fun i => g * (cos th * nth i x 0 + sin th * nth i y 0)) (seq 0 (length x)).
Definition turnQ (g th : R) (x y : list R) : list R := map (fun i => g * (cos th * nth i y 0 - sin th * nth i x 0)) (seq 0 (length x)).

Lemma turnI_len g th x y : length (turnI g th x y) = length x.
Proof. unfold turnI. now rewrite map_length, seq_length. Qed.
Lemma turnQ_len g th x y : length (turnQ g th x y) = length x.
Proof. unfold turnQ. now rewrite map_length, seq_length. Qed.
Lemma turnI_nth g th x y i : (i < length x)%nat -> nth i (turnI g th x y) 0 = g * (cos th * nth i x 0 + sin th * nth i y 0).
Proof. intros H. unfold turnI. now rewrite nth_seq_R. Qed.
Lemma turnQ_nth g th x y i : (i < length x)%nat -> nth i (turnQ g th x y) 0 = g * (cos th * nth i y 0 - sin th * nth i x 0).
Proof. intros H. unfold turnQ. now rewrite nth_seq_R. Qed.
Lemma turnI_lin g th (m : nd2 Rring) (x y : list R) i : length x = cols m -> lin m (turnI g th x y) i = g * (cos th * lin m x i + sin th * lin m y i).
Proof.
  intros Hx. rewrite !lin_rsum. rewrite <- !rsum_scale, <- rsum_add, <- rsum_scale. apply rsum_ext. intros k Hk. rewrite turnI_nth by lia. cbv [car Rring]. ring.
Qed.
Lemma turnQ_lin g th (m : nd2 Rring) (x y : list R) i : length x = cols m -> lin m (turnQ g th x y) i = g * (cos th * lin m y i - sin th * lin m x i).
Proof.
  intros Hx. replace (cos th * lin m y i - sin th * lin m x i) with (cos th * lin m y i + (- sin th) * lin m x i) by ring.
  rewrite !lin_rsum. rewrite <- !rsum_scale, <- rsum_add, <- rsum_scale. apply rsum_ext. intros k Hk. rewrite turnQ_nth by lia. cbv [car Rring]. ring.
Qed.

Lemma rhs_nth (S : asys Rring) (x u c : list R) i : (i < sN S)%nat -> nth i (rhs S x u c) 0 = lin (aA S) x i + lin (aB S) u i + lino (aG S) c i.
Proof. intros Hi. unfold rhs. cbn [car Rring]. rewrite nth_seq_R by exact Hi. reflexivity. Qed.

Lemma der_ext (f f' : R -> R) t l l' : (forall s, f s = f' s) -> l = l' -> derivable_pt_lim f t l -> derivable_pt_lim f' t l'.
Proof. intros E <- D eps He. destruct (D eps He) as (dl & X). exists dl. intros z Hz Hl. rewrite <- !E. now apply X. Qed.
Lemma der_cos w t : derivable_pt_lim (fun s => cos (w * s)) t (- w * sin (w * t)).
Proof.
  apply der_ext with (f := comp cos (fun s => w * s)) (l := - sin (w * t) * (w * 1)); [reflexivity|ring|].
  apply derivable_pt_lim_comp; [apply (derivable_pt_lim_scal id w t 1), derivable_pt_lim_id|apply derivable_pt_lim_cos].
Qed.
Lemma der_sin w t : derivable_pt_lim (fun s => sin (w * s)) t (w * cos (w * t)).
Proof.
  apply der_ext with (f := comp sin (fun s => w * s)) (l := cos (w * t) * (w * 1)); [reflexivity|ring|].
  apply derivable_pt_lim_comp; [apply (derivable_pt_lim_scal id w t 1), derivable_pt_lim_id|apply derivable_pt_lim_sin].
Qed.

(** *** One control period *)
Lemma antider_const (f : R -> R) a b : a <= b -> (forall t, a <= t <= b -> continuity_pt f t) -> (forall t, a < t < b -> derivable_pt_lim f t 0) -> f b = f a.
Proof.
  intros Hab Hc Hd. apply Rle_antisym.
  - apply (nonincreasing [] f (fun _ => 0) a b Hab Hc). intros t Ht _. split; [now apply Hd|lra].
  - enough (- f b <= - f a) by lra. apply (nonincreasing [] (fun s => - f s) (fun _ => 0) a b Hab).
    + intros t Ht. apply continuity_pt_opp. now apply Hc.
    + intros t Ht _. split; [|lra]. rewrite <- Ropp_0. apply derivable_pt_lim_opp. now apply Hd.
Qed.

Lemma cont_ext (f f' : R -> R) t : (forall s, f s = f' s) -> continuity_pt f t -> continuity_pt f' t.
Proof. intros E C. intros eps He. destruct (C eps He) as (a & Ha & X). exists a. split; [exact Ha|]. intros z Hz. rewrite <- !E. now apply X. Qed.
Lemma der_P w t GI GQ : derivable_pt_lim (fun s => (sin (w * s) * GI - cos (w * s) * GQ) / w) t ((w * cos (w * t) * GI + w * sin (w * t) * GQ) / w).
Proof.
  apply der_ext with (f := fun s => GI / w * sin (w * s) - GQ / w * cos (w * s)) (l := GI / w * (w * cos (w * t)) - GQ / w * (- w * sin (w * t))).
  - intros s. unfold Rdiv. ring.
  - unfold Rdiv. ring.
  - apply derivable_pt_lim_minus; apply derivable_pt_lim_scal; [apply der_sin|apply der_cos].
Qed.
Lemma trig_key (w T t0 delta phi bT p q GI GQ : R) : w <> 0 -> sin (w * T / 2) <> 0 -> bT <> 0 ->
  let K := bT * w / (2 * sin (w * T / 2)) in let th := w * (T / 2 + delta) - phi in
  let a := -1 / bT * cos th * p - -1 / bT * sin th * q in let b := -1 / bT * cos th * q + -1 / bT * sin th * p in
  GI = K * cos phi * a - K * sin phi * b -> GQ = K * cos phi * b + K * sin phi * a ->
  (sin (w * (t0 + T)) * GI - cos (w * (t0 + T)) * GQ) / w - (sin (w * t0) * GI - cos (w * t0) * GQ) / w = - (cos (w * (t0 - delta)) * p + sin (w * (t0 - delta)) * q) /\
  (sin (w * (t0 + T)) * GQ + cos (w * (t0 + T)) * GI) / w - (sin (w * t0) * GQ + cos (w * t0) * GI) / w = - (cos (w * (t0 - delta)) * q - sin (w * (t0 - delta)) * p).
Proof.
  intros Hw Hs Hb K th a b -> ->. set (m := w * (t0 + T / 2)). set (hh := w * T / 2). 
  replace (w * (t0 + T)) with (m + hh) by (unfold m, hh; field). replace (w * t0) with (m - hh) by (unfold m, hh; field).
  replace (w * (t0 - delta)) with ((m - phi) - th) by (unfold m, th; field). unfold a, b, K. fold hh. fold hh in Hs. clearbody th m hh.
  rewrite (cos_minus (m - phi) th), (sin_minus (m - phi) th), !cos_minus, !sin_minus, cos_plus, sin_plus. split; field; repeat split; assumption.
Qed.

Section Env.
Variables (k : bpkw) (h : heap) (S : asys Rring) (d : dc) (h' : heap) (S0 : asys Rring) (d0 : dc) (fc : R).
Hypothesis EF : b_front k = Some (S0, d0).
Hypothesis EC : b_fc k = Some fc.
Hypothesis V : valid S0.
Hypothesis H : get_bandpass k h = Ok (S, d, h').
Let n := sN S0.
Let w := bp_freq fc.
Let T := ck_T (d_clk d0).
Definition bp_gain (k : bpkw) (w T : R) : R := if b_modulate k then 1 else w * T / 2 / sin (w * T / 2).
Definition bp_phase (k : bpkw) : R := if b_modulate k then 0 else dflt (b_phi k) 0.
Let g := bp_gain k w T.
Let ph := bp_phase k.

(** Gamma of the baseband system is beta times the identity *)
Definition equal_gains (S0 : asys Rring) : Prop :=
  exists beta g0, aG S0 = Some g0 /\ forall i j, (i < sN S0)%nat -> (j < sM S0)%nat -> ent g0 i j = if Nat.eqb i j then beta else 0.

Lemma bp_controls (c cq : list R) t i : (b_modulate k = false -> equal_gains S0) -> length c = sM S0 -> length cq = sM S0 -> (i < n)%nat ->
  cos (w * t) * lino (aG S) (c ++ cq) i + sin (w * t) * lino (aG S) (c ++ cq) (n + i)%nat = lino (aG S0) (turnI g (w * t - ph) c cq) i /\
  cos (w * t) * lino (aG S) (c ++ cq) (n + i)%nat - sin (w * t) * lino (aG S) (c ++ cq) i = lino (aG S0) (turnQ g (w * t - ph) c cq) i.
Proof.
  intros HE Hc Hq Hi. destruct (bandpass_inv _ _ _ _ _ _ _ _ EF EC V H) as (_ & _ & _ & _ & _ & _ & _ & (g0 & gm & gt & EG0 & EG & _ & HG) & _).
  assert (Rg0 : rows g0 = n) by (assert (X := v_G _ V); now rewrite EG0 in X). assert (Cg0 : cols g0 = sM S0) by (unfold sM; now rewrite EG0).
  rewrite EG, EG0. cbn [lino]. rewrite turnI_lin, turnQ_lin by congruence. unfold g, ph, bp_gain, bp_phase.
  destruct (b_modulate k) eqn:Em.
  - destruct HG as (HG & _). destruct (dbl_lin _ _ c cq i HG) as [E1 E2]; [congruence|lia|]. rewrite Rg0 in E2. rewrite E1, E2. rewrite Rminus_0_r. split; ring.
  - destruct HG as (M1 & _ & Hs & Hb & EGm & _). rewrite EGm. fold n. fold n in M1.
    destruct (quad_lin n (ent g0 0 0 * ck_T (d_clk d0) * bp_freq fc / (2 * sin (bp_freq fc * ck_T (d_clk d0) / 2)) * cos (dflt (b_phi k) 0)) (ent g0 0 0 * ck_T (d_clk d0) * bp_freq fc / (2 * sin (bp_freq fc * ck_T (d_clk d0) / 2)) * sin (dflt (b_phi k) 0)) c cq i) as [E1 E2]; [lia|lia|lia|].
    rewrite E1, E2. destruct (HE eq_refl) as (beta & g1 & EG1 & Hg). rewrite EG0 in EG1. injection EG1 as <-. fold n in Hg.
    assert (LI : forall z : list R, lin g0 z i = beta * nth i z 0).
    { intros z. rewrite lin_rsum, Cg0, M1. rewrite <- (rsum_delta n beta (fun j => nth j z 0) i Hi). apply rsum_ext. intros j Hj. rewrite Hg by lia. reflexivity. }
    rewrite !LI. rewrite (Hg 0%nat 0%nat) by lia. cbn [Nat.eqb]. fold w T. fold w T in Hs. rewrite cos_minus, sin_minus. split; field; exact Hs.
Qed.

(** the derivative of the envelope, with the control contribution of the quadrature system *)
Lemma bp_raw (x y : R -> list R) (u uq cc : list R) t v : b_scalar k = false ->
  (forall s, length (x s) = n) -> (forall s, length (y s) = n) -> length u = sL S0 -> length uq = sL S0 -> length cc = sM S ->
  derivative S (x t ++ y t) (u ++ uq) cc = Ok v ->
  (forall i, (i < n + n)%nat -> derivable_pt_lim (fun s => nth i (x s ++ y s) 0) t (nth i v 0)) ->
  forall i, (i < n)%nat ->
    derivable_pt_lim (fun s => nth i (turnI 1 (w * s) (x s) (y s)) 0) t
      (lin (aA S0) (turnI 1 (w * t) (x t) (y t)) i + lin (aB S0) (turnI 1 (w * t) u uq) i + (cos (w * t) * lino (aG S) cc i + sin (w * t) * lino (aG S) cc (n + i)%nat)) /\
    derivable_pt_lim (fun s => nth i (turnQ 1 (w * s) (x s) (y s)) 0) t
      (lin (aA S0) (turnQ 1 (w * t) (x t) (y t)) i + lin (aB S0) (turnQ 1 (w * t) u uq) i + (cos (w * t) * lino (aG S) cc (n + i)%nat - sin (w * t) * lino (aG S) cc i)).
Proof.
  intros Es Lx Ly Lu Luq Lc HD Hd.
  destruct (bandpass_inv _ _ _ _ _ _ _ _ EF EC V H) as (VS & SN & Hn & _ & HA & _ & _ & (g0 & gm & gt & EG0 & EG & _ & HG) & HB).
  rewrite Es in HB. fold n w in SN, HA. assert (RB := v_B _ V). fold n in RB.
  assert (SLS : sL S = (sL S0 + sL S0)%nat) by (exact (proj1 (proj2 HB))).
  rewrite derivative_rhs in HD; [|exact VS|congruence|rewrite app_length, Lx, Ly; congruence|rewrite app_length; congruence|exact Lc].
  apply Ok_inj in HD. subst v.
  intros i Hi. destruct (HA (x t) (y t) i (Lx t) (Ly t) Hi) as [A1 A2]. destruct (dbl_lin _ _ u uq i HB) as [B1 B2]; [exact Lu|rewrite RB; exact Hi|]. rewrite RB in B2.
  assert (DX : derivable_pt_lim (fun s => nth i (x s) 0) t (lin (aA S0) (x t) i - w * nth i (y t) 0 + lin (aB S0) u i + lino (aG S) cc i)).
  { apply der_ext with (f := fun s => nth i (x s ++ y s) 0) (l := nth i (rhs S (x t ++ y t) (u ++ uq) cc) 0); [| |apply Hd; lia].
    - intros s. rewrite app_nth1; [reflexivity|rewrite Lx; exact Hi].
    - rewrite rhs_nth by lia. apply f_equal2; [apply f_equal2; [exact A1|exact B1]|reflexivity]. }
  assert (DY : derivable_pt_lim (fun s => nth i (y s) 0) t (lin (aA S0) (y t) i + w * nth i (x t) 0 + lin (aB S0) uq i + lino (aG S) cc (n + i)%nat)).
  { apply der_ext with (f := fun s => nth (n + i) (x s ++ y s) 0) (l := nth (n + i) (rhs S (x t ++ y t) (u ++ uq) cc) 0); [| |apply Hd; lia].
    - intros s. now rewrite (nth_app2 (x s) (y s) n i (Lx s)).
    - rewrite rhs_nth by lia. apply f_equal2; [apply f_equal2; [exact A2|exact B2]|reflexivity]. }
  split.
  - apply der_ext with (f := fun s => cos (w * s) * nth i (x s) 0 + sin (w * s) * nth i (y s) 0)
      (l := (- w * sin (w * t)) * nth i (x t) 0 + cos (w * t) * (lin (aA S0) (x t) i - w * nth i (y t) 0 + lin (aB S0) u i + lino (aG S) cc i) +
            ((w * cos (w * t)) * nth i (y t) 0 + sin (w * t) * (lin (aA S0) (y t) i + w * nth i (x t) 0 + lin (aB S0) uq i + lino (aG S) cc (n + i)%nat))).
    + intros s. rewrite turnI_nth by (rewrite Lx; exact Hi). ring.
    + rewrite !turnI_lin by (rewrite ?Lx; auto; now rewrite (v_A _ V)). unfold n. ring.
    + apply (derivable_pt_lim_plus (fun s => cos (w * s) * nth i (x s) 0) (fun s => sin (w * s) * nth i (y s) 0)).
      * apply (derivable_pt_lim_mult (fun s => cos (w * s)) (fun s => nth i (x s) 0)); [apply der_cos|exact DX].
      * apply (derivable_pt_lim_mult (fun s => sin (w * s)) (fun s => nth i (y s) 0)); [apply der_sin|exact DY].
  - apply der_ext with (f := fun s => cos (w * s) * nth i (y s) 0 - sin (w * s) * nth i (x s) 0)
      (l := (- w * sin (w * t)) * nth i (y t) 0 + cos (w * t) * (lin (aA S0) (y t) i + w * nth i (x t) 0 + lin (aB S0) uq i + lino (aG S) cc (n + i)%nat) -
            ((w * cos (w * t)) * nth i (x t) 0 + sin (w * t) * (lin (aA S0) (x t) i - w * nth i (y t) 0 + lin (aB S0) u i + lino (aG S) cc i))).
    + intros s. rewrite turnQ_nth by (rewrite Lx; exact Hi). ring.
    + rewrite !turnQ_lin by (rewrite ?Lx; auto; now rewrite (v_A _ V)). unfold n. ring.
    + apply (derivable_pt_lim_minus (fun s => cos (w * s) * nth i (y s) 0) (fun s => sin (w * s) * nth i (x s) 0)).
      * apply (derivable_pt_lim_mult (fun s => cos (w * s)) (fun s => nth i (y s) 0)); [apply der_cos|exact DY].
      * apply (derivable_pt_lim_mult (fun s => sin (w * s)) (fun s => nth i (x s) 0)); [apply der_sin|exact DX].
Qed.
(** The derivative of the envelope.  [x], [y]: the two halves of the state as functions of time; [u], [uq], [c], [cq]: input and control at time [t]. *)
Lemma bp_envelope (x y : R -> list R) (u uq c cq : list R) t v : b_scalar k = false -> (b_modulate k = false -> equal_gains S0) ->
  (forall s, length (x s) = n) -> (forall s, length (y s) = n) -> length u = sL S0 -> length uq = sL S0 -> length c = sM S0 -> length cq = sM S0 ->
  derivative S (x t ++ y t) (u ++ uq) (c ++ cq) = Ok v ->
  (forall i, (i < n + n)%nat -> derivable_pt_lim (fun s => nth i (x s ++ y s) 0) t (nth i v 0)) ->
  exists vI vQ,
    derivative S0 (turnI 1 (w * t) (x t) (y t)) (turnI 1 (w * t) u uq) (turnI g (w * t - ph) c cq) = Ok vI /\
    derivative S0 (turnQ 1 (w * t) (x t) (y t)) (turnQ 1 (w * t) u uq) (turnQ g (w * t - ph) c cq) = Ok vQ /\
    forall i, (i < n)%nat -> derivable_pt_lim (fun s => nth i (turnI 1 (w * s) (x s) (y s)) 0) t (nth i vI 0) /\
                             derivable_pt_lim (fun s => nth i (turnQ 1 (w * s) (x s) (y s)) 0) t (nth i vQ 0).
Proof.
  intros Es HE Lx Ly Lu Luq Lc Lcq HD Hd.
  destruct (bandpass_inv _ _ _ _ _ _ _ _ EF EC V H) as (VS & SN & Hn & _ & HA & _ & _ & (g0 & gm & gt & EG0 & EG & _ & HG) & HB).
  rewrite Es in HB. fold n w in SN, HA. assert (RB := v_B _ V). fold n in RB.
  assert (G0 : aG S0 <> None) by congruence.
  exists (rhs S0 (turnI 1 (w * t) (x t) (y t)) (turnI 1 (w * t) u uq) (turnI g (w * t - ph) c cq)), (rhs S0 (turnQ 1 (w * t) (x t) (y t)) (turnQ 1 (w * t) u uq) (turnQ g (w * t - ph) c cq)).
  split; [apply derivative_rhs; auto; rewrite turnI_len; auto; apply Lx|]. split; [apply derivative_rhs; auto; rewrite turnQ_len; auto; apply Lx|].
  assert (SMS : sM S = (sM S0 + sM S0)%nat).
  { unfold sM. rewrite EG, EG0. destruct (b_modulate k); [exact (proj1 (proj2 (proj1 HG)))|]. destruct HG as (M1 & _ & _ & _ & -> & _). unfold sM in M1. rewrite EG0 in M1. cbn. rewrite M1. lia. }
  intros i Hi. destruct (bp_controls c cq t i HE Lc Lcq Hi) as [C1 C2].
  destruct (bp_raw x y u uq (c ++ cq) t v Es Lx Ly Lu Luq ltac:(rewrite app_length; congruence) HD Hd i Hi) as [R1 R2].
  rewrite C1 in R1. rewrite C2 in R2. rewrite !rhs_nth by exact Hi. split; assumption.
Qed.


Lemma bp_deadbeat (x y u uq : R -> list R) (cc : list R) t0 delta : b_scalar k = false -> b_modulate k = false -> delta = dflt (b_delta k) 0 -> 0 < T ->
  (forall s, length (x s) = n) -> (forall s, length (y s) = n) -> (forall s, length (u s) = sL S0) -> (forall s, length (uq s) = sL S0) ->
  control_observation S (x (t0 - delta) ++ y (t0 - delta)) None None = Ok cc ->
  (forall t i, t0 <= t <= t0 + T -> (i < n + n)%nat -> continuity_pt (fun s => nth i (x s ++ y s) 0) t) ->
  (forall t, t0 < t < t0 + T -> exists v, derivative S (x t ++ y t) (u t ++ uq t) cc = Ok v /\
      forall i, (i < n + n)%nat -> derivable_pt_lim (fun s => nth i (x s ++ y s) 0) t (nth i v 0)) ->
  forall i WI WQ, (i < n)%nat ->
  (forall t, t0 <= t <= t0 + T -> continuity_pt WI t) -> (forall t, t0 <= t <= t0 + T -> continuity_pt WQ t) ->
  (forall t, t0 < t < t0 + T -> exists v, derivative S0 (turnI 1 (w * t) (x t) (y t)) (turnI 1 (w * t) (u t) (uq t)) (repeat 0 (sM S0)) = Ok v /\ derivable_pt_lim WI t (nth i v 0)) ->
  (forall t, t0 < t < t0 + T -> exists v, derivative S0 (turnQ 1 (w * t) (x t) (y t)) (turnQ 1 (w * t) (u t) (uq t)) (repeat 0 (sM S0)) = Ok v /\ derivable_pt_lim WQ t (nth i v 0)) ->
  let zI s := nth i (turnI 1 (w * s) (x s) (y s)) 0 in let zQ s := nth i (turnQ 1 (w * s) (x s) (y s)) 0 in
  zI (t0 + T) = zI t0 - zI (t0 - delta) + (WI (t0 + T) - WI t0) /\
  zQ (t0 + T) = zQ t0 - zQ (t0 - delta) + (WQ (t0 + T) - WQ t0).
Proof.
  intros Es Em Ed HT Lx Ly Lu Luq HO Hc HD i WI WQ Hi CI CQ DI DQ zI zQ.
  destruct (bandpass_inv _ _ _ _ _ _ _ _ EF EC V H) as (VS & SN & Hn & _ & _ & _ & _ & (g0 & gm & gt & EG0 & EG & EGt & HG) & _).
  rewrite Em in HG. fold n w T in HG. destruct HG as (M1 & Mt1 & Hs & Hb & EGm & EGtm). fold n w T in SN.
  assert (G0 : aG S0 <> None) by congruence.
  assert (Hw : w <> 0) by (intros E; apply Hs; rewrite E; replace (0 * T / 2) with 0 by field; apply sin_0).
  rewrite control_observation_x in HO by (auto; try congruence; rewrite app_length, Lx, Ly; congruence). apply Ok_inj in HO.
  assert (SMt : sMt S = (n + n)%nat) by (unfold sMt; rewrite EGt, EGtm; cbn; lia).
  assert (SM : sM S = (n + n)%nat) by (unfold sM; rewrite EG, EGm; cbn; lia).
  set (p := x (t0 - delta)) in *. set (q := y (t0 - delta)) in *.
  assert (Lp : length p = n) by apply Lx. assert (Lq : length q = n) by apply Ly.
  set (kt := -1 / (ent g0 0%nat 0%nat * T) * cos (w * (T / 2 + dflt (b_delta k) 0) - dflt (b_phi k) 0)) in *.
  set (kbt := -1 / (ent g0 0%nat 0%nat * T) * sin (w * (T / 2 + dflt (b_delta k) 0) - dflt (b_phi k) 0)) in *.
  assert (Lcc : length cc = (n + n)%nat) by (rewrite <- HO; unfold obs_x; now rewrite map_length, seq_length).
  assert (CN : forall j, (j < n)%nat -> nth j cc 0 = kt * nth j p 0 - kbt * nth j q 0 /\ nth (n + j) cc 0 = kt * nth j q 0 + kbt * nth j p 0).
  { intros j Hj. rewrite <- HO. unfold obs_x. cbn [car Rring]. rewrite !nth_seq_R by (rewrite SMt; lia). rewrite EGt, EGtm. cbn [lino]. now apply quad_lin. }
  assert (SPL : cc = firstn n cc ++ skipn n cc) by (symmetry; apply firstn_skipn).
  assert (N1 : nth i (firstn n cc) 0 = nth i cc 0). { rewrite SPL at 2. rewrite app_nth1; [reflexivity|rewrite firstn_length; lia]. }
  assert (N2 : nth i (skipn n cc) 0 = nth (n + i) cc 0). { rewrite SPL at 2. rewrite (nth_app2 (firstn n cc) (skipn n cc) n i); [reflexivity|rewrite firstn_length; lia]. }
  destruct (quad_lin n (ent g0 0%nat 0%nat * T * w / (2 * sin (w * T / 2)) * cos (dflt (b_phi k) 0)) (ent g0 0%nat 0%nat * T * w / (2 * sin (w * T / 2)) * sin (dflt (b_phi k) 0)) (firstn n cc) (skipn n cc) i)
    as [Q1 Q2]; [rewrite firstn_length; lia|rewrite skipn_length; lia|exact Hi|].
  destruct (CN i Hi) as [CN1 CN2]. rewrite N1, N2, CN1, CN2, <- SPL, <- EGm in Q1, Q2.
  set (GI := lino (aG S) cc i). set (GQ := lino (aG S) cc (n + i)%nat).
  destruct (trig_key w T t0 delta (dflt (b_phi k) 0) (ent g0 0%nat 0%nat * T) (nth i p 0) (nth i q 0) GI GQ Hw Hs Hb) as [K1 K2].
  { unfold GI. rewrite EG. cbn [lino]. rewrite Ed. etransitivity; [exact Q1|]. unfold kt, kbt. ring. }
  { unfold GQ. rewrite EG. cbn [lino]. rewrite Ed. etransitivity; [exact Q2|]. unfold kt, kbt. ring. }
  assert (Z1 : zI (t0 - delta) = cos (w * (t0 - delta)) * nth i p 0 + sin (w * (t0 - delta)) * nth i q 0) by (unfold zI; rewrite turnI_nth by (rewrite Lx; exact Hi); unfold p, q; ring).
  assert (Z2 : zQ (t0 - delta) = cos (w * (t0 - delta)) * nth i q 0 - sin (w * (t0 - delta)) * nth i p 0) by (unfold zQ; rewrite turnQ_nth by (rewrite Lx; exact Hi); unfold p, q; ring).
  assert (Zero : forall z, lino (aG S0) (repeat 0 (sM S0)) z = 0).
  { intros z. rewrite EG0. cbn [lino]. rewrite lin_rsum. apply rsum_zero. intros j _. rewrite nth_repeat. apply Rmult_0_r. }
  assert (CX : forall t, t0 <= t <= t0 + T -> continuity_pt (fun s => nth i (x s) 0) t).
  { intros t Ht. apply cont_ext with (f := fun s => nth i (x s ++ y s) 0); [intros s; rewrite app_nth1; [reflexivity|rewrite Lx; exact Hi]|]. apply Hc; [exact Ht|lia]. }
  assert (CY : forall t, t0 <= t <= t0 + T -> continuity_pt (fun s => nth i (y s) 0) t).
  { intros t Ht. apply cont_ext with (f := fun s => nth (n + i) (x s ++ y s) 0); [intros s; now rewrite (nth_app2 (x s) (y s) n i (Lx s))|]. apply Hc; [exact Ht|lia]. }
  assert (Ccos : forall t, continuity_pt (fun s => cos (w * s)) t) by (intros t; apply derivable_continuous_pt; eexists; apply der_cos).
  assert (Csin : forall t, continuity_pt (fun s => sin (w * s)) t) by (intros t; apply derivable_continuous_pt; eexists; apply der_sin).
  split.
  - assert (E : zI (t0 + T) - WI (t0 + T) - (sin (w * (t0 + T)) * GI - cos (w * (t0 + T)) * GQ) / w = zI t0 - WI t0 - (sin (w * t0) * GI - cos (w * t0) * GQ) / w); [|lra].
    apply (antider_const (fun s => zI s - WI s - (sin (w * s) * GI - cos (w * s) * GQ) / w) t0 (t0 + T)); [lra| |].
    + intros t Ht. apply continuity_pt_minus; [apply continuity_pt_minus; [|now apply CI]|].
      * apply cont_ext with (f := fun s => cos (w * s) * nth i (x s) 0 + sin (w * s) * nth i (y s) 0); [intros s; unfold zI; rewrite turnI_nth by (rewrite Lx; exact Hi); ring|].
        apply continuity_pt_plus; apply continuity_pt_mult; auto.
      * apply continuity_pt_mult; [|apply continuity_pt_const; now intros ? ?]. apply continuity_pt_minus; apply continuity_pt_mult; auto; apply continuity_pt_const; now intros ? ?.
    + intros t Ht. destruct (HD t Ht) as (v & Ev & Dv). destruct (DI t Ht) as (v0 & Ev0 & Dv0).
      rewrite derivative_rhs in Ev0 by (auto; rewrite ?turnI_len, ?repeat_length; auto; apply Lx). apply Ok_inj in Ev0. subst v0. rewrite rhs_nth, Zero in Dv0 by exact Hi.
      destruct (bp_raw x y (u t) (uq t) cc t v Es Lx Ly (Lu t) (Luq t) ltac:(congruence) Ev Dv i Hi) as [R1 _]. fold zI GI GQ in R1.
      eapply der_ext; [| |apply derivable_pt_lim_minus; [apply derivable_pt_lim_minus; [exact R1|exact Dv0]|apply der_P]].
      * reflexivity.
      * field. exact Hw.
  - assert (E : zQ (t0 + T) - WQ (t0 + T) - (sin (w * (t0 + T)) * GQ + cos (w * (t0 + T)) * GI) / w = zQ t0 - WQ t0 - (sin (w * t0) * GQ + cos (w * t0) * GI) / w); [|lra].
    apply (antider_const (fun s => zQ s - WQ s - (sin (w * s) * GQ + cos (w * s) * GI) / w) t0 (t0 + T)); [lra| |].
    + intros t Ht. apply continuity_pt_minus; [apply continuity_pt_minus; [|now apply CQ]|].
      * apply cont_ext with (f := fun s => cos (w * s) * nth i (y s) 0 - sin (w * s) * nth i (x s) 0); [intros s; unfold zQ; rewrite turnQ_nth by (rewrite Lx; exact Hi); ring|].
        apply continuity_pt_minus; apply continuity_pt_mult; auto.
      * apply continuity_pt_mult; [|apply continuity_pt_const; now intros ? ?]. apply continuity_pt_plus; apply continuity_pt_mult; auto; apply continuity_pt_const; now intros ? ?.
    + intros t Ht. destruct (HD t Ht) as (v & Ev & Dv). destruct (DQ t Ht) as (v0 & Ev0 & Dv0).
      rewrite derivative_rhs in Ev0 by (auto; rewrite ?turnQ_len, ?repeat_length; auto; apply Lx). apply Ok_inj in Ev0. subst v0. rewrite rhs_nth, Zero in Dv0 by exact Hi.
      destruct (bp_raw x y (u t) (uq t) cc t v Es Lx Ly (Lu t) (Luq t) ltac:(congruence) Ev Dv i Hi) as [_ R1]. fold zQ GI GQ in R1.
      eapply der_ext; [| |apply derivable_pt_lim_minus; [apply derivable_pt_lim_minus; [exact R1|exact Dv0]|apply (der_P w t GQ (- GI))]].
      * intros s. unfold minus_fct. f_equal. field. exact Hw.
      * field. exact Hw.
Qed.
End Env.

(** *** Poles.  lam is a pole with mode p + i q: the undriven system maps p + i q to lam (p + i q) *)
Definition mode (S : asys Rring) (lam : C) (p q : list R) : Prop :=
  length p = sN S /\ length q = sN S /\ (exists i, nth i p 0 <> 0 \/ nth i q 0 <> 0) /\
  derivative S p (repeat 0 (sL S)) (repeat 0 (sM S)) = Ok (map (fun i => Re lam * nth i p 0 - Im lam * nth i q 0) (seq 0 (sN S))) /\
  derivative S q (repeat 0 (sL S)) (repeat 0 (sM S)) = Ok (map (fun i => Re lam * nth i q 0 + Im lam * nth i p 0) (seq 0 (sN S))).
Definition pole_of (S : asys Rring) (lam : C) : Prop := exists p q, mode S lam p q.

Lemma lin_zeros (m : nd2 Rring) l i : lin m (repeat 0 l) i = 0.
Proof. rewrite lin_rsum. apply rsum_zero. intros j _. rewrite nth_repeat. apply Rmult_0_r. Qed.
Lemma undriven (S : asys Rring) (p : list R) : valid S -> aG S <> None -> length p = sN S ->
  derivative S p (repeat 0 (sL S)) (repeat 0 (sM S)) = Ok (map (fun i => lin (aA S) p i) (seq 0 (sN S))).
Proof.
  intros V G L. rewrite derivative_rhs by (auto; now rewrite repeat_length). f_equal. unfold rhs. cbn [car Rring]. apply map_ext. intros i.
  destruct (aG S) as [g|]; [|congruence]. cbn [lino]. rewrite !(lin_zeros _ _ i). change ((lin (aA S) p i + 0) + 0 = lin (aA S) p i). ring.
Qed.
Lemma mode_lin (S : asys Rring) lam (p q : list R) : valid S -> aG S <> None ->
  mode S lam p q <-> length p = sN S /\ length q = sN S /\ (exists i, nth i p 0 <> 0 \/ nth i q 0 <> 0) /\
    forall i, (i < sN S)%nat -> lin (aA S) p i = Re lam * nth i p 0 - Im lam * nth i q 0 /\ lin (aA S) q i = Re lam * nth i q 0 + Im lam * nth i p 0.
Proof.
  intros V G. unfold mode. split; intros (Lp & Lq & Hn & X); (split; [exact Lp|]); (split; [exact Lq|]); (split; [exact Hn|]).
  - rewrite !undriven in X by auto. destruct X as [X1 X2]. apply Ok_inj in X1, X2. intros i Hi. split; [exact (map_seq_ext _ _ _ X1 i Hi)|exact (map_seq_ext _ _ _ X2 i Hi)].
  - rewrite !undriven by auto. split; f_equal; apply map_ext_in; intros i Hi; apply in_seq in Hi; apply X; lia.
Qed.
Definition rtab (n : nat) (f : nat -> R) : list R := map f (seq 0 n).
Lemma rtab_len n f : length (rtab n f) = n.
Proof. unfold rtab. now rewrite map_length, seq_length. Qed.
Lemma rtab_nth n f i : (i < n)%nat -> nth i (rtab n f) 0 = f i.
Proof. intros Hi. unfold rtab. now apply nth_seq_R. Qed.
Lemma rtab_of (l : list R) n : length l = n -> l = rtab n (fun i => nth i l 0).
Proof. intros <-. apply nth_ext with (d := 0) (d' := 0); [now rewrite rtab_len|]. intros i Hi. now rewrite rtab_nth. Qed.
Lemma lin_comb (m : nd2 Rring) (a b : R) (x y : list R) n i : cols m = n -> lin m (rtab n (fun j => a * nth j x 0 + b * nth j y 0)) i = a * lin m x i + b * lin m y i.
Proof. intros Hc. rewrite !lin_rsum, Hc, <- !rsum_scale, <- rsum_add. apply rsum_ext. intros j Hj. rewrite rtab_nth by exact Hj. cbv [car Rring]. ring. Qed.

Ltac rring := match goal with |- @eq _ ?a ?b => change (@eq R a b) end; first [ring | cbv [car Rring]; ring].
Lemma bp_poles k h (S : asys Rring) d h' (S0 : asys Rring) d0 fc lam : b_front k = Some (S0, d0) -> b_fc k = Some fc -> valid S0 -> get_bandpass k h = Ok (S, d, h') ->
  pole_of S lam <-> exists mu, pole_of S0 mu /\ (lam = mu + (0%R, (2 * PI * fc)%R) \/ lam = mu - (0%R, (2 * PI * fc)%R))%C.
Proof.
  intros EF EC V H. destruct (bandpass_inv _ _ _ _ _ _ _ _ EF EC V H) as (VS & SN & Hn & _ & HA & _ & _ & (g0 & gm & gt & EG0 & EG & _ & _) & _).
  change (2 * PI * fc) with (bp_freq fc). set (w := bp_freq fc) in *. set (n := sN S0) in *.
  assert (G0 : aG S0 <> None) by congruence. assert (G : aG S <> None) by congruence. assert (CA := v_A _ V). fold n in CA.
  assert (Hi1 : forall (x y : list R) i, length x = n -> (i < n)%nat -> nth i (x ++ y) 0 = nth i x 0) by (intros x y i Hx Hi; rewrite app_nth1; [reflexivity|lia]).
  split.
  - intros (P & Q & M). apply (mode_lin S lam P Q VS G) in M as (LP & LQ & (j & Hj) & M). rewrite SN in *.
    set (p := firstn n P). set (p' := skipn n P). set (q := firstn n Q). set (q' := skipn n Q).
    assert (EP : P = p ++ p') by (symmetry; apply firstn_skipn). assert (EQ : Q = q ++ q') by (symmetry; apply firstn_skipn).
    assert (Lp : length p = n) by (unfold p; rewrite firstn_length; lia). assert (Lp' : length p' = n) by (unfold p'; rewrite skipn_length; lia).
    assert (Lq : length q = n) by (unfold q; rewrite firstn_length; lia). assert (Lq' : length q' = n) by (unfold q'; rewrite skipn_length; lia).
    clearbody p p' q q'. subst P Q.
    assert (E : forall i, (i < n)%nat -> lin (aA S0) p i - w * nth i p' 0 = Re lam * nth i p 0 - Im lam * nth i q 0 /\ lin (aA S0) q i - w * nth i q' 0 = Re lam * nth i q 0 + Im lam * nth i p 0 /\
        lin (aA S0) p' i + w * nth i p 0 = Re lam * nth i p' 0 - Im lam * nth i q' 0 /\ lin (aA S0) q' i + w * nth i q 0 = Re lam * nth i q' 0 + Im lam * nth i p' 0).
    { intros i Hi. destruct (HA p p' i Lp Lp' Hi) as [A1 A2]. destruct (HA q q' i Lq Lq' Hi) as [A3 A4].
      destruct (M i ltac:(lia)) as [M1 M2]. destruct (M (n + i)%nat ltac:(lia)) as [M3 M4]. rewrite !Hi1 in M1, M2 by assumption.
      rewrite !(nth_app2 p p' n i Lp), !(nth_app2 q q' n i Lq) in M3, M4.
      exact (conj (eq_trans (eq_sym A1) M1) (conj (eq_trans (eq_sym A3) M2) (conj (eq_trans (eq_sym A2) M3) (eq_trans (eq_sym A4) M4)))). }
    (* U = X + iY = (p - q') + i (q + p'),  V = X - iY = (p + q') + i (q - p') *)
    assert (NZ : (exists i, (i < n)%nat /\ (1 * nth i p 0 + -1 * nth i q' 0 <> 0 \/ 1 * nth i q 0 + 1 * nth i p' 0 <> 0)) \/
                 (exists i, (i < n)%nat /\ (1 * nth i p 0 + 1 * nth i q' 0 <> 0 \/ 1 * nth i q 0 + -1 * nth i p' 0 <> 0))).
    { assert (Q : exists i, (i < n)%nat /\ (nth i p 0 <> 0 \/ nth i q 0 <> 0 \/ nth i p' 0 <> 0 \/ nth i q' 0 <> 0)).
      { destruct (Nat.lt_ge_cases j n) as [L|L].
        - exists j. split; [exact L|]. rewrite !Hi1 in Hj by assumption. tauto.
        - exists (j - n)%nat. destruct (Nat.lt_ge_cases j (n + n)) as [L2|L2].
          + split; [lia|]. replace j with (n + (j - n))%nat in Hj by lia. rewrite (nth_app2 p p' n _ Lp), (nth_app2 q q' n _ Lq) in Hj. tauto.
          + exfalso. rewrite !nth_overflow in Hj by (rewrite app_length; lia). tauto. }
      destruct Q as (i & Hi & Q). destruct (Req_dec (nth i p 0) (nth i q' 0)) as [F1|F1]; [|left; exists i; split; [exact Hi|left; lra]].
      destruct (Req_dec (nth i q 0) (- nth i p' 0)) as [F2|F2]; [|left; exists i; split; [exact Hi|right; lra]].
      right. exists i. split; [exact Hi|]. destruct (Req_dec (nth i p 0) 0) as [F3|F3]; [|left; lra]. right. intros F4. destruct Q as [Q|[Q|[Q|Q]]]; apply Q; lra. }
    destruct NZ as [(i & Hi & NZ)|(i & Hi & NZ)].
    + exists (lam - (0%R, w))%C. split; [|left; apply injective_projections; cbn; ring].
      exists (rtab n (fun j => 1 * nth j p 0 + -1 * nth j q' 0)), (rtab n (fun j => 1 * nth j q 0 + 1 * nth j p' 0)). apply (mode_lin S0 _ _ _ V G0). fold n. rewrite !rtab_len. split; [reflexivity|]. split; [reflexivity|].
      split; [exists i; rewrite !rtab_nth by exact Hi; exact NZ|]. intros l Hl. rewrite !lin_comb, !rtab_nth by assumption. destruct (E l Hl) as (E1 & E2 & E3 & E4). destruct lam as [a b]. unfold Re, Im in *. cbn [fst snd Cminus Cplus Copp] in *. split; lra.
    + exists (lam + (0%R, w))%C. split; [|right; apply injective_projections; cbn; ring].
      exists (rtab n (fun j => 1 * nth j p 0 + 1 * nth j q' 0)), (rtab n (fun j => 1 * nth j q 0 + -1 * nth j p' 0)). apply (mode_lin S0 _ _ _ V G0). fold n. rewrite !rtab_len. split; [reflexivity|]. split; [reflexivity|].
      split; [exists i; rewrite !rtab_nth by exact Hi; exact NZ|]. intros l Hl. rewrite !lin_comb, !rtab_nth by assumption. destruct (E l Hl) as (E1 & E2 & E3 & E4). destruct lam as [a b]. unfold Re, Im in *. cbn [fst snd Cminus Cplus Copp] in *. split; lra.
  - intros (mu & (p & q & M) & HL). apply (mode_lin S0 mu p q V G0) in M as (Lp & Lq & (j & Hj) & M). fold n in Lp, Lq, M.
    assert (Lneg : forall (r : list R) i, (i < n)%nat -> lin (aA S0) (rtab n (fun j => -1 * nth j r 0 + 0 * nth j r 0)) i = - lin (aA S0) r i) by (intros r i Hi; rewrite lin_comb by exact CA; rring).
    assert (jn : (j < n)%nat). { destruct (Nat.lt_ge_cases j n); [assumption|]. exfalso. rewrite !nth_overflow in Hj by lia. tauto. }
    destruct HL as [-> | ->].
    + (* Y = -i U: real part q, imaginary part -p *)
      exists (p ++ q), (q ++ rtab n (fun j => -1 * nth j p 0 + 0 * nth j p 0)). apply (mode_lin S _ _ _ VS G). rewrite SN, !app_length, rtab_len. split; [lia|]. split; [lia|].
      split; [exists j; rewrite !Hi1 by assumption; exact Hj|]. intros l Hl.
      assert (X : (l < n)%nat \/ exists l', (l' < n)%nat /\ l = (n + l')%nat) by (destruct (Nat.lt_ge_cases l n); [now left|right; exists (l - n)%nat; lia]).
      destruct X as [L|(l' & L & ->)].
      * destruct (HA p q l Lp Lq L) as [A1 _]. destruct (HA q (rtab n (fun j => -1 * nth j p 0 + 0 * nth j p 0)) l Lq (rtab_len _ _) L) as [A3 _].
        rewrite rtab_nth in A3 by exact L. destruct (M l L) as [M1 M2]. destruct mu as [a b]. unfold Re, Im in *. cbn [fst snd Cplus] in *.
        rewrite !Hi1 by assumption. split; [etransitivity; [exact A1|]; rewrite M1; rring|etransitivity; [exact A3|]; rewrite M2; rring].
      * destruct (HA p q l' Lp Lq L) as [_ A1]. destruct (HA q (rtab n (fun j => -1 * nth j p 0 + 0 * nth j p 0)) l' Lq (rtab_len _ _) L) as [_ A3].
        rewrite Lneg in A3 by exact L. destruct (M l' L) as [M1 M2]. destruct mu as [a b]. unfold Re, Im in *. cbn [fst snd Cplus] in *.
        rewrite (nth_app2 p q n l' Lp), (nth_app2 q _ n l' Lq), rtab_nth by exact L.
        split; [etransitivity; [exact A1|]; rewrite M2; rring|etransitivity; [exact A3|]; rewrite M1; rring].
    + (* Y = iU: real part -q, imaginary part p *)
      exists (p ++ rtab n (fun j => -1 * nth j q 0 + 0 * nth j q 0)), (q ++ p). apply (mode_lin S _ _ _ VS G). rewrite SN, !app_length, rtab_len. split; [lia|]. split; [lia|].
      split; [exists j; rewrite !Hi1 by assumption; exact Hj|]. intros l Hl.
      assert (X : (l < n)%nat \/ exists l', (l' < n)%nat /\ l = (n + l')%nat) by (destruct (Nat.lt_ge_cases l n); [now left|right; exists (l - n)%nat; lia]).
      destruct X as [L|(l' & L & ->)].
      * destruct (HA q p l Lq Lp L) as [A1 _]. destruct (HA p (rtab n (fun j => -1 * nth j q 0 + 0 * nth j q 0)) l Lp (rtab_len _ _) L) as [A3 _].
        rewrite rtab_nth in A3 by exact L. destruct (M l L) as [M1 M2]. destruct mu as [a b]. unfold Re, Im in *. cbn [fst snd Cplus Cminus Copp] in *.
        rewrite !Hi1 by assumption. split; [etransitivity; [exact A3|]; rewrite M1; rring|etransitivity; [exact A1|]; rewrite M2; rring].
      * destruct (HA q p l' Lq Lp L) as [_ A1]. destruct (HA p (rtab n (fun j => -1 * nth j q 0 + 0 * nth j q 0)) l' Lp (rtab_len _ _) L) as [_ A3].
        rewrite Lneg in A3 by exact L. destruct (M l' L) as [M1 M2]. destruct mu as [a b]. unfold Re, Im in *. cbn [fst snd Cplus Cminus Copp] in *.
        rewrite (nth_app2 q p n l' Lq), (nth_app2 p _ n l' Lp), rtab_nth by exact L.
        split; [etransitivity; [exact A3|]; rewrite M2; rring|etransitivity; [exact A1|]; rewrite M1; rring].
Qed.

(** *** scalar_input *)
Definition unscalar (k : bpkw) : bpkw := mkBp (b_front k) (b_fc k) (b_modulate k) (b_phi k) (b_delta k) false.
Lemma bp_scalar_input k h (S : asys Rring) d h' (S0 : asys Rring) d0 fc : b_front k = Some (S0, d0) -> b_fc k = Some fc -> valid S0 -> b_scalar k = true -> get_bandpass k h = Ok (S, d, h') ->
  exists S', get_bandpass (unscalar k) h = Ok (S', d, h') /\ sL S = 1%nat /\ sL S' = (sL S0 + sL S0)%nat /\
   forall z u c, length z = sN S -> length c = sM S ->
     derivative S z [u] c = derivative S' z (if Nat.eqb (sL S0) 1 then [u; - u] else u :: repeat 0 (sL S0 + sL S0 - 1)) c.
Proof.
  intros EF EC V Es H.
  assert (X := proj1 (bandpass_total k h S0 d0 fc EF EC V) (ex_intro _ _ H)). cbn zeta in X.
  destruct X as (g0 & X1 & X2 & X3 & X4 & X5).
  destruct (proj2 (bandpass_total (unscalar k) h S0 d0 fc EF EC V)) as ([[S' d'] h''] & H').
  { exists g0. split; [exact X1|]. split; [exact X2|]. split; [exact X3|]. split; [exact X4|]. discriminate. }
  destruct (bandpass_inv _ _ _ _ _ _ _ _ EF EC V H) as (VS & SN & Hn & Ed & _ & _ & _ & (_ & gm & _ & _ & EG & _) & HB).
  destruct (bandpass_inv (unscalar k) _ _ _ _ _ _ _ EF EC V H') as (VS' & SN' & _ & Ed' & _ & _ & _ & (_ & gm' & _ & _ & EG' & _) & HB').
  rewrite Ed in Ed'. apply Ok_inj in Ed'. injection Ed' as <- <-. cbn [unscalar b_scalar] in HB'. rewrite Es in HB. destruct HB as (S2 & ES & DB & HL & SL & EB).
  set (n := sN S0) in *.
  assert (EAG : aA S = aA S' /\ aG S = aG S').
  { clear - H H' EF EC. unfold get_bandpass in H, H'. cbn [unscalar b_front b_fc b_modulate b_phi b_delta b_scalar] in H'. rewrite EF, EC in H, H'.
    apply bind_ok in H as (beta & Eb & H). apply bind_ok in H' as (beta' & Eb' & H'). rewrite Eb in Eb'. apply Ok_inj in Eb'. subst beta'.
    apply bind_ok in H as (S2 & ES & H). apply bind_ok in H' as (S2' & ES' & H'). rewrite ES in ES'. apply Ok_inj in ES'. subst S2'.
    apply bind_ok in H as ([g gt] & EGG & H). apply bind_ok in H' as ([g' gt'] & EGG' & H'). rewrite EGG in EGG'. apply Ok_inj in EGG'. injection EGG' as <- <-.
    apply bind_ok in H as ([d1 h1] & Ed & H). apply bind_ok in H' as ([d1' h1'] & Ed' & H').
    apply bind_ok in H as ([B Bt] & EB & H). apply bind_ok in H' as ([B' Bt'] & EB' & H').
    apply bind_ok in H as (S3 & EI & H). apply bind_ok in H' as (S3' & EI' & H'). apply Ok_inj in H, H'. injection H as <- _ _. injection H' as <- _ _.
    destruct (as_init_ok _ _ _ _ _ _ _ _ _ EI) as (_ & _ & EA & _ & _ & EG & _). destruct (as_init_ok _ _ _ _ _ _ _ _ _ EI') as (_ & _ & EA' & _ & _ & EG' & _).
    split; [rewrite <- (f_equal (fun a => match a with D2 m => m | D1 _ => aA S3 end) EA), <- (f_equal (fun a => match a with D2 m => m | D1 _ => aA S3' end) EA'); reflexivity|now rewrite EG, EG']. }
  destruct EAG as [EA EGE].
  assert (SL' : sL S' = (sL S0 + sL S0)%nat) by exact (proj1 (proj2 HB')).
  exists S'. split; [exact H'|]. split; [exact SL|]. split; [exact SL'|]. intros z u c Hz Hc.
  assert (Hc' : length c = sM S') by (unfold sM in *; now rewrite <- EGE).
  rewrite derivative_rhs; [|exact VS|congruence|exact Hz|now rewrite SL|exact Hc].
  rewrite derivative_rhs; [|exact VS'|congruence|congruence| |exact Hc'].
  2:{ rewrite SL'. destruct (Nat.eqb_spec (sL S0) 1) as [->|]; [reflexivity|]. cbn [length]. rewrite repeat_length. lia. }
  f_equal. unfold rhs. rewrite EA, EGE, SN, SN'. apply map_ext_in. intros i Hi. apply in_seq in Hi. apply f_equal2; [|reflexivity]. apply f_equal2; [reflexivity|].
  assert (RB : rows (aB S0) = n) by exact (v_B _ V). destruct DB as (_ & _ & DB). destruct HB' as (_ & C' & DB'). fold (sL S0) in C', DB, DB'. rewrite RB in DB, DB'.
  rewrite !lin_rsum. fold (sL S) (sL S'). rewrite SL, SL'.
  rewrite rsum_S, rsum_0, Rplus_0_l. cbn [nth]. rewrite EB.
  destruct (Nat.eqb_spec (sL S0) 1) as [E1|E1].
  - rewrite E1 in *. cbn [Nat.add]. rewrite !rsum_S, rsum_0, Rplus_0_l. cbn [nth]. destruct (Nat.leb_spec n i) as [L|L].
    + destruct (DB (i - n)%nat 0%nat ltac:(lia) ltac:(lia)) as (_ & D1 & _). destruct (DB' (i - n)%nat 0%nat ltac:(lia) ltac:(lia)) as (_ & D2 & _ & D3).
      replace (n + (i - n))%nat with i in * by lia. cbn [Nat.add] in D1, D2. rewrite D1, D2, D3. rring.
    + destruct (DB i 0%nat ltac:(lia) ltac:(lia)) as (D1 & _). destruct (DB' i 0%nat ltac:(lia) ltac:(lia)) as (D2 & _ & D3 & _). cbn [Nat.add] in D3. rewrite D1, D2, D3. rring.
  - replace (sL S0 + sL S0)%nat with (1 + (sL S0 + sL S0 - 1))%nat at 1 by lia. rewrite rsum_split, rsum_S, rsum_0, Rplus_0_l.
    rewrite rsum_zero by (intros j _; cbn [Nat.add nth]; rewrite nth_repeat; apply Rmult_0_r). cbn [nth]. destruct (Nat.leb_spec n i) as [L|L].
    + destruct (DB (i - n)%nat 1%nat ltac:(lia) ltac:(lia)) as (_ & _ & _ & D1). destruct (DB' (i - n)%nat 0%nat ltac:(lia) ltac:(lia)) as (_ & _ & _ & D3).
      replace (n + (i - n))%nat with i in * by lia. rewrite D1, D3. rring.
    + destruct (DB i 0%nat ltac:(lia) ltac:(lia)) as (D1 & _). destruct (DB' i 0%nat ltac:(lia) ltac:(lia)) as (D2 & _). rewrite D1, D2. rring.
Qed.
