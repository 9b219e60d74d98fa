(** The chain of oscillators. *)
From Coq Require Import List Arith Lia Bool Reals Lra.
From Coquelicot Require Import Complex.
From Flocq Require Import Core.
From Verif Require Import Base LinAlg FirExtras AnalogSystem AnalogProofs ChainProofs Signals DigitalControl DigitalControlProofs Fom Integrators IntegratorsProofs Simulator Stability SynthesisProofs LinearOde LcCircuit LeapFrogPoles Quadrature QuadratureProofs QuadratureRun.
Import ListNotations.
Open Scope R_scope.

Lemma rsum_pairs n (f : nat -> R) : rsum (2 * n) f = rsum n (fun b => f (2 * b)%nat + f (2 * b + 1)%nat).
Proof.
  induction n as [|n IH]; [reflexivity|]. replace (2 * S n)%nat with (S (S (2 * n))) by lia. rewrite !rsum_S, IH.
  replace (S (2 * n)) with (2 * n + 1)%nat by lia. ring.
Qed.

Section Fac.
Variables (n : nat) (beta rho kappa gamma w : R).
(** the entries of the matrix after the first [m] turns of the loop *)
Definition osc_ent (m a b r s : nat) : R :=
  if Nat.eqb a b && Nat.ltb a m then ent (osc_block rho w) r s
  else if Nat.eqb b (a + 1) && Nat.ltb a m then (if Nat.eqb r s then gamma else 0)
  else if Nat.eqb a (b + 1) && Nat.ltb b m then (if Nat.eqb r s then beta else 0) else 0.

Lemma osc_fold_A m : (m <= n)%nat -> let A := fst (fold_left (osc_step n beta rho gamma w) (seq 0 m) (zeros (K := Rring) (2 * n) (2 * n), zeros (K := Rring) (2 * n) 2)) in
  rows A = (2 * n)%nat /\ cols A = (2 * n)%nat /\
  forall a b r s, (a < n)%nat -> (b < n)%nat -> (r < 2)%nat -> (s < 2)%nat -> ent A (2 * a + r)%nat (2 * b + s)%nat = osc_ent m a b r s.
Proof.
  induction m as [|m IH]; intros Hm A.
  - unfold A. cbn [seq fold_left fst]. split; [reflexivity|]. split; [reflexivity|]. intros a b r s _ _ _ _. cbn [zeros ent]. unfold osc_ent. nb; reflexivity.
  - destruct (IH ltac:(lia)) as (RA & CA & EA). unfold A. rewrite seq_S, fold_left_app. cbn [Nat.add fold_left].
    destruct (fold_left (osc_step n beta rho gamma w) (seq 0 m) (zeros (2 * n) (2 * n), zeros (2 * n) 2)) as [A' B']. cbn [fst] in RA, CA, EA. cbn [osc_step fst].
    split; [destruct (Nat.ltb m (n - 1)); exact RA|]. split; [destruct (Nat.ltb m (n - 1)); exact CA|].
    intros a b r s Ha Hb Hr Hs. destruct (Nat.ltb_spec m (n - 1)) as [L|L]; rewrite ?ent_setblk; rewrite EA by assumption; unfold osc_ent, inb, ceye; cbn [ent]; nb; try reflexivity; f_equal; lia.
Qed.
Lemma osc_fold_B m : let B := snd (fold_left (osc_step n beta rho gamma w) (seq 0 m) (zeros (K := Rring) (2 * n) (2 * n), zeros (K := Rring) (2 * n) 2)) in
  rows B = (2 * n)%nat /\ cols B = 2%nat /\
  forall i s, (s < 2)%nat -> ent B i s = if Nat.ltb 0 m && Nat.eqb i s then beta else 0.
Proof.
  induction m as [|m IH]; intros B.
  - unfold B. cbn [seq fold_left snd zeros rows cols ent]. split; [reflexivity|]. split; [reflexivity|]. intros i s Hs. reflexivity.
  - destruct IH as (RB & CB & EB). unfold B. rewrite seq_S, fold_left_app. cbn [Nat.add fold_left].
    destruct (fold_left (osc_step n beta rho gamma w) (seq 0 m) (zeros (2 * n) (2 * n), zeros (2 * n) 2)) as [A' B']. cbn [snd] in RB, CB, EB. cbn [osc_step snd].
    split; [exact RB|]. split; [exact CB|]. intros i s Hs. rewrite ent_setblk, EB by exact Hs. unfold inb, ceye. cbn [ent]. nb; reflexivity.
Qed.

(** the chain of oscillators as complex states: what the two real states of the oscillator [a] do *)
Definition osc_dyn (S : asys Rring) : Prop :=
  valid S /\ sN S = (2 * n)%nat /\ sL S = 2%nat /\ sM S = (2 * n)%nat /\ aG S <> None /\
  (forall (x : list R) a, (a < n)%nat ->
    lin (aA S) x (2 * a)%nat = rho * nth (2 * a) x 0 - w * nth (2 * a + 1) x 0 + gamma * (if Nat.eqb (a + 1) n then 0 else nth (2 * (a + 1)) x 0) + beta * (if Nat.eqb a 0 then 0 else nth (2 * (a - 1)) x 0) /\
    lin (aA S) x (2 * a + 1)%nat = rho * nth (2 * a + 1) x 0 + w * nth (2 * a) x 0 + gamma * (if Nat.eqb (a + 1) n then 0 else nth (2 * (a + 1) + 1) x 0) + beta * (if Nat.eqb a 0 then 0 else nth (2 * (a - 1) + 1) x 0)) /\
  (forall (u : list R) i, lin (aB S) u i = if Nat.ltb i 2 && Nat.ltb 0 n then beta * nth i u 0 else 0) /\
  (forall (c : list R) i, (i < 2 * n)%nat -> lino (aG S) c i = kappa * nth i c 0).

Lemma rsum_three (P Q R' : R) a m : (a < m)%nat ->
  rsum m (fun b => if Nat.eqb a b then P else if Nat.eqb b (a + 1) then Q else if Nat.eqb a (b + 1) then R' else 0) =
  P + (if Nat.eqb (a + 1) m then 0 else Q) + (if Nat.eqb a 0 then 0 else R').
Proof.
  intros Ha.
  rewrite (rsum_ext _ _ (fun b => ((if Nat.eqb b a then P else 0) + (if Nat.eqb b (a + 1) then Q else 0)) + (if Nat.eqb (b + 1) a then R' else 0))) by (intros b Hb; nb; lra).
  rewrite !rsum_add. apply f_equal2; [apply f_equal2|].
  - exact (IntegratorsProofs.rsum_single m a (fun _ => P) Ha).
  - destruct (Nat.eqb_spec (a + 1) m) as [E|E]; [apply rsum_zero; intros b Hb; nb; reflexivity|]. apply (IntegratorsProofs.rsum_single m (a + 1) (fun _ => Q)). lia.
  - destruct (Nat.eqb_spec a 0) as [E|E]; [apply rsum_zero; intros b Hb; nb; reflexivity|].
    rewrite (rsum_ext _ _ (fun b => if Nat.eqb b (a - 1) then R' else 0)) by (intros b Hb; nb; reflexivity). apply (IntegratorsProofs.rsum_single m (a - 1) (fun _ => R')). lia.
Qed.

Lemma osc_factory_ok : exists S, osc_factory n beta rho kappa gamma w = Ok S /\ osc_dyn S.
Proof.
  unfold osc_factory. destruct (osc_fold_A n (Nat.le_refl n)) as (RA & CA & EA). destruct (osc_fold_B n) as (RB & CB & EB).
  destruct (fold_left (osc_step n beta rho gamma w) (seq 0 n) (zeros (2 * n) (2 * n), zeros (2 * n) 2)) as [A B]. cbn [fst snd] in *.
  match goal with |- exists S, as_init ?A ?B ?C ?G ?Gtt ?D ?Bt ?At = Ok S /\ _ =>
    destruct (as_init_total (2 * n) 2 (2 * n) (2 * n) (2 * n) A B C G Gtt D Bt At) as (S & E & SN & SL & SNt & SM & SMt) end.
  { unfold fits. cbn [has_shape col_shape row_shape opt_shape rows cols eye2 ceye]. repeat split; auto. }
  exists S. split; [exact E|]. destruct (as_init_ok _ _ _ _ _ _ _ _ _ E) as (_ & VS & EAs & EBs & _ & EGs & _). injection EAs as EAs. cbn [colof rowof mato matd] in EBs, EGs.
  unfold osc_dyn. split; [exact VS|]. split; [exact SN|]. split; [exact SL|]. split; [exact SM|]. split; [rewrite EGs; discriminate|]. rewrite <- EAs, EBs, EGs. split; [|split].
  - assert (E00 : forall a b, (a < n)%nat -> (b < n)%nat -> ent A (2 * a)%nat (2 * b)%nat = osc_ent n a b 0 0) by (intros a b Ha Hb; rewrite <- EA by lia; f_equal; lia).
    assert (E01 : forall a b, (a < n)%nat -> (b < n)%nat -> ent A (2 * a)%nat (2 * b + 1)%nat = osc_ent n a b 0 1) by (intros a b Ha Hb; rewrite <- EA by lia; f_equal; lia).
    assert (E10 : forall a b, (a < n)%nat -> (b < n)%nat -> ent A (2 * a + 1)%nat (2 * b)%nat = osc_ent n a b 1 0) by (intros a b Ha Hb; rewrite <- EA by lia; f_equal; lia).
    assert (E11 : forall a b, (a < n)%nat -> (b < n)%nat -> ent A (2 * a + 1)%nat (2 * b + 1)%nat = osc_ent n a b 1 1) by (intros a b Ha Hb; rewrite <- EA by lia; f_equal; lia).
    intros x a Ha. rewrite !lin_rsum, CA, !rsum_pairs. split.
    + rewrite (rsum_ext _ _ (fun b => if Nat.eqb a b then rho * nth (2 * a) x 0 - w * nth (2 * a + 1) x 0 else if Nat.eqb b (a + 1) then gamma * nth (2 * (a + 1)) x 0 else if Nat.eqb a (b + 1) then beta * nth (2 * (a - 1)) x 0 else 0)).
      * rewrite rsum_three by exact Ha. destruct (Nat.eqb (a + 1) n), (Nat.eqb a 0); cbv [car Rring]; ring.
      * intros b Hb. rewrite E00, E01 by lia. unfold osc_ent, osc_block. cbn [ent].
        destruct (Nat.eqb_spec a b) as [->|]; [nb; cbn [Nat.eqb]; cbv [car Rring]; ring|].
        destruct (Nat.eqb_spec b (a + 1)) as [->|]; [nb; cbv [car Rring]; ring|].
        destruct (Nat.eqb_spec a (b + 1)) as [->|]; [replace (b + 1 - 1)%nat with b by lia; nb; cbv [car Rring]; ring|]. nb. cbv [car Rring]; ring.
    + rewrite (rsum_ext _ _ (fun b => if Nat.eqb a b then rho * nth (2 * a + 1) x 0 + w * nth (2 * a) x 0 else if Nat.eqb b (a + 1) then gamma * nth (2 * (a + 1) + 1) x 0 else if Nat.eqb a (b + 1) then beta * nth (2 * (a - 1) + 1) x 0 else 0)).
      * rewrite rsum_three by exact Ha. destruct (Nat.eqb (a + 1) n), (Nat.eqb a 0); cbv [car Rring]; ring.
      * intros b Hb. rewrite E10, E11 by lia. unfold osc_ent, osc_block. cbn [ent].
        destruct (Nat.eqb_spec a b) as [->|]; [nb; cbn [Nat.eqb]; cbv [car Rring]; ring|].
        destruct (Nat.eqb_spec b (a + 1)) as [->|]; [nb; cbv [car Rring]; ring|].
        destruct (Nat.eqb_spec a (b + 1)) as [->|]; [replace (b + 1 - 1)%nat with b by lia; nb; cbv [car Rring]; ring|]. nb. cbv [car Rring]; ring.
  - intros u i. rewrite lin_rsum, CB. rewrite !rsum_S, rsum_0, !EB by lia. nb; try (cbv [car Rring]; ring).
    + subst i. nb. cbv [car Rring]; ring.
    + replace i with 1%nat by lia. nb. cbv [car Rring]; ring.
  - intros c i Hi. cbn [option_map mato]. cbn [lino]. rewrite lin_rsum. cbn [ceye cols ent]. apply rsum_delta. exact Hi.
Qed.
End Fac.

(** *** Poles of the chain of oscillators *)
Lemma tri_poles N beta alpha w0 lam : (1 <= N)%nat -> w0 <> 0 -> alpha * beta = - w0 ^ 2 ->
  (exists v, tri N beta alpha lam v /\ exists n, (n < N)%nat /\ v n <> RtoC 0) <-> exists j, (1 <= j <= N)%nat /\ lam = (0, 2 * w0 * cos (angle_k N j)).
Proof.
  intros HN Hw Hab. assert (NZ : ((0, w0) : C) <> RtoC 0) by (intros F; apply (f_equal snd) in F; now cbn in F). split.
  - intros (v & T & X). apply (tri_forces N beta alpha w0 HN Hw Hab) in T; [|exact X]. apply cheb_roots in T as (j & Hj & E). exists j. split; [exact Hj|].
    replace lam with ((lam / (0, w0)) * (0, w0))%C by (field; exact NZ). rewrite E. apply injective_projections; cbn; ring.
  - intros (j & Hj & ->). set (mu := RtoC (2 * cos (angle_k N j))). assert (Z : fst (cheb N mu) = RtoC 0) by (apply cheb_roots; eauto).
    assert (T := tri_cheb N beta alpha w0 HN Hw Hab mu Z). eexists. split.
    + replace (0, 2 * w0 * cos (angle_k N j)) with (mu * (0, w0))%C by (unfold mu; apply injective_projections; cbn; ring). exact T.
    + exists O. split; [lia|]. cbn [Cpow cheb fst]. intros F. apply (f_equal fst) in F. cbn in F. lra.
Qed.

(** X_a + sg i Y_a for the two states of the oscillator a *)
Definition zcomb (sg : R) (p q : list R) (a : nat) : C := (nth (2 * a) p 0 - sg * nth (2 * a + 1) q 0, nth (2 * a) q 0 + sg * nth (2 * a + 1) p 0).

Lemma osc_fwd n beta rho kappa gamma w S lam (p q : list R) sg : sg = 1 \/ sg = -1 -> osc_dyn n beta rho kappa gamma w S ->
  (forall i, (i < sN S)%nat -> lin (aA S) p i = Re lam * nth i p 0 - Im lam * nth i q 0 /\ lin (aA S) q i = Re lam * nth i q 0 + Im lam * nth i p 0) ->
  tri n beta gamma (lam - (rho, (sg * w)%R))%C (zcomb sg p q).
Proof.
  intros Hsg (V & SN & _ & _ & _ & HA & _) E a Ha. destruct (HA p a Ha) as [P0 P1]. destruct (HA q a Ha) as [Q0 Q1].
  destruct (E (2 * a)%nat ltac:(lia)) as [F0 G0]. destruct (E (2 * a + 1)%nat ltac:(lia)) as [F1 G1].
  rewrite P0 in F0. rewrite P1 in F1. rewrite Q0 in G0. rewrite Q1 in G1. unfold zcomb. destruct lam as [l1 l2].
  cbv [Cmult Cplus Cminus Copp RtoC Re Im car Rring] in *. clear P0 P1 Q0 Q1 HA E.
  destruct Hsg as [-> | ->]; destruct (Nat.eqb a 0), (Nat.eqb (a + 1) n); apply injective_projections; cbn [fst snd] in *; lra.
Qed.

Lemma osc_poles n beta rho kappa gamma w w0 S lam : (1 <= n)%nat -> w0 <> 0 -> gamma * beta = - w0 ^ 2 -> osc_dyn n beta rho kappa gamma w S ->
  pole_of S lam <-> exists j, (1 <= j <= n)%nat /\ (lam = (rho, 2 * w0 * cos (angle_k n j) + w) \/ lam = (rho, 2 * w0 * cos (angle_k n j) - w)).
Proof.
  intros Hn Hw Hab D. assert (D' := D). destruct D' as (V & SN & _ & _ & G & HA & _). split.
  - intros (p & q & M). apply (mode_lin S lam p q V G) in M as (Lp & Lq & (i & Hi) & M).
    assert (T1 := osc_fwd _ _ _ _ _ _ _ _ p q 1 (or_introl eq_refl) D M). assert (T2 := osc_fwd _ _ _ _ _ _ _ _ p q (-1) (or_intror eq_refl) D M).
    assert (L : (i < 2 * n)%nat). { destruct (Nat.lt_ge_cases i (2 * n)); [assumption|]. exfalso. rewrite !nth_overflow in Hi by lia. tauto. }
    assert (NZ : (exists a, (a < n)%nat /\ zcomb 1 p q a <> RtoC 0) \/ (exists a, (a < n)%nat /\ zcomb (-1) p q a <> RtoC 0)).
    { assert (Ea : exists a, (a < n)%nat /\ (i = (2 * a)%nat \/ i = (2 * a + 1)%nat)).
      { assert (Od := Nat.div2_odd i). exists (Nat.div2 i). destruct (Nat.odd i); cbn [Nat.b2n] in Od; [split; [lia|right; lia]|split; [lia|left; lia]]. }
      destruct Ea as (a & Ha & Ea). destruct (Ceq_dec (zcomb 1 p q a) (RtoC 0)) as [Z|Z]; [|left; now exists a]. right. exists a. split; [exact Ha|]. intros Z2.
      assert (Z1 := f_equal fst Z). assert (Z1' := f_equal snd Z). assert (Z3 := f_equal fst Z2). assert (Z3' := f_equal snd Z2). cbn [zcomb RtoC fst snd] in Z1, Z1', Z3, Z3'. destruct Ea as [-> | ->]; destruct Hi as [Hi|Hi]; apply Hi; lra. }
    destruct NZ as [(a & Ha & NZ)|(a & Ha & NZ)].
    + destruct (proj1 (tri_poles n beta gamma w0 (lam - (rho, (1 * w)%R))%C Hn Hw Hab)) as (j & Hj & E); [exists (zcomb 1 p q); split; [exact T1|now exists a]|].
      exists j. split; [exact Hj|]. left. replace lam with ((lam - (rho, (1 * w)%R)) + (rho, (1 * w)%R))%C by (apply injective_projections; cbn; ring). rewrite E. apply injective_projections; cbn; ring.
    + destruct (proj1 (tri_poles n beta gamma w0 (lam - (rho, (-1 * w)%R))%C Hn Hw Hab)) as (j & Hj & E); [exists (zcomb (-1) p q); split; [exact T2|now exists a]|].
      exists j. split; [exact Hj|]. right. replace lam with ((lam - (rho, (-1 * w)%R)) + (rho, (-1 * w)%R))%C by (apply injective_projections; cbn; ring). rewrite E. apply injective_projections; cbn; ring.
  - intros (j & Hj & HL). destruct (proj2 (tri_poles n beta gamma w0 (0, 2 * w0 * cos (angle_k n j)) Hn Hw Hab)) as (v & T & (a & Ha & NZ)); [eauto|].
    set (mu := 2 * w0 * cos (angle_k n j)) in *.
    assert (X : exists sg, (sg = 1 \/ sg = -1) /\ lam = (rho, mu + sg * w)).
    { destruct HL as [-> | ->]; [exists 1|exists (-1)]; (split; [tauto|]); f_equal; ring. }
    destruct X as (sg & Hsg & ->).
    (* X = U, Y = - sg i U *)
    set (p := rtab (2 * n) (fun i => if Nat.odd i then sg * snd (v (Nat.div2 i)) else fst (v (Nat.div2 i)))).
    set (q := rtab (2 * n) (fun i => if Nat.odd i then - sg * fst (v (Nat.div2 i)) else snd (v (Nat.div2 i)))).
    assert (P0 : forall b, (b < n)%nat -> nth (2 * b) p 0 = fst (v b) /\ nth (2 * b) q 0 = snd (v b)).
    { intros b Hb. unfold p, q. rewrite !rtab_nth by lia. rewrite Nat.div2_double. replace (Nat.odd (2 * b)) with false; [auto|]. symmetry. rewrite Nat.odd_mul. reflexivity. }
    assert (P1 : forall b, (b < n)%nat -> nth (2 * b + 1) p 0 = sg * snd (v b) /\ nth (2 * b + 1) q 0 = - sg * fst (v b)).
    { intros b Hb. unfold p, q. rewrite !rtab_nth by lia. replace (2 * b + 1)%nat with (Datatypes.S (2 * b)) by lia. rewrite Nat.div2_succ_double. rewrite Nat.odd_succ. replace (Nat.even (2 * b)) with true; [auto|]. symmetry. rewrite Nat.even_mul. reflexivity. }
    exists p, q. apply (mode_lin S _ p q V G). unfold p at 1, q at 1. rewrite !rtab_len, SN. split; [reflexivity|]. split; [reflexivity|]. split.
    + exists (2 * a)%nat. destruct (P0 a Ha) as [-> ->]. destruct (v a) as [v1 v2]. cbn [fst snd]. destruct (Req_dec v1 0) as [->|]; [|now left]. destruct (Req_dec v2 0) as [->|]; [|now right]. exfalso. now apply NZ.
    + intros i Hi. assert (Ea : exists b, (b < n)%nat /\ (i = (2 * b)%nat \/ i = (2 * b + 1)%nat)).
      { assert (Od := Nat.div2_odd i). exists (Nat.div2 i). destruct (Nat.odd i); cbn [Nat.b2n] in Od; [split; [lia|right; lia]|split; [lia|left; lia]]. }
      destruct Ea as (b & Hb & Ea). destruct (HA p b Hb) as [F0 F1]. destruct (HA q b Hb) as [G0 G1]. specialize (T b Hb).
      assert (X0 : (if Nat.eqb b 0 then 0 else nth (2 * (b - 1)) p 0) = fst (if Nat.eqb b 0 then RtoC 0 else v (b - 1)%nat) /\ (if Nat.eqb b 0 then 0 else nth (2 * (b - 1)) q 0) = snd (if Nat.eqb b 0 then RtoC 0 else v (b - 1)%nat) /\
                   (if Nat.eqb b 0 then 0 else nth (2 * (b - 1) + 1) p 0) = sg * snd (if Nat.eqb b 0 then RtoC 0 else v (b - 1)%nat) /\ (if Nat.eqb b 0 then 0 else nth (2 * (b - 1) + 1) q 0) = - sg * fst (if Nat.eqb b 0 then RtoC 0 else v (b - 1)%nat)).
      { destruct (Nat.eqb_spec b 0); [cbn; repeat split; ring|]. destruct (P0 (b - 1)%nat ltac:(lia)) as [-> ->]. destruct (P1 (b - 1)%nat ltac:(lia)) as [-> ->]. auto. }
      assert (X1 : (if Nat.eqb (b + 1) n then 0 else nth (2 * (b + 1)) p 0) = fst (if Nat.eqb (b + 1) n then RtoC 0 else v (b + 1)%nat) /\ (if Nat.eqb (b + 1) n then 0 else nth (2 * (b + 1)) q 0) = snd (if Nat.eqb (b + 1) n then RtoC 0 else v (b + 1)%nat) /\
                   (if Nat.eqb (b + 1) n then 0 else nth (2 * (b + 1) + 1) p 0) = sg * snd (if Nat.eqb (b + 1) n then RtoC 0 else v (b + 1)%nat) /\ (if Nat.eqb (b + 1) n then 0 else nth (2 * (b + 1) + 1) q 0) = - sg * fst (if Nat.eqb (b + 1) n then RtoC 0 else v (b + 1)%nat)).
      { destruct (Nat.eqb_spec (b + 1) n); [cbn; repeat split; ring|]. destruct (P0 (b + 1)%nat ltac:(lia)) as [-> ->]. destruct (P1 (b + 1)%nat ltac:(lia)) as [-> ->]. auto. }
      destruct X0 as (X01 & X02 & X03 & X04). destruct X1 as (X11 & X12 & X13 & X14). destruct (P0 b Hb) as [P01 P02]. destruct (P1 b Hb) as [P11 P12].
      assert (Tf := f_equal fst T). assert (Ts := f_equal snd T). unfold Cmult, Cplus, RtoC in Tf, Ts. cbn [fst snd] in Tf, Ts.
      cbv [car Rring] in *. rewrite X01, X11, P01, P11 in F0. rewrite X03, X13, P01, P11 in F1. rewrite X02, X12, P02, P12 in G0. rewrite X04, X14, P02, P12 in G1.
      unfold Re, Im. cbn [fst snd]. destruct Ea as [-> | ->]; [rewrite F0, G0, P01, P02|rewrite F1, G1, P11, P12]; clear X01 X02 X03 X04 X11 X12 X13 X14 F0 F1 G0 G1 HA P0 P1; destruct (Nat.eqb b 0), (Nat.eqb (b + 1) n); cbn [fst snd RtoC] in *; destruct Hsg as [-> | ->]; split; lra.
Qed.

(** *** What get_chain_of_oscillators returns *)
Lemma osc_enob_never k e n BW fp h v gi : osc_enob gi k e n BW fp h <> Ok v.
Proof.
  unfold osc_enob. cbv zeta. repeat match goal with |- context [if ?c then _ else _] => destruct c; [discriminate|] end.
  all: match goal with |- bind ?x _ <> _ => destruct x end; cbn [bind]; try discriminate.
  all: repeat match goal with |- context [if ?c then _ else _] => destruct c; try discriminate end.
  all: match goal with |- bind ?x _ <> _ => destruct x end; cbn [bind]; discriminate.
Qed.

Lemma get_osc_inv gi k fp h (S : asys Rring) d h' : get_osc gi k fp h = Ok (S, d, h') ->
  exists n f BW OSR, k_N k = Some n /\ fp = Some f /\ k_OSR k = Some OSR /\
    match k_BW k with Some b => BW = b /\ k_ENOB k = None /\ k_SNR k = None | None => exists T, k_T k = Some T /\ 2 * BW * OSR * T = 1 end /\
    BW <> 0 /\ OSR <> 0 /\ 2 / 100000000000000 <= 1 / (2 * BW * OSR) /\
    osc_dyn n (BW * OSR) (dflt (k_rho k) 0) (BW * OSR) (- (PI * BW) ^ 2 / (BW * OSR)) (2 * PI * f) S /\
    plain d n /\ wf d h' /\ ck_T (d_clk d) = 1 / (2 * BW * OSR).
Proof.
  intros H. unfold get_osc in H. destruct (k_N k) as [n|]; [|discriminate]. destruct fp as [f|]; [|discriminate].
  assert (X : forall OSR BW rho, osc_osr OSR n BW rho f h = Ok (S, d, h') -> BW <> 0 /\ OSR <> 0 /\ 2 / 100000000000000 <= 1 / (2 * BW * OSR) /\
    osc_dyn n (BW * OSR) rho (BW * OSR) (- (PI * BW) ^ 2 / (BW * OSR)) (2 * PI * f) S /\ plain d n /\ wf d h' /\ ck_T (d_clk d) = 1 / (2 * BW * OSR)).
  { clear H. intros OSR BW rho H. unfold osc_osr in H. destruct (Req_bool_spec (2 * BW * OSR) 0) as [|Z]; [discriminate|].
    assert (BW <> 0) by (intros ->; apply Z; ring). assert (OSR <> 0) by (intros ->; apply Z; ring).
    split; [assumption|]. split; [assumption|].
    apply bind_ok in H as (S1 & E1 & H). apply bind_ok in H as (clk & E2 & H). apply bind_ok in H as ([d1 h1] & E3 & H). apply Ok_inj in H. inversion H; subst S1 d1 h1; clear H.
    destruct (default_clock_inv _ _ E2) as (T1 & T2 & T3). destruct (frontend_default _ _ _ _ _ E3 T3) as (P1 & P2 & P3 & _).
    split; [exact T1|]. split; [|split; [exact P1|]; split; [exact P2|]; now rewrite P3].
    destruct (osc_factory_ok n (1 / (2 * (1 / (2 * BW * OSR)))) rho (1 / (2 * (1 / (2 * BW * OSR)))) (- (2 * PI * BW / 2) ^ 2 / (1 / (2 * (1 / (2 * BW * OSR))))) (2 * PI * f)) as (S' & E' & D').
    rewrite E1 in E'. apply Ok_inj in E'. subst S'.
    replace (1 / (2 * (1 / (2 * BW * OSR)))) with (BW * OSR) in D' by (field; split; assumption). replace (2 * PI * BW / 2) with (PI * BW) in D' by field. exact D'. }
  destruct (k_BW k) as [BW|].
  - destruct (k_ENOB k); [exfalso; now apply osc_enob_never in H|]. destruct (k_SNR k); [exfalso; now apply osc_enob_never in H|]. destruct (k_OSR k) as [o|]; [|discriminate].
    exists n, f, BW, o. repeat (split; [reflexivity|]). split; [auto|]. now apply X.
  - destruct (k_OSR k) as [o|]; [|discriminate]. destruct (k_T k) as [T|]; [|discriminate]. destruct (Req_bool_spec (2 * T * o) 0) as [|Z]; [discriminate|].
    exists n, f, (1 / (2 * T * o)), o. repeat (split; [reflexivity|]). split; [exists T; split; [reflexivity|]; field; split; intros ->; apply Z; ring|]. now apply X.
Qed.
Lemma get_osc_ok gi k h n f BW OSR : k_N k = Some n -> k_OSR k = Some OSR -> k_BW k = Some BW -> k_ENOB k = None -> k_SNR k = None -> 2 / 100000000000000 <= 1 / (2 * BW * OSR) -> 2 * BW * OSR <> 0 ->
  exists S d h', get_osc gi k (Some f) h = Ok (S, d, h').
Proof.
  intros E1 E2 E3 E4 E5 HT HZ. unfold get_osc. rewrite E1, E2, E3, E4, E5. unfold osc_osr. destruct (Req_bool_spec (2 * BW * OSR) 0); [contradiction|].
  destruct (osc_factory_ok n (1 / (2 * (1 / (2 * BW * OSR)))) (dflt (k_rho k) 0) (1 / (2 * (1 / (2 * BW * OSR)))) (- (2 * PI * BW / 2) ^ 2 / (1 / (2 * (1 / (2 * BW * OSR))))) (2 * PI * f)) as (S & E & _).
  rewrite E. cbn [bind]. rewrite default_clock_ok by exact HT. cbn [bind]. unfold dc_init. rewrite Rlt_bool_false by lra. cbn [init_resp bind]. eauto.
Qed.
