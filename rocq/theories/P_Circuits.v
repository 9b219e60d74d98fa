(** Generated circuits: op-amp front end (C51), Gm-C front end (C52), LC ladder (C53), test bench (C54), pulse source (C61): theorems.
    [anon] gives the names of nets of unconnected terminals; all theorems hold for every choice. *)
From Coq Require Import String List Bool Arith Reals Lia Lra.
From Flocq Require Import Core.
From Verif Require Import Base LinAlg FirExtras Netlist AnalogSystem IntegratorsProofs Circuits CircuitLaws CircuitProofs.
From Verif Require OpampCircuit OpampCell GmCircuit LcCircuit CircuitNames SourceProofs.
Import ListNotations.
Open Scope R_scope.

(** The differential voltage of the node pair "<pre><n>_P", "<pre><n>_N". *)
Definition dif (v : string -> R) (pre : string) (n : nat) : R := v (pre ++ dec n ++ "_P")%string - v (pre ++ dec n ++ "_N")%string.
(** A x + B u + Gamma s of row [n], read off the node voltages *)
Definition state_rhs (S : asys Rring) (G : nd2 Rring) (v : string -> R) (n : nat) : R :=
  rsum (sN S) (fun j => ent (aA S) n j * dif v "X" j) + rsum (sL S) (fun l => ent (aB S) n l * dif v "IN" l) + rsum (sM S) (fun m => ent G n m * dif v "OUT" m).

(** *** C51 *)
Theorem C51_ideal : forall anon S C G k (v dv il : string -> R) n,
  aG S = Some G -> C > 0 -> opamp_frontend S C = Ok k -> (n < sN S)%nat ->
  (forall l, In l (lines anon k) -> ideal_opamp v dv il (lines anon k) l) ->
  dif dv "X" n = state_rhs S G v n.
Proof.
  intros anon S C G k v dv il n HG HC Hk Hn H. unfold opamp_frontend in Hk. rewrite HG in Hk. injection Hk as <-.
  change (mkCkt _ _ _ _) with (OpampCircuit.op_ckt (sN S) (sL S) (sM S) (ent (aA S)) (ent (aB S)) (ent G) C) in H.
  assert (I : In (OpampCircuit.op_line n) (lines anon (OpampCircuit.op_ckt (sN S) (sL S) (sM S) (ent (aA S)) (ent (aB S)) (ent G) C))).
  { rewrite OpampCircuit.op_lines. right. apply in_or_app. right. apply in_or_app. left. apply in_map. apply in_seq. lia. }
  apply H in I. cbn [OpampCircuit.op_line ideal_opamp] in I. destruct I as (I1 & I2 & I3 & I4).
  pose proof (OpampCircuit.op_kcl anon _ _ _ _ _ _ C v dv il n HC Hn I3 I4) as E. unfold OpampCircuit.vg in E. rewrite I1, I2 in E.
  unfold state_rhs, dif. cbn [labname side] in E. rewrite E. ring.
Qed.
Print Assumptions C51_ideal.

(** With op-amps of finite gain-bandwidth product and gain: [w] is the residual voltage at the virtual ground of the integrator. *)
Theorem C51_finite : forall anon S C G k gbwp gain c (v dv il : string -> R) n,
  aG S = Some G -> C > 0 -> gbwp > 0 -> gain <> 0 -> c > 0 -> opamp_frontend S C = Ok k -> (n < sN S)%nat ->
  let net := flatten anon [opamp gbwp gain c] k in
  kcl v dv il net ("VGND_" ++ dec n ++ "_P") -> kcl v dv il net ("VGND_" ++ dec n ++ "_N") -> kcl v dv il net ("Xop_" ++ dec n ++ ".X") ->
  (forall l, In l net -> vcvs v l /\ vcvs dv l) ->
  let w := dif v "VGND_" n in
  dif dv "X" n = state_rhs S G v n + dif dv "VGND_" n
    + (rsum (sL S) (fun j => Rabs (ent (aB S) n j)) + rsum (sN S) (fun j => Rabs (ent (aA S) n j)) + rsum (sM S) (fun j => Rabs (ent G n j))) * w
  /\ dif dv "X" n = - (2 * PI * gbwp) * (2 * w + dif v "X" n / gain).
Proof.
  intros anon S C G k gb dc c v dv il n HG HC Hg Hd Hc Hk Hn net K1 K2 K3 HE w. unfold opamp_frontend in Hk. rewrite HG in Hk. injection Hk as <-.
  pose proof (OpampCell.op_finite anon (sN S) (sL S) (sM S) (ent (aA S)) (ent (aB S)) (ent G) C gb dc c v dv il n HC Hg Hd Hc Hn) as F.
  destruct F as [F1 F2]; [intros [|]; assumption|assumption|exact HE|]. split; [exact F1|exact F2].
Qed.
Print Assumptions C51_finite.

Theorem C51_names : forall S C k, opamp_frontend S C = Ok k -> NoDup (map (fun c => cname (c_id c)) (k_comps k)).
Proof.
  intros S C k H. unfold opamp_frontend in H. destruct (aG S); [|discriminate]. injection H as <-. apply CircuitNames.op_names.
Qed.
Print Assumptions C51_names.
Theorem C51_errors : forall S C, (exists e, opamp_frontend S C = Exn e) <-> aG S = None.
Proof. intros S C. unfold opamp_frontend. destruct (aG S); split; try discriminate; [intros [e H]; discriminate|reflexivity|eauto]. Qed.
Print Assumptions C51_errors.

(** *** C52 *)
Theorem C52_state : forall anon S C gain G k cs (v dv il : string -> R) n,
  aG S = Some G -> C <> 0 -> (forall g, gain = Some g -> g <> 0) -> gmc_frontend S C gain = Ok (k, cs) -> (n < sN S)%nat ->
  kcl v dv il (flatten anon cs k) ("X" ++ dec n ++ "_P") -> kcl v dv il (flatten anon cs k) ("X" ++ dec n ++ "_N") ->
  dif dv "X" n = state_rhs S G v n - (match gain with None => 0 | Some g => max_abs (sN S) (sL S) (ent (aB S)) / (4 * g) end) * dif v "X" n.
Proof.
  intros anon S C gain G k cs v dv il n HG HC Hg Hk Hn K1 K2.
  assert (D : gain = None \/ max_abs (sN S) (sL S) (ent (aB S)) * C <> 0).
  { destruct gain as [g|]; [right|now left]. intro E. unfold gmc_frontend in Hk. rewrite HG in Hk.
    destruct (sN S) as [|N] eqn:EN; [lia|]. cbn [seq map all_ok] in Hk. unfold gm_cell at 1 in Hk. rewrite E in Hk. rewrite Req_bool_true in Hk by reflexivity. discriminate. }
  rewrite (GmCircuit.gmc_ok S C gain G HG D) in Hk. injection Hk as <- <-.
  pose proof (GmCircuit.gmc_kcl anon (sN S) (sL S) (sM S) (ent (aA S)) (ent (aB S)) (ent G) C gain v dv il n HC) as F.
  unfold state_rhs, dif. unfold GmCircuit.rhs, GmCircuit.leak in F. cbn [labname side] in F. apply F; auto.
  intros g ->. destruct D as [D|D]; [discriminate|]. split; [now apply Hg|exact D].
Qed.
Print Assumptions C52_state.

(** [max_abs] is the largest magnitude of an entry. *)
Theorem C52_max : forall N L B m, max_abs N L B = m <-> 0 <= m /\ (forall n l, (n < N)%nat -> (l < L)%nat -> Rabs (B n l) <= m) /\
  (m = 0 \/ exists n l, (n < N)%nat /\ (l < L)%nat /\ m = Rabs (B n l)).
Proof.
  assert (F : forall xs : list R, 0 <= fold_right Rmax 0 xs /\ (forall x, In x xs -> x <= fold_right Rmax 0 xs) /\ (fold_right Rmax 0 xs = 0 \/ In (fold_right Rmax 0 xs) xs)).
  { induction xs as [|x xs (I1 & I2 & I3)]; cbn; [split; [lra|split; [tauto|now left]]|].
    split; [apply Rle_trans with (1 := I1); apply Rmax_r|]. split.
    - intros y [->|Hy]; [apply Rmax_l|]. apply Rle_trans with (1 := I2 _ Hy). apply Rmax_r.
    - destruct (Rle_dec x (fold_right Rmax 0 xs)) as [Hx|Hx].
      + rewrite Rmax_right by exact Hx. destruct I3 as [I3|I3]; [now left|right; now right].
      + rewrite Rmax_left by lra. right. now left. }
  intros N L B m.
  assert (P : forall x, In x (flat_map (fun n => map (fun l => Rabs (B n l)) (seq 0 L)) (seq 0 N)) <-> exists n l, (n < N)%nat /\ (l < L)%nat /\ x = Rabs (B n l)).
  { intro x. rewrite in_flat_map. split.
    - intros (n & Hn & H). apply in_map_iff in H. destruct H as (l & <- & Hl). apply in_seq in Hn, Hl. exists n, l. repeat split; lia.
    - intros (n & l & Hn & Hl & ->). exists n. split; [apply in_seq; lia|]. apply in_map_iff. exists l. split; [reflexivity|apply in_seq; lia]. }
  unfold max_abs. destruct (F (flat_map (fun n => map (fun l => Rabs (B n l)) (seq 0 L)) (seq 0 N))) as (F1 & F2 & F3).
  set (xs := flat_map _ _) in *. split.
  - intros <-. split; [exact F1|]. split; [intros n l Hn Hl; apply F2; apply P; eauto|]. destruct F3 as [F3|F3]; [now left|right; now apply P].
  - intros (H1 & H2 & H3). apply Rle_antisym.
    + destruct F3 as [E|I]; [rewrite E; exact H1|]. apply P in I. destruct I as (n & l & Hn & Hl & E). rewrite E. now apply H2.
    + destruct H3 as [->|(n & l & Hn & Hl & ->)]; [exact F1|]. apply F2. apply P. eauto.
Qed.
Print Assumptions C52_max.

(** A single integrator without feedback settles at four times the requested DC gain. *)
Theorem C52_dc_gain : forall anon (S : asys Rring) C g (G : nd2 Rring) k cs (v dv il : string -> R),
  aG S = Some G -> C <> 0 -> g <> 0 -> sN S = 1%nat -> sL S = 1%nat -> @eq R (ent (aA S) 0%nat 0%nat) 0 -> (forall m, @eq R (ent G 0%nat m) 0) -> 0 < ent (aB S) 0%nat 0%nat ->
  gmc_frontend S C (Some g) = Ok (k, cs) ->
  kcl v dv il (flatten anon cs k) "X0_P" -> kcl v dv il (flatten anon cs k) "X0_N" -> dif dv "X" 0 = 0 ->
  dif v "X" 0 = 4 * g * dif v "IN" 0.
Proof.
  intros anon S C g G k cs v dv il HG HC Hg HN HL HA HGz Hb Hk K1 K2 Hs.
  pose proof (C52_state anon S C (Some g) G k cs v dv il 0%nat HG HC) as F. rewrite HN, HL in F. rewrite Hs in F.
  specialize (F ltac:(intros ? [= <-]; exact Hg) Hk ltac:(lia) K1 K2). unfold state_rhs in F. rewrite HN, HL in F.
  assert (Z : forall n (f : nat -> R), rsum n (fun m => ent G 0%nat m * f m) = 0).
  { intros n f. apply rsum_zero. intros m _. rewrite HGz. ring. }
  rewrite Z in F. rewrite !rsum_S, !rsum_0, HA in F. unfold max_abs in F. cbn [seq flat_map map app fold_right] in F.
  rewrite Rmax_left in F by apply Rabs_pos. rewrite Rabs_right in F by lra.
  set (b := ent (aB S) 0%nat 0%nat) in *. set (x := dif v "X" 0) in *. set (u := dif v "IN" 0) in *.
  assert (E : b * (4 * g * u - x) = 0). { transitivity (4 * g * (0 * x + b * u + 0 - b / (4 * g) * x)); [field; exact Hg|]. rewrite Rplus_0_l in F. nra. }
  apply Rmult_integral in E. destruct E; lra.
Qed.
Print Assumptions C52_dc_gain.

Theorem C52_errors : forall S C gain, (0 < sN S)%nat ->
  gmc_frontend S C gain =
    match aG S, gain with
    | None, _ => Exn ValueError
    | Some G, None => gmc_frontend S C gain
    | Some G, Some g => if Req_bool (max_abs (sN S) (sL S) (ent (aB S)) * C) 0 then Exn ZeroDivisionError else gmc_frontend S C gain
    end /\
  ((exists k cs, gmc_frontend S C gain = Ok (k, cs)) <-> aG S <> None /\ (gain <> None -> max_abs (sN S) (sL S) (ent (aB S)) * C <> 0)).
Proof.
  intros S C gain HN.
  assert (E1 : aG S = None -> gmc_frontend S C gain = Exn ValueError).
  { intro E. unfold gmc_frontend. rewrite E. destruct (sN S); [lia|]. reflexivity. }
  assert (E2 : forall G g, aG S = Some G -> gain = Some g -> max_abs (sN S) (sL S) (ent (aB S)) * C = 0 -> gmc_frontend S C gain = Exn ZeroDivisionError).
  { intros G g E Eg Ez. unfold gmc_frontend. rewrite E, Eg. destruct (sN S) as [|N]; [lia|]. cbn [seq map all_ok]. unfold gm_cell at 1. rewrite Req_bool_true by exact Ez. reflexivity. }
  split.
  - destruct (aG S) as [G|] eqn:EG; [|now apply E1]. destruct gain as [g|]; [|reflexivity].
    destruct (Req_bool_spec (max_abs (sN S) (sL S) (ent (aB S)) * C) 0) as [Ez|Ez]; [now apply (E2 G g)|reflexivity].
  - split.
    + intros (k & cs & H). split; [intro E; rewrite (E1 E) in H; discriminate|]. intros Hg Ez.
      destruct (aG S) as [G|] eqn:EG; [|rewrite (E1 eq_refl) in H; discriminate]. destruct gain as [g|]; [|now elim Hg]. rewrite (E2 G g eq_refl eq_refl Ez) in H. discriminate.
    + intros [H1 H2]. destruct (aG S) as [G|] eqn:EG; [|now elim H1]. eexists. eexists. apply (GmCircuit.gmc_ok S C gain G EG).
      destruct gain; [right; apply H2; discriminate|now left].
Qed.
Print Assumptions C52_errors.
Theorem C52_names : forall S C gain k cs d, gmc_frontend S C gain = Ok (k, cs) -> In d (k :: cs) -> NoDup (map (fun c => cname (c_id c)) (k_comps d)).
Proof.
  intros S C gain k cs d H Hd. destruct (Nat.eq_dec (sN S) 0) as [Z|Z].
  - unfold gmc_frontend in H. rewrite Z in H. cbn in H. injection H as <- <-. destruct Hd as [<-|[]]. cbn. constructor; [intros []|constructor].
  - assert (X : aG S <> None /\ (gain <> None -> max_abs (sN S) (sL S) (ent (aB S)) * C <> 0)) by (apply (C52_errors S C gain); [lia|eauto]).
    destruct X as [X1 X2]. destruct (aG S) as [G|] eqn:EG; [|now elim X1].
    rewrite (GmCircuit.gmc_ok S C gain G EG) in H by (destruct gain; [right; apply X2; discriminate|now left]). injection H as <- <-.
    destruct Hd as [<-|Hd]; [apply CircuitNames.gmc_names; exact (fun _ _ => 0)|]. apply in_map_iff in Hd. destruct Hd as (n & <- & _). apply CircuitNames.gm_cell_names.
Qed.
Print Assumptions C52_names.

(** *** C53 *)
(** [z] holds the M capacitor voltages and the M-1 inductor currents.  The matrix A of the ladder: Kirchhoff's current law at the capacitors, ... *)
Theorem C53_capacitors : forall M L C Rin (z : nat -> R) i, (i < M)%nat -> C <> 0 ->
  C * rsum (2 * M - 1) (fun j => lc_A M L C Rin i j * z j) =
    (match i with O => - z 0%nat / Rin | S h => z (M + h)%nat end) - (if Nat.ltb i (M - 1) then z (M + i)%nat else 0).
Proof.
  intros M L C Rin z i Hi HC. pose proof (LcCircuit.A_cap M L C Rin ltac:(lia) z i Hi) as E. unfold LcCircuit.apply_A in E. rewrite E.
  unfold LcCircuit.cur. destruct i as [|h]; cbn [Nat.eqb].
  - destruct (Req_dec Rin 0) as [->|Hr]; [|destruct (Nat.ltb 0 (M - 1)); field; auto].
    rewrite Rmult_0_l. unfold Rdiv. rewrite !Rinv_0. destruct (Nat.ltb 0 (M - 1)); field; auto.
  - rewrite (proj2 (Nat.ltb_lt h (M - 1))) by lia. destruct (Nat.ltb (S h) (M - 1)); field; auto.
Qed.
Print Assumptions C53_capacitors.
(** ... and the law of the two inductors L in series. *)
Theorem C53_inductors : forall M L C Rin (z : nat -> R) i, (i < M - 1)%nat -> L <> 0 ->
  2 * L * rsum (2 * M - 1) (fun j => lc_A M L C Rin (M + i) j * z j) = z i - z (S i).
Proof.
  intros M L C Rin z i Hi HL. pose proof (LcCircuit.A_ind M L C Rin ltac:(lia) z i Hi) as E. unfold LcCircuit.apply_A in E. rewrite E. field. exact HL.
Qed.
Print Assumptions C53_inductors.
(** Along every trajectory of the undriven ladder the stored energy changes at the rate -v_0^2/Rin (twice the energy: -2 v_0^2/Rin). *)
Theorem C53_passive : forall M L C Rin (z : R -> nat -> R) t, (0 < M)%nat -> L <> 0 -> C <> 0 -> Rin <> 0 ->
  (forall i, (i < 2 * M - 1)%nat -> derivable_pt_lim (fun t => z t i) t (rsum (2 * M - 1) (fun j => lc_A M L C Rin i j * z t j))) ->
  derivable_pt_lim (fun t => rsum M (fun i => C * (z t i * z t i)) + rsum (M - 1) (fun i => 2 * L * (z t (M + i)%nat * z t (M + i)%nat))) t (-2 * (z t 0%nat * z t 0%nat) / Rin).
Proof.
  intros M L C Rin z t HM HL HC HR D.
  assert (S : forall n (f : R -> nat -> R) (d : nat -> R), (forall i, (i < n)%nat -> derivable_pt_lim (fun t => f t i) t (d i)) -> derivable_pt_lim (fun t => rsum n (f t)) t (rsum n d)).
  { induction n as [|n IH]; intros f d H; [apply derivable_pt_lim_const|]. rewrite rsum_S. apply (derivable_pt_lim_ext (fun t => rsum n (f t) + f t n)); [intro; now rewrite rsum_S|]. apply (derivable_pt_lim_plus (fun t => rsum n (f t)) (fun t => f t n)); [apply IH; intros; apply H; lia|apply H; lia]. }
  assert (Q : forall c i, (i < 2 * M - 1)%nat -> derivable_pt_lim (fun t => c * (z t i * z t i)) t (c * (2 * z t i * LcCircuit.apply_A M L C Rin (z t) i))).
  { intros c i Hi. pose proof (D i Hi) as Di. pose proof (derivable_pt_lim_mult _ _ t _ _ Di Di) as Dm. pose proof (derivable_pt_lim_scal _ c t _ Dm) as Ds.
    unfold mult_real_fct, mult_fct in Ds. unfold LcCircuit.apply_A. replace (c * (2 * z t i * _)) with (c * (rsum (2 * M - 1) (fun j => lc_A M L C Rin i j * z t j) * z t i + z t i * rsum (2 * M - 1) (fun j => lc_A M L C Rin i j * z t j))) by ring. exact Ds. }
  rewrite <- (LcCircuit.passive M L C Rin HM (z t) HL HC HR).
  apply (derivable_pt_lim_plus (fun t => rsum M (fun i => C * (z t i * z t i))) (fun t => rsum (M - 1) (fun i => 2 * L * (z t (M + i)%nat * z t (M + i)%nat)))).
  - apply (S M (fun t i => C * (z t i * z t i))). intros i Hi. apply Q. lia.
  - apply (S (M - 1)%nat (fun t i => 2 * L * (z t (M + i)%nat * z t (M + i)%nat))). intros i Hi. apply Q. lia.
Qed.
Print Assumptions C53_passive.
(** The state read off the netlist: capacitor voltages, then the mean current of the two inductors of a section. *)
Definition lc_state (M : nat) (v il : string -> R) (i : nat) : R :=
  if Nat.ltb i M then dif v "X" i else (il ("Lp_" ++ dec (i - M)) - il ("Ln_" ++ dec (i - M)))%string / 2.
(** The netlist obeys the ladder equations with the input resistance 2 Rin and the control magnitudes |Gamma_mm| / 2. *)
Theorem C53_netlist : forall anon M L C Rin G (v dv il di : string -> R) i,
  (i < 2 * M - 1)%nat -> L <> 0 -> C > 0 -> Rin <> 0 ->
  (forall n, (n < M)%nat -> kcl v dv il (lines anon (lc_frontend M L C Rin G)) ("X" ++ dec n ++ "_P") /\ kcl v dv il (lines anon (lc_frontend M L C Rin G)) ("X" ++ dec n ++ "_N")) ->
  (forall l, In l (lines anon (lc_frontend M L C Rin G)) -> inductor v di l) ->
  lc_state M dv di i = rsum (2 * M - 1) (fun j => lc_A M L C (2 * Rin) i j * lc_state M v il j)
    + lc_B (2 * Rin) C i * dif v "IN" 0 + (if Nat.ltb i M then Rabs (G i) / 2 * dif v "OUT" i else 0).
Proof.
  intros anon M L C Rin G v dv il di i Hi HL HC HR K HI.
  apply (LcCircuit.lc_kirchhoff anon M L C Rin G v dv il di i Hi HL HC HR); [|exact HI].
  intros n [|] Hn; apply K; exact Hn.
Qed.
Print Assumptions C53_netlist.
(** *** C54 *)
Theorem C54_input : forall anon vdd T tt sg L M fe k (v : string -> R) t l s,
  testbench vdd T tt sg L M fe = Ok k -> 0 <= t -> nth_error sg l = Some s -> (forall ln, In ln (lines anon k) -> source t v ln) ->
  dif v "IN" l = s_ampl s * sin (2 * PI * s_freq s * t + s_phase s * PI / 180) + 2 * s_offset s.
Proof.
  intros anon vdd T tt sg L M fe k v t l s Hk Ht Hs H. unfold testbench in Hk. destruct (Nat.ltb (length sg) L); [discriminate|]. injection Hk as <-.
  exact (SourceProofs.tb_input anon vdd T tt sg L M fe t v l s Ht Hs H).
Qed.
Print Assumptions C54_input.
(** Without offset and phase the front end sees the signal of the analog system. *)
Theorem C54_exact : forall anon vdd T tt sg L M fe k (v : string -> R) t l s,
  testbench vdd T tt sg L M fe = Ok k -> 0 <= t -> nth_error sg l = Some s -> s_offset s = 0 -> s_phase s = 0 ->
  (forall ln, In ln (lines anon k) -> source t v ln) -> dif v "IN" l = sine_eval s t.
Proof.
  intros anon vdd T tt sg L M fe k v t l s Hk Ht Hs Ho Hp H. rewrite (C54_input anon vdd T tt sg L M fe k v t l s Hk Ht Hs H).
  unfold sine_eval. rewrite Ho, Hp. replace (0 * PI / 180) with 0 by lra. ring.
Qed.
Print Assumptions C54_exact.
Theorem C54_rails : forall anon vdd T tt sg L M fe k (v : string -> R) t,
  testbench vdd T tt sg L M fe = Ok k -> (forall ln, In ln (lines anon k) -> source t v ln) ->
  v "VDD"%string - v "0"%string = vdd /\ v "VCM"%string - v "0"%string = vdd / 2.
Proof.
  intros anon vdd T tt sg L M fe k v t Hk H. unfold testbench in Hk. destruct (Nat.ltb (length sg) L); [discriminate|]. injection Hk as <-.
  exact (SourceProofs.tb_rails anon vdd T tt sg L M fe t v H).
Qed.
Print Assumptions C54_rails.
Theorem C54_errors : forall vdd T tt sg L M fe, (exists k, testbench vdd T tt sg L M fe = Ok k) <-> (L <= length sg)%nat.
Proof.
  intros. unfold testbench. destruct (Nat.ltb_spec (length sg) L); split; try lia; eauto; intros [k E]; discriminate.
Qed.
Print Assumptions C54_errors.

(** Node voltages of a bench with one signal [s] at time 0 *)
Definition tb_volt (vdd : R) (s : sine) (n : string) : R :=
  let d := s_offset s + s_ampl s / 2 * sin (s_phase s * PI / 180) in
  if String.eqb n "VDD" then vdd else if String.eqb n "VCM" then vdd / 2 else if String.eqb n "IN0_P" then vdd / 2 + d else if String.eqb n "IN0_N" then vdd / 2 - d else 0.
Lemma tb_solved anon vdd T tt s L M fe k : testbench vdd T tt [s] L M fe = Ok k -> forall ln, In ln (lines anon k) -> source 0 (tb_volt vdd s) ln.
Proof.
  intros Hk ln Hl. unfold testbench in Hk. destruct (Nat.ltb _ L); [discriminate|]. injection Hk as <-.
  destruct (SourceProofs.tb_all anon vdd T tt [s] L M fe) as [x E].
  change (In ln (lines anon (SourceProofs.tb_ckt vdd T tt [s] L M fe))) in Hl. rewrite E in Hl. cbn [app flat_map combine seq length In] in Hl.
  assert (X : 2 * PI * s_freq s * (0 - 0) + s_phase s * PI / 180 = s_phase s * PI / 180) by lra.
  destruct Hl as [<-|[<-|[<-|[<-|[<-|[<-|[]]]]]]]; cbn [source labname]; try exact I; try (unfold tb_volt; cbn; lra).
  - intros _. rewrite X. replace (- (0 - 0) * 0) with 0 by ring. rewrite exp_0. unfold tb_volt. cbn. lra.
  - intros _. rewrite X. replace (- (0 - 0) * 0) with 0 by ring. rewrite exp_0. unfold tb_volt. cbn. lra.
Qed.
Example C54_ex : exists k, testbench 1 1 (1 / 8) [mkSine 1 3 90 (1 / 4)] 1 2 "fe" = Ok k /\
  (forall ln, In ln (lines (fun _ _ => ""%string) k) -> source 0 (tb_volt 1 (mkSine 1 3 90 (1 / 4))) ln) /\ dif (tb_volt 1 (mkSine 1 3 90 (1 / 4))) "IN" 0 = 3 / 2.
Proof.
  eexists. split; [reflexivity|]. split; [eapply (tb_solved _ 1 1 (1 / 8) _ 1 2 "fe"); reflexivity|].
  unfold dif, tb_volt. cbn. replace (90 * PI / 180) with (PI / 2) by lra. rewrite sin_PI2. lra.
Qed.
(** The offset of the signal reaches the front end doubled. *)
Theorem C54_offset_refuted : exists anon vdd T tt s k (v : string -> R), testbench vdd T tt [s] 1 1 "fe" = Ok k /\ s_phase s = 0 /\
  (forall ln, In ln (lines anon k) -> source 0 v ln) /\ dif v "IN" 0 <> sine_eval s 0.
Proof.
  exists (fun _ _ => ""%string), 1, 1, (1 / 8), (mkSine 1 1 0 (1 / 4)). eexists. exists (tb_volt 1 (mkSine 1 1 0 (1 / 4))).
  split; [reflexivity|]. split; [reflexivity|]. split; [eapply (tb_solved _ 1 1 (1 / 8) _ 1 1 "fe"); reflexivity|].
  unfold dif, tb_volt, sine_eval. cbn. replace (2 * PI * 1 * 0 + 0) with 0 by ring. replace (0 * PI / 180) with 0 by lra. rewrite sin_0. lra.
Qed.
Print Assumptions C54_offset_refuted.
(** A phase, in radians for the analog system, is read as degrees. *)
Theorem C54_phase_refuted : exists anon vdd T tt s k (v : string -> R), testbench vdd T tt [s] 1 1 "fe" = Ok k /\ s_offset s = 0 /\
  (forall ln, In ln (lines anon k) -> source 0 v ln) /\ dif v "IN" 0 <> sine_eval s 0.
Proof.
  exists (fun _ _ => ""%string), 1, 1, (1 / 8), (mkSine 1 1 PI 0). eexists. exists (tb_volt 1 (mkSine 1 1 PI 0)).
  split; [reflexivity|]. split; [reflexivity|]. split; [eapply (tb_solved _ 1 1 (1 / 8) _ 1 1 "fe"); reflexivity|].
  unfold dif, tb_volt, sine_eval. cbn. replace (2 * PI * 1 * 0 + PI) with PI by ring. rewrite sin_PI.
  assert (Q : 0 < sin (PI * PI / 180)). { pose proof PI_RGT_0. pose proof PI_4. apply sin_gt_0; nra. } lra.
Qed.
Print Assumptions C54_phase_refuted.

(** *** C61 *)
(** The waveform of the emitted ngspice source is above the middle of the two levels exactly from half the rise time on, for period/2 + (rise-fall)/2. *)
Definition emitted_wave (k : kind) (t : R) : R := match k with KPulse a b td tr tf pw per => pulse_wave a b td tr tf pw per t | _ => 0 end.
Theorem C61_high : forall v0 v1 period rise fall t, v0 < v1 -> 0 < rise <= period / 2 -> 0 < fall <= period / 2 -> 0 <= t ->
  let x := t - period * IZR (Zfloor (t / period)) in
  (v0 + v1) / 2 <= emitted_wave (pulse v0 v1 period rise fall) t <-> rise / 2 <= x <= rise / 2 + (period / 2 + (rise - fall) / 2).
Proof.
  intros v0 v1 per rise fall t Hv [Hr Hr2] [Hf Hf2] Ht x. pose proof (SourceProofs.pulse_high v0 v1 per rise fall t Hv Hr Hf Hf2 Hr2 Ht) as P.
  cbv zeta in P. assert (E : pulse_phase 0 per t = x) by (unfold pulse_phase, x; now rewrite Rminus_0_r). rewrite E in P.
  rewrite SourceProofs.pulse_eq. cbn [emitted_wave]. split; intro H; [apply P in H; lra|apply P; lra].
Qed.
Print Assumptions C61_high.
Example C61_ex : 0 <= emitted_wave (pulse (-1) 1 4 1 1) 2 /\ ~ 0 <= emitted_wave (pulse (-1) 1 4 1 1) 3.
Proof.
  assert (F : forall n, (0 <= n < 4)%R -> Zfloor (n / 4) = 0%Z) by (intros n Hn; apply Zfloor_imp; cbn; lra).
  pose proof (C61_high (-1) 1 4 1 1) as H. split.
  - replace 0 with ((-1 + 1) / 2) by lra. apply H; try lra. rewrite F by lra. lra.
  - intro K. replace 0 with ((-1 + 1) / 2) in K by lra. apply H in K; try lra. rewrite F in K by lra. lra.
Qed.
(** The arguments of the ngspice PULSE: no delay whatever the attribute delay_time says, and rise + width + fall is half a period plus the rise time. *)
Theorem C61_ngspice : forall v0 v1 period rise fall, exists td tr tf pw per, pulse v0 v1 period rise fall = KPulse v0 v1 td tr tf pw per /\
  td = 0 /\ tr = rise /\ tf = fall /\ per = period /\ tr + pw + tf = period / 2 + rise.
Proof. intros. rewrite SourceProofs.pulse_eq. repeat eexists. lra. Qed.
Print Assumptions C61_ngspice.
Theorem C61_delay_refuted : exists v0 v1 period rise fall t, 0 < rise /\ 0 < fall /\ rise + fall < period / 2 /\
  emitted_wave (pulse v0 v1 period rise fall) t <> pulse_wave v0 v1 (pu_delay (pulse_init v0 v1 period rise fall)) rise fall (pu_width (pulse_init v0 v1 period rise fall)) period t.
Proof.
  exists 0, 1, 8, 1, 1, 2. repeat split; try lra. rewrite SourceProofs.pulse_eq. cbn [emitted_wave pulse_init pu_delay pu_width]. unfold pulse_wave at 2. rewrite Rlt_bool_true by lra.
  unfold pulse_wave, pulse_phase. replace (Zfloor ((2 - 0) / 8)) with 0%Z by (symmetry; apply Zfloor_imp; cbn; lra).
  rewrite Rlt_bool_false, Rlt_bool_false, Rlt_bool_true by lra. lra.
Qed.
Print Assumptions C61_delay_refuted.
(** The spectre source gets the pulse width as its period; delay, rise, fall, width and phase stay empty. *)
Theorem C61_spectre : forall v0 v1 period rise fall, let line := pulse_spectre (pulse_init v0 v1 period rise fall) in
  In ("period"%string, Some (period / 2 - fall)) line /\ In ("val0"%string, Some v0) line /\ In ("val1"%string, Some v1) line /\
  (forall f x, In f ["delay"; "rise"; "fall"; "width"; "phase"]%string -> In (f, x) line -> x = None).
Proof.
  intros. unfold line, pulse_spectre, pulse_init. cbn.
  split; [right; right; left; do 2 f_equal; lra|]. split; [now left|]. split; [right; now left|].
  intros f x Hf Hx. repeat (destruct Hx as [Hx|Hx]; [injection Hx as <- <-; first [reflexivity|exfalso; repeat (destruct Hf as [Hf|Hf]; [discriminate|]); exact Hf]|]). destruct Hx.
Qed.
Print Assumptions C61_spectre.
(** *** Non-vacuity of C51-C53: concrete circuits with node voltages that satisfy the laws *)
Fixpoint look (l : list (string * R)) (n : string) : R := match l with [] => 0 | (a, x) :: l => if String.eqb n a then x else look l n end.
Definition sys1 (a b g : R) : asys Rring :=
  let m x := mk2 (K := Rring) 1 1 (fun _ _ => x) in mkAS (K := Rring) (m a) (m b) (m 1) (Some (m g)) (Some (m 1)) (m 0) (m 0) (m 0).
Definition no_name : cid -> lab -> string := fun _ _ => ""%string.
Definition ex_v : string -> R := look [("IN0_P", 1); ("IN0_N", -1); ("X0_P", 1); ("X0_N", -1); ("OUT0_P", 1); ("OUT0_N", -1)]%string.
Definition ex_dv : string -> R := look [("X0_P"%string, -2); ("X0_N"%string, 2)].
Ltac req := repeat (rewrite Req_bool_false by lra).
Example C51_ex : exists k, opamp_frontend (sys1 (-1) 2 (-3)) 1 = Ok k /\
  (forall l, In l (lines no_name k) -> ideal_opamp ex_v ex_dv (fun _ => 0) (lines no_name k) l) /\ dif ex_dv "X" 0 = -4 /\ In (OpampCircuit.op_line 0) (lines no_name k).
Proof.
  eexists. split; [reflexivity|].
  match goal with |- context [lines no_name ?k] => change k with (OpampCircuit.op_ckt 1 1 1 (fun _ _ => -1) (fun _ _ => 2) (fun _ _ => -3) 1) end.
  rewrite OpampCircuit.op_lines. unfold net_pairs, mat_pairs. cbn [seq flat_map app]. req. cbn [app flat_map].
  unfold OpampCircuit.pair_lines. cbn [rp_val rp_k rp_n rp_j]. rewrite (Rlt_bool_true (-1)), (Rlt_bool_true (-3)), (Rlt_bool_false 2) by lra.
  rewrite (Rabs_left (-1)), (Rabs_left (-3)), (Rabs_right 2) by lra. cbn [map app].
  split; [|split; [unfold dif; cbn; lra|cbn [In]; tauto]].
  set (ls := _ :: _). intros l Hl. subst ls. cbn [In] in Hl.
  repeat (destruct Hl as [<-|Hl]; [cbn [OpampCircuit.op_line ideal_opamp emit dc_comp c_kind]; try exact I|]); [|destruct Hl]; try exact I.
  split; [cbn; lra|]. split; [cbn; lra|]. split; unfold kcl, total; cbn; field.
Qed.

Definition ex_fv : string -> R :=
  look [("IN0_P", 1); ("IN0_N", -1); ("X0_P", 1); ("X0_N", -1); ("OUT0_P", 1); ("OUT0_N", -1); ("Xop_0.X", 1)]%string.
Definition ex_fin : string -> R := fun n => if String.eqb n "VGND_0_P" then - (1 / 2) else if String.eqb n "VGND_0_N" then 1 / 2 else ex_fv n.
Definition ex_dfin : string -> R := look [("VGND_0_P"%string, 5); ("VGND_0_N"%string, -5)].
Example C51_finite_ex : exists k, opamp_frontend (sys1 (-1) 2 (-3)) 1 = Ok k /\
  let net := flatten no_name [opamp (1 / (2 * PI)) 1 1] k in
  kcl ex_fin ex_dfin (fun _ => 0) net "VGND_0_P" /\ kcl ex_fin ex_dfin (fun _ => 0) net "VGND_0_N" /\ kcl ex_fin ex_dfin (fun _ => 0) net "Xop_0.X" /\
  (forall l, In l net -> vcvs ex_fin l /\ vcvs ex_dfin l) /\ dif ex_fin "VGND_" 0 = -1.
Proof.
  pose proof PI_RGT_0 as Hp.
  eexists. split; [reflexivity|]. intro net. subst net.
  match goal with |- context [flatten no_name _ ?k] => change k with (OpampCircuit.op_ckt 1 1 1 (fun _ _ => -1) (fun _ _ => 2) (fun _ _ => -3) 1) end.
  rewrite OpampCell.fl_eq. unfold net_pairs, mat_pairs. cbn [seq flat_map app]. req. cbn [app flat_map].
  unfold OpampCircuit.pair_lines. cbn [rp_val rp_k rp_n rp_j]. rewrite (Rlt_bool_true (-1)), (Rlt_bool_true (-3)), (Rlt_bool_false 2) by lra.
  rewrite (Rabs_left (-1)), (Rabs_left (-3)), (Rabs_right 2) by lra. cbn [map app].
  unfold OpampCell.op_flat.
  split; [unfold kcl, total; cbn; unfold ex_fin; cbn; field; lra|]. split; [unfold kcl, total; cbn; unfold ex_fin; cbn; field; lra|].
  split; [unfold kcl, total; cbn; unfold ex_fin; cbn; field; lra|]. split; [|unfold dif, ex_fin; cbn; lra].
  intros l Hl. cbn [In app] in Hl.
  repeat (destruct Hl as [<-|Hl]; [cbn; unfold ex_fin; cbn; split; first [exact I|lra]|]). destruct Hl.
Qed.
Definition ex_gv : string -> R := look [("IN0_P", 1); ("IN0_N", -1); ("X0_P", 4); ("X0_N", -4)]%string.
Lemma gm_solved : exists k cs, gmc_frontend (sys1 0 1 0) 1 (Some 1) = Ok (k, cs) /\
  kcl ex_gv (fun _ => 0) (fun _ => 0) (flatten no_name cs k) "X0_P" /\ kcl ex_gv (fun _ => 0) (fun _ => 0) (flatten no_name cs k) "X0_N".
Proof.
  assert (E : max_abs 1 1 (fun _ _ => 1) = 1). { unfold max_abs. cbn. rewrite Rabs_right, Rmax_left; lra. }
  eexists. eexists. split.
  { apply (GmCircuit.gmc_ok (sys1 0 1 0) 1 (Some 1) (mk2 (K := Rring) 1 1 (fun _ _ => 0)) eq_refl). right. cbn. change (max_abs 1 1 (fun _ _ => 1) * 1 <> 0). rewrite E. lra. }
  change (GmCircuit.gmc_ckt _ _ _ _) with (GmCircuit.gmc_ckt 1 1 1 1).
  change (GmCircuit.cells _ _ _ _ _ _ _ _) with (GmCircuit.cells 1 1 1 (fun _ _ => 0) (fun _ _ => 1) (fun _ _ => 0) 1 (Some 1)).
  rewrite GmCircuit.gmc_flat. cbn [seq flat_map]. unfold GmCircuit.row_flat, GmCircuit.row_list, row_pairs. cbn [seq flat_map app].
  rewrite !(Req_bool_true 0 0) by reflexivity. rewrite Req_bool_false by lra. cbn [app map GmCircuit.flat_dc].
  unfold GmCircuit.flat_ota, GmCircuit.r_dc. cbn [rp_val rp_k rp_n rp_j]. try rewrite Rlt_bool_false by lra. rewrite E. rewrite ?(Rabs_right 1) by lra.
  rewrite ?(Rabs_right (1 * 1)) by lra. split; unfold kcl, total; cbn; field.
Qed.
(** The DC gain of an integrator is not the requested one. *)
Theorem C52_dc_gain_refuted : exists anon S C g k cs (v dv il : string -> R), g > 0 /\ gmc_frontend S C (Some g) = Ok (k, cs) /\
  kcl v dv il (flatten anon cs k) "X0_P" /\ kcl v dv il (flatten anon cs k) "X0_N" /\ S = sys1 0 1 0 /\ dif dv "X" 0 = 0 /\ dif v "X" 0 <> g * dif v "IN" 0.
Proof.
  destruct gm_solved as (k & cs & H1 & H2 & H3). exists no_name, (sys1 0 1 0), 1, 1, k, cs, ex_gv, (fun _ => 0), (fun _ => 0).
  split; [lra|]. split; [exact H1|]. split; [exact H2|]. split; [exact H3|]. split; [reflexivity|]. split; unfold dif; cbn; lra.
Qed.
Print Assumptions C52_dc_gain_refuted.
Example C52_ex : dif ex_gv "X" 0 = 4 * 1 * dif ex_gv "IN" 0.
Proof.
  destruct gm_solved as (k & cs & H1 & H2 & H3). eapply (C52_dc_gain no_name (sys1 0 1 0) 1 1 _ k cs ex_gv (fun _ => 0) (fun _ => 0)); try exact H1; try exact H2; try exact H3; try reflexivity; cbn; try lra.
  unfold dif. lra.
Qed.
Definition ex_lv : string -> R := look [("IN0_P"%string, 1); ("IN0_N"%string, -1)].
Definition ex_ldv : string -> R := look [("X0_P"%string, 1 / 2); ("X0_N"%string, - (1 / 2))].
Lemma lc_solved : (forall n, (n < 1)%nat -> kcl ex_lv ex_ldv (fun _ => 0) (lines no_name (lc_frontend 1 1 1 1 (fun _ => 0))) ("X" ++ dec n ++ "_P") /\
    kcl ex_lv ex_ldv (fun _ => 0) (lines no_name (lc_frontend 1 1 1 1 (fun _ => 0))) ("X" ++ dec n ++ "_N")) /\
  (forall l, In l (lines no_name (lc_frontend 1 1 1 1 (fun _ => 0))) -> inductor ex_lv (fun _ => 0) l).
Proof.
  rewrite LcCircuit.lc_lines by lia. cbn [seq map app Nat.sub]. unfold LcCircuit.tank_line, LcCircuit.rin_line, LcCircuit.gmp_line, LcCircuit.gmn_line. split.
  - intros n Hn. replace n with 0%nat by lia. split; unfold kcl, total; cbn; lra.
  - intros l Hl. cbn [In] in Hl. repeat (destruct Hl as [<-|Hl]; [exact I|]). destruct Hl.
Qed.
(** The netlist does not realise the model's own input resistance. *)
Theorem C53_netlist_refuted : exists anon M L C Rin G (v dv il di : string -> R) i, (i < 2 * M - 1)%nat /\ L > 0 /\ C > 0 /\ Rin > 0 /\
  (forall n, (n < M)%nat -> kcl v dv il (lines anon (lc_frontend M L C Rin G)) ("X" ++ dec n ++ "_P") /\ kcl v dv il (lines anon (lc_frontend M L C Rin G)) ("X" ++ dec n ++ "_N")) /\
  (forall l, In l (lines anon (lc_frontend M L C Rin G)) -> inductor v di l) /\ (forall m, G m = 0) /\
  lc_state M dv di i <> rsum (2 * M - 1) (fun j => lc_A M L C Rin i j * lc_state M v il j) + lc_B Rin C i * dif v "IN" 0.
Proof.
  exists no_name, 1%nat, 1, 1, 1, (fun _ => 0), ex_lv, ex_ldv, (fun _ => 0), (fun _ => 0), 0%nat. destruct lc_solved as [H1 H2].
  split; [lia|]. repeat (split; [lra|]). split; [exact H1|]. split; [exact H2|]. split; [reflexivity|].
  change (2 * 1 - 1)%nat with 1%nat. rewrite rsum_S, rsum_0. unfold lc_state, dif, lc_B. cbn. lra.
Qed.
Print Assumptions C53_netlist_refuted.
Example C53_ex : lc_state 1 ex_ldv (fun _ => 0) 0 = 1 /\ lc_B (2 * 1) 1 0 * dif ex_lv "IN" 0 = 1.
Proof. unfold lc_state, lc_B, dif. cbn. lra. Qed.
