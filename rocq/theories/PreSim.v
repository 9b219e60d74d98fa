(** PreComputedControlSignalsSimulator: the value of a step, and its relation to the differential equation. *)
From Coq Require Import List Arith Lia Bool Reals Lra.
From Flocq Require Import Core.
From Coquelicot Require Import Complex.
From Verif Require Import Base LinAlg FirExtras AnalogSystem AnalogProofs Signals DigitalControl DigitalControlProofs ControlKinds
  Integrators IntegratorsProofs Simulator Stability LinearOde.
Import ListNotations.
Open Scope R_scope.

(** *** Controls the simulator treats correctly: every waveform starts at 0, no excess delay *)
Definition at_once (d : dc) : Prop :=
  (forall w, In w (d_resp d) -> w_t0 w = 0 /\ wf_wave w) /\ 0 <= ck_tt (d_clk d) /\
  match d_kind d with KBin => True | KMulti _ => d_offsets d = repeat 0 (d_M d) end.
Definition usable (d : dc) : Prop := at_once d /\ d_tdelay d = 0.

(** the waveform of control [m] *)
Definition wave (d : dc) (m : nat) (t : R) : R := match w_eval (nth m (d_resp d) (WStep 0 0)) t with Ok x => x | Exn _ => 0 end.

Lemma nth_resp d h m : wf d h -> (m < d_M d)%nat -> In (nth m (d_resp d) (WStep 0 0)) (d_resp d).
Proof. intros W Hm. apply nth_In. destruct W as (_ & _ & _ & _ & _ & -> & _). exact Hm. Qed.

Lemma contribution_all d h t : wf d h -> (forall w, In w (d_resp d) -> wf_wave w) -> exists c, control_contribution d h t = Ok c /\ length c = d_M d.
Proof.
  intros W H. destruct (contrib_spec (d_clk d) (d_resp d) (d_tdelay d) (rd_arr h (d_dec d)) (rd_arr h (d_old d)) t (d_M d) 0) as (l & E & L & P).
  { intros m Hm. apply H. eapply nth_resp; eauto. }
  eauto.
Qed.

Lemma usable_contribution d h t : wf d h -> usable d -> 0 <= t ->
  control_contribution d h t = Ok (map (fun m => wave d m t * rd h (d_dec d) m) (seq 0 (d_M d))).
Proof.
  intros W ((Hr & _) & Htd) Ht.
  destruct (contrib_spec (d_clk d) (d_resp d) (d_tdelay d) (rd_arr h (d_dec d)) (rd_arr h (d_old d)) t (d_M d) 0) as (l & E & L & P).
  { intros m Hm. apply Hr. eapply nth_resp; eauto. }
  unfold control_contribution. rewrite E. f_equal. apply list_ext with (d := 0).
  - now rewrite map_length, seq_length.
  - intros m Hm. rewrite L in Hm. destruct (P m Hm) as (x & Ex & Nx). cbn [Nat.add] in *. rewrite Nx.
    destruct (Hr _ (nth_resp d h m W Hm)) as [H0 _]. rewrite H0, Rlt_bool_false in Ex by exact Ht. rewrite Htd, Rlt_bool_false by exact Ht.
    rewrite nth_seq_R by exact Hm. unfold wave. rewrite Ex. reflexivity.
Qed.

(** the decisions after an update *)
Definition decided (d : dc) (h h' : heap) : Prop := forall m, (m < d_M d)%nat -> rd h' (d_dec d) m = 2 * rd h' (d_s d) m - 1 /\
  match d_kind d with KBin => (rd h' (d_s d) m = 0 \/ rd h' (d_s d) m = 1) /\ rd h' (d_old d) m = rd h (d_dec d) m | KMulti _ => True end.
Lemma usable_update d h st : wf d h -> at_once d -> (d_M d <= length st)%nat ->
  exists h', dc_update d 0 st h = (Ok tt, h') /\ wf d h' /\ decided d h h'.
Proof.
  intros W (Hr & Htt & Hk) HL. destruct (dc_update_spec d 0 st h W HL) as (h' & E & Sh & _ & P).
  exists h'. split; [exact E|]. split; [eapply wf_shape; eauto|]. intros m Hm. specialize (P m Hm). rewrite on_phase_true in P.
  2:{ unfold matches. destruct (Hr _ (nth_resp d h m W Hm)) as [-> _]. rewrite Rminus_0_r, Rabs_R0. lra. }
  unfold post1 in P. destruct P as (P1 & P2 & P3). split.
  - rewrite P2. unfold newdec. destruct (d_kind d); [reflexivity|]. rewrite Hk, nth_repeat. lra.
  - unfold raw in P1. destruct (d_kind d); [|exact I]. split; [|exact P3]. rewrite P1, cast_01. destruct (Rle_bool _ _); auto.
Qed.

Lemma usable_impulse d h m t : wf d h -> at_once d -> (m < d_M d)%nat -> 0 <= t <= ck_T (d_clk d) ->
  dc_impulse_response d m t = Ok (map (fun j => if Nat.eqb j m then wave d m t else 0) (seq 0 (d_M d))).
Proof.
  intros W (Hr & _) Hm Ht. unfold dc_impulse_response. rewrite !Rle_bool_true by lra. cbn [andb].
  assert (Lr : length (d_resp d) = d_M d) by apply W.
  rewrite nth_error_nth' with (d := WStep 0 0) by lia.
  destruct (w_eval_ok (nth m (d_resp d) (WStep 0 0)) t) as [x Ex]; [apply Hr; eapply nth_resp; eauto|].
  rewrite Ex. cbn [bind]. f_equal. unfold wave. rewrite Ex. apply list_ext with (d := 0).
  - now rewrite upd_length, repeat_length, map_length, seq_length.
  - intros j Hj. rewrite upd_length, repeat_length in Hj. rewrite nth_seq_R by exact Hj.
    rewrite nth_upd, repeat_length, nth_repeat, (Nat.eqb_sym m j). destruct (Nat.ltb_spec j (d_M d)); [|lia]. now rewrite andb_true_r.
Qed.

(** *** Observation and update *)
Record fitting (S : asys Rring) (d : dc) : Prop := mkFit {
  f_valid : valid S; f_G : aG S <> None; f_Gt : aGt S <> None; f_M : d_M d = sM S; f_Mt : (sM S <= sMt S)%nat }.

Lemma observe_ok S d s (u : list R) : fitting S d -> s_d s = d -> wf d (s_h s) -> at_once d -> length (s_x s) = sN S -> length u = sL S ->
  exists h, observe_update S u s = Ok h /\ wf d h /\ decided d (s_h s) h.
Proof.
  intros F Ed W U Lx Lu. unfold observe_update. destruct (contribution_all d (s_h s) 0 W) as (c & Ec & Lc); [intros w Hw; now apply U|].
  rewrite (f_M _ _ F) in Lc. rewrite Ed, Ec. cbn [bind].
  assert (E : exists st : list R, control_observation S (s_x s) (Some u) (Some c) = Ok st /\ length st = sMt S).
  { eexists. split; [apply (control_observation_xus (K := Rring)); auto; apply F|].
    unfold obs_x, obs_u, obs_s. rewrite !vadd_map, map_length, seq_length. reflexivity. }
  destruct E as (st & E & Lst). rewrite E. cbn [bind].
  destruct (usable_update d (s_h s) st) as (h & E' & W' & P); auto.
  - rewrite (f_M _ _ F), Lst. apply F.
  - rewrite E'. eauto.
Qed.

(** *** The value of a step *)
Record shaped (S : asys Rring) (p : pre) : Prop := mkShaped {
  sh_Phi : rows (p_Phi p) = sN S /\ cols (p_Phi p) = sN S;
  sh_ctrl : rows (p_ctrl p) = sN S /\ cols (p_ctrl p) = sM S;
  sh_pw : rows (p_pw p) = sN S /\ cols (p_pw p) = length (p_pwi p) }.

Definition sine_at (p : pre) (t : R) (i : nat) : R :=
  rsum (length (p_freq p)) (fun l => p_mag p i l * sin (nth (if Nat.eqb (length (p_freq p)) 1 then O else i) (p_freq p) 0 * t + p_ph p i l)).
Definition sig_nth (inputs : list insig) (l : nat) : R -> R := sig_eval (nth l inputs (IOther (fun _ => 0))).
Definition step_value (S : asys Rring) (inputs : list insig) (p : pre) (t T : R) (x : list R) (sg : nat -> R) (i : nat) : R :=
  rsum (sN S) (fun k => ent (p_Phi p) i k * nth k x 0) +
  (sine_at p (t + T) i - rsum (sN S) (fun k => ent (p_Phi p) i k * sine_at p t k)) +
  rsum (length (p_pwi p)) (fun j => ent (p_pw p) i j * sig_nth inputs (nth j (p_pwi p) O) (t + T)) +
  rsum (sM S) (fun m => ent (p_ctrl p) i m * (2 * sg m - 1)).

Lemma bind_eq {A B} (r : result A) (f : A -> result B) a : r = Ok a -> bind r f = f a.
Proof. now intros ->. Qed.
Lemma dotv_R (m : nd2 Rring) (x : list R) : cols m = length x -> dotv m x = Ok (map (fun i => rsum (cols m) (fun k => ent m i k * nth k x 0)) (seq 0 (rows m))).
Proof.
  intros H. etransitivity; [apply (dotv_ok (K := Rring)); exact H|]. f_equal. apply map_ext. intros i. apply lin_rsum.
Qed.
Lemma vadd_seq (f g : nat -> R) n : vadd (K := Rring) (map f (seq 0 n)) (map g (seq 0 n)) = map (fun i => f i + g i) (seq 0 n).
Proof. apply (vadd_map (K := Rring)). Qed.
Lemma vsub_seq (f g : nat -> R) n : vsub (K := Rring) (map f (seq 0 n)) (map g (seq 0 n)) = map (fun i => f i - g i) (seq 0 n).
Proof. unfold vsub. induction (seq 0 n); simpl; f_equal; auto. Qed.
Lemma map_seq_ext (f g : nat -> R) n : (forall i, (i < n)%nat -> f i = g i) -> map f (seq 0 n) = map g (seq 0 n).
Proof. intros H. apply map_ext_in. intros i Hi. apply in_seq in Hi. apply H. lia. Qed.

Lemma sine_sum_ok N p t : (length (p_freq p) = 1%nat \/ length (p_freq p) = N) -> sine_sum N p t = Ok (map (sine_at p t) (seq 0 N)).
Proof.
  intros H. unfold sine_sum.
  assert (E : Nat.eqb (length (p_freq p)) 1 || Nat.eqb (length (p_freq p)) N = true) by (destruct H as [-> | ->]; [reflexivity|rewrite Nat.eqb_refl; apply orb_true_r]).
  rewrite E. reflexivity.
Qed.

Lemma pre_next_value S inputs p s h : shaped S p -> (length (p_freq p) = 0%nat \/ length (p_freq p) = 1%nat \/ length (p_freq p) = sN S) -> wf (s_d s) h -> d_M (s_d s) = sM S -> length (s_x s) = sN S ->
  observe_update S (inputs_at S (map sig_eval inputs) (s_t s + 0)) s = Ok h ->
  pre_next S inputs p s = Ok (d_s (s_d s), mkSim (s_t s + ck_T (d_clk (s_d s)))
    (map (step_value S inputs p (s_t s) (ck_T (d_clk (s_d s))) (s_x s) (rd h (d_s (s_d s)))) (seq 0 (sN S))) (s_d s) h).
Proof.
  intros [[R1 C1] [R2 C2] [R3 C3]] Hs W HM Lx EO. set (T := ck_T (d_clk (s_d s))). unfold pre_next. fold T.
  rewrite EO. cbn [bind]. rewrite dotv_R by congruence. cbn [bind]. rewrite R1, C1.
  set (x1 := fun i => rsum (sN S) (fun k => ent (p_Phi p) i k * nth k (s_x s) 0)).
  assert (E2 : exists x2 : nat -> R, (match p_freq p with
        | [] => Ok (map x1 (seq 0 (sN S)))
        | _ => bind (sine_sum (sN S) p (s_t s + T)) (fun after =>
               bind (sine_sum (sN S) p (s_t s + 0)) (fun before =>
               bind (dotv (p_Phi p) before) (fun pb => Ok (vadd (K := Rring) (map x1 (seq 0 (sN S))) (vsub (K := Rring) after pb)))))
        end) = Ok (map x2 (seq 0 (sN S))) /\ forall i, x2 i = x1 i + (sine_at p (s_t s + T) i - rsum (sN S) (fun k => ent (p_Phi p) i k * sine_at p (s_t s) k))).
  { destruct (p_freq p) as [|f fs] eqn:Ef.
    - exists x1. split; [reflexivity|]. intros i. assert (Z : forall t k, sine_at p t k = 0) by (intros; unfold sine_at; rewrite Ef; reflexivity).
      rewrite Z, (rsum_zero (sN S)) by (intros; rewrite Z; ring). ring.
    - rewrite <- Ef in Hs. assert (Hs' : length (p_freq p) = 1%nat \/ length (p_freq p) = sN S) by (destruct Hs as [Hs|Hs]; [rewrite Ef in Hs; discriminate|exact Hs]).
      rewrite (sine_sum_ok _ _ _ Hs'). cbn [bind]. rewrite (sine_sum_ok _ _ _ Hs'). cbn [bind].
      rewrite dotv_R by (rewrite map_length, seq_length; exact C1). cbn [bind]. rewrite R1, C1, vsub_seq, vadd_seq.
      eexists. split; [reflexivity|]. intros i. cbv beta. rewrite Rplus_0_r. do 2 f_equal. apply rsum_ext. intros k Hk. f_equal. now rewrite nth_seq_R. }
  destruct E2 as (x2 & E2 & H2). refine (eq_trans (bind_eq _ _ _ E2) _). cbv beta.
  assert (E3 : exists x3 : nat -> R, (match p_pwi p with
        | [] => Ok (map x2 (seq 0 (sN S)))
        | _ => bind (dotv (p_pw p) (map (fun l => sig_eval (nth l inputs (IOther (fun _ => 0))) (s_t s + T)) (p_pwi p))) (fun pc =>
               Ok (vadd (K := Rring) (map x2 (seq 0 (sN S))) pc))
        end) = Ok (map x3 (seq 0 (sN S))) /\ forall i, x3 i = x2 i + rsum (length (p_pwi p)) (fun j => ent (p_pw p) i j * sig_nth inputs (nth j (p_pwi p) O) (s_t s + T))).
  { destruct (p_pwi p) as [|q qs] eqn:Eq.
    - exists x2. split; [reflexivity|]. intros i. cbn [length]. rewrite rsum_0. ring.
    - rewrite <- Eq in *. rewrite dotv_R by (rewrite map_length; exact C3). cbn [bind]. rewrite R3, C3, vadd_seq.
      eexists. split; [reflexivity|]. intros i. cbv beta. f_equal. apply rsum_ext. intros k Hk. f_equal.
      set (g := fun l => sig_eval (nth l inputs (IOther (fun _ => 0))) (s_t s + T)). rewrite nth_indep with (d' := g O) by (now rewrite map_length).
      now rewrite (map_nth g). }
  destruct E3 as (x3 & E3 & H3). refine (eq_trans (bind_eq _ _ _ E3) _). cbv beta.
  assert (Ls : length (rd_arr h (d_s (s_d s))) = sM S) by (rewrite <- HM; apply W).
  rewrite dotv_R by (rewrite map_length; congruence). cbn [bind]. rewrite R2, C2, vadd_seq. unfold control_signal. do 3 f_equal.
  apply map_seq_ext. intros i Hi. rewrite H3, H2. unfold step_value. fold (x1 i). f_equal. apply rsum_ext. intros m Hm. f_equal.
  set (g := fun v => 2 * v - 1). rewrite nth_indep with (d' := g 0) by (rewrite map_length; lia). rewrite (map_nth g). reflexivity.
Qed.

(** *** Exact numerical routines *)
Definition zeroN (n : nat) : list R := repeat 0 n.
(** the end point of an exact solution *)
Definition endpoint (f : R -> list R -> result (list R)) (T : R) (y0 : list R) (r : result (list R)) : Prop :=
  exists y, solves_pw f T y0 y /\ r = Ok (y T).

Record exact_routines (ivp : (R -> list R -> result (list R)) -> R -> R -> list R -> result (list R)) (expm : nd2 Rring -> R -> nd2 Rring)
  (atf : asys Rring -> R -> nat -> nat -> C) (S : asys Rring) (d : dc) (inputs : list insig) : Prop := mkExact {
  ex_shape : rows (expm (aA S) (ck_T (d_clk d))) = sN S /\ cols (expm (aA S) (ck_T (d_clk d))) = sN S;
  ex_flow : forall x : list R, length x = sN S -> endpoint (fun _ y => dotv (aA S) y) (ck_T (d_clk d)) x (dotv (expm (aA S) (ck_T (d_clk d))) x);
  ex_ctrl : forall m, (m < sM S)%nat -> endpoint (control_rhs S d m) (ck_T (d_clk d)) (zeroN (sN S)) (ivp (control_rhs S d m) 0 (ck_T (d_clk d)) (zeroN (sN S)));
  ex_in : forall l, In l (indices is_pw inputs) -> endpoint (input_rhs S l) (ck_T (d_clk d)) (zeroN (sN S)) (ivp (input_rhs S l) 0 (ck_T (d_clk d)) (zeroN (sN S)));
  (* j omega X = A X + B, real and imaginary part *)
  ex_atf : forall l a f p o i, nth l inputs (IOther (fun _ => 0)) = ISin a f p o -> (i < sN S)%nat ->
    - ang_freq f * snd (atf S (ang_freq f) i l) = rsum (sN S) (fun k => ent (aA S) i k * fst (atf S (ang_freq f) k l)) + ent (aB S) i l /\
    ang_freq f * fst (atf S (ang_freq f) i l) = rsum (sN S) (fun k => ent (aA S) i k * snd (atf S (ang_freq f) k l)) }.

Lemma mapM_all {A B} (f : A -> result B) l (g : A -> B) : (forall a, In a l -> f a = Ok (g a)) -> mapM f l = Ok (map g l).
Proof. induction l as [|a l IH]; intros H; [reflexivity|]. cbn [mapM]. rewrite H by now left. cbn [bind]. rewrite IH by (intros; apply H; now right). reflexivity. Qed.
Lemma mapM_ex {A B} (f : A -> result B) (P : A -> B -> Prop) l : (forall a, In a l -> exists b, f a = Ok b /\ P a b) ->
  exists bs, mapM f l = Ok bs /\ Forall2 P l bs.
Proof.
  induction l as [|a l IH]; intros H; [exists []; split; [reflexivity|constructor]|].
  destruct (H a (or_introl eq_refl)) as (b & E & Hb). destruct IH as (bs & Es & Hs); [intros; apply H; now right|].
  exists (b :: bs). cbn [mapM]. rewrite E. cbn [bind]. rewrite Es. split; [reflexivity|now constructor].
Qed.
Lemma Forall2_nth2 {A B} (P : A -> B -> Prop) l l' a b i : Forall2 P l l' -> (i < length l)%nat -> P (nth i l a) (nth i l' b).
Proof. intros H. revert i. induction H; intros [|i] Hi; cbn in *; try lia; auto. apply IHForall2. lia. Qed.

Lemma Forall2_len {A B} (P : A -> B -> Prop) l l' : Forall2 P l l' -> length l = length l'.
Proof. induction 1; cbn; auto. Qed.

(** *** The angle of a complex number *)
Lemma angle_polar (z : C) : Cmod z * cos (angle z) = fst z /\ Cmod z * sin (angle z) = snd z.
Proof.
  destruct z as [a b]. unfold angle. cbn [fst snd]. set (r := Cmod (a, b)).
  assert (Hr : 0 <= r) by apply Cmod_ge_0.
  assert (Hr2 : r * r = a * a + b * b) by (unfold r, Cmod; cbn [fst snd]; rewrite sqrt_sqrt; nra).
  destruct (Req_bool_spec r 0) as [E|E].
  - rewrite cos_0, sin_0. assert (Z : a * a + b * b = 0) by (rewrite <- Hr2, E; ring). assert (Za : a = 0) by (apply Rsqr_0_uniq; unfold Rsqr; nra). assert (Zb : b = 0) by (apply Rsqr_0_uniq; unfold Rsqr; nra). split; [rewrite E, Za; ring|rewrite Zb; ring].
  - assert (Hp : 0 < r) by lra. assert (Hd : a / r * r = a) by (field; lra).
    assert (Hb : -1 <= a / r <= 1).
    { assert (Ha : - r <= a <= r) by (split; nra). split; apply Rmult_le_reg_r with r; lra. }
    assert (Hc : cos (acos (a / r)) = a / r) by now apply cos_acos.
    assert (Hsq : r * sqrt (1 - (a / r)²) = Rabs b).
    { rewrite <- (sqrt_square r) at 1 by lra. rewrite <- sqrt_mult; [|nra|unfold Rsqr; nra].
      rewrite <- sqrt_Rsqr_abs. f_equal. unfold Rsqr. replace (r * r * (1 - a / r * (a / r))) with (r * r - (a / r * r) * (a / r * r)) by ring. rewrite Hd. lra. }
    assert (Hs : sin (acos (a / r)) = sqrt (1 - (a / r)²)) by now apply sin_acos.
    destruct (Rle_bool_spec 0 b) as [Lb|Lb].
    + rewrite Hc, Hs, Hsq, Rabs_pos_eq by exact Lb. split; [lra|reflexivity].
    + rewrite cos_neg, sin_neg, Hc, Hs. rewrite Rabs_left in Hsq by exact Lb. split; lra.
Qed.
(** |z| sin(x + arg z) *)
Lemma polar_sin z x : Cmod z * sin (x + angle z) = fst z * sin x + snd z * cos x.
Proof. destruct (angle_polar z) as [A B]. rewrite sin_plus, <- A, <- B. ring. Qed.

(** *** The constructor *)
Definition nosig : insig := IOther (fun _ => 0).
Definition freq_of (i : insig) : R := match i with ISin _ f _ _ => f | _ => 0 end.
Definition sins (inputs : list insig) : list insig := filter is_sin inputs.

(** input signals the constructor accepts *)
Record acceptable (S : asys Rring) (inputs : list insig) : Prop := mkAcc {
  ac_len : inputs = [] \/ length inputs = sL S;
  ac_kind : forall i, In i inputs -> match i with ISin _ _ _ o => o = 0 | IPw _ => True | IOther _ => False end;
  ac_sin : sins inputs <> [] -> sNt S = sN S \/ sNt S = 1%nat }.
(** ... and those it treats correctly *)
Record suitable (S : asys Rring) (inputs : list insig) : Prop := mkSuit {
  su_acc : acceptable S inputs;
  su_sin : sins inputs <> [] ->
    sNt S = sN S /\ (forall i k, (i < sN S)%nat -> (k < sN S)%nat -> ent (aCT S) i k = if Nat.eqb i k then 1 else 0) /\
    (forall i l, (i < sN S)%nat -> (l < sL S)%nat -> ent (aD S) i l = 0) /\
    (length (sins inputs) = 1%nat \/ length (sins inputs) = sN S) /\
    (forall i j, In i (sins inputs) -> In j (sins inputs) -> freq_of i = freq_of j) }.

Lemma in_indices f l i : In i (indices f l) <-> (i < length l)%nat /\ f (nth i l nosig) = true.
Proof. unfold indices. rewrite filter_In, in_seq. intuition lia. Qed.
Lemma indices_map_from (f : insig -> bool) pre l : map (fun i => nth i (pre ++ l) nosig) (filter (fun i => f (nth i (pre ++ l) nosig)) (seq (length pre) (length l))) = filter f l.
Proof.
  revert pre. induction l as [|a l IH]; intros pre; [reflexivity|]. cbn [length seq filter].
  rewrite app_nth2, Nat.sub_diag by lia. cbn [nth]. specialize (IH (pre ++ [a])). rewrite app_length, Nat.add_1_r, <- app_assoc in IH. cbn [app] in IH.
  destruct (f a); [cbn [map]; rewrite app_nth2, Nat.sub_diag by lia; cbn [nth]; f_equal|]; exact IH.
Qed.
Lemma indices_map f l : map (fun i => nth i l nosig) (indices f l) = filter f l.
Proof. exact (indices_map_from f [] l). Qed.

Lemma fold_nth (l : list nat) (g : nat -> R) : fold_right Rplus 0 (map g l) = rsum (length l) (fun j => g (nth j l O)).
Proof.
  unfold rsum. f_equal. apply list_ext with (d := 0); [now rewrite !map_length, seq_length|]. intros i Hi. rewrite map_length in Hi.
  rewrite nth_indep with (d' := g O) by (now rewrite map_length). rewrite (map_nth g), nth_seq_R by exact Hi. reflexivity.
Qed.
Lemma fold_split (f f' : insig -> bool) (l : list nat) (h : nat -> insig) (g : nat -> R) :
  (forall i, In i l -> f' (h i) = negb (f (h i))) ->
  fold_right Rplus 0 (map g l) = fold_right Rplus 0 (map g (filter (fun i => f (h i)) l)) + fold_right Rplus 0 (map g (filter (fun i => f' (h i)) l)).
Proof.
  induction l as [|a l IH]; intros H; [cbn; lra|]. cbn [map filter fold_right]. rewrite H by now left.
  rewrite IH by (intros; apply H; now right). destruct (f (h a)); cbn [negb map fold_right]; lra.
Qed.
(** a sum over the inputs is one over the sinusoids plus one over the others *)
Lemma sum_split (inputs : list insig) (g : nat -> R) : (forall i, In i inputs -> match i with IOther _ => False | _ => True end) ->
  rsum (length inputs) g = rsum (length (indices is_sin inputs)) (fun j => g (nth j (indices is_sin inputs) O)) +
                           rsum (length (indices is_pw inputs)) (fun j => g (nth j (indices is_pw inputs) O)).
Proof.
  intros H. rewrite <- !fold_nth. unfold rsum, indices. apply fold_split. intros i Hi. apply in_seq in Hi.
  assert (X := H (nth i inputs nosig) ltac:(apply nth_In; lia)). fold nosig. destruct (nth i inputs nosig); auto; contradiction.
Qed.

Lemma csum_fst l : fst (fold_right Cplus (RtoC 0) l) = fold_right Rplus 0 (map fst l).
Proof. induction l as [|[a b] l IH]; [reflexivity|]. cbn. now rewrite IH. Qed.
Lemma csum_snd l : snd (fold_right Cplus (RtoC 0) l) = fold_right Rplus 0 (map snd l).
Proof. induction l as [|[a b] l IH]; [reflexivity|]. cbn. now rewrite IH. Qed.

Lemma transfer_id atf (S : asys Rring) w i l : (i < sN S)%nat -> (forall k, (k < sN S)%nat -> ent (aCT S) i k = if Nat.eqb i k then 1 else 0) ->
  ent (aD S) i l = 0 -> transfer atf S w i l = atf S w i l.
Proof.
  intros Hi HC HD. unfold transfer. rewrite HD.
  assert (E : forall (pr : C -> R) (f : nat -> C), (forall k, pr (RtoC (ent (aCT S) i k) * f k)%C = ent (aCT S) i k * pr (f k)) ->
     fold_right Rplus 0 (map pr (map (fun k => (RtoC (ent (aCT S) i k) * f k)%C) (seq 0 (sN S)))) = pr (f i)).
  { intros pr f H. rewrite map_map. change (rsum (sN S) (fun k => pr (RtoC (ent (aCT S) i k) * f k)%C) = pr (f i)).
    rewrite (rsum_ext _ _ (fun k => if Nat.eqb k i then pr (f k) else 0)); [now rewrite rsum_single|].
    intros k Hk. rewrite H, HC, (Nat.eqb_sym i k) by exact Hk. destruct (Nat.eqb k i); ring. }
  apply injective_projections; cbn [fst snd Cplus RtoC].
  - rewrite csum_fst, E by (intros; cbn; ring). ring.
  - rewrite csum_snd, E by (intros; cbn; ring). ring.
Qed.

Section Init.
Variable ivp : (R -> list R -> result (list R)) -> R -> R -> list R -> result (list R).
Variable expm : nd2 Rring -> R -> nd2 Rring.
Variable atf : asys Rring -> R -> nat -> nat -> C.

Lemma pre_init_ok S d h inputs (x0 : list R) : fitting S d -> wf d h -> at_once d -> acceptable S inputs -> length x0 = sN S ->
  exact_routines ivp expm atf S d inputs ->
  exists p ctrl pwc, pre_init ivp expm atf S d h inputs (Some x0) = Ok (p, mkSim 0 x0 d h) /\
    shaped S p /\ p_Phi p = expm (aA S) (ck_T (d_clk d)) /\ p_pwi p = indices is_pw inputs /\
    p_freq p = map (fun i => ang_freq (freq_of i)) (sins inputs) /\
    Forall2 (fun m c => endpoint (control_rhs S d m) (ck_T (d_clk d)) (zeroN (sN S)) (Ok c)) (seq 0 (sM S)) ctrl /\ p_ctrl p = of_columns (sN S) ctrl /\
    Forall2 (fun l c => endpoint (input_rhs S l) (ck_T (d_clk d)) (zeroN (sN S)) (Ok c)) (indices is_pw inputs) pwc /\ p_pw p = of_columns (sN S) pwc /\
    forall n j a f ph o, (n < sN S)%nat -> (j < length (indices is_sin inputs))%nat -> nth (nth j (indices is_sin inputs) O) inputs nosig = ISin a f ph o ->
      p_mag p n j = Cmod (transfer atf S (ang_freq f) (if Nat.eqb (sNt S) 1 then O else n) (nth j (indices is_sin inputs) O)) * a /\
      p_ph p n j = angle (transfer atf S (ang_freq f) (if Nat.eqb (sNt S) 1 then O else n) (nth j (indices is_sin inputs) O)) + ph.
Proof.
  intros F W U Su L0 Ex. unfold pre_init, base_init.
  assert (E1 : Nat.ltb 0 (length inputs) && negb (Nat.eqb (sL S) (length inputs)) = false).
  { destruct (ac_len _ _ Su) as [-> | ->]; [reflexivity|]. rewrite Nat.eqb_refl. apply andb_false_r. }
  rewrite E1, L0, Nat.eqb_refl. cbn [bind].
  assert (E2 : existsb (fun i => match i with IOther _ => true | _ => false end) inputs = false).
  { apply not_true_is_false. intros X. apply existsb_exists in X. destruct X as (i & Hi & Hx). assert (Y := ac_kind _ _ Su i Hi). destruct i; try discriminate. contradiction. }
  rewrite E2.
  assert (E3 : fold_right Rplus 0 (map w_t0 (d_resp d)) = 0).
  { destruct U as (Hr & _). revert Hr. induction (d_resp d) as [|w l IH]; intros Hr; [reflexivity|]. cbn. rewrite IH by (intros; apply Hr; now right).
    destruct (Hr w (or_introl eq_refl)) as [-> _]. lra. }
  rewrite E3, Rlt_bool_false by lra.
  assert (LS : length (indices is_sin inputs) = length (sins inputs)) by (unfold sins; now rewrite <- (indices_map is_sin inputs), map_length).
  assert (Nn : forall l, In l (indices is_sin inputs) -> sins inputs <> []).
  { intros l Hl E. rewrite E in LS. destruct (indices is_sin inputs); [contradiction|discriminate]. }
  assert (Nth : forall l, In l (indices is_sin inputs) -> nth l inputs (ISin 0 0 0 0) = nth l inputs nosig).
  { intros l Hl. apply in_indices in Hl. apply nth_indep. lia. }
  rewrite (mapM_all _ _ (fun _ => tt)).
  2:{ intros l Hl. rewrite (Nth l Hl). assert (HN : Nat.eqb (sNt S) (sN S) || Nat.eqb (sNt S) 1 = true) by (destruct (ac_sin _ _ Su (Nn l Hl)) as [-> | ->]; [now rewrite Nat.eqb_refl|apply orb_true_r]). rewrite HN. cbn [negb].
      apply in_indices in Hl. destruct Hl as [Hl _]. assert (Y := ac_kind _ _ Su (nth l inputs nosig) ltac:(now apply nth_In)).
      destruct (nth l inputs nosig) as [a f ph o| |]; try reflexivity. subst o. rewrite Req_bool_true by reflexivity. reflexivity. }
  cbn [bind].
  destruct (mapM_ex (control_column ivp S d (ck_T (d_clk d))) (fun m c => endpoint (control_rhs S d m) (ck_T (d_clk d)) (zeroN (sN S)) (Ok c)) (seq 0 (sM S))) as (ctrl & Ec & Hc).
  { intros m Hm. apply in_seq in Hm. destruct (ex_ctrl _ _ _ _ _ _ Ex m ltac:(lia)) as (y & Hy & Ey). exists (y (ck_T (d_clk d))). split; [exact Ey|]. exists y. auto. }
  rewrite Ec. cbn [bind].
  destruct (mapM_ex (input_column ivp S (ck_T (d_clk d))) (fun l c => endpoint (input_rhs S l) (ck_T (d_clk d)) (zeroN (sN S)) (Ok c)) (indices is_pw inputs)) as (pwc & Ep & Hp).
  { intros l Hl. destruct (ex_in _ _ _ _ _ _ Ex l Hl) as (y & Hy & Ey). exists (y (ck_T (d_clk d))). split; [exact Ey|]. exists y. auto. }
  rewrite Ep. cbn [bind].
  assert (Lc := Forall2_len _ _ _ Hc). assert (Lp := Forall2_len _ _ _ Hp). rewrite seq_length in Lc.
  assert (EF : map (fun l => match nth l inputs (ISin 0 0 0 0) with ISin _ f _ _ => ang_freq f | _ => 0 end) (indices is_sin inputs) = map (fun i => ang_freq (freq_of i)) (sins inputs)).
  { unfold sins. rewrite <- (indices_map is_sin inputs), map_map. apply map_ext_in. intros l Hl. rewrite (Nth l Hl). apply in_indices in Hl.
    destruct Hl as [_ Hl]. destruct (nth l inputs nosig); try discriminate. reflexivity. }
  rewrite EF. eexists _, ctrl, pwc. split; [reflexivity|].
  split. { split; cbn.
    - apply (ex_shape _ _ _ _ _ _ Ex).
    - split; [reflexivity|]. now rewrite <- Lc.
    - split; [reflexivity|]. now rewrite <- Lp. }
  do 3 (split; [reflexivity|]). split; [exact Hc|]. split; [reflexivity|]. split; [exact Hp|]. split; [reflexivity|].
  intros n j a f ph o Hn Hj Hl. cbn [p_mag p_ph]. set (li := nth j (indices is_sin inputs) O) in *.
  assert (Hin : In li (indices is_sin inputs)) by now apply nth_In.
  rewrite (Nth li Hin), Hl. split; reflexivity.
Qed.
End Init.

(** *** The differential equation the analog system obeys during a step *)
Definition physics (S : asys Rring) (inputs : list insig) (s : sim) (h : heap) (t : R) (x : list R) : result (list R) :=
  bind (control_contribution (s_d s) h t) (fun c => Ok (rhs (K := Rring) S x (map (fun i => sig_eval i (t + s_t s)) inputs) c)).

Definition gent (S : asys Rring) (n m : nat) : R := match aG S with Some g => ent g n m | None => 0 end.
Definition drive (S : asys Rring) (inputs : list insig) (s : sim) (h : heap) (n : nat) (t : R) : R :=
  rsum (length inputs) (fun l => ent (aB S) n l * sig_nth inputs l (t + s_t s)) +
  rsum (sM S) (fun m => gent S n m * (wave (s_d s) m t * rd h (d_dec (s_d s)) m)).

Lemma nth_map_R {A} (f : A -> R) l i (d : A) : (i < length l)%nat -> nth i (map f l) 0 = f (nth i l d).
Proof. intros H. rewrite nth_indep with (d' := f d) by (now rewrite map_length). apply map_nth. Qed.

Lemma physics_ok S inputs s h t (x : list R) : fitting S (s_d s) -> wf (s_d s) h -> usable (s_d s) -> (inputs = [] \/ length inputs = sL S) -> 0 <= t -> length x = sN S ->
  physics S inputs s h t x = Ok (map (fun n => rsum (sN S) (fun k => ent (aA S) n k * nth k x 0) + drive S inputs s h n t) (seq 0 (sN S))).
Proof.
  intros F W U HL Ht Lx. unfold physics. rewrite usable_contribution by auto. cbn [bind]. f_equal. unfold rhs. apply map_seq_ext. intros n Hn. unfold drive.
  cbn [car radd Rring]. rewrite !lin_rsum, (v_A _ (f_valid _ _ F)), <- Rplus_assoc. f_equal; [f_equal|].
  - destruct HL as [-> | HL].
    + cbn [map length]. rewrite rsum_0, rsum_zero; [reflexivity|]. intros k _. destruct k; exact (Rmult_0_r _).
    + rewrite HL. apply rsum_ext. intros k Hk. f_equal. rewrite nth_map_R with (d := nosig) by (rewrite HL; exact Hk). reflexivity.
  - assert (HG := f_G _ _ F). unfold lino, gent, sM in *. destruct (aG S) as [g|] eqn:EG; [|congruence]. rewrite lin_rsum. apply rsum_ext. intros m Hm. f_equal.
    rewrite nth_seq_R; [reflexivity|]. rewrite (f_M _ _ F). unfold sM. rewrite EG. exact Hm.
Qed.

Lemma control_rhs_ok S d h m t (x : list R) : fitting S d -> wf d h -> at_once d -> (m < sM S)%nat -> 0 <= t <= ck_T (d_clk d) -> length x = sN S ->
  control_rhs S d m t x = Ok (map (fun n => rsum (sN S) (fun k => ent (aA S) n k * nth k x 0) + gent S n m * wave d m t) (seq 0 (sN S))).
Proof.
  intros F W U Hm Ht Lx. unfold control_rhs. rewrite dotv_R by (rewrite (v_A _ (f_valid _ _ F)); auto). cbn [bind].
  rewrite (usable_impulse d h) by (auto; rewrite (f_M _ _ F); exact Hm). cbn [bind].
  assert (HG := f_G _ _ F). assert (VG := v_G _ (f_valid _ _ F)). assert (HM := f_M _ _ F). unfold gent, sM in *. destruct (aG S) as [g|] eqn:EG; [|congruence].
  cbn [dotv_opt]. rewrite dotv_R by (rewrite map_length, seq_length; auto). cbn [bind]. rewrite (v_A _ (f_valid _ _ F)), VG. fold (sN S). rewrite vadd_seq. f_equal.
  apply map_seq_ext. intros n Hn. f_equal. rewrite (rsum_ext _ _ (fun k => if Nat.eqb k m then ent g n k * wave d m t else 0)); [now rewrite rsum_single|].
  intros k Hk. rewrite nth_seq_R by (rewrite HM; exact Hk). destruct (Nat.eqb k m); ring.
Qed.
Lemma input_rhs_ok S l t (x : list R) : valid S -> length x = sN S ->
  input_rhs S l t x = Ok (map (fun n => rsum (sN S) (fun k => ent (aA S) n k * nth k x 0) + ent (aB S) n l) (seq 0 (sN S))).
Proof.
  intros V Lx. unfold input_rhs. rewrite dotv_R by (rewrite (v_A _ V); auto). cbn [bind]. rewrite (v_A _ V). fold (sN S). now rewrite vadd_seq.
Qed.
Lemma flow_rhs_ok (S : asys Rring) (x : list R) : valid S -> length x = sN S ->
  dotv (aA S) x = Ok (map (fun n => rsum (sN S) (fun k => ent (aA S) n k * nth k x 0) + 0) (seq 0 (sN S))).
Proof.
  intros V Lx. rewrite dotv_R by (rewrite (v_A _ V); auto). rewrite (v_A _ V). fold (sN S). f_equal. apply map_seq_ext. intros; ring.
Qed.

Lemma derivable_val (f : R -> R) x l l' : l = l' -> derivable_pt_lim f x l -> derivable_pt_lim f x l'.
Proof. now intros ->. Qed.

(** the response to a sinusoid *)
Lemma sine_sol (S : asys Rring) T (H : nat -> C) (b : nat -> R) (w a ph t0 : R) :
  (forall i, (i < sN S)%nat -> - w * snd (H i) = rsum (sN S) (fun k => ent (aA S) i k * fst (H k)) + b i /\
                               w * fst (H i) = rsum (sN S) (fun k => ent (aA S) i k * snd (H k))) ->
  sol (sN S) (ent (aA S)) T (fun n t => b n * (a * sin (w * (t + t0) + ph))) (fun n t => Cmod (H n) * a * sin (w * (t0 + t) + (angle (H n) + ph))).
Proof.
  intros HH.
  apply sol_ext_z with (z := fun n t => a * (fst (H n) * sin (w * (t + t0) + ph) + snd (H n) * cos (w * (t + t0) + ph))).
  { intros n t. replace (w * (t0 + t) + (angle (H n) + ph)) with (w * (t + t0) + ph + angle (H n)) by ring. rewrite <- polar_sin. ring. }
  assert (D : forall n t, derivable_pt_lim (fun t => a * (fst (H n) * sin (w * (t + t0) + ph) + snd (H n) * cos (w * (t + t0) + ph))) t
     (a * (fst (H n) * (w * cos (w * (t + t0) + ph)) + snd (H n) * (w * - sin (w * (t + t0) + ph))))).
  { intros n t. assert (DL : derivable_pt_lim (fun t => w * (t + t0) + ph) t (w * (1 + 0) + 0)).
    { apply (derivable_pt_lim_plus (mult_real_fct w (fun t => t + t0)) (fct_cte ph)); [|apply derivable_pt_lim_const].
      apply derivable_pt_lim_scal. apply (derivable_pt_lim_plus id (fct_cte t0)); [apply derivable_pt_lim_id|apply derivable_pt_lim_const]. }
    replace (w * (1 + 0) + 0) with w in DL by ring.
    apply (derivable_pt_lim_scal (fun t => fst (H n) * sin (w * (t + t0) + ph) + snd (H n) * cos (w * (t + t0) + ph))).
    apply (derivable_pt_lim_plus (mult_real_fct (fst (H n)) (fun t => sin (w * (t + t0) + ph))) (mult_real_fct (snd (H n)) (fun t => cos (w * (t + t0) + ph)))); apply derivable_pt_lim_scal.
    - rewrite Rmult_comm. apply (derivable_pt_lim_comp (fun t => w * (t + t0) + ph) sin); [exact DL|apply derivable_pt_lim_sin].
    - rewrite Rmult_comm. apply (derivable_pt_lim_comp (fun t => w * (t + t0) + ph) cos); [exact DL|apply derivable_pt_lim_cos]. }
  split.
  - intros n t Hn Ht. apply derivable_continuous_pt. eexists. apply D.
  - exists []. intros n t Hn Ht _. set (th := w * (t + t0) + ph).
    assert (E : rsum (sN S) (fun k => ent (aA S) n k * (a * (fst (H k) * sin th + snd (H k) * cos th))) + b n * (a * sin th)
              = a * (fst (H n) * (w * cos th) + snd (H n) * (w * - sin th))).
    { rewrite (rsum_ext _ _ (fun k => a * sin th * (ent (aA S) n k * fst (H k)) + a * cos th * (ent (aA S) n k * snd (H k)))) by (intros; ring).
      rewrite rsum_add, !rsum_scale. destruct (HH n Hn) as [H1 H2]. 
      replace (a * (fst (H n) * (w * cos th) + snd (H n) * (w * - sin th))) with (a * cos th * (w * fst (H n)) + a * sin th * (- w * snd (H n))) by ring.
      rewrite H1, H2. ring. }
    refine (derivable_val _ _ _ _ _ (D n t)). symmetry. exact E.
Qed.

(** what the constructor has computed *)
Definition computed (expm : nd2 Rring -> R -> nd2 Rring) (atf : asys Rring -> R -> nat -> nat -> C) (S : asys Rring) (d : dc) (inputs : list insig) (p : pre) : Prop :=
  exists ctrl pwc, shaped S p /\ p_Phi p = expm (aA S) (ck_T (d_clk d)) /\ p_pwi p = indices is_pw inputs /\
    p_freq p = map (fun i => ang_freq (freq_of i)) (sins inputs) /\
    Forall2 (fun m c => endpoint (control_rhs S d m) (ck_T (d_clk d)) (zeroN (sN S)) (Ok c)) (seq 0 (sM S)) ctrl /\ p_ctrl p = of_columns (sN S) ctrl /\
    Forall2 (fun l c => endpoint (input_rhs S l) (ck_T (d_clk d)) (zeroN (sN S)) (Ok c)) (indices is_pw inputs) pwc /\ p_pw p = of_columns (sN S) pwc /\
    forall n j a f ph o, (n < sN S)%nat -> (j < length (indices is_sin inputs))%nat -> nth (nth j (indices is_sin inputs) O) inputs nosig = ISin a f ph o ->
      p_mag p n j = Cmod (transfer atf S (ang_freq f) (if Nat.eqb (sNt S) 1 then O else n) (nth j (indices is_sin inputs) O)) * a /\
      p_ph p n j = angle (transfer atf S (ang_freq f) (if Nat.eqb (sNt S) 1 then O else n) (nth j (indices is_sin inputs) O)) + ph.

Lemma zeroN_nth n i : nth i (zeroN n) 0 = 0.
Proof. apply nth_repeat. Qed.
Lemma choose_fun (n : nat) (P : nat -> (R -> list R) -> Prop) : (forall i, (i < n)%nat -> exists y, P i y) -> exists f, forall i, (i < n)%nat -> P i (f i).
Proof.
  induction n; intros H. { exists (fun _ _ => []). intros; lia. }
  destruct IHn as [f Hf]; [intros; apply H; lia|]. destruct (H n ltac:(lia)) as [y Hy].
  exists (fun i => if Nat.eqb i n then y else f i). intros i Hi. destruct (Nat.eqb_spec i n) as [->|]; [exact Hy|apply Hf; lia].
Qed.

Lemma pre_step ivp expm atf S d inputs p s : fitting S d -> usable d -> suitable S inputs -> exact_routines ivp expm atf S d inputs ->
  0 <= ck_T (d_clk d) -> computed expm atf S d inputs p -> s_d s = d -> wf d (s_h s) -> length (s_x s) = sN S ->
  (forall l t, In l (indices is_pw inputs) -> 0 < t < ck_T (d_clk d) -> sig_nth inputs l (t + s_t s) = sig_nth inputs l (s_t s + ck_T (d_clk d))) ->
  exists h y, observe_update S (inputs_at S (map sig_eval inputs) (s_t s + 0)) s = Ok h /\ wf d h /\ solves_pw (physics S inputs s h) (ck_T (d_clk d)) (s_x s) y /\
    length (y (ck_T (d_clk d))) = sN S /\ (forall m, (m < sM S)%nat -> rd h (d_dec d) m = 2 * rd h (d_s d) m - 1) /\
    pre_next S inputs p s = Ok (d_s d, mkSim (s_t s + ck_T (d_clk d)) (y (ck_T (d_clk d))) d h).
Proof.
  intros F U Su Ex HT (ctrl & pwc & Sh & EPhi & Epwi & Efr & Hc & Ectrl & Hp & Epw & Hsin) Ed W Lx Held. subst d.
  set (d := s_d s) in *. set (T := ck_T (d_clk d)) in *. set (N := sN S) in *. set (A := ent (aA S)).
  destruct (observe_ok S d s (inputs_at S (map sig_eval inputs) (s_t s + 0)) F eq_refl W (proj1 U) Lx) as (h & EO & Wh & Hd').
  { unfold inputs_at. destruct inputs as [|i0 is0]; [apply repeat_length|]. cbn [map length]. rewrite !map_length.
    destruct (ac_len _ _ (su_acc _ _ Su)) as [X|X]; [discriminate|exact X]. }
  assert (Hdec : forall m, (m < sM S)%nat -> rd h (d_dec d) m = 2 * rd h (d_s d) m - 1) by (intros m Hm; apply Hd'; rewrite (f_M _ _ F); exact Hm).
  assert (V := f_valid _ _ F).
  (* the sinusoidal part *)
  set (q := fun n t => sine_at p (s_t s + t) n).
  set (bs := fun n t => rsum (length (indices is_sin inputs)) (fun j => ent (aB S) n (nth j (indices is_sin inputs) O) * sig_nth inputs (nth j (indices is_sin inputs) O) (t + s_t s))).
  assert (LS : length (indices is_sin inputs) = length (sins inputs)) by (unfold sins; now rewrite <- (indices_map is_sin inputs), map_length).
  assert (Lf : length (p_freq p) = length (indices is_sin inputs)) by (now rewrite Efr, map_length).
  assert (Solq : exists q', sol N A T bs q' /\ forall n t, (n < N)%nat -> q n t = q' n t).
  { assert (G : forall j, (j < length (indices is_sin inputs))%nat -> exists a f ph, nth (nth j (indices is_sin inputs) O) inputs nosig = ISin a f ph 0 /\
              forall i, (i < length (p_freq p))%nat -> nth i (p_freq p) 0 = ang_freq f).
    { intros j Hj. assert (Hin : In (nth j (indices is_sin inputs) O) (indices is_sin inputs)) by now apply nth_In.
      apply in_indices in Hin. destruct Hin as [H1 H2]. assert (K := ac_kind _ _ (su_acc _ _ Su) _ (nth_In inputs nosig H1)).
      destruct (nth (nth j (indices is_sin inputs) O) inputs nosig) as [a f ph o| |] eqn:En; try discriminate. subst o.
      exists a, f, ph. split; [reflexivity|]. intros i Hi. rewrite Efr in *. rewrite map_length in Hi. rewrite nth_map_R with (d := nosig) by exact Hi. f_equal.
      assert (Hne : sins inputs <> []) by (intros X; rewrite X in LS; cbn [length] in LS; lia).
      destruct (su_sin _ _ Su Hne) as (_ & _ & _ & _ & Heq).
      transitivity (freq_of (ISin a f ph 0)); [|reflexivity]. apply Heq; [now apply nth_In|].
      unfold sins. apply filter_In. split; [|reflexivity]. rewrite <- En. now apply nth_In. }
    exists (fun n t => rsum (length (indices is_sin inputs)) (fun j => 1 * match nth (nth j (indices is_sin inputs) O) inputs nosig with
         | ISin a f ph o => Cmod (atf S (ang_freq f) n (nth j (indices is_sin inputs) O)) * a * sin (ang_freq f * (s_t s + t) + (angle (atf S (ang_freq f) n (nth j (indices is_sin inputs) O)) + ph))
         | _ => 0 end)).
    split.
    - apply sol_ext with (b := fun n t => rsum (length (indices is_sin inputs)) (fun j => 1 * match nth (nth j (indices is_sin inputs) O) inputs nosig with
         | ISin a f ph o => ent (aB S) n (nth j (indices is_sin inputs) O) * (a * sin (ang_freq f * (t + s_t s) + ph)) | _ => 0 end)).
      + intros n t Hn Ht. apply rsum_ext. intros j Hj. destruct (G j Hj) as (a & f & ph & En & _). unfold sig_nth. fold nosig. rewrite En. cbn [sig_eval]. ring.
      + apply (sol_sum N A T (length (indices is_sin inputs)) (fun _ => 1) (fun j n t => match nth (nth j (indices is_sin inputs) O) inputs nosig with
         | ISin a f ph o => ent (aB S) n (nth j (indices is_sin inputs) O) * (a * sin (ang_freq f * (t + s_t s) + ph)) | _ => 0 end)).
        intros j Hj. destruct (G j Hj) as (a & f & ph & En & _). rewrite En.
        apply (sine_sol S T (fun n => atf S (ang_freq f) n (nth j (indices is_sin inputs) O)) (fun n => ent (aB S) n (nth j (indices is_sin inputs) O))).
        intros i Hi. exact (ex_atf _ _ _ _ _ _ Ex _ a f ph 0 i En Hi).
    - intros n t Hn. unfold q, sine_at. rewrite Lf. apply rsum_ext. intros j Hj. destruct (G j Hj) as (a & f & ph & En & Ef). rewrite En.
      assert (Hne : sins inputs <> []) by (intros X; rewrite X in LS; cbn [length] in LS; lia).
      destruct (su_sin _ _ Su Hne) as (HN & HC & HD & HnN & _).
      destruct (Hsin n j a f ph 0 Hn Hj En) as [-> ->].
      assert (Er : (if Nat.eqb (sNt S) 1 then 0 else n)%nat = n) by (rewrite HN; unfold N in Hn; destruct (Nat.eqb_spec (sN S) 1); lia). rewrite Er.
      assert (Hli : (nth j (indices is_sin inputs) O < sL S)%nat).
      { assert (Hin : In (nth j (indices is_sin inputs) O) (indices is_sin inputs)) by now apply nth_In. apply in_indices in Hin.
        destruct (ac_len _ _ (su_acc _ _ Su)) as [E|E]; [rewrite E in Hin; cbn in Hin; lia|rewrite <- E; apply Hin]. }
      rewrite transfer_id by (unfold N in Hn; auto). rewrite Ef; [ring|]. rewrite Lf. destruct (Nat.eqb_spec (length (indices is_sin inputs)) 1); [lia|].
      rewrite <- LS in HnN. unfold N in Hn. lia. }
  destruct Solq as (q' & Solq & Eqq).
  (* the homogeneous part *)
  set (x0 := map (fun k => nth k (s_x s) 0 - q k 0) (seq 0 N)).
  assert (L0 : length x0 = N) by (unfold x0; now rewrite map_length, seq_length).
  destruct (ex_flow _ _ _ _ _ _ Ex x0 L0) as (yh & Hyh & Eh).
  assert (Solh : sol N A T (fun _ _ => 0) (fun n t => nth n (yh t) 0)).
  { eapply sol_of_solves; [|exact L0|exact Hyh]. intros t x _ Hx. apply flow_rhs_ok; auto. }
  (* the control part *)
  destruct (choose_fun (sM S) (fun m y => solves_pw (control_rhs S d m) T (zeroN N) y /\ Ok (nth m ctrl []) = Ok (y T))) as [yc Hyc].
  { intros m Hm. assert (X := Forall2_nth2 _ _ _ O [] m Hc). rewrite seq_length in X. specialize (X Hm). cbv beta in X. rewrite seq_nth in X by exact Hm. exact X. }
  assert (Solc : sol N A T (fun n t => rsum (sM S) (fun m => rd h (d_dec d) m * (gent S n m * wave d m t))) (fun n t => rsum (sM S) (fun m => rd h (d_dec d) m * nth n (yc m t) 0))).
  { apply (sol_sum N A T (sM S) (fun m => rd h (d_dec d) m) (fun m n t => gent S n m * wave d m t) (fun m n t => nth n (yc m t) 0)). intros m Hm.
    eapply sol_of_solves; [|apply repeat_length|apply (Hyc m Hm)]. intros t x Ht Hx. apply (control_rhs_ok S d h); auto; [apply U|unfold T in Ht; lra]. }
  (* the piecewise constant part *)
  set (np := length (indices is_pw inputs)). set (li := fun j => nth j (indices is_pw inputs) O).
  destruct (choose_fun np (fun j y => solves_pw (input_rhs S (li j)) T (zeroN N) y /\ Ok (nth j pwc []) = Ok (y T))) as [yp Hyp].
  { intros j Hj. exact (Forall2_nth2 _ _ _ O [] j Hp Hj). }
  assert (Solp : sol N A T (fun n t => rsum np (fun j => sig_nth inputs (li j) (s_t s + T) * ent (aB S) n (li j))) (fun n t => rsum np (fun j => sig_nth inputs (li j) (s_t s + T) * nth n (yp j t) 0))).
  { apply (sol_sum N A T np (fun j => sig_nth inputs (li j) (s_t s + T)) (fun j n t => ent (aB S) n (li j)) (fun j n t => nth n (yp j t) 0)). intros j Hj.
    eapply sol_of_solves; [|apply repeat_length|apply (Hyp j Hj)]. intros t x Ht Hx. apply input_rhs_ok; auto. }
  (* the sum *)
  pose proof (sol_comb N A T 1 _ _ _ _ (sol_comb N A T 1 _ _ _ _ (sol_comb N A T 1 _ _ _ _ Solh Solq) Solp) Solc) as Sol.
  set (z := fun n t => nth n (yh t) 0 + 1 * q' n t + 1 * rsum np (fun j => sig_nth inputs (li j) (s_t s + T) * nth n (yp j t) 0) + 1 * rsum (sM S) (fun m => rd h (d_dec d) m * nth n (yc m t) 0)).
  change (fun n t => nth n (yh t) 0 + 1 * q' n t + 1 * rsum np (fun j => sig_nth inputs (li j) (s_t s + T) * nth n (yp j t) 0) + 1 * rsum (sM S) (fun m => rd h (d_dec d) m * nth n (yc m t) 0)) with z in Sol.
  assert (Sol' : sol N A T (drive S inputs s h) z).
  { eapply sol_ext; [|exact Sol]. intros n t Hn Ht. cbv beta. unfold drive.
    rewrite (sum_split inputs) by (intros i Hi; assert (K := ac_kind _ _ (su_acc _ _ Su) i Hi); destruct i; auto).
    fold d. unfold bs. rewrite Rplus_0_l, !Rmult_1_l. f_equal; [f_equal|].
    - apply rsum_ext. intros j Hj. fold (li j). rewrite (Held (li j) t) by (auto; now apply nth_In). ring.
    - apply rsum_ext. intros; ring. }
  exists h, (fun t => map (fun n => z n t) (seq 0 N)). split; [exact EO|]. split; [exact Wh|].
  assert (Hyh0 : yh 0 = x0) by apply Hyh.
  split.
  { apply solves_of_sol with (A := A) (b := drive S inputs s h); auto.
    - intros t x Ht Hx. apply physics_ok; auto; [apply (ac_len _ _ (su_acc _ _ Su))|lra].
    - intros n Hn. unfold z. rewrite Hyh0. unfold x0. rewrite nth_seq_R by exact Hn.
      rewrite (rsum_zero np), (rsum_zero (sM S)), Eqq by auto || (intros j Hj; replace (yc j 0) with (zeroN N) by (symmetry; apply (Hyc j Hj)); rewrite zeroN_nth; ring) || (intros j Hj; replace (yp j 0) with (zeroN N) by (symmetry; apply (Hyp j Hj)); rewrite zeroN_nth; ring).
      ring. }
  split; [now rewrite map_length, seq_length|]. split; [exact Hdec|].
  assert (Hfr : length (p_freq p) = 0%nat \/ length (p_freq p) = 1%nat \/ length (p_freq p) = sN S).
  { rewrite Lf, LS. destruct (sins inputs) as [|i0 is0] eqn:Es; [now left|]. right. rewrite <- Es in *. apply (su_sin _ _ Su). now rewrite Es. }
  rewrite (pre_next_value S inputs p s h Sh Hfr Wh (f_M _ _ F) Lx EO). fold d T N. do 3 f_equal. apply map_seq_ext. intros n Hn.
  unfold step_value, z. fold N.
  (* the flow *)
  assert (EhT : nth n (yh T) 0 = rsum N (fun k => ent (p_Phi p) n k * (nth k (s_x s) 0 - q k 0))).
  { rewrite EPhi. fold T. destruct (ex_shape _ _ _ _ _ _ Ex) as [R1 C1]. rewrite dotv_R in Eh by (rewrite L0; exact C1). apply Ok_inj in Eh. fold d in Eh, R1, C1. fold T in Eh, R1, C1.
    rewrite <- Eh, R1, C1. fold N. rewrite nth_seq_R by exact Hn. apply rsum_ext. intros k Hk. f_equal. unfold x0. now rewrite nth_seq_R. }
  rewrite EhT, <- Eqq by exact Hn.
  rewrite (rsum_ext N (fun k => ent (p_Phi p) n k * (nth k (s_x s) 0 - q k 0)) (fun k => ent (p_Phi p) n k * nth k (s_x s) 0 + -1 * (ent (p_Phi p) n k * q k 0))) by (intros; ring).
  rewrite rsum_add, rsum_scale. unfold q. rewrite Rplus_0_r.
  rewrite Epwi, Ectrl, Epw. fold np.
  rewrite (rsum_ext np (fun j => ent (of_columns N pwc) n j * sig_nth inputs (nth j (indices is_pw inputs) O) (s_t s + T)) (fun j => sig_nth inputs (li j) (s_t s + T) * nth n (yp j T) 0)).
  2:{ intros j Hj. cbn [of_columns ent]. destruct (Hyp j Hj) as [_ E]. apply Ok_inj in E. rewrite <- E. unfold li. ring. }
  rewrite (rsum_ext (sM S) (fun m => ent (of_columns N ctrl) n m * (2 * rd h (d_s d) m - 1)) (fun m => rd h (d_dec d) m * nth n (yc m T) 0)).
  2:{ intros m Hm. cbn [of_columns ent]. destruct (Hyc m Hm) as [_ E]. apply Ok_inj in E. rewrite <- E, Hdec by exact Hm. ring. }
  ring.
Qed.
