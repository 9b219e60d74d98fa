(** The discrete-time coefficients and the differential equations of the filters. *)
From Coq Require Import List Arith Lia Bool Reals Lra.
From Flocq Require Import Core.
From Coquelicot Require Import Complex.
From Verif Require Import Base LinAlg FirExtras AnalogSystem AnalogProofs Signals DigitalControl DigitalControlProofs ControlKinds
  Integrators IntegratorsProofs Simulator Stability LinearOde PreSim Zpk FilterCoeff FilterCoeffProofs.
Import ListNotations.
Open Scope R_scope.

(** *** Reversing time *)
Lemma sol_rev N A T b z : sol N A T b z -> sol N (fun i j => - A i j) T (fun n t => - b n (T - t)) (fun n t => z n (T - t)).
Proof.
  intros [C [ex D]]. split.
  - intros n t Hn Ht. apply (continuity_pt_comp (fun t => T - t) (z n)); [|apply C; [exact Hn|lra]].
    apply derivable_continuous_pt. exists (-1). apply derivable_ext with (f := fun t => T + (-1) * t); [intros; ring|].
    apply (derivable_ext ((fct_cte T) + (mult_real_fct (-1) id))%F); [reflexivity|].
    replace (-1) with (0 + -1 * 1) at 2 by ring. apply derivable_pt_lim_plus; [apply derivable_pt_lim_const|]. apply derivable_pt_lim_scal, derivable_pt_lim_id.
  - exists (map (fun e => T - e) ex). intros n t Hn Ht Hi.
    assert (Hi' : ~ In (T - t) ex). { intros X. apply Hi. apply in_map_iff. exists (T - t). split; [ring|exact X]. }
    specialize (D n (T - t) Hn ltac:(lra) Hi').
    replace (rsum N (fun k => - A n k * z k (T - t)) + - b n (T - t)) with ((rsum N (fun k => A n k * z k (T - t)) + b n (T - t)) * (-1)).
    + apply (derivable_pt_lim_comp (fun t => T - t) (z n)); [|exact D].
      apply derivable_ext with (f := fun t => T + (-1) * t); [intros; ring|].
      apply (derivable_ext ((fct_cte T) + (mult_real_fct (-1) id))%F); [reflexivity|].
      replace (-1) with (0 + -1 * 1) at 2 by ring. apply derivable_pt_lim_plus; [apply derivable_pt_lim_const|]. apply derivable_pt_lim_scal, derivable_pt_lim_id.
    + rewrite (rsum_ext _ (fun k => - A n k * z k (T - t)) (fun k => (-1) * (A n k * z k (T - t)))) by (intros; ring). rewrite rsum_scale. ring.
Qed.
Lemma sol_extA N A A' T b z : (forall i j, (i < N)%nat -> (j < N)%nat -> A i j = A' i j) -> sol N A T b z -> sol N A' T b z.
Proof.
  intros H [C [ex D]]. split; [exact C|]. exists ex. intros n t Hn Ht Hi. rewrite (rsum_ext _ (fun k => A' n k * z k t) (fun k => A n k * z k t)) by (intros; now rewrite H). auto.
Qed.

(** *** Columns of responses *)
Definition waves_ok (d : dc) : Prop := length (d_resp d) = d_M d /\ forall w, In w (d_resp d) -> wf_wave w.

Lemma impulse_ok d m t : waves_ok d -> (m < d_M d)%nat -> 0 <= t <= ck_T (d_clk d) ->
  dc_impulse_response d m t = Ok (map (fun j => if Nat.eqb j m then wave d m t else 0) (seq 0 (d_M d))).
Proof.
  intros [Lr Hr] Hm Ht. unfold dc_impulse_response. rewrite !Rle_bool_true by lra. cbn [andb].
  rewrite nth_error_nth' with (d := WStep 0 0) by lia.
  destruct (w_eval_ok (nth m (d_resp d) (WStep 0 0)) t) as [x Ex]; [apply Hr, nth_In; lia|].
  rewrite Ex. cbn [bind]. f_equal. unfold wave. rewrite Ex. apply list_ext with (d := 0).
  - now rewrite upd_length, repeat_length, map_length, seq_length.
  - intros j Hj. rewrite upd_length, repeat_length in Hj. rewrite nth_seq_R by exact Hj.
    rewrite nth_upd, repeat_length, nth_repeat, (Nat.eqb_sym m j). destruct (Nat.ltb_spec j (d_M d)); [|lia]. now rewrite andb_true_r.
Qed.

Record fits (S : asys Rring) (d : dc) : Prop := mkFits { fi_valid : valid S; fi_G : aG S <> None; fi_M : d_M d = sM S; fi_w : waves_ok d }.

Lemma gamma_impulse S d m t n : fits S d -> (m < sM S)%nat -> 0 <= t <= ck_T (d_clk d) -> (n < sN S)%nat ->
  exists gw, bind (dc_impulse_response d m t) (fun w => dotv_opt (aG S) w) = Ok (map gw (seq 0 (sN S))) /\ forall n, gw n = gent S n m * wave d m t.
Proof.
  intros [V HG HM HW] Hm Ht Hn. rewrite impulse_ok by (auto; lia). cbn [bind]. assert (VG := v_G _ V). unfold gent, sM in *.
  destruct (aG S) as [g|] eqn:EG; [|congruence]. cbn [dotv_opt]. rewrite dotv_R by (rewrite map_length, seq_length; auto). rewrite VG.
  eexists. split; [reflexivity|]. intros k. cbv beta. rewrite (rsum_ext _ _ (fun j => if Nat.eqb j m then ent g k j * wave d m t else 0)); [now rewrite rsum_single|].
  intros j Hj. rewrite nth_seq_R by (rewrite HM; exact Hj). destruct (Nat.eqb j m); ring.
Qed.

Lemma fwd_rhs_ok S d tAf m t (x : list R) : fits S d -> rows tAf = sN S -> cols tAf = sN S -> (m < sM S)%nat -> 0 <= t <= ck_T (d_clk d) -> length x = sN S ->
  fwd_rhs S d tAf m t x = Ok (map (fun n => rsum (sN S) (fun k => ent tAf n k * nth k x 0) + gent S n m * wave d m t) (seq 0 (sN S))).
Proof.
  intros F Rt Ct Hm Ht Lx. unfold fwd_rhs. rewrite dotv_R by congruence. cbn [bind]. rewrite Rt, Ct.
  destruct F as [V HG HM HW]. rewrite impulse_ok by (auto; lia). cbn [bind]. assert (VG := v_G _ V). unfold gent, sM in *.
  destruct (aG S) as [g|] eqn:EG; [|congruence]. cbn [dotv_opt]. rewrite dotv_R by (rewrite map_length, seq_length; auto). cbn [bind]. rewrite VG. fold (sN S). rewrite vadd_seq. f_equal.
  apply map_seq_ext. intros n Hn. f_equal. rewrite (rsum_ext _ _ (fun k => if Nat.eqb k m then ent g n k * wave d m t else 0)); [now rewrite rsum_single|].
  intros k Hk. rewrite nth_seq_R by (rewrite HM; exact Hk). destruct (Nat.eqb k m); ring.
Qed.
Lemma bwd_rhs_ok S d tAb m t (x : list R) : fits S d -> rows tAb = sN S -> cols tAb = sN S -> (m < sM S)%nat -> 0 <= t <= ck_T (d_clk d) -> length x = sN S ->
  bwd_rhs S d tAb (ck_T (d_clk d)) m t x = Ok (map (fun n => rsum (sN S) (fun k => - ent tAb n k * nth k x 0) + - (gent S n m * wave d m (ck_T (d_clk d) - t))) (seq 0 (sN S))).
Proof.
  intros F Rt Ct Hm Ht Lx. unfold bwd_rhs. rewrite dotv_R by (cbn; congruence). cbn [bind oppm mapm rows cols ent]. rewrite Rt, Ct.
  destruct F as [V HG HM HW]. rewrite impulse_ok by (auto; lia || lra). cbn [bind]. assert (VG := v_G _ V). unfold gent, sM in *.
  destruct (aG S) as [g|] eqn:EG; [|congruence]. cbn [dotv_opt]. rewrite dotv_R by (rewrite map_length, seq_length; auto). cbn [bind]. rewrite VG. fold (sN S). rewrite vsub_seq. f_equal.
  apply map_seq_ext. intros n Hn. unfold Rminus. f_equal. f_equal. rewrite (rsum_ext _ _ (fun k => if Nat.eqb k m then ent g n k * wave d m (ck_T (d_clk d) + - t) else 0)); [now rewrite rsum_single|].
  intros k Hk. rewrite nth_seq_R by (rewrite HM; exact Hk). destruct (Nat.eqb k m); ring.
Qed.
Lemma mat_rhs_ok (M : rmat) N (x : list R) : rows M = N -> cols M = N -> length x = N ->
  dotv M x = Ok (map (fun n => rsum N (fun k => ent M n k * nth k x 0) + 0) (seq 0 N)).
Proof. intros RM CM Lx. rewrite dotv_R by congruence. rewrite RM, CM. f_equal. apply map_seq_ext. intros; ring. Qed.

(** *** One period: a matrix exponential and one response per column give every solution *)
Section Period.
Variables (N M : nat) (T : R) (F : rmat) (E B : rmat) (g : nat -> nat -> R -> R).
Hypothesis RF : rows F = N.
Hypothesis CF : cols F = N.
Hypothesis HT : 0 <= T.
Hypothesis HE : rows E = N /\ cols E = N /\ forall x : list R, length x = N -> endpoint (fun _ y => dotv F y) T x (dotv E x).
(** column [m] of [B] is the end of a solution with drive [g m] that starts at 0 *)
Hypothesis HB : forall m, (m < M)%nat -> exists z, sol N (ent F) T (fun n t => g m n t) z /\ (forall n, (n < N)%nat -> z n 0 = 0) /\ forall n, (n < N)%nat -> z n T = ent B n m.

Lemma flow_sol (x : list R) : length x = N -> exists z, sol N (ent F) T (fun _ _ => 0) z /\ (forall n, (n < N)%nat -> z n 0 = nth n x 0) /\
  forall n, (n < N)%nat -> z n T = rsum N (fun k => ent E n k * nth k x 0).
Proof.
  intros Lx. destruct HE as (RE & CE & H). destruct (H x Lx) as (y & Hy & Ey).
  exists (fun n t => nth n (y t) 0). split; [|split].
  - eapply sol_of_solves; [|exact Lx|exact Hy]. intros t x' _ Hx. now apply mat_rhs_ok.
  - intros n Hn. assert (X : y 0 = x) by apply Hy. now rewrite X.
  - intros n Hn. rewrite dotv_R in Ey by congruence. apply Ok_inj in Ey. rewrite <- Ey, RE, CE, nth_seq_R by exact Hn. reflexivity.
Qed.

Lemma choose_nat (n : nat) (P : nat -> (nat -> R -> R) -> Prop) : (forall i, (i < n)%nat -> exists y, P i y) -> exists f, forall i, (i < n)%nat -> P i (f i).
Proof.
  induction n; intros H. { exists (fun _ _ _ => 0). intros; lia. }
  destruct IHn as [f Hf]; [intros; apply H; lia|]. destruct (H n ltac:(lia)) as [y Hy].
  exists (fun i => if Nat.eqb i n then y else f i). intros i Hi. destruct (Nat.eqb_spec i n) as [->|]; [exact Hy|apply Hf; lia].
Qed.

Lemma period_exists (x0 c : nat -> R) : exists z, sol N (ent F) T (fun n t => rsum M (fun m => c m * g m n t)) z /\ (forall n, (n < N)%nat -> z n 0 = x0 n) /\
  forall n, (n < N)%nat -> z n T = rsum N (fun k => ent E n k * x0 k) + rsum M (fun m => ent B n m * c m).
Proof.
  destruct (flow_sol (map x0 (seq 0 N))) as (zh & Sh & H0 & H1); [now rewrite map_length, seq_length|].
  destruct (choose_nat M _ HB) as [zc Hc].
  exists (fun n t => zh n t + 1 * rsum M (fun m => c m * zc m n t)). split; [|split].
  - assert (Sc : sol N (ent F) T (fun n t => rsum M (fun m => c m * g m n t)) (fun n t => rsum M (fun m => c m * zc m n t))).
    { apply (sol_sum N (ent F) T M c g zc). intros m Hm. apply (Hc m Hm). }
    eapply sol_ext; [|exact (sol_comb N (ent F) T 1 _ _ _ _ Sh Sc)]. intros n t _ _. cbv beta. ring.
  - intros n Hn. rewrite H0, nth_seq_R by exact Hn. rewrite rsum_zero; [ring|]. intros m Hm. destruct (Hc m Hm) as (_ & X & _). rewrite X by exact Hn. ring.
  - intros n Hn. rewrite H1 by exact Hn. rewrite Rmult_1_l. f_equal.
    + apply rsum_ext. intros k Hk. now rewrite nth_seq_R.
    + apply rsum_ext. intros m Hm. destruct (Hc m Hm) as (_ & _ & X). rewrite X by exact Hn. ring.
Qed.

Lemma period_all (c : nat -> R) z : sol N (ent F) T (fun n t => rsum M (fun m => c m * g m n t)) z ->
  forall n, (n < N)%nat -> z n T = rsum N (fun k => ent E n k * z k 0) + rsum M (fun m => ent B n m * c m).
Proof.
  intros Sz n Hn. destruct (period_exists (fun k => z k 0) c) as (z' & Sz' & H0 & H1).
  rewrite (unique N (ent F) T _ z z' Sz Sz') by (auto; lra || (intros; symmetry; auto)). now apply H1.
Qed.
End Period.

Lemma columns_Ok N M col B : columns N M col = Ok B -> rows B = N /\ cols B = M /\ forall m, (m < M)%nat -> exists c, col m = Ok c /\ forall n, ent B n m = nth n c 0.
Proof.
  unfold columns. intros H. apply bind_Ok in H as (cs & E & H). apply Ok_inj in H. subst B. split; [reflexivity|]. split; [reflexivity|].
  intros m Hm. exists (nth m cs []). split; [|reflexivity].
  assert (X : Forall2 (fun a b => col a = Ok b) (seq 0 M) cs).
  { clear Hm m. revert E. generalize (seq 0 M). intros l. revert cs. induction l as [|a l IH]; intros cs E; cbn [mapM] in E.
    - apply Ok_inj in E. subst. constructor.
    - apply bind_Ok in E as (b & E1 & E). apply bind_Ok in E as (bs & E2 & E). apply Ok_inj in E. subst. constructor; auto. }
  assert (Y := Forall2_nth2 _ _ _ O [] m X). rewrite seq_length in Y. specialize (Y Hm). cbv beta in Y. rewrite seq_nth in Y by exact Hm. exact Y.
Qed.

(** a column computed by a sound differential equation solver *)
Lemma column_sol N (A : nat -> nat -> R) T (f : R -> list R -> result (list R)) (b : nat -> R -> R) c : endpoint f T (repeat 0 N) (Ok c) ->
  (forall t x, 0 < t < T -> length x = N -> f t x = Ok (map (fun n => rsum N (fun k => A n k * nth k x 0) + b n t) (seq 0 N))) ->
  exists z, sol N A T b z /\ (forall n, (n < N)%nat -> z n 0 = 0) /\ forall n, (n < N)%nat -> z n T = nth n c 0.
Proof.
  intros (y & Hy & Ec) Hf. apply Ok_inj in Ec. exists (fun n t => nth n (y t) 0). split; [|split].
  - eapply sol_of_solves; [exact Hf|apply repeat_length|exact Hy].
  - intros n Hn. assert (X : y 0 = repeat 0 N) by apply Hy. rewrite X. apply nth_repeat.
  - intros n Hn. now rewrite Ec.
Qed.

(** *** What the coefficients have to satisfy *)
Definition shaped (S : asys Rring) (A B : rmat) : Prop := rows A = sN S /\ cols A = sN S /\ rows B = sN S /\ cols B = sM S.
Definition samples_fwd (S : asys Rring) (d : dc) (F : nat -> nat -> R) (Af Bf : rmat) : Prop :=
  let T := ck_T (d_clk d) in
  shaped S Af Bf /\
  (forall c x0, exists z, sol (sN S) F T (ctl S d c) z /\ forall n, (n < sN S)%nat -> z n 0 = x0 n) /\
  forall c z, sol (sN S) F T (ctl S d c) z -> forall n, (n < sN S)%nat ->
    z n T = rsum (sN S) (fun k => ent Af n k * z k 0) + rsum (sM S) (fun m => ent Bf n m * c m).
Definition samples_bwd (S : asys Rring) (d : dc) (F : nat -> nat -> R) (Ab Bb : rmat) : Prop :=
  let T := ck_T (d_clk d) in
  shaped S Ab Bb /\
  (forall c x1, exists z, sol (sN S) F T (ctl S d c) z /\ forall n, (n < sN S)%nat -> z n T = x1 n) /\
  forall c z, sol (sN S) F T (ctl S d c) z -> forall n, (n < sN S)%nat ->
    z n 0 = rsum (sN S) (fun k => ent Ab n k * z k T) + rsum (sM S) (fun m => ent Bb n m * c m).

(** (Vf + Vb) W = B *)
Definition weights (S : asys Rring) (Vf Vb : nat -> nat -> R) (WT : rmat) : Prop := rows WT = sL S /\ cols WT = sN S /\
  forall i l, (i < sN S)%nat -> (l < sL S)%nat -> rsum (sN S) (fun k => (Vf i k + Vb i k) * ent WT l k) = ent (aB S) i l.

Definition good_with (S : asys Rring) (d : dc) (eta2 : R) (Vf Vb : nat -> nat -> R) (Af Ab Bf Bb WT : rmat) : Prop :=
  riccati_sol S eta2 1 Vf /\ riccati_sol S eta2 (-1) Vb /\ weights S Vf Vb WT /\
    samples_fwd S d (fwdA S eta2 Vf) Af Bf /\ samples_bwd S d (bwdA S eta2 Vb) Ab Bb.
Definition good_coefficients (S : asys Rring) (d : dc) (eta2 : R) (Af Ab Bf Bb WT : rmat) : Prop :=
  exists Vf Vb, good_with S d eta2 Vf Vb Af Ab Bf Bb WT.

Lemma samples_fwd_ext S d F F' Af Bf : (forall i j, F i j = F' i j) -> samples_fwd S d F Af Bf -> samples_fwd S d F' Af Bf.
Proof.
  intros E (Sh & H1 & H2). split; [exact Sh|]. split.
  - intros c x0. destruct (H1 c x0) as (z & Sz & H0). exists z. split; [|exact H0]. eapply sol_extA; [|exact Sz]. auto.
  - intros c z Sz. apply H2. eapply sol_extA; [|exact Sz]. auto.
Qed.
Lemma samples_bwd_ext S d F F' Af Bf : (forall i j, F i j = F' i j) -> samples_bwd S d F Af Bf -> samples_bwd S d F' Af Bf.
Proof.
  intros E (Sh & H1 & H2). split; [exact Sh|]. split.
  - intros c x0. destruct (H1 c x0) as (z & Sz & H0). exists z. split; [|exact H0]. eapply sol_extA; [|exact Sz]. auto.
  - intros c z Sz. apply H2. eapply sol_extA; [|exact Sz]. auto.
Qed.

Section P.
Variables (care_raw : rmat -> rmat -> rmat -> rmat -> result rmat) (inv : rmat -> result rmat) (solve : rmat -> rmat -> result rmat)
  (ivp : (R -> list R -> result (list R)) -> R -> R -> list R -> result (list R)) (expm : rmat -> R -> result rmat).
Variables (S : asys Rring) (d : dc).
Hypothesis SO : sound S d care_raw inv solve ivp expm.

Lemma regular_fwd tAf Af Bf col : fits S d -> rows tAf = sN S -> cols tAf = sN S -> 0 <= ck_T (d_clk d) ->
  expm tAf (ck_T (d_clk d)) = Ok Af -> columns (sN S) (sM S) (fun m => ivp (col m) 0 (ck_T (d_clk d)) (repeat 0 (sN S))) = Ok Bf -> (forall m, (m < sM S)%nat -> filter_rhs S d (col m)) ->
  (forall m t (x : list R), (m < sM S)%nat -> 0 < t < ck_T (d_clk d) -> length x = sN S ->
     col m t x = Ok (map (fun n => rsum (sN S) (fun k => ent tAf n k * nth k x 0) + gent S n m * wave d m t) (seq 0 (sN S)))) ->
  samples_fwd S d (ent tAf) Af Bf.
Proof.
  intros Fi Rt Ct HT EA EB Hrhs Hcol. set (T := ck_T (d_clk d)) in *. apply (so_expm _ _ _ _ _ _ _ SO) in EA; [|exact HT]. rewrite Rt in EA.
  apply columns_Ok in EB as (RB & CB & EB).
  assert (HB : forall m, (m < sM S)%nat -> exists z, sol (sN S) (ent tAf) T (fun n t => gent S n m * wave d m t) z /\ (forall n, (n < sN S)%nat -> z n 0 = 0) /\
             forall n, (n < sN S)%nat -> z n T = ent Bf n m).
  { intros m Hm. destruct (EB m Hm) as (c & Ec & Eb). apply (so_ivp _ _ _ _ _ _ _ SO) in Ec; [|now apply Hrhs|split; [exact HT|apply Rle_refl]].
    destruct (column_sol (sN S) (ent tAf) T _ (fun n t => gent S n m * wave d m t) c Ec) as (z & H1 & H2 & H3).
    - intros t x Ht Hx. apply Hcol; auto.
    - exists z. split; [exact H1|]. split; [exact H2|]. intros n Hn. now rewrite Eb, H3. }
  assert (X : forall c n t, ctl S d c n t = rsum (sM S) (fun m => c m * (gent S n m * wave d m t))) by (intros; unfold ctl; apply rsum_ext; intros; ring).
  split; [destruct EA as (? & ? & _); repeat split; assumption|]. split.
  - intros c x0. destruct (period_exists (sN S) (sM S) T tAf Af Bf (fun m n t => gent S n m * wave d m t) Rt Ct EA HB x0 c) as (z & H1 & H2 & _).
    exists z. split; [|exact H2]. eapply sol_ext; [|exact H1]. intros. now rewrite X.
  - intros c z Sz. apply (period_all (sN S) (sM S) T tAf Af Bf (fun m n t => gent S n m * wave d m t) Rt Ct HT EA HB c z).
    eapply sol_ext; [|exact Sz]. intros. now rewrite X.
Qed.

Lemma regular_bwd tAb Ab Bb col : fits S d -> rows tAb = sN S -> cols tAb = sN S -> 0 <= ck_T (d_clk d) ->
  expm (oppm tAb) (ck_T (d_clk d)) = Ok Ab -> columns (sN S) (sM S) (fun m => ivp (col m) 0 (ck_T (d_clk d)) (repeat 0 (sN S))) = Ok Bb -> (forall m, (m < sM S)%nat -> filter_rhs S d (col m)) ->
  (forall m t (x : list R), (m < sM S)%nat -> 0 < t < ck_T (d_clk d) -> length x = sN S ->
     col m t x = Ok (map (fun n => rsum (sN S) (fun k => - ent tAb n k * nth k x 0) + - (gent S n m * wave d m (ck_T (d_clk d) - t))) (seq 0 (sN S)))) ->
  samples_bwd S d (ent tAb) Ab Bb.
Proof.
  intros Fi Rt Ct HT EA EB Hrhs Hcol. set (T := ck_T (d_clk d)) in *. apply (so_expm _ _ _ _ _ _ _ SO) in EA; [|exact HT]. cbn [oppm mapm rows] in EA. rewrite Rt in EA. fold (oppm tAb) in EA.
  apply columns_Ok in EB as (RB & CB & EB).
  assert (HB : forall m, (m < sM S)%nat -> exists z, sol (sN S) (ent (oppm tAb)) T (fun n t => - (gent S n m * wave d m (T - t))) z /\ (forall n, (n < sN S)%nat -> z n 0 = 0) /\
             forall n, (n < sN S)%nat -> z n T = ent Bb n m).
  { intros m Hm. destruct (EB m Hm) as (c & Ec & Eb). apply (so_ivp _ _ _ _ _ _ _ SO) in Ec; [|now apply Hrhs|split; [exact HT|apply Rle_refl]].
    destruct (column_sol (sN S) (ent (oppm tAb)) T _ (fun n t => - (gent S n m * wave d m (T - t))) c Ec) as (z & H1 & H2 & H3).
    - intros t x Ht Hx. apply Hcol; auto.
    - exists z. split; [exact H1|]. split; [exact H2|]. intros n Hn. now rewrite Eb, H3. }
  assert (X : forall c n t, - ctl S d c n (T - t) = rsum (sM S) (fun m => c m * - (gent S n m * wave d m (T - t)))).
  { intros. unfold ctl. rewrite <- (Rmult_1_l (rsum _ _)), Ropp_mult_distr_l, <- rsum_scale. apply rsum_ext; intros; ring. }
  split; [destruct EA as (? & ? & _); repeat split; assumption|]. split.
  - intros c x1. destruct (period_exists (sN S) (sM S) T (oppm tAb) Ab Bb (fun m n t => - (gent S n m * wave d m (T - t))) Rt Ct EA HB x1 c) as (z & H1 & H2 & _).
    apply sol_rev in H1. exists (fun n t => z n (T - t)). split.
    + eapply sol_extA; [|eapply sol_ext; [|exact H1]].
      * intros i j _ _. cbn. apply Ropp_involutive.
      * intros n t _ Ht. cbv beta. rewrite <- X. rewrite Ropp_involutive. f_equal. ring.
    + intros n Hn. cbv beta. rewrite Rminus_diag_eq by reflexivity. auto.
  - intros c z Sz n Hn. apply sol_rev in Sz.
    pose proof (period_all (sN S) (sM S) T (oppm tAb) Ab Bb (fun m n t => - (gent S n m * wave d m (T - t))) Rt Ct HT EA HB c (fun n t => z n (T - t))) as P.
    cbv beta in P. rewrite Rminus_diag_eq in P by reflexivity. rewrite P; auto.
    + f_equal. apply rsum_ext. intros k Hk. now rewrite Rminus_0_r.
    + eapply sol_extA; [|eapply sol_ext; [|exact Sz]].
      * intros i j _ _. reflexivity.
      * intros; cbv beta. now rewrite X.
Qed.

Lemma solve_weights Vf Vb V W : valid S -> rows Vf = sN S -> cols Vf = sN S -> addm Vf Vb = Ok V -> solve V (aB S) = Ok W -> weights S (ent Vf) (ent Vb) (tr W).
Proof.
  intros Va RV CV EV EW. apply zip2_Ok in EV as (_ & _ & R1 & C1 & EV). apply (so_solve _ _ _ _ _ _ _ SO) in EW as (R2 & C2 & EW).
  split; [cbn; exact C2|]. split; [cbn; congruence|]. intros i l Hi Hl. cbn [tr ent]. rewrite <- EW by (auto; rewrite R1, RV; exact Hi).
  rewrite C1, CV. apply rsum_ext. intros k Hk. now rewrite EV.
Qed.

Lemma numpy_good_with eta2 Af Ab Bf Bb WT : fits S d -> eta2 <> 0 -> 0 <= ck_T (d_clk d) ->
  coefficients care_raw inv solve ivp expm S d eta2 BNumpy false = Ok (Af, Ab, Bf, Bb, WT) ->
  exists Rm Vf Vb, riccati care_raw S eta2 = Ok (Rm, Vf, Vb) /\ good_with S d eta2 (ent Vf) (ent Vb) Af Ab Bf Bb WT.
Proof.
  intros Fi He HT H. unfold coefficients in H. apply bind_Ok in H as ([[Rm Vf] Vb] & ER & H). assert (V := fi_valid _ _ Fi). assert (ER' := ER).
  apply (riccati_Ok _ _ _ _ _ _ _ SO) in ER as (-> & RF & CF & RB & CB & QF & QB); auto.
  unfold numerical in H. apply bind_Ok in H as ([tAf tAb] & ET & H). apply (temp_Ok _ _ _ _ _ _ _ SO) in ET as (R1 & C1 & R2 & C2 & EF & EB); auto.
  apply bind_Ok in H as (Af' & EAf & H). apply bind_Ok in H as (Ab' & EAb & H). apply bind_Ok in H as (Vs & EV & H). apply bind_Ok in H as (W & EW & H).
  unfold regular in H. apply bind_Ok in H as ([Bf' Bb'] & Ebb & H). apply Ok_inj in H. injection H as <- <- <- <- <-.
  apply bind_Ok in Ebb as (Bf2 & EBf & Ebb). apply bind_Ok in Ebb as (Bb2 & EBb & Ebb). apply Ok_inj in Ebb. injection Ebb as <- <-.
  eexists _, Vf, Vb. split; [exact ER'|]. split; [exact QF|]. split; [exact QB|]. split; [eapply solve_weights; eauto|]. split.
  - eapply samples_fwd_ext; [exact EF|]. eapply regular_fwd; eauto; [intros; constructor|]. intros m t x Hm Ht Hx. apply fwd_rhs_ok; auto. lra.
  - eapply samples_bwd_ext; [exact EB|]. eapply regular_bwd; eauto; [intros; constructor|]. intros m t x Hm Ht Hx. apply bwd_rhs_ok; auto. lra.
Qed.
Lemma numpy_good eta2 Af Ab Bf Bb WT : fits S d -> eta2 <> 0 -> 0 <= ck_T (d_clk d) ->
  coefficients care_raw inv solve ivp expm S d eta2 BNumpy false = Ok (Af, Ab, Bf, Bb, WT) -> good_coefficients S d eta2 Af Ab Bf Bb WT.
Proof. intros Fi He HT H. destruct (numpy_good_with _ _ _ _ _ _ Fi He HT H) as (Rm & Vf & Vb & _ & G). now exists (ent Vf), (ent Vb). Qed.
End P.
