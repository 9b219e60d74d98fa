(** Property theorems C83-C86: the NUV estimator. *)
From Coq Require Import List Arith Lia Bool Reals Lra ZArith.
From Verif Require Import Base LinAlg FirExtras AnalogSystem AnalogProofs Signals DigitalControl Integrators IntegratorsProofs Stability PreSim FilterCoeff FilterCoeffProofs FilterOde FilterExample
  Estimators Optimal NuvAlg NuvCost NuvArrival Nuv NuvProofs NuvPass NuvRun NuvBatch NuvCoeff NuvCont NuvCarry NuvTop NuvProtocol NuvWitness.
Import ListNotations.
Open Scope R_scope.

(** What the theorems assume of a construction and a stream of control signals: exact numerical routines, a square and symmetric output
    matrix, an evaluation time within the control period, and oversampling that divides both window lengths. *)
Definition setting (S : asys Rring) (d : dc) ivp expm inv (cov b gamma : R) (K1 K2 : Z) (iters : nat) (Ts : option R) (over : nat) (c : nuv) (st0 : nst) (xs : list (list R)) : Prop :=
  nuv_sound S d ivp expm /\ exact_inv (sNt S) inv /\ fits S d /\ symmetric_outputs S /\
  nuv_init ivp expm S d cov b gamma K1 K2 iters Ts over = Ok (c, st0) /\ 0 <= nTs c <= ck_T (d_clk d) /\ cov <> 0 /\ (iters <> O -> gamma <> 0) /\
  Forall (fun x => length x = sM S) xs /\ (nK1 c mod over = 0)%nat /\ (nK2 c mod over = 0)%nat.
Lemma setting_integ cov b gamma K1 K2 iters xs : (1 <= K1)%Z -> (0 <= K2)%Z -> cov <> 0 -> gamma <> 0 -> Forall (fun x : list R => length x = 1%nat) xs ->
  exists c st0, setting integ wd step1 expm1 inv1 cov b gamma K1 K2 iters None 1 c st0 xs /\ nK1 c = Z.to_nat K1 /\ nK2 c = Z.to_nat K2 /\ nTs c = 1.
Proof.
  intros H1 H2 Hc Hg HF. destruct (wit_init cov b gamma K1 K2 iters H1 H2) as (c & st0 & HI & ET & E1 & E2 & _). exists c, st0. split; [|auto].
  split; [exact wit_sound|]. split; [exact wit_inv|]. split; [exact wit_fits|]. split; [exact wit_symm|]. split; [exact HI|]. split; [rewrite ET; cbn; lra|]. split; [exact Hc|]. split; [auto|]. split; [exact HF|]. split; reflexivity.
Qed.

(** C83: the estimates of batch j come from the passes of iteratively reweighted least squares on the window of K1 + K2 samples; in each
    pass the input of least energy.  After the first one, the estimates are the values of this input at the ends of the periods divided by
    cov; the first one weighs the deviation of the state from the prior. *)
Theorem C83_nuv_estimates : forall S d ivp expm inv cov b gamma K1 K2 iters Ts over c st0 xs e j,
  setting S d ivp expm inv cov b gamma K1 K2 iters Ts over c st0 xs -> (j * nK1 c + nK3 c <= over * length xs)%nat ->
  let st := after_calls inv c st0 xs e (j * nK1 c) in
  exists v1 v2 u x est,
    nuv_passes S d (nTs c) cov b gamma min_sigma iters (sampled_outputs S (nK3 c) (fv (n_m0 st)) (ent (n_V0 st))) (first_var (n_s1 st)) (first_var (n_s2 st))
      (fun k => decision over xs (j * nK1 c + k)) v1 v2 u x /\
    (forall i n, (i < nK1 c)%nat -> (j * nK1 c + i < n)%nat -> nth_error (outcomes inv c st0 xs e n) (j * nK1 c + i) = Some (Ok (est i))) /\
    (forall i, (i < nK1 c)%nat -> length (est i) = sL S) /\
    (forall i l, (Datatypes.S i < nK1 c)%nat -> (l < sL S)%nat -> nth l (est (Datatypes.S i)) 0 = u iters i l (nTs c) / cov) /\
    (exists q, (forall n, (n < sN S)%nat -> x iters O n 0 = fv (n_m0 st) n - ap (sN S) (ent (n_V0 st)) q n) /\
       forall l, (l < sL S)%nat -> nth l (est O) 0 = - (cov * rsum (sN S) (fun n => ent (aB S) n l * q n))).
Proof.
  intros S d ivp expm inv cov b gamma K1 K2 iters Ts over c st0 xs e j (H1 & H2 & H3 & H4 & H5 & H6 & H7 & H8 & H9 & H10 & H11) HL st.
  destruct (nuv_estimates S d ivp expm inv cov b gamma K1 K2 iters Ts over c st0 H1 H2 H3 H4 H5 H6 H7 H8 xs e H9 H10 H11 j HL) as (v1 & v2 & u & x & est & A1 & A2 & A3 & A4 & A5 & _). exists v1, v2, u, x, est. auto.
Qed.
Print Assumptions C83_nuv_estimates.
(** the first batch *)
Theorem C83_nuv_start : forall S d ivp expm inv cov b gamma K1 K2 iters Ts over c st0 xs e, nuv_init ivp expm S d cov b gamma K1 K2 iters Ts over = Ok (c, st0) ->
  let st := after_calls inv c st0 xs e 0 in
  nK1 c = Z.to_nat K1 /\ nK2 c = Z.to_nat K2 /\
  nTs c = (match Ts with Some t => if Req_EM_T t 0 then ck_T (d_clk d) else t | None => ck_T (d_clk d) end) / INR over /\
  (forall n, (n < sN S)%nat -> fv (n_m0 st) n = 0) /\ (forall i j, (i < sN S)%nat -> (j < sN S)%nat -> ent (n_V0 st) i j = if Nat.eqb i j then 10 ^ 12 else 0) /\
  forall r, (r < sNt S)%nat -> fv (n_s1 st) r = 1 /\ fv (n_s2 st) r = 1.
Proof.
  intros S d ivp expm inv cov b gamma K1 K2 iters Ts over c st0 xs e HI st. destruct (init_inv _ _ _ _ _ _ _ _ _ _ _ _ _ _ HI) as (_ & _ & _ & _ & _ & _ & _ & E1 & E2 & _ & _ & ET & _).
  split; [exact E1|]. split; [exact E2|]. split; [|exact (nuv_start ivp expm inv S d cov b gamma K1 K2 iters Ts over c st0 xs e HI)].
  rewrite ET. destruct Ts as [t|]; [|reflexivity]. case Raux.Req_bool_spec; intros H; destruct (Req_EM_T t 0); try reflexivity; contradiction.
Qed.
Print Assumptions C83_nuv_start.
Example C83_ex : exists c st0, let xs := [[1]; [0]; [1]; [1]; [0]] in setting integ wd step1 expm1 inv1 2 1 1 2 1 1 None 1 c st0 xs /\ (1 * nK1 c + nK3 c <= 1 * length xs)%nat.
Proof.
  destruct (setting_integ 2 1 1 2 1 1 [[1]; [0]; [1]; [1]; [0]]) as (c & st0 & H & E1 & E2 & _); try lia; try lra; [repeat constructor|]. exists c, st0. split; [exact H|]. unfold nK3. rewrite E1, E2. cbn. lia.
Qed.
(** the estimates are not the values of the input *)
Theorem C83_estimates_are_the_input_refuted : exists c st0 xs v1 v2 u x est, let S := integ in
  setting S wd step1 expm1 inv1 2 1 1 2 0 0 None 1 c st0 xs /\
  nuv_passes S wd (nTs c) 2 1 1 min_sigma 0 (sampled_outputs S (nK3 c) (fv (n_m0 st0)) (ent (n_V0 st0))) (first_var (n_s1 st0)) (first_var (n_s2 st0)) (fun k => decision 1 xs k) v1 v2 u x /\
  nth_error (outcomes inv1 c st0 xs (SrcObj StopIteration) 2) 1 = Some (Ok est) /\ nth O est 0 <> u O O O (nTs c).
Proof.
  destruct (wit_nonzero 2 1 1 ltac:(lra)) as (c & st0 & est & HI & ET & E1 & E2 & HE & HN).
  assert (SE : setting integ wd step1 expm1 inv1 2 1 1 2 0 0 None 1 c st0 [[1]; [1]]).
  { split; [exact wit_sound|]. split; [exact wit_inv|]. split; [exact wit_fits|]. split; [exact wit_symm|]. split; [exact HI|]. split; [rewrite ET; cbn; lra|]. split; [lra|]. split; [contradiction|]. split; [repeat constructor|]. split; reflexivity. }
  destruct (C83_nuv_estimates integ wd step1 expm1 inv1 2 1 1 2 0 0 None 1 c st0 [[1]; [1]] (SrcObj StopIteration) O SE) as (v1 & v2 & u & x & est' & A1 & A2 & _ & A4 & _); [unfold nK3; rewrite E1, E2; cbn; lia|].
  exists c, st0, [[1]; [1]], v1, v2, u, x, est. split; [exact SE|]. split; [exact A1|]. split; [exact HE|].
  specialize (A2 1%nat 2%nat ltac:(lia) ltac:(lia)). cbn [Nat.mul Nat.add] in A2. rewrite HE in A2. injection A2 as ->. specialize (A4 O O ltac:(lia) ltac:(cbn; lia)). rewrite A4 in *. intros Q. apply HN. lra.
Qed.
Print Assumptions C83_estimates_are_the_input_refuted.

(** C84: the passes improve on each other: the robust cost (Huber's function of the distances of the outputs from both bounds) never
    increases, and the cost with the absolute distances by at most 2 gamma^2 eps for every output sample. *)
Theorem C84_passes_improve : forall S d ivp expm inv cov b gamma K1 K2 iters Ts over c st0 xs e j,
  setting S d ivp expm inv cov b gamma K1 K2 iters Ts over c st0 xs -> (j * nK1 c + nK3 c <= over * length xs)%nat -> 0 < gamma ->
  let st := after_calls inv c st0 xs e (j * nK1 c) in let w := sampled_outputs S (nK3 c) (fv (n_m0 st)) (ent (n_V0 st)) in
  exists v1 v2 u x est,
    nuv_passes S d (nTs c) cov b gamma min_sigma iters w (first_var (n_s1 st)) (first_var (n_s2 st)) (fun k => decision over xs (j * nK1 c + k)) v1 v2 u x /\
    (forall i n, (i < nK1 c)%nat -> (j * nK1 c + i < n)%nat -> nth_error (outcomes inv c st0 xs e n) (j * nK1 c + i) = Some (Ok (est i))) /\
    (forall i l, (Datatypes.S i < nK1 c)%nat -> (l < sL S)%nat -> nth l (est (Datatypes.S i)) 0 = u iters i l (nTs c) / cov) /\
    forall i, (i < iters)%nat ->
      (exists I I', penalised S (nTs c) cov (huber_pen b gamma min_sigma) w (u i) (x i) I /\ penalised S (nTs c) cov (huber_pen b gamma min_sigma) w (u (Datatypes.S i)) (x (Datatypes.S i)) I' /\ I' <= I) /\
      (exists I I', penalised S (nTs c) cov (bounds_pen b gamma) w (u i) (x i) I /\ penalised S (nTs c) cov (bounds_pen b gamma) w (u (Datatypes.S i)) (x (Datatypes.S i)) I' /\
         I' <= I + 2 * gamma ^ 2 * min_sigma * INR (nK3 c * sNt S)).
Proof.
  intros S d ivp expm inv cov b gamma K1 K2 iters Ts over c st0 xs e j H HL Hg st w.
  destruct (C83_nuv_estimates S d ivp expm inv cov b gamma K1 K2 iters Ts over c st0 xs e j H HL) as (v1 & v2 & u & x & est & A1 & A2 & _ & A4 & _). exists v1, v2, u, x, est. split; [exact A1|]. split; [exact A2|]. split; [exact A4|].
  refine (passes_improve S d (nTs c) cov b gamma min_sigma iters w _ _ _ v1 v2 u x Hg _ A1). unfold min_sigma. apply Rinv_0_lt_compat, pow_lt. lra.
Qed.
Print Assumptions C84_passes_improve.
Example C84_ex : exists c st0, let xs := [[1]; [0]; [1]; [1]; [0]] in setting integ wd step1 expm1 inv1 2 1 1 2 1 3 None 1 c st0 xs /\ (1 * nK1 c + nK3 c <= 1 * length xs)%nat /\ 0 < 1.
Proof.
  destruct (setting_integ 2 1 1 2 1 3 [[1]; [0]; [1]; [1]; [0]]) as (c & st0 & H & E1 & E2 & _); try lia; try lra; [repeat constructor|]. exists c, st0. split; [exact H|]. split; [|lra]. unfold nK3. rewrite E1, E2. cbn. lia.
Qed.

(** C85: the prior of the next batch is what the decisions and the outputs before sample K1 - 1 of this batch tell about the state at this
    sample: its inverse quadratic form is the least cost at which a state is reached.  The variances are those of this sample. *)
Theorem C85_carried_over : forall S d ivp expm inv cov b gamma K1 K2 iters Ts over c st0 xs e j,
  setting S d ivp expm inv cov b gamma K1 K2 iters Ts over c st0 xs -> (j * nK1 c + nK3 c <= over * length xs)%nat ->
  let st := after_calls inv c st0 xs e (j * nK1 c) in let st' := after_calls inv c st0 xs e (Datatypes.S j * nK1 c) in
  let w := sampled_outputs S (nK3 c) (fv (n_m0 st)) (ent (n_V0 st)) in let s := fun k => decision over xs (j * nK1 c + k) in
  exists v1 v2 u x,
    nuv_passes S d (nTs c) cov b gamma min_sigma iters w (first_var (n_s1 st)) (first_var (n_s2 st)) s v1 v2 u x /\
    (forall r, (r < sNt S)%nat -> fv (n_s1 st') r = v1 iters (nK1 c - 1)%nat r /\ fv (n_s2 st') r = v2 iters (nK1 c - 1)%nat r) /\
    carried S d (nTs c) cov b w (v1 iters) (v2 iters) s (nK1 c - 1) (fv (n_m0 st')) (ent (n_V0 st')).
Proof.
  intros S d ivp expm inv cov b gamma K1 K2 iters Ts over c st0 xs e j (H1 & H2 & H3 & H4 & H5 & H6 & H7 & H8 & H9 & H10 & H11) HL st st' w s.
  destruct (nuv_estimates S d ivp expm inv cov b gamma K1 K2 iters Ts over c st0 H1 H2 H3 H4 H5 H6 H7 H8 xs e H9 H10 H11 j HL) as (v1 & v2 & u & x & est & A1 & _ & _ & _ & _ & A6 & A7 & _). exists v1, v2, u, x. auto.
Qed.
Print Assumptions C85_carried_over.
Example C85_ex := C83_ex.
(** with K1 = 1 nothing is ever learned about the state *)
Theorem C85_single_sample_batches : forall S d ivp expm inv cov b gamma K2 iters Ts over c st0 xs e j,
  setting S d ivp expm inv cov b gamma 1 K2 iters Ts over c st0 xs -> (j + nK3 c <= over * length xs)%nat ->
  let st := after_calls inv c st0 xs e j in
  (forall n, (n < sN S)%nat -> fv (n_m0 st) n = 0) /\ forall i n, (i < sN S)%nat -> (n < sN S)%nat -> ent (n_V0 st) i n = if Nat.eqb i n then 10 ^ 12 else 0.
Proof.
  intros S d ivp expm inv cov b gamma K2 iters Ts over c st0 xs e j (H1 & H2 & H3 & H4 & H5 & H6 & H7 & H8 & H9 & H10 & H11) HL.
  destruct (C83_nuv_start S d ivp expm inv cov b gamma 1 K2 iters Ts over c st0 xs e H5) as (E1 & _ & _ & A0 & A1 & _). change (Z.to_nat 1) with 1%nat in E1. cbv zeta.
  assert (X : n_m0 (after_calls inv c st0 xs e j) = n_m0 (after_calls inv c st0 xs e 0) /\ n_V0 (after_calls inv c st0 xs e j) = n_V0 (after_calls inv c st0 xs e 0)).
  { induction j; [auto|]. destruct IHj as [I1 I2]; [lia|].
    destruct (nuv_estimates S d ivp expm inv cov b gamma 1 K2 iters Ts over c st0 H1 H2 H3 H4 H5 H6 H7 H8 xs e H9 H10 H11 j ltac:(lia)) as (_ & _ & _ & _ & _ & _ & _ & _ & _ & _ & _ & _ & L).
    destruct (L E1) as [L1 L2]. rewrite E1, !Nat.mul_1_r in *. split; congruence. }
  destruct X as [-> ->]. split; [exact A0|exact A1].
Qed.
Print Assumptions C85_single_sample_batches.
Example C85_single_ex : exists c st0, let xs := [[1]; [0]; [1]; [1]; [0]] in setting integ wd step1 expm1 inv1 2 1 1 1 1 1 None 1 c st0 xs /\ (3 + nK3 c <= 1 * length xs)%nat.
Proof.
  destruct (setting_integ 2 1 1 1 1 1 [[1]; [0]; [1]; [1]; [0]]) as (c & st0 & H & E1 & E2 & _); try lia; try lra; [repeat constructor|]. exists c, st0. split; [exact H|]. unfold nK3. rewrite E1, E2. cbn. lia.
Qed.
(** the next batch starts at sample K1, but its prior is not about the state at this sample *)
Theorem C85_prior_of_the_next_batch_refuted : exists c st0 xs e v1 v2 u x, let S := integ in
  let st := after_calls inv1 c st0 xs e 0 in let st' := after_calls inv1 c st0 xs e (nK1 c) in
  let w := sampled_outputs S (nK3 c) (fv (n_m0 st)) (ent (n_V0 st)) in let s := fun k => decision 1 xs k in
  setting S wd step1 expm1 inv1 1 1 1 1 1 0 None 1 c st0 xs /\
  nuv_passes S wd (nTs c) 1 1 1 min_sigma 0 w (first_var (n_s1 st)) (first_var (n_s2 st)) s v1 v2 u x /\
  ~ carried S wd (nTs c) 1 1 w (v1 O) (v2 O) s (nK1 c) (fv (n_m0 st')) (ent (n_V0 st')).
Proof.
  destruct (setting_integ 1 1 1 1 1 0 [[1]; [1]; [1]]) as (c & st0 & H & E1 & E2 & ET); try lia; try lra; [repeat constructor|]. change (Z.to_nat 1) with 1%nat in *.
  assert (K3 : nK3 c = 2%nat) by (unfold nK3; lia).
  destruct (C83_nuv_estimates integ wd step1 expm1 inv1 1 1 1 1 1 0 None 1 c st0 [[1]; [1]; [1]] (SrcObj StopIteration) O H) as (v1 & v2 & u & x & est & A1 & _); [rewrite E1, K3; cbn; lia|].
  destruct (C85_single_sample_batches integ wd step1 expm1 inv1 1 1 1 1 0 None 1 c st0 [[1]; [1]; [1]] (SrcObj StopIteration) 1 H) as [M1 V1]; [rewrite K3; cbn; lia|].
  destruct (C83_nuv_start integ wd step1 expm1 inv1 1 1 1 1 1 0 None 1 c st0 [[1]; [1]; [1]] (SrcObj StopIteration)) as (_ & _ & _ & M0 & V0 & Sg); [apply H|]. change (sN integ) with 1%nat in *. change (sNt integ) with 1%nat in *.
  exists c, st0, [[1]; [1]; [1]], (SrcObj StopIteration), v1, v2, u, x. cbv zeta. split; [exact H|]. split; [exact A1|]. rewrite ET, E1, K3. destruct A1 as [R0 _]. cbn [sampled_outputs w_K w_P] in R0. rewrite K3 in R0.
  destruct (R0 O O ltac:(lia) ltac:(cbn; lia)) as [Ra Rb]. cbn [first_var Nat.mul] in Ra, Rb. rewrite (proj1 (Sg O ltac:(lia))) in Ra. rewrite (proj2 (Sg O ltac:(lia))) in Rb.
  apply wit_not_carried; [apply M0; lia|apply (V0 O O); lia|unfold decision; cbn; lra|exact Ra|exact Rb|apply M1; lia|apply (V1 O O); lia].
Qed.
Print Assumptions C85_prior_of_the_next_batch_refuted.

(** C86: the protocol.  Arguments that are refused *)
Theorem C86_arguments : forall ivp expm S d cov b gamma K1 K2 iters Ts over,
  ((K1 < 1)%Z -> nuv_init ivp expm S d cov b gamma K1 K2 iters Ts over = Exn GenericException) /\
  ((K2 < 0)%Z -> nuv_init ivp expm S d cov b gamma K1 K2 iters Ts over = Exn GenericException) /\
  ((1 <= K1)%Z -> (0 <= K2)%Z -> nuv_init ivp expm S d cov b gamma K1 K2 iters Ts 0 = Exn ZeroDivisionError).
Proof. intros. split; [apply init_K1|]. split; [apply init_K2|apply init_over]. Qed.
Print Assumptions C86_arguments.
(** without an iterator *)
Theorem C86_no_iterator : forall ivp expm inv S d cov b gamma K1 K2 iters Ts over c st0 n, nuv_init ivp expm S d cov b gamma K1 K2 iters Ts over = Ok (c, st0) ->
  fst (calls (n_next inv c) n st0) = repeat (Exn GenericException) n.
Proof. intros. apply no_iterator. destruct (init_inv _ _ _ _ _ _ _ _ _ _ _ _ _ _ H) as (_ & _ & _ & _ & _ & _ & _ & _ & _ & _ & _ & _ & _ & ->). reflexivity. Qed.
Print Assumptions C86_no_iterator.
Example C86_init_ex : exists c st0, nuv_init step1 expm1 integ wd 1 1 1 2 2 1 None 2 = Ok (c, st0).
Proof. destruct (wit_init_over 1 1 1 2 2 1 2 ltac:(lia) ltac:(lia) ltac:(lia)) as (c & st0 & H & _). eauto. Qed.
(** as many outputs as states are needed: otherwise no call ever returns an estimate, whatever the source *)
Theorem C86_rectangular_outputs : forall S d ivp expm inv cov b gamma K1 K2 iters Ts over c st0, sNt S <> sN S -> nuv_init ivp expm S d cov b gamma K1 K2 iters Ts over = Ok (c, st0) ->
  forall src, never_yields (n_next inv c) (set_iterator st0 src).
Proof. exact rect_top. Qed.
Print Assumptions C86_rectangular_outputs.
Definition integ2 : asys Rring := mkAS (K := Rring) (s11 0) (s11 1) (mk2 (K := Rring) 2 1 (fun _ _ => 1)) (Some (s11 1)) (Some (s11 (-1))) (s11 0) (s11 0) (s11 0).
Example C86_rectangular_ex : exists c st0, sNt integ2 <> sN integ2 /\ nuv_init step1 expm1 integ2 wd 1 1 1 2 2 1 None 1 = Ok (c, st0).
Proof.
  destruct (wit_init 1 1 1 2 2 1 ltac:(lia) ltac:(lia)) as (c & st0 & H & _). unfold nuv_init in *. change (nuv_coefficients step1 expm1 integ2 wd) with (nuv_coefficients step1 expm1 integ wd).
  cbn [Z.ltb Z.compare Pos.compare Pos.compare_cont Nat.eqb] in *. destruct (nuv_coefficients step1 expm1 integ wd 1 _) as [[[Af Bf] Vu]|]; [|discriminate]. cbn [bind]. eexists _, _. split; [cbn; discriminate|reflexivity].
Qed.
(** the oversampling has to divide both K1 and K2: otherwise there is no estimate at all, or none after the first batch *)
Theorem C86_oversampling : forall S d ivp expm inv cov b gamma K1 K2 iters Ts over c st0, nuv_init ivp expm S d cov b gamma K1 K2 iters Ts over = Ok (c, st0) ->
  forall src, ((nK3 c mod over <> 0)%nat -> never_yields (n_next inv c) (set_iterator st0 src)) /\
    ((nK1 c mod over <> 0)%nat -> forall n, (yields (fst (calls (n_next inv c) n (set_iterator st0 src))) <= nK1 c)%nat).
Proof. intros S d ivp expm inv cov b gamma K1 K2 iters Ts over c st0 H src. split; intros HM; [eapply over_top; eassumption|eapply over_first; eassumption]. Qed.
Print Assumptions C86_oversampling.
Example C86_oversampling_ex : (exists c st0, nuv_init step1 expm1 integ wd 1 1 1 2 1 1 None 2 = Ok (c, st0) /\ (nK3 c mod 2 <> 0)%nat) /\
  exists c st0, nuv_init step1 expm1 integ wd 1 1 1 1 1 1 None 2 = Ok (c, st0) /\ (nK1 c mod 2 <> 0)%nat.
Proof.
  split; [destruct (wit_init_over 1 1 1 2 1 1 2 ltac:(lia) ltac:(lia) ltac:(lia)) as (c & st0 & H & _ & E1 & E2 & _)|destruct (wit_init_over 1 1 1 1 1 1 2 ltac:(lia) ltac:(lia) ltac:(lia)) as (c & st0 & H & _ & E1 & E2 & _)];
    exists c, st0; (split; [exact H|]); unfold nK3; rewrite ?E1, ?E2; cbn; discriminate.
Qed.
(** the end of the source: exactly the estimates of the complete batches are delivered, then the exception of the source and, from
    generators, StopIteration; a RuntimeError instead pads the next batch with samples 0, whose estimates are delivered before StopIteration *)
Theorem C86_end_of_source : forall S d ivp expm inv cov b gamma K1 K2 iters Ts over c st0 xs e,
  setting S d ivp expm inv cov b gamma K1 K2 iters Ts over c st0 xs ->
  (end_exn e <> RuntimeError -> forall n, exists est, length est = (full_batches over (nK1 c) (nK2 c) (length xs) * nK1 c)%nat /\
     outcomes inv c st0 xs e (length est + Datatypes.S n) = map Ok est ++ Exn (end_exn e) :: repeat (Exn (end_exn (after e))) n) /\
  (e = SrcObj RuntimeError -> forall n, exists est, length est = (Datatypes.S (full_batches over (nK1 c) (nK2 c) (length xs)) * nK1 c)%nat /\
     outcomes inv c st0 xs e (length est + n) = map Ok est ++ repeat (Exn StopIteration) n).
Proof.
  intros S d ivp expm inv cov b gamma K1 K2 iters Ts over c st0 xs e (H1 & H2 & H3 & H4 & H5 & H6 & H7 & H8 & H9 & H10 & H11). exact (end_top S d ivp expm inv cov b gamma K1 K2 iters Ts over c st0 H1 H2 H3 H4 H5 H6 H8 xs e H9 H10 H11).
Qed.
Print Assumptions C86_end_of_source.
Example C86_end_ex : exists c st0, let xs := [[1]; [0]; [1]; [1]; [0]] in setting integ wd step1 expm1 inv1 2 1 1 2 1 1 None 1 c st0 xs /\ full_batches 1 (nK1 c) (nK2 c) (length xs) = 2%nat.
Proof.
  destruct (setting_integ 2 1 1 2 1 1 [[1]; [0]; [1]; [1]; [0]]) as (c & st0 & H & E1 & E2 & _); try lia; try lra; [repeat constructor|]. exists c, st0. split; [exact H|]. rewrite E1, E2. reflexivity.
Qed.
(** a complete stream of valid samples need not give an estimate *)
Theorem C86_samples_suffice_refuted : exists c st0, nuv_init step1 expm1 integ wd 1 1 1 2 1 1 None 2 = Ok (c, st0) /\
  forall n r, In r (outcomes inv1 c st0 [[1]; [0]; [1]; [1]] (SrcObj StopIteration) n) -> exists e, r = Exn e.
Proof.
  destruct (wit_init_over 1 1 1 2 1 1 2 ltac:(lia) ltac:(lia) ltac:(lia)) as (c & st0 & H & _ & E1 & E2 & _). exists c, st0. split; [exact H|]. intros n r.
  apply (over_top _ _ _ _ inv1 _ _ _ _ _ _ _ _ _ _ H); unfold nK3; rewrite E1, E2; cbn; discriminate.
Qed.
Print Assumptions C86_samples_suffice_refuted.
