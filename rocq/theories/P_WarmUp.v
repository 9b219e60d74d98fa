(** C107: [filter_lag], [warm_up] and [set_iterator] of the digital estimators. *)
From Coq Require Import List Lia Arith Bool ZArith.
From Verif Require Import Base LinAlg Estimators BatchProofs BatchRun FirProofs EstProps WarmUp WarmUpProofs P_Estimators.
Import ListNotations.

Notation fnext c K1 K2 ds offset limit := (f_next (Z.to_nat K1 + Z.to_nat K2) (cM c) (cL c) ds (fir_h c (Z.to_nat K1) (Z.to_nat K2)) offset limit).
Notation inext c K2 ds limit := (i_next c (Z.to_nat K2) ds limit).
Notation bnext c K1 K2 limit := (b_next c (Z.to_nat K1) (Z.to_nat K2) limit).
Notation outputs next n o := (fst (calls (o_next next) n o)).

(** the constructors: which sizes are accepted, the lag that is announced, and no iterator yet *)
Theorem C107_construct : forall (K : cring) (c : @coef K) (K1 K2 : Z),
  (forall o, f_new c K1 K2 = Ok o -> (0 <= K1 /\ 1 <= K2)%Z /\ filter_lag o = (K2 - 2)%Z /\ o_set o = false)
  /\ (forall o, i_new c K2 = Ok o -> (0 <= K2)%Z /\ filter_lag o = (K2 - 2)%Z /\ o_set o = false)
  /\ (forall o, b_new c K1 K2 = Ok o -> (1 <= K1 /\ 0 <= K2)%Z /\ filter_lag o = (-1)%Z /\ o_set o = false)
  /\ ((K1 < 0 \/ K2 < 1)%Z -> f_new c K1 K2 = Exn GenericException)
  /\ ((K2 < 0)%Z -> i_new c K2 = Exn GenericException)
  /\ ((K1 < 1 \/ K2 < 0)%Z -> b_new c K1 K2 = Exn GenericException).
Proof.
  intros K c K1 K2. unfold f_new, i_new, b_new.
  repeat split; intros; try (apply Ok_inj in H; subst; cbn; auto);
  destruct (Z.ltb_spec K1 0), (Z.ltb_spec K2 1), (Z.ltb_spec K2 0), (Z.ltb_spec K1 1); try discriminate; try lia; try reflexivity;
  try (apply Ok_inj in H; subst; reflexivity).
Qed.
Print Assumptions C107_construct.
Example C107_construct_ex : (exists o, f_new exc 2 3 = Ok o /\ filter_lag o = 1%Z) /\ f_new exc 2 0 = Exn GenericException.
Proof. split; [eexists; split; reflexivity|reflexivity]. Qed.

(** FIR: [warm_up()] discards [max 0 (K2 - 2)] outputs, leaves the lag at [min 0 (K2 - 2)], and what follows is the estimate of these instants *)
Theorem C107_fir : forall (K : cring) (c : @coef K) (K1 K2 : Z) ds offset limit xs e s o, coef_wf c ->
  Forall (fun x => length x = cM c) xs -> e = SrcObj StopIteration \/ e = SrcGen RuntimeError \/ e = SrcObj RuntimeError ->
  (1 <= ds <= Z.to_nat K1 + Z.to_nat K2)%nat -> f_new c K1 K2 = Ok o -> (s <= 0)%Z ->
  let w := Z.to_nat (K2 - 2) in
  (w * ds <= length xs)%nat -> (limit = 0 \/ Z.of_nat (w * ds) <= limit)%Z ->
  exists o', warm_up (fnext c K1 K2 ds offset limit) s (f_set (mkSrc xs e) o) = (Ok tt, o')
  /\ filter_lag o' = Z.min 0 (K2 - 2)
  /\ (forall n j, (j < n)%nat -> ((j + 1 + w) * ds <= length xs)%nat -> (limit = 0 \/ Z.of_nat ((j + 1 + w) * ds) <= limit)%Z ->
      nth_error (outputs (fnext c K1 K2 ds offset limit) n o') j
      = Some (Ok (vadd (window_est c (zsig (cM c) xs) (Z.to_nat K1) (Z.to_nat K2) (Z.of_nat (j + 1 + w) * Z.of_nat ds - K2)%Z) offset)))
  /\ (forall j, ds = 1%nat -> (Z.of_nat (j + 1 + w) * Z.of_nat ds - K2 = Z.of_nat j - 1 - filter_lag o')%Z).
Proof.
  intros K c K1 K2 ds offset limit xs e s o Hwf Hxs He Hds Ho Hs w Hw Hm. destruct (proj1 (C107_construct K c K1 K2) o Ho) as ([H1 H2] & _ & _).
  unfold f_new in Ho. destruct (Z.ltb_spec K1 0); [lia|]. destruct (Z.ltb_spec K2 1); [lia|]. apply Ok_inj in Ho. subst o.
  set (next := fnext c K1 K2 ds offset limit). set (st := f_init (Z.to_nat K1 + Z.to_nat K2) (cM c) (mkSrc xs e)).
  change (f_set (mkSrc xs e) _) with (mkO true (K2 - 2) st).
  assert (R : forall n k, (k < n)%nat -> ((k + 1) * ds <= length xs)%nat -> (limit = 0 \/ Z.of_nat ((k + 1) * ds) <= limit)%Z ->
    nth_error (fst (calls next n st)) k = Some (Ok (vadd (window_est c (zsig (cM c) xs) (Z.to_nat K1) (Z.to_nat K2) (Z.of_nat ((k + 1) * ds) - K2)%Z) offset))).
  { intros n k Hk H3 H4. destruct (fir_run (Z.to_nat K1 + Z.to_nat K2) (cM c) (cL c) ds (fir_h c (Z.to_nat K1) (Z.to_nat K2)) offset limit xs e Hds Hxs He n k Hk) as [H5 _].
    fold next st in H5. rewrite H5 by (unfold fgood; replace (S k) with (k + 1)%nat by lia; auto). do 3 f_equal. rewrite fbuf_window by exact Hwf. f_equal. lia. }
  assert (F : Forall is_ok (fst (calls next w st))).
  { apply all_ok with (out := fun k => vadd (window_est c (zsig (cM c) xs) (Z.to_nat K1) (Z.to_nat K2) (Z.of_nat ((k + 1) * ds) - K2)%Z) offset).
    intros k Hk. assert ((k + 1) * ds <= w * ds)%nat by (apply Nat.mul_le_mono_r; lia). apply R; lia. }
  eexists. split; [apply warm_ok; [exact F|exact Hs]|]. split; [reflexivity|]. split.
  - intros n j Hj H3 H4. rewrite calls_obj. cbn [fst]. rewrite <- calls_nth_app. fold w.
    rewrite R; [do 4 f_equal; lia|lia|nia|]. replace (w + j + 1)%nat with (j + 1 + w)%nat by lia. exact H4.
  - intros j ->. unfold filter_lag. cbn [o_lag]. unfold w. lia.
Qed.
Print Assumptions C107_fir.
Example C107_fir_ex : exists o, f_new exc 2 3 = Ok o /\
  (let '(r, o') := warm_up (fnext exc 2 3 1 [0%Z] 0) 0 (f_set (mkSrc exs (SrcObj StopIteration)) o) in r = Ok tt /\ filter_lag o' = 0%Z
   /\ outputs (fnext exc 2 3 1 [0%Z] 0) 3 o' = map (fun t => Ok (window_est exc (zsig 1 exs) 2 3 t)) [-1; 0; 1]%Z).
Proof. eexists. split; [reflexivity|]. vm_compute. repeat split. Qed.

(** IIR likewise *)
Theorem C107_iir : forall (K : cring) (c : @coef K) (K2 : Z) ds limit xs e s o, coef_wf c ->
  Forall (fun x => length x = cM c) xs -> e = SrcObj StopIteration \/ e = SrcGen RuntimeError \/ e = SrcObj RuntimeError ->
  (1 <= ds)%nat -> (1 <= K2)%Z -> i_new c K2 = Ok o -> (s <= 0)%Z ->
  let w := Z.to_nat (K2 - 2) in
  (w * ds + 1 <= length xs + ds)%nat -> (limit = 0 \/ Z.of_nat (w * ds + 1) <= limit + Z.of_nat ds)%Z ->
  exists o', warm_up (inext c K2 ds limit) s (i_set (mkSrc xs e) o) = (Ok tt, o')
  /\ filter_lag o' = Z.min 0 (K2 - 2)
  /\ (forall n j, (j < n)%nat -> ((j + w) * ds + 1 <= length xs)%nat -> (limit = 0 \/ Z.of_nat ((j + w) * ds + 1) <= limit)%Z ->
      nth_error (outputs (inext c K2 ds limit) n o') j
      = Some (Ok (window_est c (zsig (cM c) xs) ((j + w) * ds) (Z.to_nat K2) (Z.of_nat (j + w) * Z.of_nat ds + 1 - K2)%Z)))
  /\ (forall j, ds = 1%nat -> (Z.of_nat (j + w) * Z.of_nat ds + 1 - K2 = Z.of_nat j - 1 - filter_lag o')%Z).
Proof.
  intros K c K2 ds limit xs e s o Hwf Hxs He Hds HK Ho Hs w Hw Hm.
  unfold i_new in Ho. destruct (Z.ltb_spec K2 0); [lia|]. apply Ok_inj in Ho. subst o.
  set (next := inext c K2 ds limit). set (st := i_init c (Z.to_nat K2) (mkSrc xs e)).
  change (i_set (mkSrc xs e) _) with (mkO true (K2 - 2) st).
  assert (R : forall n k, (k < n)%nat -> (k * ds + 1 <= length xs)%nat -> (limit = 0 \/ Z.of_nat (k * ds + 1) <= limit)%Z ->
    nth_error (fst (calls next n st)) k = Some (Ok (window_est c (zsig (cM c) xs) (k * ds) (Z.to_nat K2) (Z.of_nat (k * ds) + 1 - K2)%Z))).
  { intros n k Hk H3 H4. destruct (iir_run c (Z.to_nat K2) ds ltac:(lia) Hds limit xs Hxs e He n k Hk) as [H5 _].
    fold next st in H5. rewrite H5 by (unfold can_read; replace (S (k * ds)) with (k * ds + 1)%nat by lia; auto). rewrite iout_window by exact Hwf. do 3 f_equal. lia. }
  assert (F : Forall is_ok (fst (calls next w st))).
  { apply all_ok with (out := fun k => window_est c (zsig (cM c) xs) (k * ds) (Z.to_nat K2) (Z.of_nat (k * ds) + 1 - K2)%Z).
    intros k Hk. assert ((k + 1) * ds <= w * ds)%nat by (apply Nat.mul_le_mono_r; lia). apply R; lia. }
  eexists. split; [apply warm_ok; [exact F|exact Hs]|]. split; [reflexivity|]. split.
  - intros n j Hj H3 H4. rewrite calls_obj. cbn [fst]. rewrite <- calls_nth_app. fold w. replace (w + j)%nat with (j + w)%nat by lia.
    rewrite R; [do 3 f_equal; lia|lia|lia|exact H4].
  - intros j ->. unfold filter_lag. cbn [o_lag]. unfold w. lia.
Qed.
Print Assumptions C107_iir.
Example C107_iir_ex : exists o, i_new exc 3 = Ok o /\
  (let '(r, o') := warm_up (inext exc 3 1 0) 0 (i_set (mkSrc exs (SrcObj StopIteration)) o) in r = Ok tt /\ filter_lag o' = 0%Z
   /\ outputs (inext exc 3 1 0) 3 o' = map (fun t => Ok (window_est exc (zsig 1 exs) (Z.to_nat (t + 2)) 3 t)) [-1; 0; 1]%Z).
Proof. eexists. split; [reflexivity|]. vm_compute. repeat split. Qed.

(** batch: nothing is discarded, and nothing needs to be; output j is the estimate of instant j *)
Theorem C107_batch : forall (K : cring) (c : @coef K) (K1 K2 : Z) limit xs s o, coef_wf c ->
  Forall (fun x => length x = cM c) xs -> b_new c K1 K2 = Ok o -> (s <= 0)%Z ->
  let o1 := b_set (mkSrc xs (SrcObj StopIteration)) o in
  warm_up (bnext c K1 K2 limit) s o1 = (Ok tt, o1) /\ filter_lag o1 = (-1)%Z
  /\ (forall n j, (j < n)%nat -> (Z.to_nat K1 * (j / Z.to_nat K1 + 1) + Z.to_nat K2 <= length xs)%nat -> (Z.of_nat (j + 1 + j / Z.to_nat K1) <= limit)%Z ->
      nth_error (outputs (bnext c K1 K2 limit) n o1) j
      = Some (Ok (wiener c (dsig c xs) j (Z.to_nat K1 + Z.to_nat K2 - j mod Z.to_nat K1)))
      /\ (Z.of_nat j = Z.of_nat j - 1 - filter_lag o1)%Z).
Proof.
  intros K c K1 K2 limit xs s o Hwf Hxs Ho Hs o1. unfold b_new in Ho. destruct (Z.ltb_spec K1 1); [discriminate|]. destruct (Z.ltb_spec K2 0); [discriminate|]. apply Ok_inj in Ho. subst o.
  set (st := b_init c (Z.to_nat K1) (Z.to_nat K2) (mkSrc xs (SrcObj StopIteration))). change o1 with (mkO true (-1) st). split; [|split; [reflexivity|]].
  - unfold warm_up. destruct (Z.ltb_spec 0 s); [lia|]. reflexivity.
  - intros n j Hj H1 H2. split; [|unfold filter_lag; cbn [o_lag]; lia]. rewrite calls_obj. cbn [fst].
    destruct (batch_run c Hwf (Z.to_nat K1) (Z.to_nat K2) ltac:(lia) limit xs Hxs (SrcObj StopIteration) (or_introl eq_refl) n j Hj) as [H3 _].
    apply H3. split; [|exact H2]. cbn [nbatches]. set (k1 := Z.to_nat K1) in *. assert (k1 <> 0)%nat by (unfold k1; lia).
    pose proof (Nat.div_mod j k1 ltac:(lia)). pose proof (Nat.mod_upper_bound j k1 ltac:(lia)).
    assert (j / k1 + 1 <= (length xs - Z.to_nat K2) / k1)%nat by (apply Nat.div_le_lower_bound; [lia|]; lia). nia.
Qed.
Print Assumptions C107_batch.
Example C107_batch_ex : exists o, b_new exc 2 1 = Ok o /\ outputs (bnext exc 2 1 10) 4 (snd (warm_up (bnext exc 2 1 10) 0 (b_set (mkSrc exs (SrcObj StopIteration)) o)))
  = batch_results exc 2 1 10 (mkSrc exs (SrcObj StopIteration)) 4.
Proof. eexists. split; [reflexivity|]. vm_compute. reflexivity. Qed.

(** the estimators are not aligned after [warm_up()]: the first FIR output is the estimate one instant before the first sample *)
Theorem C107_aligned_refuted : exists (c : @coef Zring) (K1 K2 : Z) xs o,
  coef_wf c /\ Forall (fun x => length x = cM c) xs /\ f_new c K1 K2 = Ok o /\
  let '(r, o') := warm_up (fnext c K1 K2 1 [0%Z] 0) 0 (f_set (mkSrc xs (SrcObj StopIteration)) o) in
  r = Ok tt /\ filter_lag o' = 0%Z
  /\ nth_error (outputs (fnext c K1 K2 1 [0%Z] 0) 1 o') 0 = Some (Ok (window_est c (zsig (cM c) xs) (Z.to_nat K1) (Z.to_nat K2) (-1)))
  /\ nth_error (outputs (fnext c K1 K2 1 [0%Z] 0) 1 o') 0 <> Some (Ok (window_est c (zsig (cM c) xs) (Z.to_nat K1) (Z.to_nat K2) 0)).
Proof.
  exists exc, 2%Z, 3%Z, exs. eexists. split; [exact exc_wf|]. split; [repeat constructor|]. split; [reflexivity|]. vm_compute. repeat split. discriminate.
Qed.
Print Assumptions C107_aligned_refuted.

(** with downsampling the lag (counted in samples) is spent in outputs: too much is thrown away *)
Theorem C107_downsample_refuted : exists (c : @coef Zring) (K1 K2 : Z) ds xs o,
  coef_wf c /\ Forall (fun x => length x = cM c) xs /\ f_new c K1 K2 = Ok o /\ (1 < ds)%nat /\
  let '(r, o') := warm_up (fnext c K1 K2 ds [0%Z] 0) 0 (f_set (mkSrc xs (SrcObj StopIteration)) o) in
  r = Ok tt /\ filter_lag o' = 0%Z
  /\ nth_error (outputs (fnext c K1 K2 ds [0%Z] 0) 1 o') 0 = Some (Ok (window_est c (zsig (cM c) xs) (Z.to_nat K1) (Z.to_nat K2) 2))
  /\ nth_error (outputs (fnext c K1 K2 ds [0%Z] 0) 1 o') 0 <> Some (Ok (window_est c (zsig (cM c) xs) (Z.to_nat K1) (Z.to_nat K2) (-1)))
  /\ nth_error (outputs (fnext c K1 K2 ds [0%Z] 0) 1 o') 0 <> Some (Ok (window_est c (zsig (cM c) xs) (Z.to_nat K1) (Z.to_nat K2) 0))
  /\ nth_error (outputs (fnext c K1 K2 ds [0%Z] 0) 1 o') 0 <> Some (Ok (window_est c (zsig (cM c) xs) (Z.to_nat K1) (Z.to_nat K2) 1)).
Proof.
  exists exc, 2%Z, 4%Z, 2%nat, (rev exs). eexists. split; [exact exc_wf|]. split; [repeat constructor|]. split; [reflexivity|]. split; [lia|]. vm_compute. repeat split; discriminate.
Qed.
Print Assumptions C107_downsample_refuted.

(** [warm_up(n)] with n > 0 throws away n outputs, whatever the estimator, and does not touch the lag *)
Theorem C107_samples : forall (St A : Type) (next : St -> result A * St) (o : obj St) (s : Z) n, o_set o = true -> (0 < s)%Z ->
  Forall (fun r => exists v, r = Ok v) (outputs next (Z.to_nat s) o) ->
  exists o', warm_up next s o = (Ok tt, o') /\ filter_lag o' = filter_lag o /\ outputs next n o' = skipn (Z.to_nat s) (outputs next (Z.to_nat s + n) o).
Proof.
  intros St A next [b lag st] s n Hb Hs F. cbn in Hb. subst b. rewrite calls_obj in F. cbn [fst] in F. eexists. split; [apply warm_samples; [exact Hs|exact F]|]. split; [reflexivity|].
  rewrite !calls_obj. cbn [fst]. rewrite calls_app. cbn [fst]. rewrite skipn_app, calls_length, Nat.sub_diag, skipn_all2 by (rewrite calls_length; lia). reflexivity.
Qed.
Print Assumptions C107_samples.
Example C107_samples_ex : exists o, f_new exc 2 3 = Ok o /\
  let '(r, o') := warm_up (fnext exc 2 3 1 [0%Z] 0) 2 (f_set (mkSrc exs (SrcObj StopIteration)) o) in r = Ok tt /\ filter_lag o' = 1%Z
  /\ outputs (fnext exc 2 3 1 [0%Z] 0) 4 o' = skipn 2 (fir_results exc 2 3 1 [0%Z] 0 (mkSrc exs (SrcObj StopIteration)) 6).
Proof. eexists. split; [reflexivity|]. vm_compute. repeat split. Qed.

(** a second [warm_up()] does nothing *)
Theorem C107_again : forall (St A : Type) (next : St -> result A * St) (o o' : obj St) s s', (s <= 0)%Z -> (s' <= 0)%Z ->
  warm_up next s o = (Ok tt, o') -> (filter_lag o' <= 0)%Z /\ warm_up next s' o' = (Ok tt, o').
Proof. intros St A next o o' s s'. apply warm_again. Qed.
Print Assumptions C107_again.
Example C107_again_ex : exists o, f_new exc 2 4 = Ok o /\
  let '(r, o') := warm_up (fnext exc 2 4 1 [0%Z] 0) 0 (f_set (mkSrc exs (SrcObj StopIteration)) o) in
  r = Ok tt /\ s_items (f_src (o_st o')) = skipn 2 exs /\ warm_up (fnext exc 2 4 1 [0%Z] 0) 0 o' = (Ok tt, o').
Proof. eexists. split; [reflexivity|]. vm_compute. repeat split. Qed.

(** the control signal is too short for the warm-up: StopIteration, and the lag is reduced by what could be read *)
Theorem C107_exhausted : forall (K : cring) (c : @coef K) (K1 K2 : Z) ds offset xs e s o,
  Forall (fun x => length x = cM c) xs -> e = SrcObj StopIteration \/ e = SrcGen RuntimeError \/ e = SrcObj RuntimeError ->
  (1 <= ds <= Z.to_nat K1 + Z.to_nat K2)%nat -> f_new c K1 K2 = Ok o -> (s <= 0)%Z ->
  (length xs < Z.to_nat (K2 - 2) * ds)%nat ->
  exists o', warm_up (fnext c K1 K2 ds offset 0) s (f_set (mkSrc xs e) o) = (Exn StopIteration, o')
  /\ filter_lag o' = (K2 - 2 - Z.of_nat (length xs / ds))%Z.
Proof.
  intros K c K1 K2 ds offset xs e s o Hxs He Hds Ho Hs Hw. destruct (proj1 (C107_construct K c K1 K2) o Ho) as ([H1 H2] & _ & _).
  unfold f_new in Ho. destruct (Z.ltb_spec K1 0); [lia|]. destruct (Z.ltb_spec K2 1); [lia|]. apply Ok_inj in Ho. subst o.
  set (next := fnext c K1 K2 ds offset 0%Z). set (st := f_init (Z.to_nat K1 + Z.to_nat K2) (cM c) (mkSrc xs e)).
  change (f_set (mkSrc xs e) _) with (mkO true (K2 - 2) st). set (k := (length xs / ds)%nat).
  pose proof (Nat.div_mod (length xs) ds ltac:(lia)) as HD. pose proof (Nat.mod_upper_bound (length xs) ds ltac:(lia)) as HU. fold k in HD.
  pose proof (fir_run (Z.to_nat K1 + Z.to_nat K2) (cM c) (cL c) ds (fir_h c (Z.to_nat K1) (Z.to_nat K2)) offset 0 xs e Hds Hxs He) as R. fold next st in R.
  eexists. split; [apply (warm_exn next (K2 - 2) st k StopIteration s Hs)|reflexivity].
  - apply Nat.div_lt_upper_bound; lia.
  - apply all_ok with (out := fun i => vadd (tensordot (cL c) (fir_h c (Z.to_nat K1) (Z.to_nat K2)) (fbuf (Z.to_nat K1 + Z.to_nat K2) (cM c) xs (S i * ds))) offset).
    intros i Hi. apply (R k i Hi). unfold fgood. split; [|now left]. assert (S i * ds <= k * ds)%nat by (apply Nat.mul_le_mono_r; lia). lia.
  - apply (R (k + 1)%nat k ltac:(lia)). unfold fgood. lia.
Qed.
Print Assumptions C107_exhausted.
Example C107_exhausted_ex : exists o, f_new exc 2 20 = Ok o /\
  let '(r, o') := warm_up (fnext exc 2 20 1 [0%Z] 0) 0 (f_set (mkSrc exs (SrcObj StopIteration)) o) in r = Exn StopIteration /\ filter_lag o' = 11%Z.
Proof. eexists. split; [reflexivity|]. vm_compute. repeat split. Qed.

(** before [set_iterator] (or a call of the object) every output is an Exception; so is warm_up(), but only if there is a lag to remove *)
Theorem C107_no_iterator : forall (St A : Type) (next : St -> result A * St) (o : obj St) n s, o_set o = false ->
  outputs next n o = repeat (Exn GenericException) n
  /\ ((s <= 0)%Z -> (filter_lag o <= 0)%Z -> warm_up next s o = (Ok tt, o))
  /\ ((0 < s)%Z \/ (0 < filter_lag o)%Z -> warm_up next s o = (Exn GenericException, o)).
Proof.
  intros St A next o n s Ho. assert (N : o_next next o = (Exn GenericException, o)) by (unfold o_next; now rewrite Ho). split; [|split].
  - induction n as [|n IH]; [reflexivity|]. cbn [calls repeat]. rewrite N. destruct (calls (o_next next) n o). cbn [fst] in *. now rewrite IH.
  - intros H1 H2. unfold warm_up. destruct (Z.ltb_spec 0 s); [lia|]. unfold filter_lag in H2. now replace (Z.to_nat (o_lag o)) with O by lia.
  - unfold warm_up, filter_lag. intros H. destruct (Z.ltb_spec 0 s).
    + destruct (Z.to_nat s) eqn:E; [lia|]. cbn [warm_for]. now rewrite N.
    + destruct (Z.to_nat (o_lag o)) eqn:E; [lia|]. cbn [warm_while]. now rewrite N.
Qed.
Print Assumptions C107_no_iterator.
Example C107_no_iterator_ex : (exists o, f_new exc 2 3 = Ok o /\ warm_up (fnext exc 2 3 1 [0%Z] 0) 0 o = (Exn GenericException, o))
  /\ (exists o, b_new exc 2 3 = Ok o /\ warm_up (bnext exc 2 3 10) 0 o = (Ok tt, o)).
Proof. split; eexists; split; reflexivity. Qed.

(** [set_iterator] in the middle of a run: if the first iterator was read exactly to its end, the run continues as if both parts had been one iterator *)
Theorem C107_switch_fir : forall (K : cring) (c : @coef K) (K1 K2 : Z) ds offset limit (pre ys : list (list K)) e i n o,
  Forall (fun x => length x = cM c) pre -> (1 <= ds <= Z.to_nat K1 + Z.to_nat K2)%nat -> f_new c K1 K2 = Ok o ->
  length pre = (i * ds)%nat -> (limit = 0 \/ Z.of_nat (i * ds) <= limit)%Z ->
  let next := fnext c K1 K2 ds offset limit in
  let part := calls (o_next next) i (f_set (mkSrc pre (SrcObj StopIteration)) o) in
  let whole := outputs next (i + n) (f_set (mkSrc (pre ++ ys) e) o) in
  Forall (fun r => exists v, r = Ok v) (fst part) /\ fst part = firstn i whole /\ outputs next n (f_set (mkSrc ys e) (snd part)) = skipn i whole.
Proof.
  intros K c K1 K2 ds offset limit pre ys e i n o Hp Hds Ho Hl Hm next part whole. unfold part, whole. clear part whole. destruct (proj1 (C107_construct K c K1 K2) o Ho) as ([H1 H2] & _ & _).
  unfold f_new in Ho. destruct (Z.ltb_spec K1 0); [lia|]. destruct (Z.ltb_spec K2 1); [lia|]. apply Ok_inj in Ho. subst o. set (k1 := Z.to_nat K1) in *. set (k2 := Z.to_nat K2) in *.
  destruct (f_switch c k1 k2 ds (fir_h c k1 k2) offset limit pre ys e i Hp Hds Hl Hm) as [E F]. fold next in E, F.
  unfold f_set. cbn [o_st o_lag f_iter f_buf f_init]. change (mkF ?s 0 (repeat (vzero (cM c)) (k1 + k2))) with (f_init (k1 + k2) (cM c) s). rewrite !calls_obj. cbn [fst snd o_st o_lag].
  split; [exact F|]. split.
  - rewrite calls_app, E. cbn [fst]. rewrite firstn_app, calls_length, Nat.sub_diag, firstn_all2, firstn_O, app_nil_r by (rewrite calls_length; lia). reflexivity.
  - eapply switch_skip. exact E.
Qed.
Print Assumptions C107_switch_fir.
Example C107_switch_fir_ex : exists o, f_new exc 2 3 = Ok o /\
  outputs (fnext exc 2 3 2 [0%Z] 0) 1 (f_set (mkSrc (skipn 4 exs) (SrcObj StopIteration)) (snd (calls (o_next (fnext exc 2 3 2 [0%Z] 0)) 2 (f_set (mkSrc (firstn 4 exs) (SrcObj StopIteration)) o))))
  = skipn 2 (fir_results exc 2 3 2 [0%Z] 0 (mkSrc exs (SrcObj StopIteration)) 3).
Proof. eexists. split; [reflexivity|]. vm_compute. reflexivity. Qed.
Theorem C107_switch_iir : forall (K : cring) (c : @coef K) (K2 : Z) ds limit (pre ys : list (list K)) e i n o,
  Forall (fun x => length x = cM c) pre -> (1 <= ds)%nat -> (1 <= K2)%Z -> i_new c K2 = Ok o ->
  length pre = ((i - 1) * ds + 1)%nat -> (1 <= i)%nat -> (limit = 0 \/ Z.of_nat ((i - 1) * ds + 1) <= limit)%Z ->
  let next := inext c K2 ds limit in
  let part := calls (o_next next) i (i_set (mkSrc pre (SrcObj StopIteration)) o) in
  let whole := outputs next (i + n) (i_set (mkSrc (pre ++ ys) e) o) in
  Forall (fun r => exists v, r = Ok v) (fst part) /\ fst part = firstn i whole /\ outputs next n (i_set (mkSrc ys e) (snd part)) = skipn i whole.
Proof.
  intros K c K2 ds limit pre ys e i n o Hp Hds HK Ho Hl Hi Hm next part whole. unfold part, whole. clear part whole.
  unfold i_new in Ho. destruct (Z.ltb_spec K2 0); [lia|]. apply Ok_inj in Ho. subst o.
  assert (N : nread ds i = ((i - 1) * ds + 1)%nat) by (destruct i as [|i]; [lia|]; cbn [nread]; rewrite Nat.add_1_r; do 2 f_equal; lia).
  destruct (i_switch c (Z.to_nat K2) ds limit pre ys e i Hp ltac:(lia) Hds ltac:(congruence)) as [E F]; [rewrite N; exact Hm|]. fold next in E, F.
  unfold i_set. cbn [o_st o_lag i_iter i_buf i_mean i_init]. change (mkI ?s 0 (repeat (vzero (cM c)) (Z.to_nat K2)) (vzero (cN c))) with (i_init c (Z.to_nat K2) s). rewrite !calls_obj. cbn [fst snd o_st o_lag].
  split; [exact F|]. split.
  - rewrite calls_app, E. cbn [fst]. rewrite firstn_app, calls_length, Nat.sub_diag, firstn_all2, firstn_O, app_nil_r by (rewrite calls_length; lia). reflexivity.
  - eapply switch_skip. exact E.
Qed.
Print Assumptions C107_switch_iir.
Example C107_switch_iir_ex : exists o, i_new exc 3 = Ok o /\
  outputs (inext exc 3 2 0) 2 (i_set (mkSrc (skipn 3 exs) (SrcObj StopIteration)) (snd (calls (o_next (inext exc 3 2 0)) 2 (i_set (mkSrc (firstn 3 exs) (SrcObj StopIteration)) o))))
  = skipn 2 (iir_results exc 3 2 0 (mkSrc exs (SrcObj StopIteration)) 4).
Proof. eexists. split; [reflexivity|]. vm_compute. reflexivity. Qed.
Theorem C107_switch_batch : forall (K : cring) (c : @coef K) (K1 K2 : Z) limit (pre ys : list (list K)) e i n o,
  Forall (fun x => length x = cM c) pre -> b_new c K1 K2 = Ok o ->
  length pre = (((i - 1) / Z.to_nat K1 + 1) * Z.to_nat K1 + Z.to_nat K2)%nat -> (1 <= i)%nat -> (Z.of_nat (i + (i - 1) / Z.to_nat K1) <= limit)%Z ->
  let next := bnext c K1 K2 limit in
  let part := calls (o_next next) i (b_set (mkSrc pre (SrcObj StopIteration)) o) in
  let whole := outputs next (i + n) (b_set (mkSrc (pre ++ ys) e) o) in
  Forall (fun r => exists v, r = Ok v) (fst part) /\ fst part = firstn i whole /\ outputs next n (b_set (mkSrc ys e) (snd part)) = skipn i whole.
Proof.
  intros K c K1 K2 limit pre ys e i n o Hp Ho Hl Hi Hm next part whole. unfold part, whole. clear part whole.
  unfold b_new in Ho. destruct (Z.ltb_spec K1 1); [discriminate|]. destruct (Z.ltb_spec K2 0); [discriminate|]. apply Ok_inj in Ho. subst o.
  destruct (b_switch c (Z.to_nat K1) (Z.to_nat K2) limit pre ys e i Hp ltac:(lia) Hi Hl Hm) as [E F]. fold next in E, F.
  unfold b_set. cbn [o_st o_lag b_src b_iter b_ptr b_stop b_buf b_cnt b_mean b_est b_init].
  repeat match goal with |- context [mkB ?s 0 (Z.to_nat K1) false ?a 0 ?b ?d] => change (mkB s 0 (Z.to_nat K1) false a 0 b d) with (b_init c (Z.to_nat K1) (Z.to_nat K2) s) end.
  rewrite !calls_obj. cbn [fst snd o_st o_lag].
  split; [exact F|]. split.
  - rewrite calls_app, E. cbn [fst]. rewrite firstn_app, calls_length, Nat.sub_diag, firstn_all2, firstn_O, app_nil_r by (rewrite calls_length; lia). reflexivity.
  - eapply switch_skip. exact E.
Qed.
Print Assumptions C107_switch_batch.
Example C107_switch_batch_ex : exists o, b_new exc 2 1 = Ok o /\
  outputs (bnext exc 2 1 20) 3 (b_set (mkSrc (skipn 5 exs) (SrcObj StopIteration)) (snd (calls (o_next (bnext exc 2 1 20)) 3 (b_set (mkSrc (firstn 5 exs) (SrcObj StopIteration)) o))))
  = skipn 3 (batch_results exc 2 1 20 (mkSrc exs (SrcObj StopIteration)) 6).
Proof. eexists. split; [reflexivity|]. vm_compute. reflexivity. Qed.

(** but an estimator that has run dry is spoiled: its buffer was rotated by the call that failed *)
Theorem C107_resume_refuted : exists (c : @coef Zring) (K1 K2 : Z) pre ys o,
  coef_wf c /\ Forall (fun x => length x = cM c) (pre ++ ys) /\ f_new c K1 K2 = Ok o /\
  let next := fnext c K1 K2 1 [0%Z] 0 in
  let '(rs, o') := calls (o_next next) (length pre + 1) (f_set (mkSrc pre (SrcObj StopIteration)) o) in
  nth_error rs (length pre) = Some (Exn StopIteration)
  /\ nth_error (outputs next 1 (f_set (mkSrc ys (SrcObj StopIteration)) o')) 0
     <> nth_error (outputs next (length pre + 1) (f_set (mkSrc (pre ++ ys) (SrcObj StopIteration)) o)) (length pre).
Proof.
  exists exc, 2%Z, 3%Z, (firstn 5 exs), (skipn 5 exs). eexists. split; [exact exc_wf|]. split; [repeat constructor|]. split; [reflexivity|]. vm_compute. split; [reflexivity|discriminate].
Qed.
Print Assumptions C107_resume_refuted.
(** and a batch estimator that met a RuntimeError never produces anything again, whatever iterator it is given *)
Theorem C107_batch_stopped : forall (K : cring) (c : @coef K) (K1 K2 : Z) limit (xs ys : list (list K)) e n o,
  Forall (fun x => length x = cM c) xs -> b_new c K1 K2 = Ok o ->
  let J := ((length xs - Z.to_nat K2) / Z.to_nat K1 + 1)%nat in
  (Z.of_nat (J * Z.to_nat K1 + J) <= limit)%Z ->
  let next := bnext c K1 K2 limit in
  let part := calls (o_next next) (J * Z.to_nat K1) (b_set (mkSrc xs (SrcObj RuntimeError)) o) in
  Forall (fun r => exists v, r = Ok v) (fst part) /\ outputs next n (b_set (mkSrc ys e) (snd part)) = repeat (Exn StopIteration) n.
Proof.
  intros K c K1 K2 limit xs ys e n o Hx Ho J Hm next part. unfold part. clear part.
  unfold b_new in Ho. destruct (Z.ltb_spec K1 1); [discriminate|]. destruct (Z.ltb_spec K2 0); [discriminate|]. apply Ok_inj in Ho. subst o.
  destruct (b_ends_stopped c (Z.to_nat K1) (Z.to_nat K2) limit xs ltac:(lia) Hx Hm) as (F & S1 & S2). fold J next in F, S1, S2.
  unfold b_set. cbn [o_st o_lag b_src b_iter b_ptr b_stop b_buf b_cnt b_mean b_est b_init].
  change (mkB ?s 0 (Z.to_nat K1) false (repeat (vzero (cM c)) ?a) 0 ?b ?d) with (b_init c (Z.to_nat K1) (Z.to_nat K2) s).
  rewrite calls_obj. cbn [fst snd o_st o_lag]. split; [exact F|]. rewrite calls_obj. cbn [fst]. apply b_stopped; cbn [b_stop b_ptr]; assumption.
Qed.
Print Assumptions C107_batch_stopped.
Example C107_batch_stopped_ex : exists o, b_new exc 2 1 = Ok o /\
  outputs (bnext exc 2 1 50) 2 (b_set (mkSrc exs (SrcObj StopIteration)) (snd (calls (o_next (bnext exc 2 1 50)) 8 (b_set (mkSrc exs (SrcObj RuntimeError)) o)))) = [Exn StopIteration; Exn StopIteration].
Proof. eexists. split; [reflexivity|]. vm_compute. reflexivity. Qed.
