(** Property theorems C22-C25, C27-C30: batch, FIR and IIR estimators over an arbitrary commutative ring.
    Specification vocabulary (BatchProofs.v, BatchRun.v, FirProofs.v), independent of the model's loops:
    [wiener c d n m] = W^T (sum_{i<m} Ab^i Bb d(n+i) - sum_{i<n} Af^i Bf d(n-1-i)),
    [window_est c z n m t] = W^T (sum_{i<m} Ab^i Bb z(t+i) - sum_{i<n} Af^i Bf z(t-1-i)) with [t] an integer,
    [dsig c xs n] = 2 xs(n) - 1, continued with -1 after the end; [zsig M xs p] = the same, 0 before the start. *)
From Coq Require Import List Lia Arith Bool ZArith.
From Verif Require Import Base LinAlg Estimators BatchProofs BatchRun FirProofs EstProps.
Import ListNotations.

(** Results of the first [n] calls of [__next__]. *)
Definition batch_results {K : cring} (c : @coef K) K1 K2 limit src n : list (result (list K)) :=
  fst (calls (b_next c K1 K2 limit) n (b_init c K1 K2 src)).
Definition fir_results {K : cring} (c : @coef K) K1 K2 ds offset limit src n : list (result (list K)) :=
  fst (calls (f_next (K1 + K2) (cM c) (cL c) ds (fir_h c K1 K2) offset limit) n (f_init (K1 + K2) (cM c) src)).
Definition iir_results {K : cring} (c : @coef K) K2 ds limit src n : list (result (list K)) :=
  fst (calls (i_next c K2 ds limit) n (i_init c K2 src)).

(** A concrete second-order system used in the examples. *)
Definition exc : @coef Zring := @mkCoef Zring [[1;1];[0;1]]%Z [[1;0];[1;1]]%Z [[1];[2]]%Z [[1];[-1]]%Z [[3;1]]%Z 2 1 1.
Lemma exc_wf : coef_wf exc.
Proof. repeat split; repeat constructor. Qed.
Definition exs : list (list Zring) := [[1];[0];[0];[1];[1];[0];[1]]%Z.

(** C22: whatever the batch boundaries, estimate [k] uses the whole past and [K1 + K2 - k mod K1] samples of lookahead. *)
Theorem C22_batch_closed_form : forall (K : cring) (c : @coef K) K1 K2 limit xs n k,
  coef_wf c -> (1 <= K1)%nat -> Forall (fun x => length x = cM c) xs -> (k < n)%nat ->
  ((k / K1 + 1) * K1 + K2 <= length xs)%nat -> (Z.of_nat (k + 1 + k / K1) <= limit)%Z ->
  nth_error (batch_results c K1 K2 limit (mkSrc xs (SrcObj StopIteration)) n) k
  = Some (Ok (wiener c (dsig c xs) k (K1 + K2 - k mod K1))).
Proof.
  intros K c K1 K2 limit xs n k Hwf HK1 Hxs Hk Hlen Hlim.
  apply (batch_run c Hwf K1 K2 HK1 limit xs Hxs (SrcObj StopIteration) (or_introl eq_refl) n k Hk).
  split; [|assumption]. cbn [nbatches].
  pose proof (Nat.div_mod k K1 ltac:(lia)). pose proof (Nat.mod_upper_bound k K1 ltac:(lia)).
  assert (k / K1 + 1 <= (length xs - K2) / K1)%nat by (apply Nat.div_le_lower_bound; lia). nia.
Qed.
Print Assumptions C22_batch_closed_form.
Example C22_ex : batch_results exc 2 1 10 (mkSrc exs (SrcObj StopIteration)) 7
  = [Ok [-5]%Z; Ok [-10]%Z; Ok [-1]%Z; Ok [4]%Z; Ok [3]%Z; Ok [-4]%Z; Exn StopIteration].
Proof. vm_compute. reflexivity. Qed.
Example C22_ex_spec : wiener exc (dsig exc exs) 3 (2 + 1 - 3 mod 2) = [4]%Z.
Proof. vm_compute. reflexivity. Qed.

(** C23: FIR output number [k] (any downsampling factor). *)
Theorem C23_fir_closed_form : forall (K : cring) (c : @coef K) K1 K2 ds offset limit xs e n k,
  coef_wf c -> (1 <= ds <= K1 + K2)%nat -> Forall (fun x => length x = cM c) xs ->
  e = SrcObj StopIteration \/ e = SrcGen RuntimeError \/ e = SrcObj RuntimeError -> (k < n)%nat ->
  ((k + 1) * ds <= length xs)%nat -> (limit = 0 \/ Z.of_nat ((k + 1) * ds) <= limit)%Z ->
  nth_error (fir_results c K1 K2 ds offset limit (mkSrc xs e) n) k
  = Some (Ok (vadd (window_est c (zsig (cM c) xs) K1 K2 (Z.of_nat ((k + 1) * ds) - Z.of_nat K2)) offset)).
Proof.
  intros K c K1 K2 ds offset limit xs e n k Hwf Hds Hxs He Hk H1 H2. unfold fir_results.
  destruct (fir_run (K1 + K2) (cM c) (cL c) ds (fir_h c K1 K2) offset limit xs e Hds Hxs He n k Hk) as [HG _].
  rewrite Nat.add_1_r in *. rewrite HG by (split; assumption). now rewrite fbuf_window.
Qed.
Print Assumptions C23_fir_closed_form.
Example C23_ex : fir_results exc 2 2 1 [10]%Z 0 (mkSrc exs (SrcObj StopIteration)) 4
  = [Ok [13]%Z; Ok [9]%Z; Ok [0]%Z; Ok [5]%Z].
Proof. vm_compute. reflexivity. Qed.

(** C24: IIR output number [k] equals the same window with the whole past as lookback. *)
Theorem C24_iir_closed_form : forall (K : cring) (c : @coef K) K2 ds limit xs e n k,
  coef_wf c -> (1 <= K2)%nat -> (1 <= ds)%nat -> Forall (fun x => length x = cM c) xs ->
  e = SrcObj StopIteration \/ e = SrcGen RuntimeError \/ e = SrcObj RuntimeError -> (k < n)%nat ->
  (k * ds + 1 <= length xs)%nat -> (limit = 0 \/ Z.of_nat (k * ds + 1) <= limit)%Z ->
  nth_error (iir_results c K2 ds limit (mkSrc xs e) n) k
  = Some (Ok (window_est c (zsig (cM c) xs) (k * ds) K2 (Z.of_nat (k * ds) + 1 - Z.of_nat K2))).
Proof.
  intros K c K2 ds limit xs e n k Hwf HK2 Hds Hxs He Hk H1 H2. unfold iir_results.
  destruct (iir_run c K2 ds HK2 Hds limit xs Hxs e He n k Hk) as [HG _].
  rewrite HG by (unfold can_read; rewrite <- Nat.add_1_r; split; assumption). now rewrite iout_window.
Qed.
Print Assumptions C24_iir_closed_form.
Example C24_ex : iir_results exc 2 1 0 (mkSrc exs (SrcObj StopIteration)) 4
  = [Ok [3]%Z; Ok [-1]%Z; Ok [-10]%Z; Ok [-5]%Z].
Proof. vm_compute. reflexivity. Qed.

(** C24: IIR minus FIR (offset 0) is exactly the omitted tail, and they agree while the tail is empty. *)
Theorem C24_iir_minus_fir_is_tail : forall (K : cring) (c : @coef K) K1 K2 xs k n,
  coef_wf c -> (1 <= K2)%nat -> Forall (fun x => length x = cM c) xs -> (k < length xs)%nat -> (k < n)%nat ->
  exists f i, nth_error (fir_results c K1 K2 1 (vzero (cL c)) 0 (mkSrc xs (SrcObj StopIteration)) n) k = Some (Ok f)
    /\ nth_error (iir_results c K2 1 0 (mkSrc xs (SrcObj StopIteration)) n) k = Some (Ok i)
    /\ i = vsub f (mv (cWT c) (vsum (cN c) (k - K1)
                      (fun j => mpow (cAf c) (K1 + j) (mv (cBf c) (zsig (cM c) xs (Z.of_nat k - Z.of_nat K2 - Z.of_nat (K1 + j)))))))
    /\ ((k < K1 + K2)%nat -> i = f).
Proof.
  intros K c K1 K2 xs k n Hwf HK2 Hxs Hlen Hk. destruct (wf_lengths c Hwf) as (H1&H2&H3&H4&H5).
  set (z := zsig (cM c) xs). set (t := (Z.of_nat k + 1 - Z.of_nat K2)%Z).
  assert (HL : forall n' m', length (window_est c z n' m' t) = cL c) by (intros; unfold window_est; rewrite mv_length; assumption).
  exists (window_est c z K1 K2 t), (window_est c z k K2 t).
  split; [|split; [|split]].
  - rewrite C23_fir_closed_form by (auto; lia). rewrite vadd_0_r by (unfold window_est; rewrite mv_length; assumption).
    do 3 f_equal. unfold t. lia.
  - rewrite C24_iir_closed_form by (auto; lia). rewrite Nat.mul_1_r. reflexivity.
  - destruct (Nat.le_ge_cases K1 k) as [Hle|Hle].
    + rewrite (window_tail c z K1 k K2 t Hwf Hle). do 2 f_equal. apply vsum_ext. intros j Hj. do 3 f_equal. unfold t. lia.
    + replace (k - K1)%nat with O by lia. cbn [vsum]. rewrite mv_vzero, H5, vsub_vadd, vopp_vzero, vadd_0_r by apply HL.
      symmetry. apply window_lookback; auto. unfold t. lia.
  - intros Hlt. destruct (Nat.le_ge_cases K1 k) as [Hle|Hle].
    + apply window_lookback; auto. unfold t. lia.
    + symmetry. apply window_lookback; auto. unfold t. lia.
Qed.
Print Assumptions C24_iir_minus_fir_is_tail.
Example C24_ex_tail : nth_error (fir_results exc 1 2 1 [0]%Z 0 (mkSrc exs (SrcObj StopIteration)) 5) 4 = Some (Ok [10]%Z)
  /\ nth_error (iir_results exc 2 1 0 (mkSrc exs (SrcObj StopIteration)) 5) 4 = Some (Ok [4]%Z).
Proof. split; vm_compute; reflexivity. Qed.

(** C24: the accepted parameter [K2 = 0] fails at the first sample. *)
Theorem C24_iir_no_lookahead_fails : forall (K : cring) (c : @coef K) ds limit x xs e n,
  (limit = 0 \/ 1 <= limit)%Z ->
  nth_error (iir_results c 0 ds limit (mkSrc (x :: xs) e) (S n)) 0 = Some (Exn IndexError).
Proof.
  intros K c ds limit x xs e n Hl. unfold iir_results. cbn [calls]. unfold i_next. cbn [i_next_fuel i_init i_iter i_src].
  destruct (_ && _)%bool eqn:E.
  - apply andb_true_iff in E. destruct E as [E1 E2]. apply negb_true_iff, Z.eqb_neq in E1. apply Z.ltb_lt in E2. lia.
  - cbn. destruct (calls _ n _). reflexivity.
Qed.
Print Assumptions C24_iir_no_lookahead_fails.
Example C24_ex_K2_0 : iir_results exc 0 1 0 (mkSrc exs (SrcObj StopIteration)) 1 = [Exn IndexError].
Proof. reflexivity. Qed.

(** C25: a one-sample batch is the IIR filter with one more sample of lookahead, [K2] outputs earlier. *)
Theorem C25_batch_one_is_iir : forall (K : cring) (c : @coef K) K2 limit xs n,
  coef_wf c -> Forall (fun x => length x = cM c) xs -> (n + K2 < length xs)%nat -> (Z.of_nat (2 * n + 1) <= limit)%Z ->
  exists y, nth_error (batch_results c 1 K2 limit (mkSrc xs (SrcObj StopIteration)) (S n)) n = Some (Ok y)
    /\ nth_error (iir_results c (S K2) 1 0 (mkSrc xs (SrcObj StopIteration)) (S (n + K2))) (n + K2) = Some (Ok y).
Proof. intros K c K2 limit xs n. apply batch_iir_align. Qed.
Print Assumptions C25_batch_one_is_iir.
Example C25_ex : nth_error (batch_results exc 1 2 100 (mkSrc exs (SrcObj StopIteration)) 3) 2 = Some (Ok [-1]%Z)
  /\ nth_error (iir_results exc 3 1 0 (mkSrc exs (SrcObj StopIteration)) 5) 4 = Some (Ok [-1]%Z).
Proof. split; vm_compute; reflexivity. Qed.

(** C27: with a long enough stream and limit [n], call number [k] delivers an estimate exactly for
    [k < (n+1) - ceil((n+1)/(K1+1))]; all other calls raise StopIteration. *)
Theorem C27_batch_output_count : forall (K : cring) (c : @coef K) K1 K2 limit xs e calls_made k,
  coef_wf c -> (1 <= K1)%nat -> Forall (fun x => length x = cM c) xs ->
  e = SrcObj StopIteration \/ e = SrcGen RuntimeError \/ e = SrcObj RuntimeError ->
  (limit + K1 + K2 <= length xs)%nat -> (k < calls_made)%nat ->
  let rs := batch_results c K1 K2 (Z.of_nat limit) (mkSrc xs e) calls_made in
  ((k < (limit + 1) - (limit + 1 + K1) / (K1 + 1))%nat -> exists y, nth_error rs k = Some (Ok y))
  /\ (((limit + 1) - (limit + 1 + K1) / (K1 + 1) <= k)%nat -> nth_error rs k = Some (Exn StopIteration)).
Proof.
  intros K c K1 K2 limit xs e m k Hwf HK1 Hxs He Hlen Hk. cbv zeta. unfold batch_results.
  destruct (batch_run c Hwf K1 K2 HK1 (Z.of_nat limit) xs Hxs e He m k Hk) as [HG HB].
  assert (HJ : ((length xs - K2) / K1 <= nbatches K1 K2 (length xs) e)%nat).
  { destruct He as [->|[->| ->]]; cbn [nbatches]; [lia|apply Nat.div_le_mono; lia|lia]. }
  pose proof (Nat.div_mod k K1 ltac:(lia)). pose proof (Nat.mod_upper_bound k K1 ltac:(lia)).
  split; intros Hc.
  - apply batch_count in Hc; [|assumption]. eexists. apply HG. split; [|lia].
    assert (k / K1 + 1 <= (length xs - K2) / K1)%nat by (apply Nat.div_le_lower_bound; nia). nia.
  - apply HB. intros [_ Hg]. assert (Hg' : (k + 1 + k / K1 <= limit)%nat) by lia. apply batch_count in Hg'; [lia|assumption].
Qed.
Print Assumptions C27_batch_output_count.
Example C27_ex : map is_ok (batch_results exc 2 1 4 (mkSrc exs (SrcObj StopIteration)) 6) = [true;true;true;false;false;false].
Proof. vm_compute. reflexivity. Qed.

(** The name of the parameter suggests [n] estimates: false already for [n = 4], [K1 = 2]. *)
Theorem C27_limit_is_output_count_refuted : exists (c : @coef Zring) K1 K2 limit xs,
  coef_wf c /\ (1 <= K1)%nat /\ (limit + K1 + K2 <= length xs)%nat /\
  nth_error (batch_results c K1 K2 (Z.of_nat limit) (mkSrc xs (SrcObj StopIteration)) limit) (limit - 1) = Some (Exn StopIteration).
Proof. exists exc, 2, 1, 4, exs. repeat split; try exact exc_wf; repeat constructor. Qed.
Print Assumptions C27_limit_is_output_count_refuted.

(** C28: number of outputs with [m] readable samples ([m] = stream length, capped by the limit unless that is 0). *)
Definition readable (limit : Z) (T : nat) : nat := if (limit =? 0)%Z then T else Nat.min T (Z.to_nat limit).

Theorem C28_fir_output_count : forall (K : cring) (c : @coef K) K1 K2 ds offset limit xs e n k,
  coef_wf c -> (1 <= ds <= K1 + K2)%nat -> Forall (fun x => length x = cM c) xs ->
  e = SrcObj StopIteration \/ e = SrcGen RuntimeError \/ e = SrcObj RuntimeError -> (k < n)%nat ->
  let rs := fir_results c K1 K2 ds offset limit (mkSrc xs e) n in
  let count := (readable limit (length xs) / ds)%nat in
  ((k < count)%nat -> exists y, nth_error rs k = Some (Ok y)) /\ ((count <= k)%nat -> nth_error rs k = Some (Exn StopIteration)).
Proof.
  intros K c K1 K2 ds offset limit xs e n k Hwf Hds Hxs He Hk. cbv zeta. unfold fir_results.
  destruct (fir_run (K1 + K2) (cM c) (cL c) ds (fir_h c K1 K2) offset limit xs e Hds Hxs He n k Hk) as [HG HB].
  assert (HC : (k < readable limit (length xs) / ds)%nat <-> fgood ds limit xs k).
  { unfold fgood. rewrite <- (Nat.le_succ_l k). 
    assert (E : (S k <= readable limit (length xs) / ds <-> S k * ds <= readable limit (length xs))%nat).
    { split; intros H.
      - pose proof (Nat.mul_div_le (readable limit (length xs)) ds ltac:(lia)). nia.
      - apply Nat.div_le_lower_bound; lia. }
    rewrite E. unfold readable. destruct (Z.eqb_spec limit 0) as [->|Hne]; [intuition auto|].
    set (q := (S k * ds)%nat). assert (1 <= q)%nat by (unfold q; nia). clearbody q. lia. }
  split; intros Hc.
  - eexists. apply HG. now apply HC.
  - apply HB. intros Hg. apply HC in Hg. lia.
Qed.
Print Assumptions C28_fir_output_count.

Theorem C28_iir_output_count : forall (K : cring) (c : @coef K) K2 ds limit xs e n k,
  coef_wf c -> (1 <= K2)%nat -> (1 <= ds)%nat -> Forall (fun x => length x = cM c) xs ->
  e = SrcObj StopIteration \/ e = SrcGen RuntimeError \/ e = SrcObj RuntimeError -> (k < n)%nat ->
  let rs := iir_results c K2 ds limit (mkSrc xs e) n in
  let count := ((readable limit (length xs) + ds - 1) / ds)%nat in
  ((k < count)%nat -> exists y, nth_error rs k = Some (Ok y)) /\ ((count <= k)%nat -> nth_error rs k = Some (Exn StopIteration)).
Proof.
  intros K c K2 ds limit xs e n k Hwf HK2 Hds Hxs He Hk. cbv zeta. unfold iir_results.
  destruct (iir_run c K2 ds HK2 Hds limit xs Hxs e He n k Hk) as [HG HB].
  assert (HC : (k < (readable limit (length xs) + ds - 1) / ds)%nat <-> can_read limit xs (k * ds)).
  { unfold can_read. rewrite <- (Nat.le_succ_l k).
    assert (E : (S k <= (readable limit (length xs) + ds - 1) / ds <-> S (k * ds) <= readable limit (length xs))%nat).
    { split; intros H.
      - pose proof (Nat.mul_div_le (readable limit (length xs) + ds - 1) ds ltac:(lia)). nia.
      - apply Nat.div_le_lower_bound; nia. }
    rewrite E. unfold readable. destruct (Z.eqb_spec limit 0) as [->|Hne]; [intuition auto|].
    set (q := (k * ds)%nat). clearbody q. lia. }
  split; intros Hc.
  - eexists. apply HG. now apply HC.
  - apply HB. intros Hg. apply HC in Hg. lia.
Qed.
Print Assumptions C28_iir_output_count.
Example C28_ex : map is_ok (fir_results exc 2 2 3 [0]%Z 7 (mkSrc exs (SrcObj StopIteration)) 4) = [true;true;false;false]
  /\ map is_ok (iir_results exc 2 3 7 (mkSrc exs (SrcObj StopIteration)) 4) = [true;true;true;false].
Proof. split; vm_compute; reflexivity. Qed.

(** C28: a downsampling factor larger than the window length fails when the buffer is assigned. *)
Theorem C28_fir_downsample_beyond_window : forall (K : cring) (c : @coef K) K1 K2 ds offset limit xs e n,
  (K1 + K2 < ds)%nat -> Forall (fun x => length x = cM c) xs -> (ds <= length xs)%nat ->
  (limit = 0 \/ Z.of_nat ds <= limit)%Z ->
  nth_error (fir_results c K1 K2 ds offset limit (mkSrc xs e) (S n)) 0 = Some (Exn ValueError).
Proof.
  intros K c K1 K2 ds offset limit xs e n Hds Hxs Hlen Hl. unfold fir_results. cbn [calls].
  unfold f_next at 1. cbn [f_init f_iter f_src f_buf].
  destruct (_ && _)%bool eqn:E.
  - apply andb_true_iff in E. destruct E as [E1 E2]. apply negb_true_iff, Z.eqb_neq in E1. apply Z.ltb_lt in E2. lia.
  - assert (HR : exists l s, f_read (cM c) ds (mkSrc xs e) = (Ok l, s)).
    { clear - Hxs Hlen. revert xs Hxs Hlen. induction ds as [|m IH]; intros xs Hxs Hlen; [do 2 eexists; reflexivity|].
      destruct xs as [|x xs]; [inversion Hlen|]. inversion Hxs as [|? ? Hx Hxs']; subst. cbn [f_read src_next s_items s_end].
      rewrite (row_ok (cM c) (pm1 x)) by (now rewrite pm1_len).
      destruct (IH xs Hxs' (le_S_n _ _ Hlen)) as (l & s & ->). eauto. }
    destruct HR as (l & s & ->). destruct (Nat.ltb_spec (K1 + K2) ds); [|lia].
    destruct (calls _ n _). reflexivity.
Qed.
Print Assumptions C28_fir_downsample_beyond_window.
Example C28_ex_beyond : fir_results exc 1 1 3 [0]%Z 0 (mkSrc exs (SrcObj StopIteration)) 1 = [Exn ValueError].
Proof. vm_compute. reflexivity. Qed.

(** C29: which estimates a finite stream of [length xs] samples yields, by the way the stream ends:
    plain StopIteration: the incomplete last batch is discarded;
    a generator raising RuntimeError: one padding sample (-1) is added, further reads end the stream;
    an iterator object that keeps raising RuntimeError: the last batch is filled up with -1 and one more batch is delivered. *)
Theorem C29_batch_end_of_stream : forall (K : cring) (c : @coef K) K1 K2 limit xs e n k,
  coef_wf c -> (1 <= K1)%nat -> Forall (fun x => length x = cM c) xs -> (k < n)%nat ->
  (Z.of_nat (k + 1 + k / K1) <= limit)%Z ->
  let rs := batch_results c K1 K2 limit (mkSrc xs e) n in
  let T := length xs in
  forall batches,
  (e = SrcObj StopIteration /\ batches = (T - K2) / K1)%nat \/
  (e = SrcGen RuntimeError /\ batches = (T + 1 - K2) / K1)%nat \/
  (e = SrcObj RuntimeError /\ batches = (T - K2) / K1 + 1)%nat ->
  ((k < batches * K1)%nat -> nth_error rs k = Some (Ok (wiener c (dsig c xs) k (K1 + K2 - k mod K1))))
  /\ ((batches * K1 <= k)%nat -> nth_error rs k = Some (Exn StopIteration)).
Proof.
  intros K c K1 K2 limit xs e n k Hwf HK1 Hxs Hk Hlim. cbv zeta. intros batches Hb. unfold batch_results.
  assert (He : e = SrcObj StopIteration \/ e = SrcGen RuntimeError \/ e = SrcObj RuntimeError) by tauto.
  assert (EJ : nbatches K1 K2 (length xs) e = batches) by (destruct Hb as [[-> ->]|[[-> ->]|[-> ->]]]; reflexivity).
  destruct (batch_run c Hwf K1 K2 HK1 limit xs Hxs e He n k Hk) as [HG HB]. unfold good in HG, HB. rewrite EJ in HG, HB.
  split; intros H; [apply HG; auto|apply HB; lia].
Qed.
Print Assumptions C29_batch_end_of_stream.
Example C29_ex : map is_ok (batch_results exc 3 2 100 (mkSrc exs (SrcObj StopIteration)) 7) = [true;true;true;false;false;false;false]
  /\ map is_ok (batch_results exc 3 2 100 (mkSrc exs (SrcGen RuntimeError)) 7) = [true;true;true;true;true;true;false]
  /\ map is_ok (batch_results exc 3 2 100 (mkSrc (firstn 6 exs) (SrcGen RuntimeError)) 7) = [true;true;true;false;false;false;false]
  /\ map is_ok (batch_results exc 3 2 100 (mkSrc (firstn 6 exs) (SrcObj RuntimeError)) 7) = [true;true;true;true;true;true;false].
Proof. repeat split; vm_compute; reflexivity. Qed.

(** C30: for every source whatsoever, an exception raised by [__next__] is StopIteration, the exception that ends the source,
    or the ValueError of a sample of the wrong length; "Input buffer full" and "Control signal buffer not full" (and running
    out of the model's fuel) are impossible. *)
Theorem C30_batch_no_overrun : forall (K : cring) (c : @coef K) K1 K2 limit src n k x,
  (1 <= K1)%nat -> nth_error (batch_results c K1 K2 limit src n) k = Some (Exn x) ->
  x = StopIteration \/ x = end_exn (s_end src) \/ (x = ValueError /\ ~ Forall (fun v => length v = cM c) (s_items src)).
Proof. intros K c K1 K2 limit src n k x HK1 H. exact (batch_safe c K1 K2 HK1 limit src n k x H). Qed.
Print Assumptions C30_batch_no_overrun.
Example C30_ex : batch_results exc 2 1 100 (@mkSrc Zring [[1];[0];[1;1]]%Z (SrcObj KeyError)) 2 = [Exn ValueError; Exn KeyError].
Proof. vm_compute. reflexivity. Qed.
