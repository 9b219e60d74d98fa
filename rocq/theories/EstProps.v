(** Consequences of the run theorems of BatchRun.v and FirProofs.v: counts, alignment, buffer safety. *)
From Coq Require Import List Lia Arith Ring Bool ZArith.
From Verif Require Import Base LinAlg Estimators BatchProofs BatchRun FirProofs.
Import ListNotations.

Lemma batch_count (n K1 k : nat) : (1 <= K1)%nat ->
  ((k + 1 + k / K1 <= n) <-> (k < (n + 1) - (n + 1 + K1) / (K1 + 1)))%nat.
Proof.
  intros H1. pose proof (Nat.div_mod k K1 ltac:(lia)) as Hk. pose proof (Nat.mod_upper_bound k K1 ltac:(lia)) as Hr.
  pose proof (Nat.div_mod (n + 1) (K1 + 1) ltac:(lia)) as Hn. pose proof (Nat.mod_upper_bound (n + 1) (K1 + 1) ltac:(lia)) as Hb.
  set (q := (k / K1)%nat) in *. set (r := (k mod K1)%nat) in *.
  set (a := ((n + 1) / (K1 + 1))%nat) in *. set (b := ((n + 1) mod (K1 + 1))%nat) in *. clearbody q r a b.
  assert (E : ((n + 1 + K1) / (K1 + 1) = if Nat.eqb b 0 then a else S a)%nat).
  { destruct (Nat.eqb_spec b 0) as [E|E].
    - symmetry. apply (Nat.div_unique _ _ _ K1); lia.
    - symmetry. apply (Nat.div_unique _ _ _ (b - 1)); lia. }
  rewrite E. destruct (Nat.eqb_spec b 0) as [->|E2].
  - destruct (Nat.lt_ge_cases q a) as [H|H]; split; intros; try nia.
  - destruct (Nat.lt_trichotomy q a) as [H|[->|H]]; split; intros; try nia.
Qed.

Section Est.
Context {K : cring}.
Add Ring Kring : (rth K).
Notation vec := (list K).
Notation mat := (list (list K)).
Notation coef := (@coef K).
Notation source := (@source K).

Lemma zsig_neg M (xs : list vec) p : (p < 0)%Z -> zsig M xs p = vzero M.
Proof. intros H. unfold zsig. destruct (Z.ltb_spec p 0); [reflexivity|lia]. Qed.

Lemma zsig_dsig c (xs : list vec) n : (n < length xs)%nat -> zsig (cM c) xs (Z.of_nat n) = dsig c xs n.
Proof.
  intros H. rewrite zsig_pm1, dsig_pm1. destruct (Z.ltb_spec (Z.of_nat n) 0); [lia|]. rewrite Nat2Z.id.
  apply nth_indep. now rewrite map_length.
Qed.

(** Lookback beyond the start of the stream does not matter. *)
Lemma window_lookback (c : coef) xs n n' m t : coef_wf c -> (n <= n')%nat -> (t <= Z.of_nat n)%Z ->
  window_est c (zsig (cM c) xs) n' m t = window_est c (zsig (cM c) xs) n m t.
Proof.
  intros Hwf Hn Ht. destruct (wf_lengths c Hwf) as (H1&H2&H3&H4&H5).
  assert (HL : forall b i, length (mpow (cAf c) i (mv (cBf c) b)) = cN c).
  { intros b i. rewrite mpow_length; [assumption|]. rewrite mv_length. congruence. }
  unfold window_est. do 2 f_equal.
  replace n' with (n + (n' - n))%nat by lia. rewrite vsum_app by (intros; apply HL).
  rewrite (vsum_zero _ (n' - n)).
  - apply vadd_0_r. rewrite vsum_length; auto.
  - intros i Hi. rewrite zsig_neg by lia. rewrite mv_vzero, H3. now apply mpow_vzero.
Qed.

(** The tail omitted by a finite lookback. *)
Lemma window_tail (c : coef) (z : Z -> vec) n n' m t : coef_wf c -> (n <= n')%nat ->
  window_est c z n' m t =
  vsub (window_est c z n m t)
       (mv (cWT c) (vsum (cN c) (n' - n) (fun i => mpow (cAf c) (n + i) (mv (cBf c) (z (t - 1 - Z.of_nat (n + i))%Z))))).
Proof.
  intros Hwf Hn. destruct (wf_lengths c Hwf) as (H1&H2&H3&H4&H5).
  assert (HL : forall b i, length (mpow (cAf c) i (mv (cBf c) b)) = cN c).
  { intros b i. rewrite mpow_length; [assumption|]. rewrite mv_length. congruence. }
  assert (HLb : forall b i, length (mpow (cAb c) i (mv (cBb c) b)) = cN c).
  { intros b i. rewrite mpow_length; [assumption|]. rewrite mv_length. congruence. }
  unfold window_est. replace n' with (n + (n' - n))%nat at 1 by lia. rewrite vsum_app by (intros; apply HL).
  rewrite !mv_vsub, !vsub_vadd, mv_vadd, vopp_vadd; rewrite ?vadd_length, ?vsum_length; auto; try lia.
  apply vadd_assoc.
Qed.

Lemma wiener_window (c : coef) xs n m : coef_wf c -> (n + m <= length xs)%nat ->
  wiener c (dsig c xs) n m = window_est c (zsig (cM c) xs) n m (Z.of_nat n).
Proof.
  intros Hwf Hn. unfold wiener, window_est, lookahead_sum, lookback_sum. do 2 f_equal.
  - apply vsum_ext. intros i Hi. do 2 f_equal. rewrite <- Nat2Z.inj_add. symmetry. apply zsig_dsig. lia.
  - apply vsum_ext. intros i Hi. do 2 f_equal.
    replace (Z.of_nat n - 1 - Z.of_nat i)%Z with (Z.of_nat (n - 1 - i)) by lia. symmetry. apply zsig_dsig. lia.
Qed.

Lemma batch_iir_align (c : coef) K2 lb xs n : coef_wf c -> Forall (fun x => length x = cM c) xs ->
  (n + K2 < length xs)%nat -> (Z.of_nat (2 * n + 1) <= lb)%Z ->
  exists y, nth_error (fst (calls (b_next c 1 K2 lb) (S n) (b_init c 1 K2 (mkSrc xs (SrcObj StopIteration))))) n = Some (Ok y)
  /\ nth_error (fst (calls (i_next c (S K2) 1 0) (S (n + K2)) (i_init c (S K2) (mkSrc xs (SrcObj StopIteration))))) (n + K2) = Some (Ok y).
Proof.
  intros Hwf Hxs Hn Hlb. exists (wiener c (dsig c xs) n (S K2)). split.
  - destruct (batch_run c Hwf 1 K2 (le_n 1) lb xs Hxs (SrcObj StopIteration) (or_introl eq_refl) (S n) n (Nat.lt_succ_diag_r n)) as [H _].
    rewrite H.
    + rewrite Nat.mod_1_r. do 3 f_equal; lia.
    + split; cbn [nbatches]; rewrite ?Nat.div_1_r; lia.
  - destruct (iir_run c (S K2) 1 ltac:(lia) (le_n 1) 0 xs Hxs (SrcObj StopIteration) (or_introl eq_refl) (S (n + K2)) (n + K2)%nat (Nat.lt_succ_diag_r _)) as [H _].
    rewrite H.
    + rewrite Nat.mul_1_r. rewrite iout_window by (assumption || lia). do 2 f_equal.
      rewrite wiener_window by (assumption || lia).
      replace (Z.of_nat (n + K2) + 1 - Z.of_nat (S K2))%Z with (Z.of_nat n) by lia.
      apply window_lookback; auto; lia.
    + unfold can_read. lia.
Qed.

(** *** Buffer safety of BatchEstimator for arbitrary sources *)
Definition end_exn (e : src_end) : exn := match e with SrcGen e | SrcObj e => e end.
Definition exn_from (s : source) (M : nat) (x : exn) : Prop :=
  x = StopIteration \/ x = end_exn (s_end s) \/ (x = ValueError /\ ~ Forall (fun v => length v = M) (s_items s)).

Section Safe.
Variable c : coef.
Variables K1 K2 : nat.
Hypothesis HK1 : (1 <= K1)%nat.
Variable limit : Z.
Variable s0 : source.

(** the source is a suffix of the original one *)
Definition src_ok (s : source) : Prop :=
  (exists pre, s_items s0 = pre ++ s_items s) /\
  (s_end s = s_end s0 \/ (s_items s = [] /\ s_end s = SrcObj StopIteration)).
Definition safe (st : bst) : Prop := src_ok (b_src st) /\ (b_cnt st < K1 + K2)%nat /\ (b_ptr st <= K1)%nat.

Lemma src_next_ok s r s' : src_ok s -> src_next s = (r, s') ->
  src_ok s' /\ match r with Ok x => In x (s_items s0) | Exn x => x = StopIteration \/ x = end_exn (s_end s0) end.
Proof.
  intros [[pre Hp] He] E. unfold src_next in E. destruct (s_items s) as [|x it] eqn:Ei.
  - destruct (s_end s) as [ex|ex] eqn:Es; injection E as <- <-.
    + split.
      * split; [exists (s_items s0); cbn; now rewrite app_nil_r|]. right. auto.
      * destruct He as [He|[_ He]]; [right; now rewrite <- He|discriminate].
    + split.
      * split; [exists pre; now rewrite Ei|]. destruct He as [He|He]; [left; now rewrite Es|right; now rewrite Ei, Es].
      * destruct He as [He|[_ He]]; [right; now rewrite <- He|left; congruence].
  - injection E as <- <-. split.
    + split; [exists (pre ++ [x]); cbn; now rewrite <- app_assoc|]. cbn. destruct He as [He|[He _]]; [auto|discriminate].
    + rewrite Hp. apply in_or_app. right. now left.
Qed.

Lemma pm1_len (x : vec) : length (pm1 x) = length x. Proof. apply map_length. Qed.

Lemma row_exn (x : vec) e : row (cM c) (pm1 x) = Exn e -> e = ValueError /\ length x <> cM c.
Proof.
  unfold row. rewrite pm1_len. destruct (Nat.eqb_spec (length x) (cM c)) as [E|E]; [discriminate|].
  destruct (pm1 x) as [|a [|b q]]; intros H; inversion H; auto.
Qed.

Lemma b_fill_safe : forall fuel st r st', src_ok (b_src st) -> (b_cnt st < K1 + K2)%nat -> (K1 + K2 - b_cnt st <= fuel)%nat ->
  b_fill c K1 K2 fuel st = (r, st') ->
  src_ok (b_src st') /\ b_ptr st' = b_ptr st /\ b_iter st' = b_iter st /\
  match r with Ok _ => b_cnt st' = (K1 + K2)%nat | Exn x => (b_cnt st' < K1 + K2)%nat /\ exn_from s0 (cM c) x end.
Proof.
  induction fuel as [|fuel IH]; intros st r st' Hs Hc Hf E; [lia|]. cbn [b_fill] in E.
  destruct (src_next (b_src st)) as [r0 src] eqn:En. destruct (src_next_ok _ _ _ Hs En) as [Hs' Hr0].
  assert (HGO : forall stop s, (length s = cM c \/ In s (s_items s0)) ->
    (let st'0 := mkB src (b_iter st) (b_ptr st) stop (b_buf st) (b_cnt st) (b_mean st) (b_est st) in
        match b_input c K1 K2 st'0 s with
        | Exn e => (Exn e, st'0)
        | Ok (full, st'') => if full then (Ok tt, st'') else b_fill c K1 K2 fuel st''
        end) = (r, st') ->
    src_ok (b_src st') /\ b_ptr st' = b_ptr st /\ b_iter st' = b_iter st /\
    match r with Ok _ => b_cnt st' = (K1 + K2)%nat | Exn x => (b_cnt st' < K1 + K2)%nat /\ exn_from s0 (cM c) x end).
  { intros stop s Hls E2. cbv zeta in E2. unfold b_input in E2. cbn [b_cnt] in E2.
    destruct (Nat.eqb_spec (b_cnt st) (K1 + K2)); [lia|].
    destruct (row (cM c) (pm1 s)) as [rw|x] eqn:Er; cbn [bind] in E2.
    - destruct (Nat.ltb_spec (K1 + K2 - 1) (S (b_cnt st))) as [Hl|Hl].
      + injection E2 as <- <-. cbn [b_src b_ptr b_iter b_cnt]. split; [exact Hs'|]. split; [reflexivity|]. split; [reflexivity|]. lia.
      + apply IH in E2; cbn [b_src b_cnt] in *; auto; try lia.
    - injection E2 as <- <-. cbn [b_src b_ptr b_iter b_cnt]. split; [exact Hs'|]. split; [reflexivity|]. split; [reflexivity|]. split; [exact Hc|]. apply row_exn in Er. destruct Er as [-> Hne]. right. right. split; [reflexivity|].
      intros HF. rewrite Forall_forall in HF. destruct Hls as [Hls|Hls]; auto. }
  destruct r0 as [s|x].
  - apply (HGO (b_stop st) s); auto.
  - destruct x; try (injection E as <- <-; cbn [b_src b_ptr b_iter b_cnt]; split; [exact Hs'|]; split; [reflexivity|]; split; [reflexivity|]; split; [exact Hc|]; unfold exn_from; destruct Hr0; auto; fail).
    apply (HGO true (vzero (cM c))); auto. left. apply vzero_length.
Qed.

Lemma b_next_fuel_unf fuel st : b_next_fuel c K1 K2 limit (S fuel) st =
  if (limit <? b_iter st)%Z then (Exn StopIteration, st)
  else
    let st := mkB (b_src st) (b_iter st + 1) (b_ptr st) (b_stop st) (b_buf st) (b_cnt st) (b_mean st) (b_est st) in
    if Nat.ltb (b_ptr st) K1 then
      (Ok (nth (b_ptr st) (b_est st) []),
       mkB (b_src st) (b_iter st) (S (b_ptr st)) (b_stop st) (b_buf st) (b_cnt st) (b_mean st) (b_est st))
    else if b_stop st then (Exn StopIteration, st)
    else match b_fill c K1 K2 (S (K1 + K2)) st with
         | (Exn e, st) => (Exn e, st)
         | (Ok _, st) =>
             match b_compute c K1 K2 st with
             | Exn e => (Exn e, st)
             | Ok st => b_next_fuel c K1 K2 limit fuel
                 (mkB (b_src st) (b_iter st) (b_ptr st - K1) (b_stop st) (b_buf st) (b_cnt st) (b_mean st) (b_est st))
             end
         end.
Proof. reflexivity. Qed.

Lemma b_next_safe st r st' : safe st -> b_next c K1 K2 limit st = (r, st') ->
  safe st' /\ match r with Ok _ => True | Exn x => exn_from s0 (cM c) x end.
Proof.
  intros (Hs & Hc & Hp) E. unfold b_next in E. rewrite b_next_fuel_unf in E.
  destruct (limit <? b_iter st)%Z. { injection E as <- <-. split; [repeat split; auto; apply Hs|now left]. }
  cbv zeta in E. cbn [b_ptr] in E. destruct (Nat.ltb_spec (b_ptr st) K1) as [Hlt|Hge].
  { injection E as <- <-. unfold safe. cbn. split; [repeat split; auto; try apply Hs; lia|exact I]. }
  cbn [b_stop] in E. destruct (b_stop st).
  { injection E as <- <-. unfold safe. cbn. split; [repeat split; auto; try apply Hs; lia|now left]. }
  destruct (b_fill _ _ _ _ _) as [r1 st1] eqn:Ef. apply b_fill_safe in Ef; cbn [b_src b_cnt b_ptr b_iter] in *; auto; try lia.
  destruct Ef as (Fs & Fp & Fi & Fr). destruct r1 as [u|x].
  2:{ injection E as <- <-. unfold safe. split; [repeat split; try apply Fs; lia|tauto]. }
  unfold b_compute in E. destruct (Nat.ltb_spec (b_cnt st1) (K1 + K2)); [lia|].
  destruct (b_forward _ _ _ _) as [m2 tf]. destruct (b_backward _ _ _ _ _) as [m3 est].
  cbn [b_src b_iter b_ptr b_stop b_buf b_cnt b_mean b_est] in E. rewrite b_next_fuel_unf in E. cbn [b_iter] in E.
  destruct (limit <? b_iter st1)%Z.
  { injection E as <- <-. unfold safe. cbn. split; [repeat split; try apply Fs; lia|now left]. }
  cbv zeta in E. cbn [b_ptr] in E. destruct (Nat.ltb_spec (b_ptr st1 - K1) K1); [|lia].
  injection E as <- <-. unfold safe. cbn. split; [repeat split; try apply Fs; lia|exact I].
Qed.

Lemma batch_safe n k x :
  nth_error (fst (calls (b_next c K1 K2 limit) n (b_init c K1 K2 s0))) k = Some (Exn x) -> exn_from s0 (cM c) x.
Proof.
  assert (HS : safe (b_init c K1 K2 s0)).
  { unfold safe, b_init. cbn. repeat split; try lia; [now exists []|now left]. }
  revert HS. generalize (b_init c K1 K2 s0) as st. revert k. induction n as [|n IH]; intros k st HS H; [destruct k; discriminate|].
  cbn [calls] in H. destruct (b_next c K1 K2 limit st) as [r st'] eqn:E. destruct (b_next_safe _ _ _ HS E) as [HS' Hr].
  specialize (IH) as IH'. destruct (calls (b_next c K1 K2 limit) n st') as [rs sf] eqn:Ec. cbn [fst] in H. destruct k as [|k].
  - cbn in H. injection H as ->. exact Hr.
  - cbn in H. apply (IH k st' HS'). rewrite Ec. exact H.
Qed.
End Safe.
End Est.
