(** Proofs about the multi-level quantiser and the dither control. *)
From Coq Require Import List Lia Arith Bool ZArith Reals Lra Psatz.
From Flocq Require Import Core.
From Verif Require Import Base Signals DigitalControl DigitalControlProofs.
Import ListNotations.
Open Scope R_scope.

(** *** Quantiser *)
(** Threshold [i] of an [n]-level quantiser (independent of [np.linspace]). *)
Definition thr (n i : nat) : R := (2 * INR i + 1) / INR n - 1.
Lemma INR_pos : forall n, (1 <= n)%nat -> 0 < INR n.
Proof. intros. apply lt_0_INR. lia. Qed.
Lemma ml_level_thr : forall n i, (i < n)%nat -> ml_level n i = thr n i.
Proof.
  intros n i H. unfold ml_level, linspace, thr. assert (P := INR_pos n ltac:(lia)). destruct (Nat.eqb_spec n 1).
  - subst. replace i with 0%nat by lia. cbn. lra.
  - rewrite minus_INR by lia. cbn [INR]. assert (1 < INR n) by (change 1 with (INR 1); apply lt_INR; lia). field. lra.
Qed.
Lemma ml_ref_val : forall n j, (1 <= n)%nat -> ml_ref n j = INR j / INR n.
Proof.
  intros n j H. unfold ml_ref, linspace. assert (P := INR_pos n H). destruct (Nat.eqb_spec (n + 1) 1); [lia|].
  replace (n + 1 - 1)%nat with n by lia. field. lra.
Qed.
Lemma thr_mono : forall n i j, (i <= j)%nat -> (j < n)%nat -> thr n i <= thr n j.
Proof.
  intros n i j H1 H2. unfold thr. apply le_INR in H1. assert (P := INR_pos n ltac:(lia)).
  apply Rplus_le_compat_r. apply Rmult_le_compat_r; [left; now apply Rinv_0_lt_compat|lra].
Qed.
(** [j] is the number of thresholds not above [x]. *)
Definition qindex (n : nat) (x : R) (j : nat) : Prop := (j <= n)%nat /\ forall i, (i < n)%nat -> (thr n i <= x <-> (i < j)%nat).
Lemma qindex_unique : forall n x j j', qindex n x j -> qindex n x j' -> j = j'.
Proof.
  intros n x j j' [A B] [C D]. destruct (Nat.lt_trichotomy j j') as [H|[H|H]]; auto; exfalso.
  - specialize (B j ltac:(lia)). specialize (D j ltac:(lia)). assert (thr n j <= x) by (apply D; lia). apply B in H0. lia.
  - specialize (B j' ltac:(lia)). specialize (D j' ltac:(lia)). assert (thr n j' <= x) by (apply B; lia). apply D in H0. lia.
Qed.
Lemma quantize_spec : forall n x, (1 <= n)%nat -> exists j, qindex n x j /\ quantize n x = INR j / INR n.
Proof.
  intros n x Hn. unfold quantize.
  assert (G : forall k level, (level + k = n)%nat -> (1 <= k)%nat -> (forall i, (i < level)%nat -> thr n i <= x) ->
    exists j, qindex n x j /\ quantize_go n x level k = INR j / INR n).
  { induction k as [|k IH]; intros level E Hk HB; [lia|]. cbn [quantize_go]. rewrite ml_level_thr by lia.
    destruct (Rle_bool_spec (thr n level) x) as [H|H]; cbn [negb].
    - destruct (Nat.eqb_spec level (n - 1)).
      + exists n. rewrite ml_ref_val by lia. split; [|reflexivity]. split; [lia|]. intros i Hi. split; [auto|]. intros _.
        eapply Rle_trans; [|exact H]. apply thr_mono; lia.
      + apply IH; [lia|lia|]. intros i Hi. destruct (Nat.eq_dec i level) as [->|]; [assumption|apply HB; lia].
    - exists level. rewrite ml_ref_val by lia. split; [|reflexivity]. split; [lia|]. intros i Hi. split.
      + intros Hi2. destruct (Nat.le_gt_cases level i) as [Hle|]; [|assumption].
        pose proof (thr_mono n level i Hle Hi). lra.
      + auto. }
  apply G; try lia.
Qed.
Lemma quantize_eq : forall n x j, (1 <= n)%nat -> qindex n x j -> quantize n x = INR j / INR n.
Proof. intros n x j Hn H. destruct (quantize_spec n x Hn) as (j' & H' & ->). now rewrite (qindex_unique n x j j'). Qed.

Lemma quantize_mono : forall n x y, (1 <= n)%nat -> x <= y -> quantize n x <= quantize n y.
Proof.
  intros n x y Hn Hxy. destruct (quantize_spec n x Hn) as (j & [A B] & ->). destruct (quantize_spec n y Hn) as (k & [C D] & ->).
  assert (j <= k)%nat.
  { destruct (Nat.le_gt_cases j k); [assumption|]. assert (T : thr n k <= y) by (assert (thr n k <= x) by (apply B; lia); lra).
    apply D in T; lia. }
  apply Rmult_le_compat_r; [left; apply Rinv_0_lt_compat; now apply INR_pos|now apply le_INR].
Qed.
Lemma thr_sym : forall n i, (i < n)%nat -> thr n (n - 1 - i) = - thr n i.
Proof. intros n i H. unfold thr. rewrite !minus_INR by lia. assert (P := INR_pos n ltac:(lia)). cbn [INR]. field. lra. Qed.
Lemma quantize_odd : forall n x, (1 <= n)%nat -> (forall i, (i < n)%nat -> x <> thr n i) -> quantize n (- x) = 1 - quantize n x.
Proof.
  intros n x Hn Hx. destruct (quantize_spec n x Hn) as (j & [A B] & ->). rewrite (quantize_eq n (- x) (n - j)); auto.
  - rewrite minus_INR by lia. assert (P := INR_pos n Hn). field. lra.
  - split; [lia|]. intros i Hi. assert (E := thr_sym n i Hi). assert (Hi' : (n - 1 - i < n)%nat) by lia.
    specialize (B _ Hi'). specialize (Hx _ Hi'). rewrite E in *. split.
    + intros H. assert (~ - thr n i <= x) by lra. destruct (Nat.le_gt_cases j (n - 1 - i)); [lia|]. exfalso. apply H0. apply B. lia.
    + intros H. destruct (Rle_lt_dec (- thr n i) x) as [G|G]; [|lra]. apply B in G. lia.
Qed.
Lemma quantize_error : forall n x, (1 <= n)%nat -> Rabs x <= 1 + 1 / INR n -> Rabs (2 * quantize n x - 1 - x) <= 1 / INR n.
Proof.
  intros n x Hn Hx. destruct (quantize_spec n x Hn) as (j & [A B] & ->). assert (P := INR_pos n Hn).
  assert (Q : 0 < / INR n) by (now apply Rinv_0_lt_compat).
  assert (L : (2 * INR j - 1) * / INR n - 1 <= x).
  { destruct j as [|j].
    - cbn [INR]. apply Rabs_le_inv in Hx. lra.
    - assert (T : thr n j <= x) by (apply B; lia). unfold thr in T. rewrite S_INR. lra. }
  assert (U : x <= (2 * INR j + 1) * / INR n - 1).
  { destruct (Nat.eq_dec j n) as [->|Hj].
    - replace ((2 * INR n + 1) * / INR n - 1) with (1 + 1 / INR n) by (field; lra). apply Rabs_le_inv in Hx. lra.
    - assert (T : ~ thr n j <= x) by (intros T; apply B in T; lia). unfold thr in T. lra. }
  apply Rabs_le. lra.
Qed.
Lemma quantize_range : forall n x, (1 <= n)%nat -> 0 <= quantize n x <= 1.
Proof.
  intros n x Hn. destruct (quantize_spec n x Hn) as (j & [A B] & ->). assert (P := INR_pos n Hn). apply le_INR in A. pose proof (pos_INR j).
  split.
  - apply Rmult_le_pos; [assumption|left; now apply Rinv_0_lt_compat].
  - apply Rmult_le_reg_r with (INR n); auto. replace (INR j / INR n * INR n) with (INR j) by (field; lra). lra.
Qed.
Lemma quantize_one : forall n x, (1 <= n)%nat -> (quantize n x = 1 <-> 1 - 1 / INR n <= x).
Proof.
  intros n x Hn. destruct (quantize_spec n x Hn) as (j & [A B] & ->). assert (P := INR_pos n Hn).
  assert (E : thr n (n - 1) = 1 - 1 / INR n) by (unfold thr; rewrite minus_INR by lia; cbn [INR]; field; lra). rewrite <- E.
  rewrite (B (n - 1)%nat) by lia. split.
  - intros H. assert (INR j = INR n) by (apply Rmult_eq_compat_r with (r := INR n) in H; replace (INR j / INR n * INR n) with (INR j) in H by (field; lra); lra).
    apply INR_eq in H0. lia.
  - intros H. replace j with n by lia. field. lra.
Qed.
(** Storing a quantiser output in an int8 array. *)
Lemma trunc_quantize : forall n x, (1 <= n)%nat -> cast true (quantize n x) = if Rle_bool (1 - 1 / INR n) x then 1 else 0.
Proof.
  intros n x Hn. cbn [cast]. destruct (quantize_range n x Hn) as [L U]. destruct (Rle_bool_spec (1 - 1 / INR n) x) as [H|H].
  - apply quantize_one in H; auto. rewrite H. now rewrite (Ztrunc_IZR 1).
  - assert (quantize n x <> 1) by (rewrite quantize_one by auto; lra). rewrite Ztrunc_floor by lra.
    rewrite (Zfloor_imp 0); [reflexivity|]. cbn. lra.
Qed.

(** *** Multi-level constructor *)
Lemma ml_init_ok : forall h clk M levels resp off d h', ml_init h clk M levels resp off = Ok (d, h') ->
  wf d h' /\ d_M d = M /\ d_clk d = clk /\ d_kind d = KMulti levels /\ length levels = M /\ Forall (fun n => (1 <= n)%nat) levels /\
  d_offsets d = repeat 0 M /\ i8 h' (d_s d) = false /\ (off = [] \/ length off = M) /\
  d_resp d = match resp with Some l => l | None => repeat (WStep 0 1) M end.
Proof.
  intros h clk M levels resp off d h' H. unfold ml_init in H.
  destruct (match off with [] => true | _ => (length off =? M)%nat end) eqn:Eo; cbn [negb] in H; [|discriminate].
  destruct (Nat.eqb_spec (length levels) M) as [El|]; cbn [negb] in H; [|discriminate].
  destruct (existsb _ levels) eqn:Ex; [discriminate|].
  destruct (dc_init h clk M resp 0 None) as [[d0 h0]|] eqn:E; cbn [bind] in H; [|discriminate].
  destruct (dc_init_ok _ _ _ _ _ _ _ _ E) as (W & HM & Hc & Ht & Hk & Hr & Ho & _ & Hi & Es & Ed & Eol & Eh).
  apply Ok_inj in H. apply pair_equal_spec in H. destruct H as [H1 H2]. subst d h'.
  cbn [d_clk d_M d_resp d_tdelay d_offsets d_kind d_s d_dec d_old].
  assert (Hlen : length h0 = (length h + 3)%nat) by (rewrite Eh, app_length, repeat_length; lia).
  destruct W as ((W1 & W2 & W3) & _ & (L1 & L2 & L3) & I1 & I2 & R1 & O1).
  assert (N : nth (length h0) (h0 ++ [mkArr false (repeat 0 M)]) (mkArr false []) = mkArr false (repeat 0 M)).
  { rewrite <- (Nat.add_0_r (length h0)) at 1. now rewrite app_nth_new. }
  split.
  - unfold wf. cbn [d_clk d_M d_resp d_tdelay d_offsets d_kind d_s d_dec d_old]. unfold i8, rd_arr in *.
    rewrite N, !app_nth_old by assumption. rewrite app_length. cbn [a_vals a_int8 length]. rewrite repeat_length.
    repeat split; auto; lia.
  - split; [assumption|]. split; [assumption|]. split; [reflexivity|]. split; [assumption|]. split.
    { apply Forall_forall. intros n Hn. destruct n; [|lia]. exfalso.
      assert (existsb (fun n => (n =? 0)%nat) levels = true) by (apply existsb_exists; exists 0%nat; split; auto). congruence. }
    split; [assumption|]. split; [unfold i8; now rewrite N|]. split; [|assumption].
    destruct off; [now left|right]. now apply Nat.eqb_eq.
Qed.

(** *** Dither *)
Definition di_wf (d : dither) (h : heap) : Prop :=
  wf (di_inner d) h /\ (di_s d < length h /\ di_dec d < length h)%nat /\ di_s d <> di_dec d /\
  (di_s d <> d_s (di_inner d) /\ di_s d <> d_dec (di_inner d) /\ di_s d <> d_old (di_inner d)) /\
  (di_dec d <> d_s (di_inner d) /\ di_dec d <> d_dec (di_inner d) /\ di_dec d <> d_old (di_inner d)) /\
  length (rd_arr h (di_s d)) = di_M d /\ length (rd_arr h (di_dec d)) = di_M d /\ i8 h (di_dec d) = false /\
  (0 < length (di_table d) -> di_idx d < length (di_table d))%nat /\ Forall (fun r => length r = di_R d) (di_table d).
Lemma di_wf_shape : forall d h h', di_wf d h -> same_shape h h' -> di_wf d h'.
Proof.
  intros d h h' (A & B & C & D & E & F & G & H & I) S. unfold di_wf. split; [eapply wf_shape; eauto|]. destruct S as [S1 S2]. rewrite S1.
  repeat rewrite (proj1 (S2 _)). repeat rewrite (proj2 (S2 _)). auto 12.
Qed.

Lemma di_store2 : forall d h m v, di_wf d h -> (m < di_M d)%nat ->
  let h1 := store h (di_s d) m v in let h' := store h1 (di_dec d) m (2 * rd h1 (di_s d) m - 1) in
  same_shape h h' /\ (forall a, a <> di_s d -> a <> di_dec d -> nth a h' (mkArr false []) = nth a h (mkArr false [])) /\
  (forall a m', m' <> m -> rd h' a m' = rd h a m') /\
  rd h' (di_s d) m = cast (i8 h (di_s d)) v /\ rd h' (di_dec d) m = 2 * rd h' (di_s d) m - 1.
Proof.
  intros d h m v (A & (B1 & B2) & C & _ & _ & F & G & H & _) Hm h1 h'.
  assert (S1 : same_shape h h1) by apply store_shape. assert (S2 : same_shape h h') by (eapply same_shape_trans; [exact S1|apply store_shape]).
  split; [assumption|]. split; [intros a N1 N2; unfold h', h1; now rewrite !store_frame by auto|].
  split; [intros a m' N; unfold h', h1; now rewrite !rd_store_ne by auto|].
  assert (E1 : rd h1 (di_s d) m = cast (i8 h (di_s d)) v) by (apply rd_store_eq; lia).
  assert (E2 : rd h' (di_s d) m = rd h1 (di_s d) m) by (apply rd_store_ne; now left).
  rewrite E2. split; [assumption|]. unfold h'. rewrite rd_store_eq.
  - rewrite (proj1 (proj2 S1 _)), H. reflexivity.
  - destruct S1 as [S _]. lia.
  - rewrite (proj2 (proj2 S1 _)). lia.
Qed.

Lemma copy_loop : forall d n k h, di_wf d h -> (k + n <= d_M (di_inner d))%nat ->
  exists h', loopM (di_copy1 d) (seq k n) h = (Ok tt, h') /\ same_shape h h' /\
    (forall a, a <> di_s d -> a <> di_dec d -> nth a h' (mkArr false []) = nth a h (mkArr false [])) /\
    (forall a m', (m' < k + di_R d \/ k + n + di_R d <= m')%nat -> rd h' a m' = rd h a m') /\
    (forall i, (k <= i < k + n)%nat -> rd h' (di_s d) (i + di_R d) = cast (i8 h (di_s d)) (rd h (d_s (di_inner d)) i) /\
                                       rd h' (di_dec d) (i + di_R d) = 2 * rd h' (di_s d) (i + di_R d) - 1).
Proof.
  intros d n. induction n as [|n IH]; intros k h W Hk.
  - exists h. split; [reflexivity|]. split; [apply same_shape_refl|]. split; [auto|]. split; [auto|]. intros; lia.
  - cbn [seq loopM]. unfold di_copy1 at 1.
    assert (Hm : (k + di_R d < di_M d)%nat) by (unfold di_M; lia).
    destruct (di_store2 d h (k + di_R d) (rd h (d_s (di_inner d)) k) W Hm) as (S1 & F1 & O1 & V1 & D1).
    set (h1 := store (store h (di_s d) (k + di_R d) (rd h (d_s (di_inner d)) k)) _ _ _) in *.
    destruct (IH (S k) h1) as (h2 & E2 & S2 & F2 & O2 & P2); [eapply di_wf_shape; eauto|lia|].
    exists h2. split; [assumption|]. split; [eapply same_shape_trans; eauto|].
    split; [intros a N1 N2; rewrite F2 by assumption; auto|].
    split; [intros a m' N; rewrite O2 by lia; apply O1; lia|].
    intros i Hi. destruct (Nat.eq_dec i k) as [->|Hne].
    + rewrite !O2 by lia. now split.
    + destruct (P2 i) as [Q1 Q2]; [lia|]. split; [|assumption]. rewrite Q1, (proj1 (proj2 S1 _)). f_equal.
      unfold rd, rd_arr. rewrite F1; [reflexivity| |]; apply not_eq_sym; apply W.
Qed.

(** Number of the random controls [k .. k+n-1] that are on phase at [t]. *)
Definition cnt (d : dither) (t : R) (k n : nat) : nat := length (filter (fun m => on_phase (di_clk d) (di_resp d) m t) (seq k n)).
Lemma cnt_S : forall d t k n, cnt d t k (S n) = ((if on_phase (di_clk d) (di_resp d) k t then 1 else 0) + cnt d t (S k) n)%nat.
Proof. intros. unfold cnt. cbn [seq filter]. now destruct (on_phase _ _ k t). Qed.

Lemma random_loop : forall d t n k idx h, di_wf d h -> (k + n <= di_R d)%nat -> (di_on d = true -> (idx < length (di_table d))%nat) ->
  exists h', loopM (di_random1 d t) (seq k n) (idx, h) =
      (Ok tt, (if di_on d then (idx + cnt d t k n) mod length (di_table d) else idx, h')%nat) /\ same_shape h h' /\
    (forall a, a <> di_s d -> a <> di_dec d -> nth a h' (mkArr false []) = nth a h (mkArr false [])) /\
    (forall a m', (m' < k \/ k + n <= m')%nat -> rd h' a m' = rd h a m') /\
    (forall m, (k <= m < k + n)%nat ->
       if on_phase (di_clk d) (di_resp d) m t then
         rd h' (di_s d) m = cast (i8 h (di_s d)) (if di_on d then nth m (nth ((idx + cnt d t k (m - k)) mod length (di_table d)) (di_table d) []) 0 else 1 / 2) /\
         rd h' (di_dec d) m = 2 * rd h' (di_s d) m - 1
       else rd h' (di_s d) m = rd h (di_s d) m /\ rd h' (di_dec d) m = rd h (di_dec d) m).
Proof.
  intros d t n. induction n as [|n IH]; intros k idx h W Hk Hidx.
  - exists h. split; [|split; [apply same_shape_refl|split; [auto|split; [auto|intros; lia]]]]. cbn [seq loopM].
    destruct (di_on d); [|reflexivity]. do 2 f_equal. unfold cnt; cbn [seq filter length]. rewrite Nat.add_0_r, Nat.mod_small by auto. reflexivity.
  - cbn [seq loopM]. unfold di_random1 at 1.
    destruct (on_phase (di_clk d) (di_resp d) k t) eqn:Eon.
    + assert (Hm : (k < di_M d)%nat) by (unfold di_M; lia).
      set (v := if di_on d then nth k (nth idx (di_table d) []) 0 else 1 / 2).
      destruct (di_store2 d h k v W Hm) as (S1 & F1 & O1 & V1 & D1).
      set (h1 := store (store h (di_s d) k v) (di_dec d) k _) in *.
      set (idx' := if di_on d then ((idx + 1) mod length (di_table d))%nat else idx).
      assert (ST : (if di_on d
         then match nth_error (di_table d) idx with
              | Some r => match nth_error r k with
                          | Some v => (Ok tt, (((idx + 1) mod length (di_table d))%nat,
                              store (store h (di_s d) k v) (di_dec d) k (2 * rd (store h (di_s d) k v) (di_s d) k - 1)))
                          | None => (Exn IndexError, (idx, h)) end
              | None => (Exn IndexError, (idx, h)) end
         else (Ok tt, (idx, store (store h (di_s d) k (1/2)) (di_dec d) k (2 * rd (store h (di_s d) k (1/2)) (di_s d) k - 1)))) = (Ok tt, (idx', h1))).
      { unfold h1, v, idx'. destruct (di_on d) eqn:Ed; [|reflexivity]. specialize (Hidx eq_refl).
        rewrite (nth_error_nth' (di_table d) [] Hidx). assert (HR : length (nth idx (di_table d) []) = di_R d).
        { destruct W as (_ & _ & _ & _ & _ & _ & _ & _ & _ & HF). rewrite Forall_forall in HF. apply HF. now apply nth_In. }
        rewrite (nth_error_nth' _ 0) by lia. reflexivity. }
      rewrite ST. destruct (IH (S k) idx' h1) as (h2 & E2 & S2 & F2 & O2 & P2); [eapply di_wf_shape; eauto|lia| |].
      { intros Ed. unfold idx'. rewrite Ed. apply Nat.mod_upper_bound. specialize (Hidx Ed). lia. }
      assert (IX : forall c, di_on d = true -> ((idx' + c) mod length (di_table d) = (idx + (1 + c)) mod length (di_table d))%nat).
      { intros c Ed. unfold idx'. rewrite Ed. specialize (Hidx Ed). rewrite Nat.add_mod_idemp_l by lia. f_equal. lia. }
      exists h2. split; [|split; [eapply same_shape_trans; eauto|split; [intros a N1 N2; rewrite F2 by assumption; auto|split; [intros a m' N; rewrite O2 by lia; apply O1; lia|]]]].
      * rewrite E2. do 2 f_equal. rewrite cnt_S, Eon. destruct (di_on d) eqn:Ed; [now apply IX|]. reflexivity.
      * intros m Hm'. destruct (Nat.eq_dec m k) as [->|Hne].
        -- rewrite Eon. rewrite !O2 by lia. rewrite Nat.sub_diag. unfold cnt; cbn [seq filter length]. rewrite Nat.add_0_r. split; [|assumption].
           rewrite V1. unfold v. destruct (di_on d); [|reflexivity]. now rewrite Nat.mod_small by auto.
        -- specialize (P2 m ltac:(lia)). rewrite !(O1 _ m) in P2 by lia. rewrite (proj1 (proj2 S1 _)) in P2.
           replace (m - k)%nat with (S (m - S k)) by lia. rewrite cnt_S, Eon.
           destruct (di_on d) eqn:Ed; [rewrite <- IX by reflexivity|]; exact P2.
    + destruct (IH (S k) idx h) as (h2 & E2 & S2 & F2 & O2 & P2); [assumption|lia|assumption|].
      exists h2. split; [|split; [assumption|split; [assumption|split; [intros a m' N; apply O2; lia|]]]].
      * rewrite E2. do 2 f_equal. now rewrite cnt_S, Eon.
      * intros m Hm'. destruct (Nat.eq_dec m k) as [->|Hne].
        -- rewrite Eon. rewrite !O2 by lia. now split.
        -- specialize (P2 m ltac:(lia)). replace (m - k)%nat with (S (m - S k)) by lia. rewrite cnt_S, Eon. exact P2.
Qed.

(** One complete update of the dither control. *)
Lemma di_update_spec : forall d t st h, di_wf d h -> (d_M (di_inner d) <= length st)%nat -> (di_on d = true -> (0 < length (di_table d))%nat) ->
  exists hi h', dc_update (di_inner d) t st h = (Ok tt, hi) /\
    di_update d t st h = (Ok tt, (di_set_idx d (if di_on d then (di_idx d + cnt d t 0 (di_R d)) mod length (di_table d) else di_idx d)%nat, h')) /\
    same_shape h h' /\ same_shape h hi /\
    (forall m, (m < d_M (di_inner d))%nat -> entries (di_inner d) h' m = entries (di_inner d) hi m /\
       rd h' (di_s d) (m + di_R d) = cast (i8 h (di_s d)) (rd h' (d_s (di_inner d)) m) /\
       rd h' (di_dec d) (m + di_R d) = 2 * rd h' (di_s d) (m + di_R d) - 1) /\
    (forall m, (m < di_R d)%nat ->
       if on_phase (di_clk d) (di_resp d) m t then
         rd h' (di_s d) m = cast (i8 h (di_s d)) (if di_on d then nth m (nth ((di_idx d + cnt d t 0 m) mod length (di_table d)) (di_table d) []) 0 else 1 / 2) /\
         rd h' (di_dec d) m = 2 * rd h' (di_s d) m - 1
       else rd h' (di_s d) m = rd h (di_s d) m /\ rd h' (di_dec d) m = rd h (di_dec d) m).
Proof.
  intros d t st h W Hst Hon. pose proof W as (WI & (B1 & B2) & C & (N1 & N2 & N3) & (M1 & M2 & M3) & _ & _ & _ & HI & _).
  destruct (dc_update_spec (di_inner d) t st h WI Hst) as (hi & E1 & S1 & F1 & P1).
  destruct (copy_loop d (d_M (di_inner d)) 0 hi) as (h2 & E2 & S2 & F2 & O2 & P2); [eapply di_wf_shape; eauto|lia|].
  destruct (random_loop d t (di_R d) 0 (di_idx d) h2) as (h3 & E3 & S3 & F3 & O3 & P3).
  { eapply di_wf_shape; [eapply di_wf_shape|]; eauto. } { lia. } { auto. }
  exists hi, h3. split; [assumption|]. split; [unfold di_update; now rewrite E1, E2, E3|].
  assert (S12 : same_shape h h2) by (eapply same_shape_trans; eauto).
  split; [eapply same_shape_trans; eauto|]. split; [assumption|].
  assert (IN : forall a m, a <> di_s d -> a <> di_dec d -> rd h3 a m = rd hi a m).
  { intros a m Na Nb. unfold rd, rd_arr. now rewrite F3, F2 by assumption. }
  split.
  - intros m Hm. split; [unfold entries; rewrite !IN by auto; reflexivity|]. destruct (P2 m ltac:(lia)) as [Q1 Q2].
    rewrite !(O3 _ (m + di_R d)%nat) by lia. split; [|assumption]. rewrite Q1, (proj1 (proj2 S1 _)). f_equal. rewrite IN by auto. reflexivity.
  - intros m Hm. specialize (P3 m ltac:(lia)). rewrite Nat.sub_0_r, (proj1 (proj2 S12 _)) in P3.
    rewrite !(O2 _ m) in P3 by lia.
    assert (OU : forall a, a <> d_s (di_inner d) -> a <> d_dec (di_inner d) -> a <> d_old (di_inner d) -> rd hi a m = rd h a m).
    { intros a K1 K2 K3. unfold rd, rd_arr. now rewrite F1 by assumption. }
    rewrite !OU in P3 by auto. exact P3.
Qed.

Lemma di_init_ok : forall h R inner resp on table td d h', wf inner h -> Forall (fun r => length r = R) table -> di_init h R inner resp on table td = Ok (d, h') ->
  di_wf d h' /\ di_inner d = inner /\ di_R d = R /\ di_clk d = d_clk inner /\
  di_resp d = match resp with Some l => l | None => repeat (WStep 0 1) R end ++ d_resp inner /\ di_on d = on /\ di_table d = table /\ di_idx d = 0%nat /\
  di_tdelay d = td /\ i8 h' (di_s d) = false /\
  (forall a, (a < length h)%nat -> nth a h' (mkArr false []) = nth a h (mkArr false [])) /\
  (forall m, rd h' (di_s d) m = 0 /\ rd h' (di_dec d) m = 0).
Proof.
  intros h R inner resp on table td d h' W HT H. unfold di_init in H. destruct (Rlt_bool td 0); [discriminate|].
  destruct (init_resp (d_clk inner) R resp) as [l|] eqn:El; cbn [bind] in H; [|discriminate].
  assert (Hl : l = match resp with Some l => l | None => repeat (WStep 0 1) R end).
  { unfold init_resp in El. destruct resp as [x|]; [|now apply Ok_inj in El]. destruct (negb _); [discriminate|]. destruct (_ && _); [|discriminate]. now apply Ok_inj in El. }
  apply Ok_inj in H. apply pair_equal_spec in H. destruct H as [H1 H2]. subst d h'.
  unfold di_wf. cbn [di_inner di_R di_clk di_resp di_tdelay di_s di_dec di_on di_table di_idx]. unfold di_M. cbn [di_inner di_R].
  set (l2 := repeat (mkArr false (repeat 0 (R + d_M inner))) 2).
  assert (N0 : nth (length h) (h ++ l2) (mkArr false []) = mkArr false (repeat 0 (R + d_M inner))) by (rewrite <- (Nat.add_0_r (length h)) at 1; now rewrite app_nth_new).
  assert (N1 : nth (length h + 1) (h ++ l2) (mkArr false []) = mkArr false (repeat 0 (R + d_M inner))) by (now rewrite app_nth_new).
  pose proof W as ((W1 & W2 & W3) & WD & WL & I1 & I2 & WR).
  split.
  - split; [unfold wf, i8, rd_arr in *; rewrite !app_nth_old, app_length by assumption; repeat split; try lia; tauto|].
    unfold i8, rd_arr. rewrite N0, N1. cbn [a_vals a_int8]. rewrite app_length, repeat_length. cbn [l2 repeat length].
    repeat split; auto; lia.
  - repeat split; auto.
    + now rewrite Hl.
    + unfold i8. now rewrite N0.
    + intros a Ha. now apply app_nth_old.
    + unfold rd, rd_arr. rewrite N0. cbn [a_vals]. apply nth_repeat.
    + unfold rd, rd_arr. rewrite N1. cbn [a_vals]. apply nth_repeat.
Qed.

(** Rows of the table visited by one random control. *)
Lemma dither_rows : forall R size m r, (r < size)%nat -> let g := Nat.gcd R size in
  (exists k, ((k * R + m) mod size = r)%nat) <-> (r mod g = m mod g)%nat.
Proof.
  intros R size m r Hr g. assert (Hg0 : (g <> 0)%nat) by (intros E; apply Nat.gcd_eq_0 in E; lia).
  destruct (Nat.gcd_divide R size) as [[a Ha] [b Hb]]. fold g in Ha, Hb. split.
  - intros [k Hk]. pose proof (Nat.div_mod (k * R + m) size ltac:(lia)) as E. rewrite Hk in E.
    assert (E2 : (k * a * g + m = r + ((k * R + m) / size) * b * g)%nat) by nia.
    rewrite <- (Nat.mod_add r (((k * R + m) / size) * b) g Hg0), <- E2. rewrite Nat.add_comm. now apply Nat.mod_add.
  - intros E. destruct (Nat.gcd_bezout_pos size R ltac:(lia)) as (u & v & Huv).
    pose proof (Nat.div_mod r g Hg0) as Er. pose proof (Nat.div_mod m g Hg0) as Em. rewrite E in Er.
    (* r + size * m - m is a multiple of g *)
    assert (Hj : (r + size * m = m + g * (r / g + b * m - m / g))%nat).
    { assert (m / g <= r / g + b * m)%nat. { pose proof (Nat.div_le_upper_bound m g m Hg0 ltac:(nia)). nia. } nia. }
    set (j := (r / g + b * m - m / g)%nat) in *. rewrite Nat.gcd_comm in Huv. fold g in Huv.
    (* u * size = g + v * R ; use k = v * j * (size - 1) *)
    exists (v * j * (size - 1))%nat.
    apply Nat2Z.inj. rewrite Nat2Z.inj_mod. symmetry.
    apply (Z.mod_unique_pos _ _ (Z.of_nat m + Z.of_nat v * Z.of_nat j * Z.of_nat R - Z.of_nat u * Z.of_nat j)%Z); [lia|].
    rewrite Nat2Z.inj_add, !Nat2Z.inj_mul, Nat2Z.inj_sub by lia. nia.
Qed.

(** Histories of a dither control. *)
Inductive dop := DUpd (t : R) (st : list R) | DOn | DOff.
Definition di_step (o : dop) (s : dither * heap) : result unit * (dither * heap) :=
  match o with
  | DUpd t st => di_update (fst s) t st (snd s)
  | DOn => (Ok tt, (di_set_on (fst s) true, snd s))
  | DOff => (Ok tt, (di_set_on (fst s) false, snd s))
  end.
(** Whether dithering is on after a history, and the number of updates made while it was on. *)
Fixpoint on_after (on : bool) (l : list dop) : bool :=
  match l with [] => on | DUpd _ _ :: l => on_after on l | DOn :: l => on_after true l | DOff :: l => on_after false l end.
Fixpoint n_on (on : bool) (l : list dop) : nat :=
  match l with [] => 0 | DUpd _ _ :: l => ((if on then 1 else 0) + n_on on l)%nat | DOn :: l => n_on true l | DOff :: l => n_on false l end.
(** The same updates made on the wrapped control alone. *)
Definition dets (l : list dop) : list op := flat_map (fun o => match o with DUpd t st => [OUpd t st] | _ => [] end) l.
Definition dlong (d : dither) (o : dop) : Prop :=
  match o with
  | DUpd t st => (d_M (di_inner d) <= length st)%nat /\ forall m, (m < di_R d)%nat ->
      let t0 := w_t0 (nth m (di_resp d) (WStep 0 0)) in Rabs (t - t0) <= ck_tt (di_clk d) / 2 + 1 / 100000 * Rabs t0
  | _ => True
  end.

Lemma cnt_all : forall d t n k, (forall m, (k <= m < k + n)%nat -> on_phase (di_clk d) (di_resp d) m t = true) -> cnt d t k n = n.
Proof.
  intros d t n. induction n as [|n IH]; intros k H; [reflexivity|]. rewrite cnt_S, H, IH by lia || (intros; apply H; lia). lia.
Qed.
Lemma update_agree : forall d t st h1 h2 h1' h2', wf d h1 -> wf d h2 -> (d_M d <= length st)%nat -> i8 h1 (d_s d) = i8 h2 (d_s d) ->
  (forall m, (m < d_M d)%nat -> entries d h1 m = entries d h2 m) ->
  dc_update d t st h1 = (Ok tt, h1') -> dc_update d t st h2 = (Ok tt, h2') ->
  i8 h1' (d_s d) = i8 h2' (d_s d) /\ forall m, (m < d_M d)%nat -> entries d h1' m = entries d h2' m.
Proof.
  intros d t st h1 h2 h1' h2' W1 W2 L EI EE U1 U2.
  destruct (dc_update_spec d t st h1 W1 L) as (a1 & X1 & S1 & _ & P1). rewrite U1 in X1. inversion X1; subst a1.
  destruct (dc_update_spec d t st h2 W2 L) as (a2 & X2 & S2 & _ & P2). rewrite U2 in X2. inversion X2; subst a2.
  split; [rewrite (proj1 (proj2 S1 _)), (proj1 (proj2 S2 _)); assumption|].
  intros m Hm. specialize (P1 m Hm). specialize (P2 m Hm). specialize (EE m Hm). unfold entries in *. inversion EE as [[E1 E2 E3]].
  unfold post1 in *. destruct (on_phase _ _ m t).
  - destruct P1 as (Q1 & Q2 & Q3), P2 as (T1 & T2 & T3). rewrite Q3, T3, Q2, T2, Q1, T1, EI, E2, E3. reflexivity.
  - destruct P1 as (-> & -> & ->), P2 as (-> & -> & ->). now rewrite E1, E2, E3.
Qed.

(** What stays of a dither control through updates and switching. *)
Definition same_di (d d' : dither) : Prop :=
  di_inner d' = di_inner d /\ di_R d' = di_R d /\ di_clk d' = di_clk d /\ di_resp d' = di_resp d /\ di_tdelay d' = di_tdelay d /\
  di_s d' = di_s d /\ di_dec d' = di_dec d /\ di_table d' = di_table d.
Lemma same_di_trans : forall a b c, same_di a b -> same_di b c -> same_di a c.
Proof. intros a b c H1 H2. unfold same_di in *. intuition congruence. Qed.
Lemma dlong_same : forall d d' o, same_di d d' -> dlong d o -> dlong d' o.
Proof.
  intros d d' [t st| |] (E1 & E2 & E3 & E4 & _) H; cbn in *; auto. rewrite E1, E2. destruct H as [H1 H2]. split; [assumption|].
  intros m Hm. rewrite E3, E4. now apply H2.
Qed.
Lemma di_wf_on : forall d h b, di_wf d h -> di_wf (di_set_on d b) h.
Proof. intros d h b H. exact H. Qed.
Lemma di_wf_idx : forall d h i, di_wf d h -> (0 < length (di_table d) -> i < length (di_table d))%nat -> di_wf (di_set_idx d i) h.
Proof. intros d h i (A & B & C & D & E & F & G & H & _ & J) Hi. unfold di_wf, di_M. cbn. unfold di_M in *. auto 12. Qed.

Lemma di_run : forall hist d h hp, di_wf d h -> wf (di_inner d) hp -> i8 h (d_s (di_inner d)) = i8 hp (d_s (di_inner d)) ->
  (forall m, (m < d_M (di_inner d))%nat -> entries (di_inner d) h m = entries (di_inner d) hp m) ->
  (0 < length (di_table d))%nat -> Forall (dlong d) hist ->
  exists d' h' hp', run_ops di_step hist (d, h) = (Ok tt, (d', h')) /\ run_ops dc_step (dets hist) (di_inner d, hp) = (Ok tt, (di_inner d, hp')) /\
    di_wf d' h' /\ same_di d d' /\ wf (di_inner d) hp' /\ i8 h' (di_s d) = i8 h (di_s d) /\
    i8 h' (d_s (di_inner d)) = i8 hp' (d_s (di_inner d)) /\
    (forall m, (m < d_M (di_inner d))%nat -> entries (di_inner d) h' m = entries (di_inner d) hp' m) /\
    di_on d' = on_after (di_on d) hist /\ di_idx d' = ((di_idx d + n_on (di_on d) hist * di_R d) mod length (di_table d))%nat.
Proof.
  induction hist as [|o hist IH]; intros d h hp W Wp EI EE HT HL.
  - exists d, h, hp. cbn [run_ops dets flat_map on_after n_on]. repeat (split; [first [reflexivity|assumption|unfold same_di; repeat split]|]).
    rewrite Nat.add_0_r, Nat.mod_small by (now apply W). reflexivity.
  - apply Forall_cons_iff in HL. destruct HL as [H1 H2]. destruct o as [t st| |].
    + destruct H1 as [L1 L2].
      assert (ON : forall m, (m < di_R d)%nat -> on_phase (di_clk d) (di_resp d) m t = true) by (intros m Hm; apply Rle_bool_true; now apply L2).
      destruct (di_update_spec d t st h W L1 (fun _ => HT)) as (hi & h1 & U1 & E1 & S1 & Si & P1 & _).
      destruct (dc_update_spec (di_inner d) t st hp Wp L1) as (hp1 & Up & Sp & _).
      destruct (update_agree (di_inner d) t st h hp hi hp1 (proj1 W) Wp L1 EI EE U1 Up) as [AG1 AG2].
      set (d1 := di_set_idx d _) in *.
      destruct (IH d1 h1 hp1) as (d' & h' & hp' & R1 & R2 & W' & SD & Wp' & I1 & I2 & EE' & O' & X').
      * apply di_wf_idx; [eapply di_wf_shape; eauto|]. intros _. destruct (di_on d); [apply Nat.mod_upper_bound; lia|now apply W].
      * eapply wf_shape; eauto.
      * change (di_inner d1) with (di_inner d). rewrite <- AG1, (proj1 (proj2 S1 _)). symmetry. apply (proj1 (proj2 Si _)).
      * intros m Hm. rewrite <- AG2 by assumption. now apply P1.
      * assumption.
      * revert H2. apply Forall_impl. intros a. apply dlong_same. unfold same_di. repeat split.
      * exists d', h', hp'. cbn [run_ops di_step fst snd]. rewrite E1. split; [assumption|].
        split; [unfold dets; cbn [flat_map app run_ops dc_step fst snd]; rewrite Up; exact R2|].
        split; [assumption|]. split; [assumption|]. split; [assumption|]. split; [rewrite <- (proj1 (proj2 S1 _)); exact I1|].
        split; [assumption|]. split; [assumption|]. split; [assumption|]. rewrite X'. cbn [n_on].
        change (di_on d1) with (di_on d). change (di_R d1) with (di_R d). change (di_table d1) with (di_table d).
        unfold d1, di_set_idx; cbn [di_idx]. destruct (di_on d); [|reflexivity].
        rewrite cnt_all by (intros; apply ON; lia). rewrite Nat.add_mod_idemp_l by lia. f_equal. lia.
    + destruct (IH (di_set_on d true) h hp) as (d' & h' & hp' & R1 & R2 & W' & SD & Wp' & I1 & I2 & EE' & O' & X'); auto.
      exists d', h', hp'. cbn [run_ops di_step fst snd]. split; [assumption|]. auto 15.
    + destruct (IH (di_set_on d false) h hp) as (d' & h' & hp' & R1 & R2 & W' & SD & Wp' & I1 & I2 & EE' & O' & X'); auto.
      exists d', h', hp'. cbn [run_ops di_step fst snd]. split; [assumption|]. auto 15.
Qed.

(** Switching alone does not touch the heap. *)
Lemma di_quiet : forall post d h, (forall o, In o post -> o = DOn \/ o = DOff) ->
  exists d', run_ops di_step post (d, h) = (Ok tt, (d', h)) /\ same_di d d'.
Proof.
  induction post as [|o post IH]; intros d h H.
  - exists d. split; [reflexivity|]. unfold same_di. repeat split.
  - destruct (H o) as [->| ->]; [now left| |]; cbn [run_ops di_step fst snd];
    (edestruct IH as (d' & E & S); [intros; apply H; now right|]; exists d'; split; [exact E|exact S]).
Qed.
Lemma dets_quiet : forall post, (forall o, In o post -> o = DOn \/ o = DOff) -> dets post = [].
Proof. induction post as [|o post IH]; intros H; [reflexivity|]. unfold dets. cbn [flat_map]. fold (dets post). rewrite IH by (intros; apply H; now right). destruct (H o) as [->| ->]; [now left| |]; reflexivity. Qed.

Lemma di_history : forall d h hp pre t st post, di_wf d h -> wf (di_inner d) hp -> i8 h (d_s (di_inner d)) = i8 hp (d_s (di_inner d)) ->
  (forall m, (m < d_M (di_inner d))%nat -> entries (di_inner d) h m = entries (di_inner d) hp m) ->
  (0 < length (di_table d))%nat -> Forall (dlong d) (pre ++ DUpd t st :: post) -> (forall o, In o post -> o = DOn \/ o = DOff) ->
  exists d' h' hp', run_ops di_step (pre ++ DUpd t st :: post) (d, h) = (Ok tt, (d', h')) /\
    run_ops dc_step (dets (pre ++ DUpd t st :: post)) (di_inner d, hp) = (Ok tt, (di_inner d, hp')) /\ same_di d d' /\
    (forall m, (m < d_M (di_inner d))%nat -> entries (di_inner d) h' m = entries (di_inner d) hp' m /\
       rd h' (di_s d) (m + di_R d) = cast (i8 h (di_s d)) (rd hp' (d_s (di_inner d)) m) /\
       rd h' (di_dec d) (m + di_R d) = 2 * rd h' (di_s d) (m + di_R d) - 1) /\
    (forall m, (m < di_R d)%nat ->
       rd h' (di_s d) m = cast (i8 h (di_s d)) (if on_after (di_on d) pre
         then nth m (nth ((di_idx d + n_on (di_on d) pre * di_R d + m) mod length (di_table d)) (di_table d) []) 0 else 1 / 2) /\
       rd h' (di_dec d) m = 2 * rd h' (di_s d) m - 1).
Proof.
  intros d h hp pre t st post W Wp EI EE HT HL Hq. apply Forall_app in HL. destruct HL as [L1 L2]. apply Forall_cons_iff in L2. destruct L2 as [L2 _].
  destruct (di_run pre d h hp W Wp EI EE HT L1) as (d1 & h1 & hp1 & R1 & R2 & W1 & SD & Wp1 & I1 & I2 & EE1 & O1 & X1).
  assert (L2' : dlong d1 (DUpd t st)) by (eapply dlong_same; eauto). destruct L2' as [A1 A2].
  pose proof SD as (D1 & D2 & D3 & D4 & D5 & D6 & D7 & D8).
  assert (ON : forall m, (m < di_R d1)%nat -> on_phase (di_clk d1) (di_resp d1) m t = true) by (intros m Hm; apply Rle_bool_true; now apply A2).
  assert (HT1 : (0 < length (di_table d1))%nat) by (now rewrite D8).
  destruct (di_update_spec d1 t st h1 W1 A1 (fun _ => HT1)) as (hi & h2 & U & E & S & Si & P & Q). rewrite D1 in *.
  destruct (dc_update_spec (di_inner d) t st hp1 Wp1 A1) as (hp2 & Up & Sp & _).
  destruct W1 as (WI1 & _). rewrite D1 in WI1.
  destruct (update_agree (di_inner d) t st h1 hp1 hi hp2 WI1 Wp1 A1 I2 EE1 U Up) as [AG1 AG2].
  set (d2 := di_set_idx d1 _) in *. destruct (di_quiet post d2 h2 Hq) as (d3 & R3 & SD3).
  exists d3, h2, hp2. split; [rewrite (run_app _ _ _ _ _ R1); cbn [run_ops di_step fst snd]; now rewrite E|].
  split.
  { unfold dets. rewrite flat_map_app. fold (dets pre). rewrite (run_app _ _ _ _ _ R2). cbn [flat_map app]. fold (dets post). rewrite dets_quiet by assumption.
    cbn [run_ops dc_step fst snd]. now rewrite Up. }
  split; [eapply same_di_trans; [exact SD|exact SD3]|]. split.
  - intros m Hm. destruct (P m Hm) as (P1 & P2 & P3). assert (EQ : entries (di_inner d) h2 m = entries (di_inner d) hp2 m) by (rewrite P1; now apply AG2).
    split; [assumption|]. rewrite <- D2, <- D6, <- D7. split; [|assumption]. rewrite P2, D6, I1. f_equal. unfold entries in EQ. now inversion EQ.
  - intros m Hm. rewrite <- D2 in Hm. specialize (Q m Hm). rewrite ON in Q by assumption. rewrite D6, D7, D8, O1, X1, I1 in Q.
    rewrite cnt_all in Q by (intros; apply ON; lia). rewrite Nat.add_mod_idemp_l in Q by lia. exact Q.
Qed.

Lemma di_reset_wf : forall d h, di_wf d h -> di_wf (fst (di_reset d h)) (snd (di_reset d h)).
Proof.
  intros d h (((W1 & W2 & W3) & WD & WL & I1 & I2 & WR) & _ & _ & _ & _ & _ & _ & _ & HI & HT). unfold di_reset. cbn [fst snd].
  unfold di_wf, di_M. cbn [di_inner di_R di_clk di_resp di_tdelay di_s di_dec di_on di_table di_idx]. set (l2 := [_; _]).
  assert (N0 : nth (length h) (h ++ l2) (mkArr false []) = mkArr true (repeat 0 (di_R d + d_M (di_inner d)))) by (rewrite <- (Nat.add_0_r (length h)) at 1; now rewrite app_nth_new).
  assert (N1 : nth (length h + 1) (h ++ l2) (mkArr false []) = mkArr false (repeat 0 (di_R d + d_M (di_inner d)))) by (now rewrite app_nth_new).
  split; [unfold wf, i8, rd_arr in *; rewrite !app_nth_old, app_length by assumption; repeat split; try lia; tauto|].
  unfold i8, rd_arr. rewrite N0, N1. cbn [a_vals a_int8]. rewrite app_length, repeat_length. cbn [l2 length].
  repeat split; auto; lia.
Qed.
