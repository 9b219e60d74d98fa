(** Whole runs of BatchEstimator: every call's result, for every stream ending and iteration limit. *)
From Coq Require Import List Lia Arith Ring Bool ZArith.
From Verif Require Import Base LinAlg Estimators BatchProofs.
Import ListNotations.

Section Est.
Context {K : cring}.
Add Ring Kring : (rth K).
Notation vec := (list K).
Notation mat := (list (list K)).
Notation coef := (@coef K).
Notation source := (@source K).
Notation bst := (@bst K).

Lemma row_ok {A} M (x : list A) : length x = M -> row M x = Ok x.
Proof. intros <-. unfold row. now rewrite Nat.eqb_refl. Qed.
Lemma pm1_length (x : vec) : length (pm1 x) = length x.
Proof. apply map_length. Qed.

(** Specification of the +-1 controls, independent of the model's [pm1]: [x + x - 1] entry by entry. *)
Definition ctl (x : vec) : vec := map (fun v => rsub K (radd K v v) (r1 K)) x.
Lemma pm1_ctl (x : vec) : pm1 x = ctl x.
Proof. apply map_ext. intros v. ring. Qed.
Lemma map_pm1_ctl (xs : list vec) : map pm1 xs = map ctl xs.
Proof. apply map_ext. exact pm1_ctl. Qed.
Lemma pm1_vzero M : pm1 (vzero M) = repeat (ropp K (r1 K)) M.
Proof. unfold pm1, vzero. induction M as [|M IH]; cbn [repeat map]; [reflexivity|]. rewrite IH. f_equal. ring. Qed.

Section Batch.
Variable c : coef.
Hypothesis Hwf : coef_wf c.
Variables K1 K2 : nat.
Hypothesis HK1 : (1 <= K1)%nat.
Let K3 := (K1 + K2)%nat.
Variable limit : Z.

(** The padding sample: a missing sample is read as all zeros, i.e. -1 after the +-1 map. *)
Notation pad := (pm1 (vzero (cM c))).

Lemma b_input_ok st s : (b_cnt st < K3)%nat -> length s = cM c ->
  b_input c K1 K2 st s = Ok (Nat.ltb (K3 - 1) (S (b_cnt st)),
     mkB (b_src st) (b_iter st) (b_ptr st) (b_stop st) (upd (b_cnt st) (pm1 s) (b_buf st)) (S (b_cnt st)) (b_mean st) (b_est st)).
Proof.
  intros Hc Hs. unfold b_input. fold K3. destruct (Nat.eqb_spec (b_cnt st) K3); [lia|].
  rewrite row_ok by (now rewrite pm1_length). reflexivity.
Qed.

Lemma upd_firstn_skip (buf : list vec) cnt x : (cnt < length buf)%nat -> firstn (S cnt) (upd cnt x buf) = firstn cnt buf ++ [x].
Proof.
  intros H. rewrite (firstn_S_nth _ _ []) by (now rewrite upd_length). rewrite firstn_upd_ge by lia. now rewrite nth_upd_same.
Qed.

(** Reading [xs] (all of it) into the buffer without filling it or exactly filling it. *)
Lemma b_fill_reads : forall xs rest e fuel st, s_items (b_src st) = xs ++ rest -> s_end (b_src st) = e ->
  Forall (fun x => length x = cM c) xs -> length (b_buf st) = K3 -> (b_cnt st + length xs < K3)%nat ->
  exists buf', length buf' = K3 /\ firstn (b_cnt st + length xs) buf' = firstn (b_cnt st) (b_buf st) ++ map pm1 xs /\
  b_fill c K1 K2 (length xs + fuel) st
  = b_fill c K1 K2 fuel (mkB (mkSrc rest e) (b_iter st) (b_ptr st) (b_stop st) buf' (b_cnt st + length xs) (b_mean st) (b_est st)).
Proof.
  induction xs as [|x xs IH]; intros rest e fuel st Hi He HF HL Hc.
  - exists (b_buf st). cbn [length map plus app]. rewrite Nat.add_0_r, app_nil_r. repeat split; auto.
    cbn [app] in Hi. destruct st as [[it en] ? ? ? ? ? ? ?]. simpl in *. subst. reflexivity.
  - inversion HF as [|? ? Hx HF']; subst. cbn [length] in Hc.
    set (st1 := mkB (mkSrc (xs ++ rest) (s_end (b_src st))) (b_iter st) (b_ptr st) (b_stop st) (upd (b_cnt st) (pm1 x) (b_buf st)) (S (b_cnt st)) (b_mean st) (b_est st)).
    destruct (IH rest (s_end (b_src st)) fuel st1) as (buf' & HL' & Hf' & Hr'); auto.
    { unfold st1; simpl. now rewrite upd_length. } { unfold st1; simpl. lia. }
    exists buf'. split; [assumption|]. split.
    + unfold st1 in Hf'; cbn [b_cnt b_buf] in Hf'. cbn [length map]. rewrite Nat.add_succ_r. cbn [plus] in Hf'. rewrite Hf'.
      rewrite upd_firstn_skip by lia. now rewrite <- app_assoc.
    + cbn [length plus b_fill]. unfold src_next at 1. rewrite Hi. cbn [app].
      rewrite b_input_ok by (simpl; lia). cbn [b_cnt b_src b_iter b_ptr b_stop b_buf b_mean b_est].
      destruct (Nat.ltb_spec (K3 - 1) (S (b_cnt st))); [lia|]. fold st1. rewrite Hr'. unfold st1; cbn [b_cnt b_src b_iter b_ptr b_stop b_buf b_mean b_est].
      rewrite Nat.add_succ_r. reflexivity.
Qed.

(** One more successfully read sample completes the buffer. *)
Lemma b_fill_last st fuel x rest e : s_items (b_src st) = x :: rest -> s_end (b_src st) = e -> length x = cM c ->
  length (b_buf st) = K3 -> S (b_cnt st) = K3 ->
  b_fill c K1 K2 (S fuel) st
  = (Ok tt, mkB (mkSrc rest e) (b_iter st) (b_ptr st) (b_stop st) (firstn (b_cnt st) (b_buf st) ++ [pm1 x]) K3 (b_mean st) (b_est st)).
Proof.
  intros Hi He Hx HL Hc. cbn [b_fill]. unfold src_next at 1. rewrite Hi. rewrite b_input_ok by (simpl; try lia; assumption).
  cbn [b_cnt b_src b_iter b_ptr b_stop b_buf b_mean b_est]. destruct (Nat.ltb_spec (K3 - 1) (S (b_cnt st))); [|lia].
  rewrite He. f_equal. f_equal; [|lia].
  rewrite <- upd_firstn_skip by lia. rewrite Hc. symmetry. apply firstn_all2. rewrite upd_length. lia.
Qed.

Lemma b_fill_full xs rest e st fuel : s_items (b_src st) = xs ++ rest -> s_end (b_src st) = e ->
  Forall (fun x => length x = cM c) xs -> length (b_buf st) = K3 -> (b_cnt st < K3)%nat -> (b_cnt st + length xs = K3)%nat ->
  (length xs <= fuel)%nat ->
  b_fill c K1 K2 fuel st
  = (Ok tt, mkB (mkSrc rest e) (b_iter st) (b_ptr st) (b_stop st) (firstn (b_cnt st) (b_buf st) ++ map pm1 xs) K3 (b_mean st) (b_est st)).
Proof.
  intros Hi He HF HL Hlt Hc Hfu. destruct xs as [|x xs _] using rev_ind; [simpl in Hc; lia|].
  rewrite app_length in Hc, Hfu; simpl in Hc, Hfu. rewrite <- app_assoc in Hi. apply Forall_app in HF. destruct HF as [HF Hx].
  inversion Hx as [|? ? Hx' _]; subst.
  destruct (b_fill_reads xs (x :: rest) (s_end (b_src st)) (S (fuel - length xs - 1)) st Hi eq_refl HF HL ltac:(lia)) as (buf' & HL' & Hf' & Hr).
  replace fuel with (length xs + S (fuel - length xs - 1))%nat by lia. rewrite Hr.
  rewrite (b_fill_last _ _ x rest (s_end (b_src st))) by (cbn [b_src b_buf b_cnt s_items s_end]; auto; lia).
  cbn [b_cnt b_buf b_iter b_ptr b_stop b_mean b_est]. rewrite Hf', map_app, <- app_assoc. reflexivity.
Qed.

(** One padded read. *)
Lemma b_fill_pad1 st fuel : s_items (b_src st) = [] -> s_end (b_src st) = SrcGen RuntimeError \/ s_end (b_src st) = SrcObj RuntimeError ->
  (b_cnt st < K3)%nat ->
  let src' := mkSrc [] (match s_end (b_src st) with SrcGen _ => SrcObj StopIteration | e => e end) in
  let st' := mkB src' (b_iter st) (b_ptr st) true (upd (b_cnt st) pad (b_buf st)) (S (b_cnt st)) (b_mean st) (b_est st) in
  b_fill c K1 K2 (S fuel) st = if Nat.ltb (K3 - 1) (S (b_cnt st)) then (Ok tt, st') else b_fill c K1 K2 fuel st'.
Proof.
  intros Hi He Hc. cbv zeta. cbn [b_fill]. unfold src_next at 1. rewrite Hi.
  destruct He as [He|He]; rewrite He; rewrite b_input_ok by (simpl; auto; apply vzero_length);
    cbn [b_cnt b_src b_iter b_ptr b_stop b_buf b_mean b_est]; try reflexivity.
  replace (b_src st) with (mkSrc [] (SrcObj RuntimeError) : source); [reflexivity|].
  destruct (b_src st); simpl in *; congruence.
Qed.

Lemma b_fill_pad : forall n fuel st, s_items (b_src st) = [] -> s_end (b_src st) = SrcObj RuntimeError ->
  length (b_buf st) = K3 -> (b_cnt st + S n = K3)%nat -> (S n <= fuel)%nat ->
  b_fill c K1 K2 fuel st = (Ok tt, mkB (b_src st) (b_iter st) (b_ptr st) true (firstn (b_cnt st) (b_buf st) ++ repeat pad (S n)) K3 (b_mean st) (b_est st)).
Proof.
  induction n as [|n IH]; intros fuel st Hi He HL Hc Hf; (destruct fuel; [lia|]);
    rewrite b_fill_pad1 by (auto; lia); cbv zeta; rewrite He;
    (assert (Hsrc : b_src st = mkSrc [] (SrcObj RuntimeError)) by (destruct (b_src st); simpl in *; congruence)).
  - destruct (Nat.ltb_spec (K3 - 1) (S (b_cnt st))); [|lia]. rewrite Hsrc. f_equal. f_equal; [|lia].
    cbn [repeat]. rewrite <- upd_firstn_skip by lia. symmetry. apply firstn_all2. rewrite upd_length. lia.
  - destruct (Nat.ltb_spec (K3 - 1) (S (b_cnt st))); [lia|].
    rewrite IH by (cbn [b_cnt b_src b_buf]; auto; try rewrite upd_length; lia).
    cbn [b_cnt b_src b_iter b_ptr b_stop b_buf b_mean b_est]. rewrite Hsrc, upd_firstn_skip by lia. rewrite <- app_assoc. reflexivity.
Qed.

(** Dead states: every further call raises StopIteration. *)
Definition dead (st : bst) : Prop :=
  (limit < b_iter st)%Z \/
  ((K1 <= b_ptr st)%nat /\ (b_stop st = true \/ (s_items (b_src st) = [] /\ s_end (b_src st) = SrcObj StopIteration))).

Lemma dead_step st : dead st -> exists st', b_next c K1 K2 limit st = (Exn StopIteration, st') /\ dead st'.
Proof.
  intros Hd. unfold b_next. cbn [b_next_fuel]. destruct (Z.ltb_spec limit (b_iter st)) as [Hlt|Hge].
  - exists st. split; [reflexivity|]. now left.
  - destruct Hd as [Hd|[Hp Hd]]; [lia|]. cbn [b_ptr]. destruct (Nat.ltb_spec (b_ptr st) K1); [lia|]. cbn [b_stop].
    destruct (b_stop st) eqn:Es.
    + eexists. split; [reflexivity|]. right. cbn. auto.
    + destruct Hd as [Hd|[Hi He]]; [discriminate|]. cbn [b_fill b_src]. unfold src_next. rewrite Hi, He.
      eexists. split; [reflexivity|]. right. cbn. auto.
Qed.

Lemma dead_calls : forall n st, dead st -> fst (calls (b_next c K1 K2 limit) n st) = repeat (Exn StopIteration) n.
Proof.
  induction n as [|n IH]; intros st Hd; [reflexivity|]. cbn [calls]. destruct (dead_step st Hd) as (st' & E & Hd').
  rewrite E. specialize (IH st' Hd'). destruct (calls _ n st'). simpl in *. now rewrite IH.
Qed.

(** *** The run *)
Variable xs : list vec.
Hypothesis Hxs : Forall (fun x => length x = cM c) xs.
Variable e : src_end.
Hypothesis He : e = SrcObj StopIteration \/ e = SrcGen RuntimeError \/ e = SrcObj RuntimeError.

(** The +-1 control signal, continued with -1 after its end. *)
Definition dsig (xs : list vec) (n : nat) : vec := nth n (map ctl xs) (repeat (ropp K (r1 K)) (cM c)).
Lemma dsig_pm1 (xs0 : list vec) (n : nat) : dsig xs0 n = nth n (map pm1 xs0) pad.
Proof. unfold dsig. now rewrite map_pm1_ctl, pm1_vzero. Qed.
Notation d := (dsig xs).

(** Number of batches that can be computed. *)
Definition nbatches (T : nat) (e : src_end) : nat :=
  match e with
  | SrcObj RuntimeError => (T - K2) / K1 + 1
  | SrcGen RuntimeError => (T + 1 - K2) / K1
  | _ => (T - K2) / K1
  end.
Notation J := (nbatches (length xs) e).

(** Samples read so far (from the real stream) after [j] batches, and the source after that. *)
Definition out (n : nat) : vec := mv (cWT c) (vsub (Bd c d n (K3 - n mod K1)) (Fd c d n)).

(** State after [i] successful calls. *)
Record inv (i : nat) (st : bst) : Prop := mkInv {
  v_iter : b_iter st = Z.of_nat (i + (i + K1 - 1) / K1);
  v_ptr : b_ptr st = (if (i mod K1 =? 0)%nat then K1 else i mod K1);
  v_buf : length (b_buf st) = K3;
  v_mean : length (b_mean st) = (K1 + 1)%nat;
  v_est : length (b_est st) = K1;
  v_j : let j := ((i + K1 - 1) / K1)%nat in
        (j <= J)%nat /\
        b_cnt st = (if (j =? 0)%nat then 0 else K2) /\
        firstn (b_cnt st) (b_buf st) = map d (seq (j * K1) (b_cnt st)) /\
        nth 0 (b_mean st) [] = Fd c d (j * K1) /\ nth K1 (b_mean st) [] = vzero (cN c) /\
        (forall k, (1 <= j)%nat -> (k < K1)%nat -> nth k (b_est st) [] = out ((j - 1) * K1 + k)) /\
        (b_stop st = false -> s_items (b_src st) = skipn (j * K1 + b_cnt st) xs /\ s_end (b_src st) = e
           /\ (j * K1 + b_cnt st <= length xs)%nat) /\
        (b_stop st = true -> j = J)
}.

Lemma map_dsig_seq a n : (a + n <= length xs)%nat -> map pm1 (firstn n (skipn a xs)) = map d (seq a n).
Proof.
  intros H. apply (list_ext _ _ pad).
  - rewrite !map_length, seq_length, firstn_length, skipn_length. lia.
  - intros i Hi. rewrite map_length, firstn_length, skipn_length in Hi. rewrite nth_map_seq by lia. rewrite ?dsig_pm1.
    rewrite (nth_indep _ pad (pm1 [])) by (rewrite map_length, firstn_length, skipn_length; lia).
    rewrite (nth_indep (map pm1 xs) pad (pm1 [])) by (rewrite map_length; lia).
    rewrite !map_nth. f_equal.
    transitivity (nth i (skipn a xs) []).
    + rewrite <- (firstn_skipn n (skipn a xs)) at 2. rewrite app_nth1; [reflexivity|]. rewrite firstn_length, skipn_length. lia.
    + rewrite <- (firstn_skipn a xs) at 2. rewrite app_nth2; rewrite firstn_length; [f_equal; lia|lia].
Qed.

Lemma dsig_pad a n : (length xs <= a)%nat -> map d (seq a n) = repeat pad n.
Proof.
  revert a; induction n as [|n IH]; intros a Ha; cbn [seq map repeat]; [reflexivity|]. rewrite IH by lia.
  f_equal. rewrite ?dsig_pm1. apply nth_overflow. now rewrite map_length.
Qed.

Lemma nbatches_spec T j : (* characterises J by the sample budget *)
  ((T - K2) / K1 < S j <-> T < S j * K1 + K2 \/ S j = 0)%nat.
Proof.
  split; intros H.
  - left. pose proof (Nat.mul_succ_div_gt (T - K2) K1 ltac:(lia)). nia.
  - destruct H as [H|H]; [|lia]. apply Nat.div_lt_upper_bound; nia.
Qed.

Lemma div_le_budget T j : (j * K1 + K2 <= T -> j <= (T - K2) / K1)%nat.
Proof. intros H. apply Nat.div_le_lower_bound; nia. Qed.

(** A batch can be filled iff [j < J]. *)
Lemma fill_from_inv st j :
  b_stop st = false -> length (b_buf st) = K3 -> b_cnt st = (if (j =? 0)%nat then 0 else K2)%nat ->
  firstn (b_cnt st) (b_buf st) = map d (seq (j * K1) (b_cnt st)) ->
  s_items (b_src st) = skipn (j * K1 + b_cnt st) xs -> s_end (b_src st) = e -> (j * K1 + b_cnt st <= length xs)%nat ->
  ((j < J)%nat /\ exists st', b_fill c K1 K2 (S K3) st = (Ok tt, st') /\
      b_iter st' = b_iter st /\ b_ptr st' = b_ptr st /\ b_buf st' = map d (seq (j * K1) K3) /\ b_cnt st' = K3 /\
      b_mean st' = b_mean st /\ b_est st' = b_est st /\
      (b_stop st' = false -> s_items (b_src st') = skipn (j * K1 + K3) xs /\ s_end (b_src st') = e /\ (j * K1 + K3 <= length xs)%nat) /\
      (b_stop st' = true -> S j = J))
  \/ ((J <= j)%nat /\ exists st', b_fill c K1 K2 (S K3) st = (Exn StopIteration, st') /\ b_ptr st' = b_ptr st /\
      (b_stop st' = true \/ (s_items (b_src st') = [] /\ s_end (b_src st') = SrcObj StopIteration))).
Proof.
  intros Hs HL Hc Hf Hi Hen Hle.
  assert (HcK : (b_cnt st < K3)%nat) by (rewrite Hc; unfold K3; destruct (j =? 0)%nat; lia).
  set (cnt := b_cnt st) in *. set (T := length xs) in *.
  assert (HFs : Forall (fun x => length x = cM c) (skipn (j * K1 + cnt) xs)).
  { rewrite <- (firstn_skipn (j * K1 + cnt) xs) in Hxs. now apply Forall_app in Hxs. }
  destruct (Nat.le_gt_cases (j * K1 + K3) T) as [Hge|Hlt].
  - (* enough samples *)
    assert (HjJ : (j < (T - K2) / K1)%nat) by (apply div_le_budget; unfold K3 in Hge; lia).
    assert (HJ : (j < J)%nat).
    { fold T. unfold nbatches. assert ((T - K2) / K1 <= (T + 1 - K2) / K1)%nat by (apply Nat.div_le_mono; lia).
      destruct He as [->|[->| ->]]; lia. }
    left. split; [assumption|].
    set (ys := firstn (K3 - cnt) (skipn (j * K1 + cnt) xs)). set (rest := skipn (K3 - cnt) (skipn (j * K1 + cnt) xs)).
    assert (Hys : length ys = (K3 - cnt)%nat) by (unfold ys; rewrite firstn_length, skipn_length; fold T; lia).
    assert (HFy : Forall (fun x => length x = cM c) ys).
    { rewrite <- (firstn_skipn (K3 - cnt) (skipn (j * K1 + cnt) xs)) in HFs. now apply Forall_app in HFs. }
    eexists. split.
    + apply (b_fill_full ys rest e); auto; try (fold cnt; lia).
      rewrite Hi. unfold ys, rest. now rewrite firstn_skipn.
    + cbn [b_cnt b_src b_iter b_ptr b_stop b_buf b_mean b_est s_items s_end]. fold cnt. repeat split; auto; try congruence.
      * rewrite Hf. unfold ys. rewrite map_dsig_seq by (fold T; lia). rewrite <- map_app. f_equal.
        replace K3 with (cnt + (K3 - cnt))%nat at 2 by lia. now rewrite seq_app.
      * unfold rest. rewrite skipn_skipn. f_equal. lia.
  - (* short *)
    set (ys := skipn (j * K1 + cnt) xs) in *.
    assert (Hys : length ys = (T - (j * K1 + cnt))%nat) by (unfold ys; now rewrite skipn_length).
    destruct (b_fill_reads ys [] e (S K3 - length ys) st) as (buf' & HL' & Hf' & Hr); auto; try (fold cnt; lia).
    { rewrite Hi. now rewrite app_nil_r. }
    fold cnt in Hf', Hr.
    replace (length ys + (S K3 - length ys))%nat with (S K3) in Hr by lia.
    set (n := (K3 - (cnt + length ys))%nat). assert (Hn : (1 <= n)%nat) by (unfold n; lia).
    assert (HT : (cnt + length ys = T - j * K1)%nat) by lia.
    assert (Hpre : firstn (cnt + length ys) buf' = map d (seq (j * K1) (cnt + length ys))).
    { rewrite Hf', Hf, seq_app, map_app. f_equal. rewrite <- (map_dsig_seq (j * K1 + cnt) (length ys)) by (fold T; lia).
      fold ys. now rewrite firstn_all. }
    assert (HJlo : ((T - K2) / K1 <= j)%nat).
    { assert ((T - K2) / K1 < S j)%nat; [|lia]. apply nbatches_spec. left. unfold K3 in Hlt. lia. }
    assert (Hjle : (j <= (T - K2) / K1)%nat).
    { destruct j as [|j']; [lia|]. apply div_le_budget. rewrite Hc in Hle. simpl in Hle. simpl. lia. }
    destruct He as [E|[E|E]].
    + (* StopIteration *)
      right. split; [fold T; rewrite E; cbn [nbatches]; lia|]. rewrite Hr.
      replace (S K3 - length ys)%nat with (S (K3 - length ys)) by lia. cbn [b_fill b_src]. unfold src_next. cbn [s_items s_end]. rewrite E.
      eexists. split; [reflexivity|]. cbn. auto.
    + (* generator RuntimeError *)
      rewrite Hr. replace (S K3 - length ys)%nat with (S (K3 - length ys)) by lia.
      rewrite b_fill_pad1 by (cbn [b_src s_items s_end b_cnt]; auto; lia). cbn [b_cnt b_src b_iter b_ptr b_stop b_buf b_mean b_est s_end].
      replace (match e with SrcGen _ => SrcObj StopIteration | SrcObj e0 => SrcObj e0 end) with (SrcObj StopIteration) by (now rewrite E).
      destruct (Nat.ltb_spec (K3 - 1) (S (cnt + length ys))) as [H1|H1].
      * assert (HJ : J = S j).
        { fold T. rewrite E. cbn [nbatches]. symmetry. apply (Nat.div_unique _ _ _ 0); [lia|]. unfold K3 in *. lia. }
        fold T in HJ. left. split; [rewrite HJ; lia|]. eexists. split; [reflexivity|].
        cbn [b_cnt b_src b_iter b_ptr b_stop b_buf b_mean b_est s_items s_end]. repeat split; auto; try congruence; try lia.
        -- rewrite <- (firstn_all2 (n := S (cnt + length ys)) (upd _ _ _)) by (rewrite upd_length; lia).
           rewrite upd_firstn_skip by lia. rewrite Hpre.
           replace K3 with (cnt + length ys + 1)%nat by lia. rewrite (seq_app (cnt + length ys) 1), map_app. f_equal.
           rewrite dsig_pad; [reflexivity|fold T; lia].
      * assert (HJ : (J <= j)%nat).
        { fold T. rewrite E. cbn [nbatches]. assert ((T + 1 - K2) / K1 < S j)%nat; [|lia].
          apply Nat.div_lt_upper_bound; [lia|]. unfold K3 in *. nia. }
        right. split; [assumption|]. replace (K3 - length ys)%nat with (S (K3 - length ys - 1)) by lia.
        cbn [b_fill b_src]. unfold src_next. cbn [s_items s_end]. eexists. split; [reflexivity|]. cbn. auto.
    + (* object RuntimeError *)
      assert (HJ : J = S j) by (fold T; rewrite E; cbn [nbatches]; lia).
      fold T in HJ. left. split; [rewrite HJ; lia|]. rewrite Hr.
      eexists. split.
      * apply (b_fill_pad (n - 1)); cbn [b_src s_items s_end b_cnt b_buf]; auto; unfold n; lia.
      * cbn [b_cnt b_src b_iter b_ptr b_stop b_buf b_mean b_est s_items s_end]. repeat split; auto; try congruence; try lia.
        rewrite Hpre. rewrite <- (dsig_pad (j * K1 + (cnt + length ys))) by (fold T; lia).
        rewrite <- map_app, <- seq_app. do 2 f_equal. unfold n; lia.
Qed.

Lemma ceil_qr q r : (r < K1)%nat -> ((q * K1 + r + K1 - 1) / K1 = if (r =? 0)%nat then q else S q)%nat.
Proof.
  intros Hr. destruct (Nat.eqb_spec r 0) as [->|Hne]; symmetry.
  - apply (Nat.div_unique _ _ _ (K1 - 1)); nia.
  - apply (Nat.div_unique _ _ _ (r - 1)); nia.
Qed.
Lemma mod_qr q r : (r < K1)%nat -> ((q * K1 + r) mod K1 = r)%nat.
Proof. intros. symmetry. apply (Nat.mod_unique _ _ q); nia. Qed.
Lemma div_qr q r : (r < K1)%nat -> ((q * K1 + r) / K1 = q)%nat.
Proof. intros. symmetry. apply (Nat.div_unique _ _ _ r); nia. Qed.
Lemma qr i : exists q r, (i = q * K1 + r /\ r < K1)%nat.
Proof. exists (i / K1)%nat, (i mod K1)%nat. split; [|apply Nat.mod_upper_bound; lia]. rewrite (Nat.div_mod i K1) at 1 by lia. lia. Qed.

Definition good (i : nat) : Prop := (i < J * K1)%nat /\ (Z.of_nat (i + 1 + i / K1) <= limit)%Z.

Lemma b_next_fuel_S fuel st : b_next_fuel c K1 K2 limit (S fuel) st =
  if (limit <? b_iter st)%Z then (Exn StopIteration, st)
  else
    let st := mkB (b_src st) (b_iter st + 1) (b_ptr st) (b_stop st) (b_buf st) (b_cnt st) (b_mean st) (b_est st) in
    if Nat.ltb (b_ptr st) K1 then
      (Ok (nth (b_ptr st) (b_est st) []),
       mkB (b_src st) (b_iter st) (S (b_ptr st)) (b_stop st) (b_buf st) (b_cnt st) (b_mean st) (b_est st))
    else if b_stop st then (Exn StopIteration, st)
    else match b_fill c K1 K2 (S K3) st with
         | (Exn e, st) => (Exn e, st)
         | (Ok _, st) =>
             match b_compute c K1 K2 st with
             | Exn e => (Exn e, st)
             | Ok st => b_next_fuel c K1 K2 limit fuel
                 (mkB (b_src st) (b_iter st) (b_ptr st - K1) (b_stop st) (b_buf st) (b_cnt st) (b_mean st) (b_est st))
             end
         end.
Proof. reflexivity. Qed.

Lemma step_inv i st : inv i st ->
  (good i -> exists st', b_next c K1 K2 limit st = (Ok (out i), st') /\ inv (S i) st')
  /\ (~ good i -> exists st', b_next c K1 K2 limit st = (Exn StopIteration, st') /\ dead st').
Proof.
  intros [Vi Vp Vb Vm Ve Vj]. unfold good. destruct (qr i) as (q & r & -> & Hr).
  rewrite ceil_qr in Vi, Vj by assumption. rewrite mod_qr in Vp by assumption. rewrite div_qr by assumption.
  cbv zeta in Vj. unfold b_next. rewrite b_next_fuel_S, Vi. cbv zeta.
  destruct (Nat.eq_dec r 0) as [Hr0|Hr0]; [subst r; cbn [Nat.eqb] in *|rewrite (proj2 (Nat.eqb_neq _ _) Hr0) in *].
  - (* a new batch is needed *)
    destruct Vj as (VJ & Vc & Vf & V0 & VK & Vo & Vs & Vt). rewrite Nat.add_0_r in *.
    destruct (Z.ltb_spec limit (Z.of_nat (q * K1 + q))) as [Hlim|Hlim].
    { split; [lia|]. intros _. eexists. split; [reflexivity|]. left. rewrite Vi. lia. }
    cbn [b_ptr b_stop]. rewrite Vp, Nat.ltb_irrefl. destruct (b_stop st) eqn:Es.
    { split; [intros [H _]; rewrite <- (Vt eq_refl) in H; lia|]. intros _. eexists. split; [reflexivity|]. right. cbn. split; [lia|auto]. }
    specialize (Vs eq_refl). destruct Vs as (S1 & S2 & S3).
    set (st1 := mkB (b_src st) (Z.of_nat (q * K1 + q) + 1) K1 false (b_buf st) (b_cnt st) (b_mean st) (b_est st)).
    destruct (fill_from_inv st1 q) as [(HjJ & st2 & Hfill & F1 & F2 & F3 & F4 & F5 & F6 & F7 & F8)|(HjJ & st2 & Hfill & F1 & F2)];
      auto.
    + rewrite Hfill.
      destruct (b_compute_spec c K1 K2 HK1 d (q * K1) st2 F4 F3) as (mean & est & Hcomp & C1 & C2 & C3 & C4 & C5).
      { rewrite F5. assumption. } { rewrite F6. assumption. } { rewrite F5. assumption. } { rewrite F5. assumption. }
      rewrite Hcomp. cbn [b_ptr b_iter b_stop b_src b_buf b_cnt b_mean b_est]. rewrite F1, F2. cbn [st1 b_iter b_ptr].
      rewrite b_next_fuel_S. cbn [b_ptr b_iter b_stop b_src b_buf b_cnt b_mean b_est].
      destruct (Z.ltb_spec limit (Z.of_nat (q * K1 + q) + 1)) as [Hlim2|Hlim2].
      { split; [lia|]. intros _. eexists. split; [reflexivity|]. left. cbn. assumption. }
      rewrite Nat.sub_diag. destruct (Nat.ltb_spec 0 K1); [|lia]. cbn [b_ptr].
      split; [|intros Hng; exfalso; apply Hng; split; [nia|lia]]. intros _.
      assert (EO : forall k, (k < K1)%nat -> nth k est [] = out (q * K1 + k)).
      { intros k Hk. rewrite C5 by assumption. unfold out. now rewrite mod_qr. }
      eexists. split.
      * f_equal. f_equal. rewrite EO by lia. now rewrite Nat.add_0_r.
      * assert (HS : ((S (q * K1) + K1 - 1) / K1 = S q)%nat).
        { symmetry. apply (Nat.div_unique _ _ _ 0); nia. }
        constructor; cbn [b_ptr b_iter b_stop b_src b_buf b_cnt b_mean b_est].
        -- rewrite HS. lia.
        -- destruct (Nat.eq_dec K1 1) as [HE|HE].
           ++ rewrite HE, Nat.mod_1_r. reflexivity.
           ++ replace (S (q * K1)) with (q * K1 + 1)%nat by lia. rewrite mod_qr by lia. reflexivity.
        -- rewrite app_length, !map_length, !seq_length. unfold K3; lia.
        -- assumption.
        -- assumption.
        -- rewrite HS. cbv zeta. split; [lia|]. split; [reflexivity|].
           replace (S q * K1)%nat with (q * K1 + K1)%nat by lia.
           split; [|split; [assumption|split; [assumption|split; [|split]]]].
           ++ rewrite firstn_app, firstn_all2 by (rewrite map_length, seq_length; lia).
              rewrite map_length, seq_length, Nat.sub_diag. cbn [firstn]. apply app_nil_r.
           ++ intros k _ Hk. rewrite EO by assumption. f_equal. lia.
           ++ intros Hs2. destruct (F7 Hs2) as (G1 & G2 & G3). repeat split; auto; [rewrite G1; f_equal|]; unfold K3 in *; lia.
           ++ intros Hs2. rewrite <- (F8 Hs2). reflexivity.
    + rewrite Hfill. split; [nia|]. intros _. eexists. split; [reflexivity|]. right. rewrite F1. cbn [st1 b_ptr]. split; [lia|assumption].
  - (* estimates available *)
    destruct Vj as (VJ & Vc & Vf & V0 & VK & Vo & Vs & Vt).
    destruct (Z.ltb_spec limit (Z.of_nat (q * K1 + r + S q))) as [Hlim|Hlim].
    { split; [lia|]. intros _. eexists. split; [reflexivity|]. left. rewrite Vi. lia. }
    cbn [b_ptr b_stop]. rewrite Vp. destruct (Nat.ltb_spec r K1); [|lia].
    split; [|intros Hng; exfalso; apply Hng; split; [nia|lia]]. intros _. eexists. split.
    + cbn [b_est]. rewrite Vo by lia. do 3 f_equal. lia.
    + assert (HS : ((S (q * K1 + r) + K1 - 1) / K1 = S q)%nat).
      { symmetry. apply (Nat.div_unique _ _ _ r); nia. }
      constructor; cbn [b_ptr b_iter b_stop b_src b_buf b_cnt b_mean b_est]; auto.
      * rewrite HS. lia.
      * destruct (Nat.eq_dec (S r) K1) as [HE|HE].
        -- replace (S (q * K1 + r)) with (S q * K1 + 0)%nat by lia. rewrite mod_qr by lia. simpl. lia.
        -- replace (S (q * K1 + r)) with (q * K1 + S r)%nat by lia. rewrite mod_qr by lia. reflexivity.
      * rewrite HS. cbv zeta. repeat split; auto; apply Vs; assumption.
Qed.

Lemma inv_init : inv 0 (b_init c K1 K2 (mkSrc xs e)).
Proof.
  assert (Z0 : ((0 + K1 - 1) / K1 = 0)%nat) by (apply Nat.div_small; lia).
  constructor; cbn [b_init b_ptr b_iter b_stop b_src b_buf b_cnt b_mean b_est]; try rewrite Z0.
  - reflexivity.
  - rewrite Nat.mod_0_l by lia. reflexivity.
  - apply repeat_length.
  - apply repeat_length.
  - apply repeat_length.
  - cbv zeta. cbn [Nat.eqb Nat.mul Nat.add firstn seq map Fd skipn s_items s_end]. repeat split; auto; try lia; try discriminate.
    + destruct (K1 + 1)%nat eqn:E; [lia|]. reflexivity.
    + replace (K1 + 1)%nat with (S K1) by lia. apply nth_repeat_lt. lia.
Qed.

Lemma good_mono i i' : (i <= i')%nat -> good i' -> good i.
Proof.
  intros Hle [H1 H2]. split; [lia|]. assert (i / K1 <= i' / K1)%nat by (apply Nat.div_le_mono; lia). lia.
Qed.

Lemma run_from : forall n i st, inv i st ->
  let rs := fst (calls (b_next c K1 K2 limit) n st) in
  length rs = n /\ forall k, (k < n)%nat ->
    (good (i + k) -> nth k rs (Exn StopIteration) = Ok (out (i + k)))
    /\ (~ good (i + k) -> nth_error rs k = Some (Exn StopIteration)).
Proof.
  induction n as [|n IH]; intros i st Hinv; cbv zeta; [split; [reflexivity|lia]|].
  cbn [calls]. destruct (step_inv i st Hinv) as [HG HB].
  assert (Hdec : good i \/ ~ good i).
  { unfold good. destruct (Nat.ltb_spec i (J * K1)); [|right; lia]. destruct (Z.leb_spec (Z.of_nat (i + 1 + i / K1)) limit); [left; auto|right; lia]. }
  destruct Hdec as [Hg|Hg].
  - destruct (HG Hg) as (st' & E & Hinv'). rewrite E. specialize (IH (S i) st' Hinv'). cbv zeta in IH.
    destruct (calls _ n st') as [rs st'']. cbn [fst] in *. destruct IH as [IL IH]. split; [cbn [length]; lia|].
    intros [|k] Hk.
    + rewrite Nat.add_0_r. cbn [nth nth_error]. split; auto. intros; contradiction.
    + specialize (IH k ltac:(lia)). rewrite Nat.add_succ_r. exact IH.
  - destruct (HB Hg) as (st' & E & Hd). rewrite E. pose proof (dead_calls n st' Hd) as HD.
    destruct (calls _ n st') as [rs st'']. cbn [fst] in *. subst rs. split; [cbn [length]; now rewrite repeat_length|].
    intros k Hk. split.
    + intros Hgk. exfalso. apply Hg. eapply good_mono; [|eassumption]. lia.
    + intros _. destruct k; [reflexivity|]. cbn [nth_error]. rewrite (nth_error_some_nth _ _ (Exn StopIteration)) by (rewrite repeat_length; lia).
      now rewrite nth_repeat.
Qed.

Lemma out_wiener n : out n = wiener c d n (K3 - n mod K1).
Proof. unfold out, wiener. now rewrite Bd_sum, Fd_sum. Qed.

Lemma batch_run n k : (k < n)%nat ->
  let rs := fst (calls (b_next c K1 K2 limit) n (b_init c K1 K2 (mkSrc xs e))) in
  (good k -> nth_error rs k = Some (Ok (wiener c d k (K1 + K2 - k mod K1))))
  /\ (~ good k -> nth_error rs k = Some (Exn StopIteration)).
Proof.
  intros Hk. cbv zeta. destruct (run_from n 0 _ inv_init) as [HL HR]. destruct (HR k Hk) as [H1 H2]. cbn [plus] in *. split; [|exact H2].
  intros Hg. rewrite (nth_error_some_nth _ _ (Exn StopIteration)) by lia. rewrite (H1 Hg). now rewrite out_wiener.
Qed.
End Batch.
End Est.
