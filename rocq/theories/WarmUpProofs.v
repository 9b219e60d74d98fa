(** Lemmas about estimator objects: what [warm_up] consumes, and replacing the iterator in the middle of a run. *)
From Coq Require Import List Lia Arith Bool ZArith.
From Verif Require Import Base LinAlg Estimators BatchProofs BatchRun FirProofs EstProps WarmUp.
Import ListNotations.

Definition is_ok {A} (r : result A) : Prop := exists v, r = Ok v.

Section Gen.
Context {St A : Type}.
Variable next : St -> result A * St.

Lemma calls_app p n st : calls next (p + n) st = (fst (calls next p st) ++ fst (calls next n (snd (calls next p st))), snd (calls next n (snd (calls next p st)))).
Proof.
  revert st. induction p as [|p IH]; intros st; cbn [Nat.add calls fst snd app]; [now destruct (calls next n st)|].
  destruct (next st) as [r st1]. rewrite (IH st1). destruct (calls next p st1) as [rs st2]. reflexivity.
Qed.
Lemma calls_length n st : length (fst (calls next n st)) = n.
Proof. revert st. induction n as [|n IH]; intros st; cbn [calls]; [reflexivity|]. destruct (next st) as [r st1]. specialize (IH st1). destruct (calls next n st1). cbn in *. lia. Qed.
Lemma calls_obj n lag st : calls (o_next next) n (mkO true lag st) = (fst (calls next n st), mkO true lag (snd (calls next n st))).
Proof.
  revert st. induction n as [|n IH]; intros st; cbn [calls]; [reflexivity|]. unfold o_next at 1. cbn [o_set o_st o_lag]. destruct (next st) as [r st1].
  rewrite IH. now destruct (calls next n st1).
Qed.
Lemma calls_nth_app p n k st : nth_error (fst (calls next (p + n) st)) (p + k) = nth_error (fst (calls next n (snd (calls next p st)))) k.
Proof. rewrite calls_app. cbn [fst]. rewrite nth_error_app2 by (rewrite calls_length; lia). rewrite calls_length. f_equal. lia. Qed.
Lemma calls_nth_pre p n k st : (k < p)%nat -> nth_error (fst (calls next (p + n) st)) k = nth_error (fst (calls next p st)) k.
Proof. intros H. rewrite calls_app. cbn [fst]. apply nth_error_app1. rewrite calls_length. exact H. Qed.

Lemma while_ok p : forall lag st, Forall is_ok (fst (calls next p st)) -> warm_while next p (mkO true lag st) = (Ok tt, mkO true (lag - Z.of_nat p) (snd (calls next p st))).
Proof.
  induction p as [|p IH]; intros lag st H; [cbn [warm_while calls snd]; do 2 f_equal; lia|]. cbn [calls warm_while] in *. unfold o_next. cbn [o_set o_st o_lag].
  destruct (next st) as [r st1]. specialize (IH (lag - 1)%Z st1). destruct (calls next p st1) as [rs st2]. cbn [fst snd] in *. inversion H as [|? ? [v ->] H2]; subst. cbn [o_set o_lag o_st].
  rewrite IH by exact H2. do 2 f_equal. lia.
Qed.
Lemma while_exn p : forall k lag st x, (k < p)%nat -> Forall is_ok (fst (calls next k st)) -> nth_error (fst (calls next p st)) k = Some (Exn x) ->
  warm_while next p (mkO true lag st) = (Exn x, mkO true (lag - Z.of_nat k) (snd (calls next (k + 1) st))).
Proof.
  induction p as [|p IH]; intros k lag st x Hk Ho Hx; [lia|]. cbn [calls warm_while] in *. unfold o_next. cbn [o_set o_st o_lag]. destruct k as [|k].
  - cbn [Nat.add calls]. destruct (next st) as [r st1]. destruct (calls next p st1) as [rs st2]. cbn in Hx. injection Hx as ->. cbn [snd]. do 2 f_equal. lia.
  - cbn [Nat.add calls] in *. destruct (next st) as [r st1]. specialize (IH k (lag - 1)%Z st1 x ltac:(lia)). destruct (calls next p st1) as [rs st2]. destruct (calls next k st1) as [rk sk].
    cbn [fst nth_error] in *. inversion Ho as [|? ? [v ->] H2]; subst. cbn [o_set o_lag o_st]. rewrite IH by assumption. destruct (calls next (k + 1) st1) as [r3 s3]. cbn [snd]. do 2 f_equal. lia.
Qed.
Lemma for_ok p : forall lag st, Forall is_ok (fst (calls next p st)) -> warm_for next p (mkO true lag st) = (Ok tt, mkO true lag (snd (calls next p st))).
Proof.
  induction p as [|p IH]; intros lag st H; [reflexivity|]. cbn [calls warm_for] in *. unfold o_next. cbn [o_set o_st o_lag].
  destruct (next st) as [r st1]. specialize (IH lag st1). destruct (calls next p st1) as [rs st2]. cbn [fst snd] in *. inversion H as [|? ? [v ->] H2]; subst. now apply IH.
Qed.
Lemma all_ok n st (out : nat -> A) : (forall k, (k < n)%nat -> nth_error (fst (calls next n st)) k = Some (Ok (out k))) -> Forall is_ok (fst (calls next n st)).
Proof.
  intros H. apply Forall_forall. intros r Hr. apply In_nth_error in Hr as (k & Hk). assert (Lk : (k < n)%nat).
  { rewrite <- (calls_length n st). apply nth_error_Some. congruence. }
  rewrite H in Hk by exact Lk. injection Hk as <-. now eexists.
Qed.
(** [samples <= 0] discards one output per unit of lag *)
Lemma warm_ok lag st : Forall is_ok (fst (calls next (Z.to_nat lag) st)) -> forall s, (s <= 0)%Z ->
  warm_up next s (mkO true lag st) = (Ok tt, mkO true (Z.min 0 lag) (snd (calls next (Z.to_nat lag) st))).
Proof.
  intros H s Hs. unfold warm_up. destruct (Z.ltb_spec 0 s); [lia|]. cbn [o_lag]. rewrite while_ok by exact H. do 2 f_equal. lia.
Qed.
Lemma warm_samples lag st s : (0 < s)%Z -> Forall is_ok (fst (calls next (Z.to_nat s) st)) ->
  warm_up next s (mkO true lag st) = (Ok tt, mkO true lag (snd (calls next (Z.to_nat s) st))).
Proof. intros Hs H. unfold warm_up. destruct (Z.ltb_spec 0 s); [|lia]. now apply for_ok. Qed.
Lemma warm_exn lag st k x s : (s <= 0)%Z -> (k < Z.to_nat lag)%nat -> Forall is_ok (fst (calls next k st)) -> nth_error (fst (calls next (k + 1) st)) k = Some (Exn x) ->
  warm_up next s (mkO true lag st) = (Exn x, mkO true (lag - Z.of_nat k) (snd (calls next (k + 1) st))).
Proof.
  intros Hs Hk Ho Hx. unfold warm_up. destruct (Z.ltb_spec 0 s); [lia|]. cbn [o_lag]. apply while_exn; auto.
  replace (Z.to_nat lag) with ((k + 1) + (Z.to_nat lag - (k + 1)))%nat by lia. rewrite calls_nth_pre by lia. exact Hx.
Qed.
(** an object that is warm stays as it is *)
Lemma while_lag p : forall o o', warm_while next p o = (Ok tt, o') -> o_lag o' = (o_lag o - Z.of_nat p)%Z.
Proof.
  induction p as [|p IH]; intros o o' H; cbn [warm_while] in H; [injection H as <-; lia|]. unfold o_next in H. destruct (o_set o); [|discriminate].
  destruct (next (o_st o)) as [[v|x] st]; [|discriminate]. cbn [o_set o_lag o_st] in H. apply IH in H. cbn [o_lag] in H. lia.
Qed.
Lemma warm_again o o' s s' : (s <= 0)%Z -> (s' <= 0)%Z -> warm_up next s o = (Ok tt, o') -> (o_lag o' <= 0)%Z /\ warm_up next s' o' = (Ok tt, o').
Proof.
  intros Hs Hs' H. unfold warm_up in H. destruct (Z.ltb_spec 0 s); [lia|]. apply while_lag in H. assert (L : (o_lag o' <= 0)%Z) by lia. split; [exact L|].
  unfold warm_up. destruct (Z.ltb_spec 0 s'); [lia|]. now replace (Z.to_nat (o_lag o')) with O by lia.
Qed.

(** *** replacing the rest of the source *)
Variable ext : St -> St.
Variable clean : St -> Prop.
Hypothesis EXT : forall st v st', clean st -> next st = (Ok v, st') -> clean st' /\ next (ext st) = (Ok v, ext st').
Lemma calls_ext n : forall st, clean st -> Forall is_ok (fst (calls next n st)) -> clean (snd (calls next n st)) /\ calls next n (ext st) = (fst (calls next n st), ext (snd (calls next n st))).
Proof.
  induction n as [|n IH]; intros st Hc Ho; [now split|]. cbn [calls] in *. destruct (next st) as [r st1] eqn:E. specialize (IH st1). destruct (calls next n st1) as [rs st2]. cbn [fst snd] in *.
  inversion Ho as [|? ? [v ->] H2]; subst. destruct (EXT st v st1 Hc E) as [C1 E1]. destruct (IH C1 H2) as [C2 E2]. split; [exact C2|]. rewrite E1, E2. reflexivity.
Qed.
End Gen.

(** an invariant that good steps keep holds after n good steps *)
Lemma run_inv {St A} (next : St -> result A * St) (inv : nat -> St -> Prop) (good : nat -> Prop) :
  (forall i st, inv i st -> good i -> exists v st', next st = (Ok v, st') /\ inv (S i) st') ->
  forall n i st, inv i st -> (forall k, (k < n)%nat -> good (i + k)%nat) -> Forall is_ok (fst (calls next n st)) /\ inv (i + n)%nat (snd (calls next n st)).
Proof.
  intros Hs. induction n as [|n IH]; intros i st Hi Hg; [cbn; rewrite Nat.add_0_r; split; [constructor|exact Hi]|].
  destruct (Hs i st Hi) as (v & st' & E & Hi'); [specialize (Hg O ltac:(lia)); now rewrite Nat.add_0_r in Hg|].
  destruct (IH (S i) st' Hi') as [F1 F2]; [intros k Hk; replace (S i + k)%nat with (i + S k)%nat by lia; apply Hg; lia|].
  cbn [calls]. rewrite E. destruct (calls next n st') as [rs st2]. cbn [fst snd] in *. split; [constructor; [now exists v|exact F1]|]. now replace (i + S n)%nat with (S i + n)%nat by lia.
Qed.

Section Src.
Context {K : cring}.
Notation vec := (list K).
Definition e0 : src_end := SrcObj StopIteration.
Definition ext_src (r : list vec) (e : src_end) (s : @source K) : @source K := mkSrc (s_items s ++ r) e.

Lemma src_ext r e (s s' : @source K) x : s_end s = e0 -> src_next s = (Ok x, s') -> s_end s' = e0 /\ src_next (ext_src r e s) = (Ok x, ext_src r e s').
Proof.
  intros He H. destruct s as [[|y l] en]; cbn in *; subst en; [discriminate|]. injection H as <- <-. split; reflexivity.
Qed.

(** FIR *)
Definition ext_f r e (st : @fst_ K) := mkF (ext_src r e (f_src st)) (f_iter st) (f_buf st).
Lemma f_read_ext M n r e : forall (s s' : @source K) rs, s_end s = e0 -> f_read M n s = (Ok rs, s') -> s_end s' = e0 /\ f_read M n (ext_src r e s) = (Ok rs, ext_src r e s').
Proof.
  induction n as [|n IH]; intros s s' rs He H; cbn [f_read] in *; [injection H as <- <-; split; [exact He|reflexivity]|].
  destruct (src_next s) as [[x|] s1] eqn:E; [|discriminate]. destruct (src_ext r e s s1 x He E) as [H1 H2]. rewrite H2. destruct (row M (pm1 x)) as [y|]; [|discriminate].
  destruct (f_read M n s1) as [[ys|] s2] eqn:E2; [|discriminate]. injection H as <- <-. destruct (IH s1 s2 ys H1 E2) as [H3 H4]. rewrite H4. split; [exact H3|reflexivity].
Qed.
Lemma f_ext K3 M L ds h offset limit r e st v st' : s_end (f_src st) = e0 -> f_next K3 M L ds h offset limit st = (Ok v, st') ->
  s_end (f_src st') = e0 /\ f_next K3 M L ds h offset limit (ext_f r e st) = (Ok v, ext_f r e st').
Proof.
  intros He H. unfold f_next in *. cbn [ext_f f_src f_iter f_buf]. destruct (_ && _)%bool; [discriminate|].
  destruct (f_read M ds (f_src st)) as [[t|x] s1] eqn:E.
  - destruct (f_read_ext M ds r e _ _ _ He E) as [H1 H2]. rewrite H2. destruct (Nat.ltb K3 ds); [discriminate|]. injection H as <- <-. split; [exact H1|reflexivity].
  - destruct x; discriminate.
Qed.
(** IIR *)
Definition ext_i r e (st : @ist K) := mkI (ext_src r e (i_src st)) (i_iter st) (i_buf st) (i_mean st).
Lemma i_ext c K2 ds limit r e fuel : forall st v st', s_end (i_src st) = e0 -> i_next_fuel c K2 ds limit fuel st = (Ok v, st') ->
  s_end (i_src st') = e0 /\ i_next_fuel c K2 ds limit fuel (ext_i r e st) = (Ok v, ext_i r e st').
Proof.
  induction fuel as [|fuel IH]; intros st v st' He H; cbn [i_next_fuel] in *; [discriminate|]. cbn [ext_i i_src i_iter i_buf i_mean]. destruct (_ && _)%bool; [discriminate|].
  destruct (src_next (i_src st)) as [[x|x] s1] eqn:E; [|destruct x; discriminate]. destruct (src_ext r e _ _ _ He E) as [H1 H2]. rewrite H2.
  destruct (length (roll 1 (i_buf st))) as [|last]; [discriminate|]. destruct (row (cM c) (pm1 x)) as [w|]; [|discriminate]. destruct (Nat.eqb ds 0); [discriminate|].
  destruct (_ =? 0)%Z; [injection H as <- <-; split; [exact H1|reflexivity]|]. apply IH in H; [|exact H1]. exact H.
Qed.
(** batch *)
Definition ext_b r e (st : @bst K) := mkB (ext_src r e (b_src st)) (b_iter st) (b_ptr st) (b_stop st) (b_buf st) (b_cnt st) (b_mean st) (b_est st).
Definition clean_b (st : @bst K) : Prop := s_end (b_src st) = e0 /\ b_stop st = false.
Lemma b_input_ext c K1 K2 r e st x : b_input c K1 K2 (ext_b r e st) x = match b_input c K1 K2 st x with Ok (f, st') => Ok (f, ext_b r e st') | Exn y => Exn y end.
Proof. unfold b_input. cbn [ext_b b_cnt]. destruct (Nat.eqb _ _); [reflexivity|]. destruct (row (cM c) (pm1 x)); reflexivity. Qed.
Lemma b_input_clean c K1 K2 st x f st' : clean_b st -> b_input c K1 K2 st x = Ok (f, st') -> clean_b st'.
Proof. intros H E. unfold b_input in E. destruct (Nat.eqb _ _); [discriminate|]. destruct (row (cM c) (pm1 x)); [|discriminate]. cbn [bind] in E. injection E as <- <-. exact H. Qed.
Lemma b_fill_ext c K1 K2 r e fuel : forall st st', clean_b st -> b_fill c K1 K2 fuel st = (Ok tt, st') -> clean_b st' /\ b_fill c K1 K2 fuel (ext_b r e st) = (Ok tt, ext_b r e st').
Proof.
  induction fuel as [|fuel IH]; intros st st' [He Hb] H; cbn [b_fill] in *; [discriminate|]. cbn [ext_b b_src].
  destruct (src_next (b_src st)) as [[x|x] s1] eqn:E.
  - destruct (src_ext r e _ _ _ He E) as [H1 H2]. rewrite H2. cbn [ext_b b_iter b_ptr b_stop b_buf b_cnt b_mean b_est].
    set (st1 := mkB s1 (b_iter st) (b_ptr st) (b_stop st) (b_buf st) (b_cnt st) (b_mean st) (b_est st)) in *.
    change (mkB (ext_src r e s1) (b_iter st) (b_ptr st) (b_stop st) (b_buf st) (b_cnt st) (b_mean st) (b_est st)) with (ext_b r e st1). rewrite b_input_ext.
    destruct (b_input c K1 K2 st1 x) as [[f st2]|y] eqn:E2; [|discriminate]. assert (C2 : clean_b st2) by (eapply b_input_clean; [|exact E2]; split; [exact H1|exact Hb]).
    destruct f; [injection H as <-; split; [exact C2|reflexivity]|]. apply IH; assumption.
  - destruct (b_src st) as [l en]. cbn in He. subst en. destruct l; [|discriminate]. injection E as <- _. discriminate.
Qed.
Lemma b_compute_ext c K1 K2 r e st st' : b_compute c K1 K2 st = Ok st' -> b_compute c K1 K2 (ext_b r e st) = Ok (ext_b r e st') /\ b_src st' = b_src st /\ b_stop st' = b_stop st.
Proof.
  intros H. unfold b_compute in *. cbn [ext_b b_cnt b_buf b_mean b_est]. destruct (Nat.ltb _ _); [discriminate|]. destruct (b_forward _ _ _ _) as [m2 tf]. destruct (b_backward _ _ _ _ _) as [m3 es].
  injection H as <-. repeat split; reflexivity.
Qed.
Lemma b_ext c K1 K2 limit r e fuel : forall st v st', clean_b st -> b_next_fuel c K1 K2 limit fuel st = (Ok v, st') ->
  clean_b st' /\ b_next_fuel c K1 K2 limit fuel (ext_b r e st) = (Ok v, ext_b r e st').
Proof.
  induction fuel as [|fuel IH]; intros st v st' Hc H; [discriminate|]. rewrite b_next_fuel_S in *. cbn [ext_b b_iter]. destruct (_ <? _)%Z; [discriminate|].
  cbv zeta in *. cbn [ext_b b_ptr b_src b_iter b_stop b_buf b_cnt b_mean b_est] in *. destruct (Nat.ltb (b_ptr st) K1); [injection H as <- <-; split; [exact Hc|reflexivity]|].
  destruct Hc as [He Hb]. rewrite Hb in *.
  set (st1 := mkB (b_src st) (b_iter st + 1) (b_ptr st) false (b_buf st) (b_cnt st) (b_mean st) (b_est st)) in *.
  change (mkB (ext_src r e (b_src st)) (b_iter st + 1) (b_ptr st) false (b_buf st) (b_cnt st) (b_mean st) (b_est st)) with (ext_b r e st1).
  destruct (b_fill c K1 K2 (S (K1 + K2)) st1) as [[[]|y] st2] eqn:E; [|discriminate].
  assert (C1 : clean_b st1) by (split; [exact He|reflexivity]). destruct (b_fill_ext c K1 K2 r e _ _ _ C1 E) as [[C2 D2] E2]. rewrite E2.
  destruct (b_compute c K1 K2 st2) as [st3|] eqn:E3; [|discriminate]. destruct (b_compute_ext c K1 K2 r e _ _ E3) as (E4 & Q1 & Q2). rewrite E4.
  apply IH in H; [exact H|]. split; cbn [b_src b_stop]; congruence.
Qed.

Lemma ok0 : e0 = SrcObj StopIteration \/ e0 = SrcGen RuntimeError \/ e0 = SrcObj RuntimeError. Proof. now left. Qed.

(** *** replacing an iterator that was read exactly to its end *)
Lemma f_switch (c : @coef K) K1 K2 ds h offset limit (pre ys : list vec) e i :
  Forall (fun x => length x = cM c) pre -> (1 <= ds <= K1 + K2)%nat -> length pre = (i * ds)%nat -> (limit = 0 \/ Z.of_nat (i * ds) <= limit)%Z ->
  let next := f_next (K1 + K2) (cM c) (cL c) ds h offset limit in
  let q := snd (calls next i (f_init (K1 + K2) (cM c) (mkSrc pre e0))) in
  calls next i (f_init (K1 + K2) (cM c) (mkSrc (pre ++ ys) e))
  = (fst (calls next i (f_init (K1 + K2) (cM c) (mkSrc pre e0))), mkF (mkSrc ys e) (f_iter q) (f_buf q))
  /\ Forall is_ok (fst (calls next i (f_init (K1 + K2) (cM c) (mkSrc pre e0)))).
Proof.
  intros Hp Hd Hl Hm. cbv zeta. set (next := f_next (K1 + K2) (cM c) (cL c) ds h offset limit).
  destruct (run_inv next (finv (K1 + K2) (cM c) ds pre e0) (fgood ds limit pre)) with (n := i) (i := O) (st := f_init (K1 + K2) (cM c) (mkSrc pre e0)) as [F1 F2].
  - intros j st Hj Hg. destruct (f_step (K1 + K2) (cM c) (cL c) ds Hd h offset limit pre Hp e0 ok0 j st Hj) as [H _]. destruct (H Hg) as (st' & E & I). eauto.
  - apply finv_init; auto.
  - intros k Hk. unfold fgood. cbn [Nat.add]. nia.
  - cbn [Nat.add] in F2. destruct F2 as [Vs _ _ _].
    destruct (calls_ext next (ext_f ys e) (fun st => s_end (f_src st) = e0)) with (n := i) (st := f_init (K1 + K2) (cM c) (mkSrc pre e0)) as [_ E]; [intros; now apply f_ext|reflexivity|exact F1|].
    split; [|exact F1]. change (ext_f ys e (f_init (K1 + K2) (cM c) (mkSrc pre e0))) with (f_init (K1 + K2) (cM c) (mkSrc (pre ++ ys) e)) in E.
    etransitivity; [exact E|]. f_equal. unfold ext_f. f_equal. unfold ext_src. rewrite Vs. cbn [s_items]. rewrite skipn_all2 by lia. reflexivity.
Qed.
Lemma i_switch (c : @coef K) K2 ds limit (pre ys : list vec) e i :
  Forall (fun x => length x = cM c) pre -> (1 <= K2)%nat -> (1 <= ds)%nat -> length pre = nread ds i -> (limit = 0 \/ Z.of_nat (nread ds i) <= limit)%Z ->
  let next := i_next c K2 ds limit in
  let q := snd (calls next i (i_init c K2 (mkSrc pre e0))) in
  calls next i (i_init c K2 (mkSrc (pre ++ ys) e))
  = (fst (calls next i (i_init c K2 (mkSrc pre e0))), mkI (mkSrc ys e) (i_iter q) (i_buf q) (i_mean q))
  /\ Forall is_ok (fst (calls next i (i_init c K2 (mkSrc pre e0)))).
Proof.
  intros Hp HK Hd Hl Hm. cbv zeta. set (next := i_next c K2 ds limit).
  destruct (run_inv next (fun j => iinv c K2 pre e0 (nread ds j)) (fun j => can_read limit pre (j * ds))) with (n := i) (i := O) (st := i_init c K2 (mkSrc pre e0)) as [F1 F2].
  - intros j st Hj Hg. unfold next, i_next.
    assert (HS : exists m, (m < S ds)%nat /\ (nread ds j + m = j * ds)%nat /\ (forall i, (i < m)%nat -> ((nread ds j + i) mod ds <> 0)%nat)).
    { destruct j as [|j].
      - exists 0%nat. cbn [nread]. repeat split; lia.
      - exists (ds - 1)%nat. cbn [nread]. split; [lia|]. split; [lia|]. intros i' Hi'.
        replace (S (j * ds) + i')%nat with ((S i') + j * ds)%nat by lia. rewrite Nat.mod_add by lia. rewrite Nat.mod_small by lia. lia. }
    destruct HS as (m & Hm' & Hjm & Hnz).
    destruct (i_skip c K2 ds HK Hd limit pre Hp e0 ok0 m (S ds) (nread ds j) st Hj Hm') as [H _]; auto.
    { rewrite Hjm. apply Nat.mod_mul. lia. }
    rewrite Hjm in H. destruct (H Hg) as (st' & E & I). exists (iout c K2 pre (j * ds)), st'. split; [exact E|]. exact I.
  - now apply (iinv_init c K2 ds).
  - intros k Hk. unfold can_read. cbn [Nat.add]. destruct i as [|i]; [lia|]. cbn [nread] in *. assert (k * ds <= i * ds)%nat by (apply Nat.mul_le_mono_r; lia). lia.
  - cbn [Nat.add] in F2. destruct F2 as [Vs _ _ _ _].
    destruct (calls_ext next (ext_i ys e) (fun st => s_end (i_src st) = e0)) with (n := i) (st := i_init c K2 (mkSrc pre e0)) as [_ E]; [intros; now apply i_ext|reflexivity|exact F1|].
    split; [|exact F1]. change (ext_i ys e (i_init c K2 (mkSrc pre e0))) with (i_init c K2 (mkSrc (pre ++ ys) e)) in E.
    etransitivity; [exact E|]. f_equal. unfold ext_i. f_equal. unfold ext_src. rewrite Vs. cbn [s_items]. rewrite skipn_all2 by lia. reflexivity.
Qed.
Lemma b_switch (c : @coef K) K1 K2 limit (pre ys : list vec) e i :
  Forall (fun x => length x = cM c) pre -> (1 <= K1)%nat -> (1 <= i)%nat -> length pre = (((i - 1) / K1 + 1) * K1 + K2)%nat -> (Z.of_nat (i + (i - 1) / K1) <= limit)%Z ->
  let next := b_next c K1 K2 limit in
  let q := snd (calls next i (b_init c K1 K2 (mkSrc pre e0))) in
  calls next i (b_init c K1 K2 (mkSrc (pre ++ ys) e))
  = (fst (calls next i (b_init c K1 K2 (mkSrc pre e0))), mkB (mkSrc ys e) (b_iter q) (b_ptr q) (b_stop q) (b_buf q) (b_cnt q) (b_mean q) (b_est q))
  /\ Forall is_ok (fst (calls next i (b_init c K1 K2 (mkSrc pre e0)))).
Proof.
  intros Hp HK Hi Hl Hm. cbv zeta. set (next := b_next c K1 K2 limit).
  assert (HJ : nbatches K1 K2 (length pre) e0 = ((i - 1) / K1 + 1)%nat) by (cbn [nbatches e0]; rewrite Hl, Nat.add_sub; apply Nat.div_mul; lia).
  destruct (run_inv next (inv c K1 K2 pre e0) (good K1 K2 limit pre e0)) with (n := i) (i := O) (st := b_init c K1 K2 (mkSrc pre e0)) as [F1 F2].
  - intros j st Hj Hg. destruct (step_inv c K1 K2 HK limit pre Hp e0 ok0 j st Hj) as [H _]. destruct (H Hg) as (st' & E & I). eauto.
  - apply inv_init; auto.
  - intros k Hk. unfold good. rewrite HJ. cbn [Nat.add]. pose proof (Nat.div_mod (i - 1) K1 ltac:(lia)). pose proof (Nat.mod_upper_bound (i - 1) K1 ltac:(lia)).
    assert (k / K1 <= (i - 1) / K1)%nat by (apply Nat.div_le_mono; lia). split; [nia|lia].
  - cbn [Nat.add] in F2. destruct F2 as [_ _ _ _ _ Vj]. cbv zeta in Vj. destruct Vj as (_ & Vc & _ & _ & _ & _ & Vs & _).
    destruct (calls_ext next (ext_b ys e) clean_b) with (n := i) (st := b_init c K1 K2 (mkSrc pre e0)) as [[C1 C2] E]; [intros; now apply b_ext|split; reflexivity|exact F1|].
    split; [|exact F1]. change (ext_b ys e (b_init c K1 K2 (mkSrc pre e0))) with (b_init c K1 K2 (mkSrc (pre ++ ys) e)) in E.
    etransitivity; [exact E|]. f_equal. unfold ext_b. f_equal. unfold ext_src. destruct (Vs C2) as [Vi _]. rewrite Vi, skipn_all2; [reflexivity|].
    rewrite Vc, Hl. replace (i + K1 - 1)%nat with (i - 1 + 1 * K1)%nat by lia. rewrite Nat.div_add by lia. destruct (Nat.eqb_spec ((i - 1) / K1 + 1) 0); lia.
Qed.

Lemma switch_skip {St A} (next : St -> result A * St) i n st0 st1 q : calls next i st1 = (fst (calls next i st0), q) ->
  fst (calls next n q) = skipn i (fst (calls next (i + n) st1)).
Proof. intros E. rewrite calls_app, E. cbn [fst snd]. rewrite skipn_app, calls_length, Nat.sub_diag, skipn_all2 by (rewrite calls_length; lia). reflexivity. Qed.
End Src.

Section Stopped.
Context {K : cring}.
Notation vec := (list K).
(** a batch estimator whose iterator ended with RuntimeError has [_stop_iteration] set for good *)
Lemma b_stopped_next (c : @coef K) K1 K2 limit st : b_stop st = true -> b_ptr st = K1 -> exists st', b_next c K1 K2 limit st = (Exn StopIteration, st') /\ b_stop st' = true /\ b_ptr st' = K1.
Proof.
  intros H1 H2. unfold b_next. rewrite b_next_fuel_S. destruct (_ <? _)%Z; [eauto|]. cbv zeta. cbn [b_ptr b_stop]. rewrite H1, H2, Nat.ltb_irrefl. eexists. repeat split; assumption.
Qed.
Lemma b_stopped (c : @coef K) K1 K2 limit n : forall st, b_stop st = true -> b_ptr st = K1 -> fst (calls (b_next c K1 K2 limit) n st) = repeat (Exn StopIteration) n.
Proof.
  induction n as [|n IH]; intros st H1 H2; [reflexivity|]. destruct (b_stopped_next c K1 K2 limit st H1 H2) as (st' & E & H3 & H4). cbn [calls repeat]. rewrite E.
  specialize (IH st' H3 H4). destruct (calls _ n st') as [rs q]. cbn [fst] in *. now rewrite IH.
Qed.
Lemma b_ends_stopped (c : @coef K) K1 K2 limit (xs : list vec) : (1 <= K1)%nat -> Forall (fun x => length x = cM c) xs ->
  let J := ((length xs - K2) / K1 + 1)%nat in (Z.of_nat (J * K1 + J) <= limit)%Z ->
  let q := calls (b_next c K1 K2 limit) (J * K1) (b_init c K1 K2 (mkSrc xs (SrcObj RuntimeError))) in
  Forall is_ok (fst q) /\ b_stop (snd q) = true /\ b_ptr (snd q) = K1.
Proof.
  intros HK Hxs J Hl q. set (e := SrcObj RuntimeError) in *. assert (He : e = SrcObj StopIteration \/ e = SrcGen RuntimeError \/ e = SrcObj RuntimeError) by (right; now right).
  destruct (run_inv (b_next c K1 K2 limit) (inv c K1 K2 xs e) (good K1 K2 limit xs e)) with (n := (J * K1)%nat) (i := O) (st := b_init c K1 K2 (mkSrc xs e)) as [F1 F2].
  - intros j st Hj Hg. destruct (step_inv c K1 K2 HK limit xs Hxs e He j st Hj) as [H _]. destruct (H Hg) as (st' & E & I). eauto.
  - apply inv_init; auto.
  - intros k Hk. unfold good. cbn [nbatches e]. fold J. cbn [Nat.add]. split; [exact Hk|]. assert (k / K1 < J)%nat by (apply Nat.div_lt_upper_bound; lia). lia.
  - fold q in F1, F2. split; [exact F1|]. cbn [Nat.add] in F2. destruct F2 as [_ Vp _ _ _ Vj]. cbv zeta in Vj. destruct Vj as (_ & Vc & _ & _ & _ & _ & Vs & _).
    rewrite Nat.mod_mul in Vp by lia. split; [|exact Vp]. destruct (b_stop (snd q)) eqn:Eb; [reflexivity|]. exfalso. destruct (Vs eq_refl) as (_ & _ & H).
    replace ((J * K1 + K1 - 1) / K1)%nat with J in H, Vc by (apply (Nat.div_unique _ _ _ (K1 - 1)); lia). rewrite Vc in H. destruct (Nat.eqb_spec J 0); [unfold J in *; lia|].
    pose proof (Nat.div_mod (length xs - K2) K1 ltac:(lia)). pose proof (Nat.mod_upper_bound (length xs - K2) K1 ltac:(lia)). unfold J in *. nia.
Qed.
End Stopped.
