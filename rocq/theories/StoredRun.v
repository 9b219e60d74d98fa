(** Estimating from stored control signals: the decoded generator (byte codec, ByteCodec.v / UrlReader.v) handed to an estimator
    (Estimators.v).  A file ends in struct.error, a url in RuntimeError (C03, C121); the estimators treat the two differently. *)
From Coq Require Import List Lia Arith Bool ZArith.
From Verif Require Import Base LinAlg Estimators.
Import ListNotations.

(** utilities.py:82-122 [byte_stream_2_control_signal] is a generator function; the estimators keep it and call [next] on it
    (batch_estimator.py:337-342, 366-372; fir_estimator.py:232-236; iir_estimator.py:182-186).  A generator that ran into an
    exception raises it once and StopIteration from then on.  [inj] turns a decoded bit into a number of the carrier. *)
Definition generator_source {K : cring} (inj : Z -> K) (s : stream (list Z)) : @source K :=
  mkSrc (map (map inj) (items s)) (match sending s with EndStop => SrcObj StopIteration | EndExn e => SrcGen e end).

(** *** Two runs of the same machine, one of which sees another exception at the end of its source *)
Section Sim.
Context {T A : Type} (next : T -> result A * T) (R : nat -> T -> T -> Prop) (x : exn) (n : nat).
Hypothesis step : forall i s s', (i < n)%nat -> R i s s' ->
  (exists r t t', next s = (r, t) /\ next s' = (r, t') /\ r <> Exn StopIteration /\ R (S i) t t') \/
  (exists t, next s = (Exn x, t) /\ next s' = (Exn StopIteration, t)).

Lemma sim_run : forall m i s s', (i + m <= n)%nat -> R i s s' -> forall J,
  (forall k, (k < m)%nat -> (k < J)%nat -> nth_error (fst (calls next m s')) k <> Some (Exn StopIteration)) ->
  (forall k, (k < m)%nat -> (J <= k)%nat -> nth_error (fst (calls next m s')) k = Some (Exn StopIteration)) ->
  forall k, (k < m)%nat -> nth_error (fst (calls next m s)) k = (if Nat.eqb k J then Some (Exn x) else nth_error (fst (calls next m s')) k).
Proof.
  induction m as [|m IH]; intros i s s' Hi HR J HG HB k Hk; [lia|].
  destruct (step i s s' ltac:(lia) HR) as [(r & t & t' & E1 & E2 & Hr & HR')|(t & E1 & E2)].
  - cbn [calls] in *. rewrite E1. rewrite E2 in *. destruct J as [|J].
    { exfalso. apply Hr. specialize (HB 0%nat ltac:(lia) ltac:(lia)). destruct (calls next m t') as [q u]. cbn in HB. now inversion HB. }
    specialize (IH (S i) t t' ltac:(lia) HR' J).
    destruct (calls next m t) as [rs u]. destruct (calls next m t') as [rs' u']. cbn [fst] in *.
    destruct k as [|k]; [reflexivity|]. cbn [nth_error Nat.eqb]. apply IH; [| |lia].
    + intros q Hq HJ. exact (HG (S q) ltac:(lia) ltac:(lia)).
    + intros q Hq HJ. exact (HB (S q) ltac:(lia) ltac:(lia)).
  - cbn [calls] in *. rewrite E1. rewrite E2 in *. destruct J as [|J].
    + destruct (calls next m t) as [rs u]. cbn [fst]. destruct k; reflexivity.
    + exfalso. apply (HG 0%nat ltac:(lia) ltac:(lia)). destruct (calls next m t). reflexivity.
Qed.
End Sim.

(** Two runs that never differ. *)
Section Same.
Context {T A : Type} (next : T -> A * T) (R : T -> T -> Prop).
Hypothesis step : forall s s', R s s' -> exists r t t', next s = (r, t) /\ next s' = (r, t') /\ R t t'.
Lemma same_run : forall m s s', R s s' -> fst (calls next m s) = fst (calls next m s').
Proof.
  induction m as [|m IH]; intros s s' HR; [reflexivity|]. destruct (step s s' HR) as (r & t & t' & E1 & E2 & HR').
  cbn [calls]. rewrite E1, E2. specialize (IH t t' HR'). destruct (calls next m t), (calls next m t'). cbn [fst] in *. now rewrite IH.
Qed.
End Same.

Section Est.
Context {K : cring}.
Variable x : exn.
Hypothesis Hx : x <> RuntimeError.
Notation stopped := (@mkSrc K [] (SrcObj StopIteration)).

(** *** Sources *)
Definition srcR (s s' : @source K) : Prop := exists xs, s = mkSrc xs (SrcGen x) /\ s' = mkSrc xs (SrcObj StopIteration).
Lemma srcR_next s s' : srcR s s' ->
  (exists v t t', src_next s = (Ok v, t) /\ src_next s' = (Ok v, t') /\ srcR t t' /\ s_items s = v :: s_items t) \/
  (s_items s = [] /\ src_next s = (Exn x, stopped) /\ src_next s' = (Exn StopIteration, stopped)).
Proof.
  intros (xs & -> & ->). destruct xs as [|v xs]; [right; repeat split|]. left. exists v, (mkSrc xs (SrcGen x)), (mkSrc xs (SrcObj StopIteration)). repeat split. now exists xs.
Qed.

Lemma row_value (v : list K) e M : row M v = Exn e -> e = ValueError.
Proof. unfold row. destruct (Nat.eqb _ _); [discriminate|]. destruct v as [|a [|b v]]; try discriminate; congruence. Qed.
Lemma row_exn (v : list K) e M : row M v = Exn e -> e <> StopIteration.
Proof. intros H ->. apply row_value in H. discriminate. Qed.

Ltac same := left; do 3 eexists; split; [reflexivity|]; split; [reflexivity|].

(** *** Batch *)
Section Batch.
Variable c : @coef K.
Variables K1 K2 : nat.
Hypothesis HK1 : (1 <= K1)%nat.
Variable limit : Z.

Definition setsrc (s : @source K) (st : @bst K) : @bst K := mkB s (b_iter st) (b_ptr st) (b_stop st) (b_buf st) (b_cnt st) (b_mean st) (b_est st).
Definition bR (st st' : @bst K) : Prop := b_stop st = false /\ srcR (b_src st) (b_src st') /\ st' = setsrc (b_src st') st.

Lemma bR_mk s s' it p buf cnt mean est : srcR s s' -> bR (mkB s it p false buf cnt mean est) (mkB s' it p false buf cnt mean est).
Proof. intros H. now repeat split. Qed.
Lemma bR_inv st st' : bR st st' -> exists s s' it p buf cnt mean est,
  st = mkB s it p false buf cnt mean est /\ st' = mkB s' it p false buf cnt mean est /\ srcR s s'.
Proof. destruct st as [s it p sp buf cnt mean est]. intros (Hs & HS & E). cbn in Hs, HS. subst sp. rewrite E. unfold setsrc. cbn. now do 8 eexists. Qed.


Lemma fill_sim : forall fuel st st', bR st st' ->
  (exists r t t', b_fill c K1 K2 fuel st = (r, t) /\ b_fill c K1 K2 fuel st' = (r, t') /\ r <> Exn StopIteration /\ bR t t' /\ b_iter t = b_iter st) \/
  (exists t, b_fill c K1 K2 fuel st = (Exn x, t) /\ b_fill c K1 K2 fuel st' = (Exn StopIteration, t)).
Proof.
  induction fuel as [|fuel IH]; intros st st' HR.
  - same. repeat split; try apply HR. discriminate.
  - destruct (bR_inv _ _ HR) as (s & s' & it & p & buf & cnt & mean & est & -> & -> & HS). clear HR.
    cbn [b_fill b_src b_iter b_ptr b_stop b_buf b_cnt b_mean b_est].
    destruct (srcR_next s s' HS) as [(v & t & t' & E1 & E2 & HR & _)|(_ & E1 & E2)]; rewrite E1, E2.
    + unfold b_input. cbn [b_cnt b_src b_iter b_ptr b_stop b_buf b_mean b_est]. destruct (Nat.eqb cnt (K1 + K2)).
      { same. split; [discriminate|]. split; [now apply bR_mk|reflexivity]. }
      destruct (row (cM c) (pm1 v)) as [w|e] eqn:Ew; cbn [bind].
      * destruct (Nat.ltb _ _).
        { same. split; [discriminate|]. split; [now apply bR_mk|reflexivity]. }
        eassert (HR' := bR_mk t t' it p _ _ mean est HR). destruct (IH _ _ HR') as [(r & u & u' & F1 & F2 & F3 & F4 & F5)|H]; [|right; exact H].
        left. exists r, u, u'. repeat split; try assumption; apply F4.
      * same. split; [|split; [now apply bR_mk|reflexivity]]. intros [= ->]. now apply row_exn in Ew.
    + right. destruct x; try (eexists; split; reflexivity). now destruct Hx.
Qed.

Lemma compute_sim st st' : bR st st' ->
  (exists e, b_compute c K1 K2 st = Exn e /\ b_compute c K1 K2 st' = Exn e /\ e <> StopIteration) \/
  (exists t t', b_compute c K1 K2 st = Ok t /\ b_compute c K1 K2 st' = Ok t' /\ bR t t' /\ b_iter t = b_iter st).
Proof.
  intros HR. destruct (bR_inv _ _ HR) as (s & s' & it & p & buf & cnt & mean & est & -> & -> & HS). clear HR.
  unfold b_compute. cbn [b_cnt b_src b_iter b_ptr b_stop b_buf b_mean b_est]. destruct (Nat.ltb _ _); [left; now eexists|]. right.
  destruct (b_forward _ _ _ _) as [m2 tf]. destruct (b_backward _ _ _ _ _) as [m3 es]. do 2 eexists. repeat split. exact HS.
Qed.

(** One level of [__next__] never sees the limit when the counter is below it. *)
Lemma next_sim : forall fuel st st', bR st st' -> (b_iter st + Z.of_nat fuel <= limit + 1)%Z ->
  (exists r t t', b_next_fuel c K1 K2 limit fuel st = (r, t) /\ b_next_fuel c K1 K2 limit fuel st' = (r, t') /\ r <> Exn StopIteration
     /\ bR t t' /\ (b_iter t <= b_iter st + Z.of_nat fuel)%Z) \/
  (exists t, b_next_fuel c K1 K2 limit fuel st = (Exn x, t) /\ b_next_fuel c K1 K2 limit fuel st' = (Exn StopIteration, t)).
Proof.
  induction fuel as [|fuel IH]; intros st st' HR Hl.
  - same. split; [discriminate|]. split; [exact HR|lia].
  - destruct (bR_inv _ _ HR) as (s & s' & it & p & buf & cnt & mean & est & -> & -> & HS). clear HR.
    cbn [b_iter] in Hl. cbn [b_next_fuel b_src b_iter b_ptr b_stop b_buf b_cnt b_mean b_est].
    replace (limit <? it)%Z with false by (symmetry; apply Z.ltb_ge; lia).
    destruct (Nat.ltb p K1).
    { same. split; [discriminate|]. split; [now apply bR_mk|cbn [b_iter]; lia]. }
    assert (HR := bR_mk s s' (it + 1) p buf cnt mean est HS).
    destruct (fill_sim (S (K1 + K2)) _ _ HR) as [(r & t & t' & F1 & F2 & F3 & F4 & F5)|(t & F1 & F2)].
    2:{ right. exists t. rewrite F1, F2. split; reflexivity. }
    rewrite F1, F2. cbn [b_iter] in F5. destruct r as [u|e].
    2:{ same. split; [intros [= ->]; now apply F3|]. split; [exact F4|lia]. }
    destruct (compute_sim _ _ F4) as [(e & G1 & G2 & G3)|(t2 & t2' & G1 & G2 & G3 & G4)]; rewrite G1, G2.
    { same. split; [intros [= ->]; now apply G3|]. split; [exact F4|lia]. }
    destruct (bR_inv _ _ G3) as (s2 & s2' & it2 & p2 & buf2 & cnt2 & mean2 & est2 & -> & -> & HS2).
    cbn [b_src b_iter b_ptr b_stop b_buf b_cnt b_mean b_est] in *.
    assert (HR2 := bR_mk s2 s2' it2 (p2 - K1) buf2 cnt2 mean2 est2 HS2).
    destruct (IH _ _ HR2) as [(r & w & w' & I1 & I2 & I3 & I4 & I5)|(w & I1 & I2)]; cbn [b_iter] in *; [lia| |].
    + left. exists r, w, w'. repeat split; try assumption; try apply I4. lia.
    + right. now exists w.
Qed.
End Batch.

(** *** FIR *)
Section FIR.
Variables (K3 M L ds : nat).
Variable h : list (list (list K)).
Variable offset : list K.
Variable limit : Z.

Lemma read_sim : forall n s s', srcR s s' ->
  (exists r t t', f_read M n s = (r, t) /\ f_read M n s' = (r, t') /\ r <> Exn StopIteration /\ r <> Exn RuntimeError /\ srcR t t' /\ (length (s_items s) <= length (s_items t) + n)%nat) \/
  ((length (s_items s) < n)%nat /\ f_read M n s = (Exn x, stopped) /\ f_read M n s' = (Exn StopIteration, stopped)).
Proof.
  induction n as [|n IH]; intros s s' HR; cbn [f_read].
  - same. repeat split; try discriminate; [exact HR|lia].
  - destruct (srcR_next s s' HR) as [(v & t & t' & E1 & E2 & HR' & E3)|(E0 & E1 & E2)]; rewrite E1, E2.
    2:{ right. rewrite E0. cbn [length]. repeat split. lia. }
    rewrite E3. cbn [length]. destruct (row M (pm1 v)) as [w|e] eqn:Ew.
    2:{ same. apply row_value in Ew. subst e. repeat split; try discriminate; [exact HR'|lia]. }
    destruct (IH t t' HR') as [(r & u & u' & F1 & F2 & F3 & F4 & F5 & F6)|(F0 & F1 & F2)]; rewrite F1, F2.
    + destruct r as [rs|e]; same; (split; [try discriminate; intros [= ->]; now apply F3|]); (split; [try discriminate; intros [= ->]; now apply F4|]); (split; [exact F5|lia]).
    + right. repeat split. lia.
Qed.

Definition fR (i : nat) (st st' : @fst_ K) : Prop :=
  srcR (f_src st) (f_src st') /\ st' = mkF (f_src st') (f_iter st) (f_buf st) /\ f_iter st = Z.of_nat (i * ds).

Lemma f_sim n i st st' : (limit = 0 \/ Z.of_nat (n * ds) <= limit)%Z -> (i < n)%nat -> fR i st st' ->
  (exists r t t', f_next K3 M L ds h offset limit st = (r, t) /\ f_next K3 M L ds h offset limit st' = (r, t') /\ r <> Exn StopIteration /\ fR (S i) t t') \/
  (exists t, f_next K3 M L ds h offset limit st = (Exn x, t) /\ f_next K3 M L ds h offset limit st' = (Exn StopIteration, t)).
Proof.
  destruct st as [s it buf]. intros Hl Hi (HS & E & Hit). cbn in HS, E, Hit. rewrite E. set (s' := f_src st') in *. clearbody s'. clear E st'.
  unfold f_next. cbn [f_src f_iter f_buf].
  assert (EL : (negb (limit =? 0) && (limit <? it + Z.of_nat ds))%Z%bool = false).
  { destruct Hl as [->|Hl]; [reflexivity|]. apply andb_false_iff. right. apply Z.ltb_ge. assert (S i * ds <= n * ds)%nat by (apply Nat.mul_le_mono_r; lia). cbn [Nat.mul] in *. lia. }
  rewrite EL. assert (EN : (it + Z.of_nat ds = Z.of_nat (S i * ds))%Z) by (rewrite Hit; cbn [Nat.mul]; lia).
  destruct (read_sim ds s s' HS) as [(r & t & t' & F1 & F2 & F3 & F4 & F5 & _)|(_ & F1 & F2)]; rewrite F1, F2.
  - destruct r as [tmp|e].
    + destruct (Nat.ltb K3 ds); same; (split; [discriminate|]); repeat split; assumption.
    + left. exists (Exn e), (mkF t (it + Z.of_nat ds) (roll ds buf)), (mkF t' (it + Z.of_nat ds) (roll ds buf)).
      assert (e <> RuntimeError) by (intros ->; now apply F4).
      destruct e; try (now exfalso; apply F3); try congruence; repeat split; try discriminate; assumption.
  - right. destruct x; try (eexists; split; reflexivity). now destruct Hx.
Qed.

(** With a limit not above the number of stored samples the end of the source is never read. *)
Definition fR' (st st' : @fst_ K) : Prop :=
  srcR (f_src st) (f_src st') /\ st' = mkF (f_src st') (f_iter st) (f_buf st) /\ (limit <= f_iter st + Z.of_nat (length (s_items (f_src st))))%Z.
Lemma f_same st st' : limit <> 0%Z -> fR' st st' ->
  exists r t t', f_next K3 M L ds h offset limit st = (r, t) /\ f_next K3 M L ds h offset limit st' = (r, t') /\ fR' t t'.
Proof.
  destruct st as [s it buf]. intros Hl (HS & E & Hit). cbn in HS, E, Hit. rewrite E. set (s' := f_src st') in *. clearbody s'. clear E st'.
  unfold f_next. cbn [f_src f_iter f_buf]. destruct (_ && _)%bool eqn:EL.
  - do 3 eexists. split; [reflexivity|]. split; [reflexivity|]. repeat split; cbn [f_src f_iter]; [exact HS|lia].
  - apply andb_false_iff in EL. destruct EL as [EL|EL]; [apply negb_false_iff, Z.eqb_eq in EL; contradiction|]. apply Z.ltb_ge in EL.
    destruct (read_sim ds s s' HS) as [(r & t & t' & F1 & F2 & F3 & F4 & F5 & F6)|(F0 & F1 & F2)]; [rewrite F1, F2|exfalso; lia].
    destruct r as [tmp|e].
    + destruct (Nat.ltb K3 ds); do 3 eexists; (split; [reflexivity|]); (split; [reflexivity|]); (repeat split; cbn [f_src f_iter]; [exact F5|lia]).
    + exists (Exn e), (mkF t (it + Z.of_nat ds) (roll ds buf)), (mkF t' (it + Z.of_nat ds) (roll ds buf)).
      assert (e <> RuntimeError) by (intros ->; now apply F4).
      destruct e; try congruence; (repeat split; cbn [f_src f_iter]; [exact F5|lia]).
Qed.
End FIR.

(** *** IIR *)
Section IIR.
Variable c : @coef K.
Variables K2 ds : nat.
Hypothesis Hds : (1 <= ds)%nat.
Variable limit : Z.
Definition iR (st st' : @ist K) : Prop :=
  srcR (i_src st) (i_src st') /\ st' = mkI (i_src st') (i_iter st) (i_buf st) (i_mean st).

Lemma i_sim : forall fuel st st', iR st st' -> (limit = 0 \/ i_iter st + Z.of_nat fuel <= limit)%Z ->
  (exists r t t', i_next_fuel c K2 ds limit fuel st = (r, t) /\ i_next_fuel c K2 ds limit fuel st' = (r, t') /\ r <> Exn StopIteration
     /\ iR t t' /\ (i_iter t <= i_iter st + Z.of_nat fuel)%Z) \/
  (exists t, i_next_fuel c K2 ds limit fuel st = (Exn x, t) /\ i_next_fuel c K2 ds limit fuel st' = (Exn StopIteration, t)).
Proof.
  induction fuel as [|fuel IH]; intros [s it buf mean] st' HR Hl.
  - same. split; [discriminate|]. split; [exact HR|lia].
  - destruct HR as (HS & E). cbn in HS, E, Hl. rewrite E. set (s' := i_src st') in *. clearbody s'. clear E st'.
    cbn [i_next_fuel i_src i_iter i_buf i_mean].
    assert (EL : (negb (limit =? 0) && (limit <? it + 1))%Z%bool = false).
    { destruct Hl as [->|Hl]; [reflexivity|]. apply andb_false_iff. right. apply Z.ltb_ge. lia. }
    rewrite EL. destruct (srcR_next s s' HS) as [(v & t & t' & E1 & E2 & HR' & E3)|(E0 & E1 & E2)]; rewrite E1, E2.
    2:{ right. destruct x; try (eexists; split; reflexivity). now destruct Hx. }
    destruct (length (roll 1 buf)) as [|last].
    { same. split; [discriminate|]. split; [repeat split; assumption|cbn [i_iter]; lia]. }
    destruct (row (cM c) (pm1 v)) as [w|e] eqn:Ew.
    2:{ same. split; [intros [= ->]; now apply row_exn in Ew|]. split; [repeat split; assumption|cbn [i_iter]; lia]. }
    destruct (Nat.eqb ds 0); [same; split; [discriminate|]; split; [repeat split; assumption|cbn [i_iter]; lia]|].
    destruct ((it + 1 - 1) mod Z.of_nat ds =? 0)%Z; [same; split; [discriminate|]; split; [repeat split; assumption|cbn [i_iter]; lia]|].
    eassert (HR2 : iR (mkI t (it + 1) _ _) (mkI t' (it + 1) _ _)) by (split; [exact HR'|reflexivity]).
    destruct (IH _ _ HR2) as [(r & u & u' & I1 & I2 & I3 & I4 & I5)|(u & I1 & I2)]; [cbn [i_iter]; lia| |].
    + left. exists r, u, u'. cbn [i_iter] in *. repeat split; try eassumption; try apply I4. lia.
    + right. exists u. split; [exact I1|exact I2].
Qed.
End IIR.
End Est.
