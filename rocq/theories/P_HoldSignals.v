(** C123: band-limited and raised-cosine signals. *)
From Coq Require Import List Arith Bool ZArith Reals Lia Lra.
From Flocq Require Import Core.
From Verif Require Import Base Signals SignalsProofs SignalsMore SignalsMoreProofs HoldSignals.
Import ListNotations.
Open Scope R_scope.

Definition lsum (l : list R) : R := fold_right Rplus 0 l.
(** what neighbour [i] on both sides adds, for a pulse [p] *)
Definition term (p : R -> R) (data : list R) (T t : R) (index i : nat) : R :=
  (if Nat.ltb i index then p (t - INR i * T) * nth (index - i) data 0 else 0) + (if Nat.ltb (index + i) (length data) then p (t + INR i * T) * nth (index + i) data 0 else 0).
Lemma neighbours_sum s p t index is_ : (forall i, In i is_ -> impulse_response s (t - INR i * h_T s) = Ok (p (t - INR i * h_T s)) /\ impulse_response s (t + INR i * h_T s) = Ok (p (t + INR i * h_T s))) ->
  forall res, neighbours s t index is_ res = Ok (res + lsum (map (term p (h_data s) (h_T s) t index) is_)).
Proof.
  induction is_ as [|i is_ IH]; intros H res; cbn [neighbours map lsum fold_right]; [f_equal; symmetry; apply Rplus_0_r|].
  destruct (H i (or_introl eq_refl)) as [H1 H2]. rewrite H1, H2. unfold term at 1. cbn [bind].
  destruct (Nat.ltb i index); cbn [bind]; destruct (Nat.ltb (index + i) (length (h_data s))); cbn [bind]; rewrite IH by (intros; apply H; now right); unfold lsum; f_equal; ring.
Qed.
Lemma index_of T (data : list R) t k : 0 < T -> INR k * T <= t < INR (k + 1) * T -> data <> [] -> Z.to_nat (Ztrunc (t / T) mod Z.of_nat (length data)) = (k mod length data)%nat.
Proof.
  intros HT Ht Hd. rewrite (Ztrunc_div_period t T (Z.of_nat k)); [|exact HT| |lia].
  - rewrite <- Nat2Z.inj_mod. now rewrite Nat2Z.id.
  - replace (Z.of_nat k + 1)%Z with (Z.of_nat (k + 1)) by lia. rewrite <- !INR_IZR_INZ. exact Ht.
Qed.
Lemma evaluate_cons s t : h_data s <> [] -> let index := Z.to_nat (Ztrunc (t / h_T s) mod Z.of_nat (length (h_data s))) in
  evaluate s t = neighbours s t index (seq 1 (Z.to_nat (h_ns s / 2 - 1))) (nth index (h_data s) 0).
Proof. intros H. unfold evaluate. destruct (h_data s) eqn:E; [congruence|]. rewrite <- E. reflexivity. Qed.
Lemma lsum_zero {A} (f : A -> R) l : (forall a, In a l -> f a = 0) -> lsum (map f l) = 0.
Proof. induction l as [|a l IH]; intros H; [reflexivity|]. cbn [map lsum fold_right]. rewrite (H a (or_introl eq_refl)). fold (lsum (map f l)). rewrite IH by (intros; apply H; now right). ring. Qed.

(** The constructor and empty data. *)
Theorem C123_outcome : forall k data T alpha ns, (T = 0 -> hold_init k data T alpha ns = Exn ZeroDivisionError) /\
  (T <> 0 -> exists s, hold_init k data T alpha ns = Ok s /\ forall t, (data = [] -> evaluate s t = Exn ZeroDivisionError) /\
    (data <> [] -> k = Limited -> exists v, evaluate s t = Ok v) /\ (data <> [] -> k = Cosine -> (exists v, evaluate s t = Ok v) \/ evaluate s t = Exn ArithmeticError)).
Proof.
  intros k data T alpha ns. unfold hold_init. split; [intros ->; now rewrite Req_bool_true|]. intros HT. rewrite Req_bool_false by exact HT. eexists. split; [reflexivity|]. intros t. split; [intros ->; reflexivity|].
  split; intros Hd ->; rewrite evaluate_cons by exact Hd.
  - set (s := mkHold _ _ _ _ _ _). eexists. apply (neighbours_sum s (fun t => np_sinc (2 * h_BW s * t))). intros i _. split; reflexivity.
  - cbv zeta. match goal with |- context [nth ?n ?l 0] => generalize (nth n l 0) end. match goal with |- context [neighbours ?s t ?n ?l] => generalize l; generalize n; generalize s end. intros s n l. induction l as [|i l IH]; intros r; cbn [neighbours]; [left; eauto|].
    assert (I : forall x, (exists v, impulse_response s x = Ok v) \/ impulse_response s x = Exn ArithmeticError).
    { intros x. unfold impulse_response. destruct (h_kind s); [left; eauto|]. cbv zeta. destruct (Req_bool _ 0); [right; reflexivity|left; eauto]. }
    destruct (I (t - INR i * h_T s)) as [[v1 ->]| ->]; destruct (I (t + INR i * h_T s)) as [[v2 ->]| ->]; cbn [bind]; destruct (Nat.ltb i n); cbn [bind]; auto; destruct (Nat.ltb (n + i) (length (h_data s))); cbn [bind]; auto.
Qed.
Print Assumptions C123_outcome.

(** At the sample times both kinds take the value of the sample, repeated without end; for the raised cosine unless its denominator vanishes at a multiple of T. *)
Theorem C123_samples : forall kd data T alpha ns s k, 0 < T -> data <> [] -> hold_init kd data T alpha ns = Ok s ->
  (kd = Cosine -> forall j : Z, (8 * alpha * IZR j) * (8 * alpha * IZR j) <> 1) ->
  evaluate s (INR k * T) = Ok (nth (k mod length data) data 0).
Proof.
  intros kd data T alpha ns s k HT Hd H HC. unfold hold_init in H. rewrite Req_bool_false in H by lra. apply Ok_inj in H. subst s. rewrite evaluate_cons by exact Hd. cbv zeta. cbn [h_data h_T h_ns].
  rewrite (index_of T data (INR k * T) k) by (try rewrite plus_INR; cbn [INR]; auto; nra).
  set (s := mkHold kd data ns T (2 / T) alpha). set (p := fun t => np_sinc (2 * (2 / T) * t) * match kd with Limited => 1 | Cosine => cos (2 * PI * alpha * (2 / T) * t) / (1 - (4 * alpha * (2 / T) * t) * (4 * alpha * (2 / T) * t)) end).
  assert (IM : forall j : Z, impulse_response s (IZR j * T) = Ok (p (IZR j * T))).
  { intros j. unfold impulse_response, p, s. cbn [h_kind h_BW h_alpha]. destruct kd; [f_equal; ring|]. cbv zeta. rewrite Req_bool_false; [reflexivity|]. specialize (HC eq_refl j). replace (4 * alpha * (2 / T) * (IZR j * T)) with (8 * alpha * IZR j) by (field; lra). lra. }
  assert (E1 : forall i, INR k * T - INR i * T = IZR (Z.of_nat k - Z.of_nat i) * T) by (intros i; rewrite minus_IZR, <- !INR_IZR_INZ; ring).
  assert (E2 : forall i, INR k * T + INR i * T = IZR (Z.of_nat k + Z.of_nat i) * T) by (intros i; rewrite plus_IZR, <- !INR_IZR_INZ; ring).
  rewrite (neighbours_sum s p); [|intros i _; cbn [h_T s]; rewrite E1, E2; now rewrite !IM].
  f_equal. rewrite lsum_zero; [apply Rplus_0_r|]. intros i Hi. apply in_seq in Hi. cbn [h_data h_T s]. unfold term.
  assert (Z0 : forall j : Z, j <> 0%Z -> p (IZR j * T) = 0).
  { intros j Hj. unfold p. replace (2 * (2 / T) * (IZR j * T)) with (IZR (4 * j)) by (rewrite mult_IZR; field; lra). rewrite np_sinc_zero by lia. apply Rmult_0_l. }
  rewrite E1, E2. assert (L : (0 < length data)%nat) by (destruct data; [congruence|cbn; lia]).
  destruct (Nat.ltb_spec i (k mod length data)) as [H1|H1]; destruct (Nat.ltb_spec (k mod length data + i) (length data)) as [H2|H2].
  - assert (K := Nat.mod_le k (length data) ltac:(lia)). rewrite !Z0 by lia. ring.
  - assert (K := Nat.mod_le k (length data) ltac:(lia)). rewrite !Z0 by lia. ring.
  - rewrite !Z0 by lia. ring.
  - ring.
Qed.
Print Assumptions C123_samples.
Example C123_ex : hold_init Limited [3; 5; 7] 2 1 8 = Ok (mkHold Limited [3; 5; 7] 8 2 (2 / 2) 1) /\ evaluate (mkHold Limited [3; 5; 7] 8 2 (2 / 2) 1) (INR 5 * 2) = Ok 7 /\
  evaluate (mkHold Cosine [3; 5; 7] 8 2 (2 / 2) 1) (INR 4 * 2) = Ok 5.
Proof.
  assert (I : forall k, hold_init k [3; 5; 7] 2 1 8 = Ok (mkHold k [3; 5; 7] 8 2 (2 / 2) 1)) by (intros k; unfold hold_init; now rewrite Req_bool_false by lra).
  split; [apply I|]. split.
  - apply (C123_samples Limited [3; 5; 7] 2 1 8 _ 5); [lra|discriminate|apply I|discriminate].
  - apply (C123_samples Cosine [3; 5; 7] 2 1 8 _ 4); [lra|discriminate|apply I|]. intros _ j E. assert (Q : IZR (64 * j * j) = 1) by (rewrite !mult_IZR; lra). apply eq_IZR in Q. lia.
Qed.

(** Few samples: with number_of_samples below 4 both are the zero-order hold. *)
Theorem C123_few : forall kd data T alpha ns s t, hold_init kd data T alpha ns = Ok s -> (ns < 4)%Z -> evaluate s t = zoh_eval (ZArr data) T t.
Proof.
  intros kd data T alpha ns s t H Hn. unfold hold_init in H. destruct (Req_bool_spec T 0) as [|HT]; [discriminate|]. apply Ok_inj in H. subst s. unfold evaluate, zoh_eval. cbn [h_data h_T h_ns]. rewrite Req_bool_false by exact HT. destruct data as [|x data]; [reflexivity|].
  assert (Q : (ns / 2 < 2)%Z) by (apply Z.div_lt_upper_bound; lia). replace (Z.to_nat (ns / 2 - 1)) with O by lia. reflexivity.
Qed.
Print Assumptions C123_few.

(** The value does not depend on sample 0 outside the intervals of sample 0. *)
Lemma neighbours_first s s' t index is_ : (forall u, impulse_response s u = impulse_response s' u) -> h_T s = h_T s' -> length (h_data s) = length (h_data s') -> (forall i, (0 < i)%nat -> nth i (h_data s) 0 = nth i (h_data s') 0) ->
  (forall i, In i is_ -> (0 < i)%nat) -> forall res, neighbours s t index is_ res = neighbours s' t index is_ res.
Proof.
  intros HI HT HL HD. induction is_ as [|i is_ IH]; intros Hi res; [reflexivity|]. cbn [neighbours]. assert (Hi0 := Hi i (or_introl eq_refl)). specialize (IH (fun j Hj => Hi j (or_intror Hj))).
  rewrite <- !HI, HT, HL, (HD (index + i)%nat) by lia. destruct (Nat.ltb_spec i index); [rewrite (HD (index - i)%nat) by lia|]; repeat (match goal with |- bind ?a _ = bind ?a _ => destruct a; cbn [bind]; [|reflexivity] end); apply IH.
Qed.
Theorem C123_first : forall kd x y rest T alpha ns s s' t k, 0 < T -> hold_init kd (x :: rest) T alpha ns = Ok s -> hold_init kd (y :: rest) T alpha ns = Ok s' ->
  INR k * T <= t < INR (k + 1) * T -> (k mod S (length rest) <> 0)%nat -> evaluate s t = evaluate s' t.
Proof.
  intros kd x y rest T alpha ns s s' t k HT H H' Ht Hk. unfold hold_init in *. rewrite Req_bool_false in H, H' by lra. apply Ok_inj in H, H'. subst s s'. rewrite !evaluate_cons by discriminate. cbv zeta. cbn [h_data h_T h_ns].
  rewrite (index_of T (x :: rest) t k), (index_of T (y :: rest) t k) by (auto; discriminate). cbn [length]. destruct (k mod S (length rest))%nat as [|n] eqn:E; [congruence|]. cbn [nth].
  apply neighbours_first; try reflexivity.
  - intros [|i] Hi; [lia|reflexivity].
  - intros i Hi. apply in_seq in Hi. lia.
Qed.
Print Assumptions C123_first.

(** Linear in the data, for signals of the same parameters. *)
Definition comb (a : R) (xs ys : list R) : list R := map (fun p => a * fst p + snd p) (combine xs ys).
Lemma comb_length a xs ys : length xs = length ys -> length (comb a xs ys) = length xs.
Proof. intros H. unfold comb. rewrite map_length, combine_length. lia. Qed.
Lemma comb_nth a xs ys i : length xs = length ys -> nth i (comb a xs ys) 0 = a * nth i xs 0 + nth i ys 0.
Proof.
  revert ys i. induction xs as [|x xs IH]; intros [|y ys] i H; try discriminate; [destruct i; cbn; ring|]. destruct i as [|i]; [reflexivity|]. cbn [comb combine map nth]. apply IH. now injection H.
Qed.
Theorem C123_linear : forall kd xs ys a T alpha ns sx sy sz t vx vy, length xs = length ys ->
  hold_init kd xs T alpha ns = Ok sx -> hold_init kd ys T alpha ns = Ok sy -> hold_init kd (comb a xs ys) T alpha ns = Ok sz ->
  evaluate sx t = Ok vx -> evaluate sy t = Ok vy -> evaluate sz t = Ok (a * vx + vy).
Proof.
  intros kd xs ys a T alpha ns sx sy sz t vx vy HL H1 H2 H3 E1 E2. unfold hold_init in *. destruct (Req_bool_spec T 0) as [|HT]; [discriminate|]. apply Ok_inj in H1, H2, H3. subst.
  destruct xs as [|x xs]; [discriminate|]. destruct ys as [|y ys]; [discriminate|]. rewrite evaluate_cons in * by discriminate. cbv zeta in *. cbn [h_data h_T h_ns] in *. rewrite comb_length by exact HL. rewrite <- HL in E2.
  set (X := x :: xs) in *. set (Y := y :: ys) in *. set (idx := Z.to_nat _) in *. rewrite comb_nth by exact HL. revert E1 E2. generalize (nth idx X 0) as rx. generalize (nth idx Y 0) as ry. generalize (seq 1 (Z.to_nat (ns / 2 - 1))).
  assert (IX : forall d d' u, impulse_response (mkHold kd d ns T (2 / T) alpha) u = impulse_response (mkHold kd d' ns T (2 / T) alpha) u) by reflexivity.
  induction l as [|i l IH]; intros ry rx E1 E2; cbn [neighbours] in *; [apply Ok_inj in E1, E2; now subst|]. cbn [h_data h_T] in *. rewrite comb_length by exact HL. rewrite <- HL in E2.
  rewrite !(IX (comb a X Y) X). rewrite !(IX Y X) in E2. 
  set (p1 := impulse_response (mkHold kd X ns T (2 / T) alpha) (t - INR i * T)) in *. set (p2 := impulse_response (mkHold kd X ns T (2 / T) alpha) (t + INR i * T)) in *. rewrite !comb_nth by exact HL.
  destruct (Nat.ltb i idx); destruct (Nat.ltb (idx + i) (length X)); destruct p1 as [p1|]; destruct p2 as [p2|]; cbn [bind] in *; try discriminate.
  all: match type of E1 with neighbours _ _ _ _ ?r = _ => match type of E2 with neighbours _ _ _ _ ?q = _ => specialize (IH q r E1 E2) end end.
  all: rewrite <- IH; f_equal; ring.
Qed.
Print Assumptions C123_linear.

(** *** BandLimitedSignal long after the start: the pulses are evaluated at absolute times, so they die out and the zero-order hold remains *)
Lemma np_sinc_small x : x <> 0 -> Rabs (np_sinc x) <= 1 / (PI * Rabs x).
Proof.
  intros H. unfold np_sinc. rewrite Req_bool_false by exact H. assert (P := PI_RGT_0). unfold Rdiv. rewrite Rabs_mult, Rabs_inv, Rabs_mult, (Rabs_pos_eq PI) by lra. apply Rmult_le_compat_r; [|apply Rabs_le; apply SIN_bound].
  left. apply Rinv_0_lt_compat. apply Rmult_lt_0_compat; [lra|now apply Rabs_pos_lt].
Qed.
Lemma lsum_bound {A} (f : A -> R) l b : (forall a, In a l -> Rabs (f a) <= b) -> Rabs (lsum (map f l)) <= INR (length l) * b.
Proof.
  induction l as [|a l IH]; intros H; cbn [map lsum fold_right length]; [rewrite Rabs_R0; cbn; lra|]. rewrite S_INR. apply Rle_trans with (1 := Rabs_triang _ _). specialize (IH (fun x Hx => H x (or_intror Hx))). specialize (H a (or_introl eq_refl)). unfold lsum in IH. lra.
Qed.
Lemma mult_le a b c d : Rabs a <= c -> Rabs b <= d -> Rabs (a * b) <= c * d.
Proof. intros. rewrite Rabs_mult. apply Rmult_le_compat; auto using Rabs_pos. Qed.
Theorem C123_hold : forall data T alpha ns s t D z, 0 < T -> hold_init Limited data T alpha ns = Ok s -> Forall (fun x => Rabs x <= D) data -> zoh_eval (ZArr data) T t = Ok z ->
  let n := Z.to_nat (ns / 2 - 1) in INR n < t / T -> exists v, evaluate s t = Ok v /\ Rabs (v - z) <= INR n * D / (2 * PI * (t / T - INR n)).
Proof.
  intros data T alpha ns s t D z HT H HD Hz n Hn. unfold hold_init in H. unfold zoh_eval in Hz. rewrite Req_bool_false in H, Hz by lra. apply Ok_inj in H. subst s. destruct data as [|x data]; [discriminate|]. apply Ok_inj in Hz.
  rewrite evaluate_cons by discriminate. cbv zeta. cbn [h_data h_T h_ns]. rewrite Hz. fold n. set (s := mkHold _ _ _ _ _ _). set (p := fun t => np_sinc (2 * (2 / T) * t)). rewrite (neighbours_sum s p) by (intros i _; split; reflexivity). cbn [h_data h_T s]. set (X := x :: data) in *.
  assert (P := PI_RGT_0). assert (D0 : 0 <= D) by (inversion HD; subst; apply Rle_trans with (Rabs x); [apply Rabs_pos|assumption]). set (g := t / T - INR n). assert (G : 0 < g) by (unfold g; lra).
  eexists. split; [reflexivity|]. match goal with |- Rabs (z + ?b - z) <= _ => replace (z + b - z) with b by ring end.
  assert (PB : forall u, g <= Rabs (u / T) -> Rabs (p u) <= 1 / (4 * PI * g)).
  { intros u Hu. unfold p. replace (2 * (2 / T) * u) with (4 * (u / T)) by (field; lra). assert (N0 : u / T <> 0) by (intros E; rewrite E, Rabs_R0 in Hu; lra). apply Rle_trans with (1 := np_sinc_small (4 * (u / T)) ltac:(lra)).
    rewrite Rabs_mult, (Rabs_pos_eq 4) by lra. set (w := Rabs (u / T)) in *. unfold Rdiv. rewrite !Rmult_1_l. apply Rinv_le_contravar; [nra|]. replace (PI * (4 * w)) with (4 * PI * w) by ring. apply Rmult_le_compat_l; lra. }
  assert (DB : forall i, Rabs (nth i X 0) <= D).
  { intros i. destruct (Nat.lt_ge_cases i (length X)) as [L|L]; [|rewrite nth_overflow by exact L; rewrite Rabs_R0; exact D0]. apply (proj1 (Forall_forall _ _) HD). now apply nth_In. }
  assert (TB : forall i, In i (seq 1 n) -> Rabs (term p X T t (Z.to_nat (Ztrunc (t / T) mod Z.of_nat (length X))) i) <= 2 * (1 / (4 * PI * g) * D)).
  { intros i Hi. apply in_seq in Hi. assert (I1 : INR i <= INR n) by (apply le_INR; lia). assert (I0 := pos_INR i). set (idx := Z.to_nat _). unfold term.
    assert (Q : 0 <= 1 / (4 * PI * g) * D) by (apply Rmult_le_pos; [|exact D0]; left; apply Rdiv_lt_0_compat; nra).
    assert (B1 : Rabs (if Nat.ltb i idx then p (t - INR i * T) * nth (idx - i) X 0 else 0) <= 1 / (4 * PI * g) * D).
    { destruct (Nat.ltb i idx); [|rewrite Rabs_R0; exact Q]. apply mult_le; [apply PB|apply DB]. replace ((t - INR i * T) / T) with (t / T - INR i) by (field; lra). rewrite Rabs_pos_eq; unfold g; lra. }
    assert (B2 : Rabs (if Nat.ltb (idx + i) (length X) then p (t + INR i * T) * nth (idx + i) X 0 else 0) <= 1 / (4 * PI * g) * D).
    { destruct (Nat.ltb (idx + i) (length X)); [|rewrite Rabs_R0; exact Q]. apply mult_le; [apply PB|apply DB]. replace ((t + INR i * T) / T) with (t / T + INR i) by (field; lra). rewrite Rabs_pos_eq; unfold g in *; lra. }
    apply Rle_trans with (1 := Rabs_triang _ _). lra. }
  apply lsum_bound in TB. rewrite seq_length in TB. replace (INR n * D / (2 * PI * g)) with (INR n * (2 * (1 / (4 * PI * g) * D))) by (field; split; lra). exact TB.
Qed.
Print Assumptions C123_hold.
Example C123_hold_ex : exists v, evaluate (mkHold Limited [3; 5; 7] 8 2 (2 / 2) 1) 87 = Ok v /\ Rabs (v - 5) <= 0.1.
Proof.
  assert (I : hold_init Limited [3; 5; 7] 2 1 8 = Ok (mkHold Limited [3; 5; 7] 8 2 (2 / 2) 1)) by (unfold hold_init; now rewrite Req_bool_false by lra).
  assert (ZZ : zoh_eval (ZArr [3; 5; 7]) 2 87 = Ok 5). { unfold zoh_eval. rewrite Req_bool_false by lra. rewrite (Ztrunc_div_period 87 2 43); [reflexivity|lra|change (43 + 1)%Z with 44%Z; lra|lia]. }
  destruct (C123_hold [3; 5; 7] 2 1 8 _ 87 7 5 ltac:(lra) I ltac:(repeat constructor; rewrite Rabs_pos_eq; lra) ZZ) as (v & E & B).
  - change (Z.to_nat (8 / 2 - 1)) with 3%nat. cbn [INR]. lra.
  - exists v. split; [exact E|]. apply Rle_trans with (1 := B). change (Z.to_nat (8 / 2 - 1)) with 3%nat. cbn [INR]. assert (P := PI2_3_2). unfold Rdiv at 1. apply Rmult_le_reg_r with (2 * PI * (87 / 2 - (1 + 1 + 1))); [nra|]. rewrite Rmult_assoc, Rinv_l, Rmult_1_r by nra. nra.
Qed.

(** Although the samples repeat, the signal does not. *)
Theorem C123_periodic_refuted : exists data T ns s t v w, hold_init Limited data T 0 ns = Ok s /\ 0 < T /\ 0 <= t /\ evaluate s t = Ok v /\ evaluate s (t + INR (length data) * T) = Ok w /\ v <> w.
Proof.
  exists [0; 1; 1], 1, 4%Z, (mkHold Limited [0; 1; 1] 4 1 (2 / 1) 0), (1 + 1 / 8). eexists _, _. split; [unfold hold_init; now rewrite Req_bool_false by lra|]. split; [lra|]. split; [lra|].
  rewrite !evaluate_cons by discriminate. cbv zeta. cbn [h_data h_T h_ns]. rewrite (index_of 1 [0; 1; 1] (1 + 1 / 8) 1), (index_of 1 [0; 1; 1] (1 + 1 / 8 + INR (length [0; 1; 1]) * 1) 4) by (try discriminate; cbn [INR length Nat.add]; lra).
  change (Z.to_nat (4 / 2 - 1)) with 1%nat. cbn [length Nat.modulo Nat.divmod fst snd Nat.sub seq neighbours Nat.ltb Nat.leb Nat.add bind impulse_response h_kind h_BW h_T h_data nth]. split; [reflexivity|]. split; [reflexivity|]. cbn [INR].
  replace (2 * (2 / 1) * (1 + 1 / 8 + 1 * 1)) with (8 + 1 / 2) by field. replace (2 * (2 / 1) * (1 + 1 / 8 + (1 + 1 + 1) * 1 + 1 * 1)) with (20 + 1 / 2) by field.
  assert (SN : forall k, np_sinc (2 * INR k + 1 / 2) = 1 / (PI * (2 * INR k + 1 / 2))).
  { intros k. assert (K := pos_INR k). unfold np_sinc. rewrite Req_bool_false by lra. f_equal. replace (PI * (2 * INR k + 1 / 2)) with (PI / 2 + 2 * INR k * PI) by field. rewrite sin_period. apply sin_PI2. }
  assert (A := SN 4%nat). assert (B := SN 10%nat). replace (2 * INR 4 + 1 / 2) with (8 + 1 / 2) in A by (cbn; lra). replace (2 * INR 10 + 1 / 2) with (20 + 1 / 2) in B by (cbn; lra). rewrite A, B. assert (P := PI_RGT_0). intros E.
  assert (E' : PI * (20 + 1 / 2) = PI * (8 + 1 / 2)); [|lra]. assert (E2 : / (PI * (8 + 1 / 2)) = / (PI * (20 + 1 / 2))) by lra. rewrite <- (Rinv_inv (PI * (20 + 1 / 2))), <- (Rinv_inv (PI * (8 + 1 / 2))). now rewrite E2.
Qed.
Print Assumptions C123_periodic_refuted.

(** A signal called band-limited that is not even continuous. *)
Theorem C123_continuous_refuted : exists data T ns s f, hold_init Limited data T 0 ns = Ok s /\ (4 <= ns)%Z /\ (forall t, evaluate s t = Ok (f t)) /\ ~ continuity_pt f 1.
Proof.
  set (s := mkHold Limited [0; 1] 4 1 (2 / 1) 0).
  exists [0; 1], 1, 4%Z, s, (fun t => match evaluate s t with Ok v => v | Exn _ => 0 end). split; [unfold hold_init; now rewrite Req_bool_false by lra|]. split; [lia|].
  assert (EV : forall t, exists v, evaluate s t = Ok v). { intros t. eexists. rewrite evaluate_cons by discriminate. apply (neighbours_sum s (fun t => np_sinc (2 * h_BW s * t))). intros i _. split; reflexivity. }
  split; [intros t; destruct (EV t) as [v ->]; reflexivity|]. intros C. destruct (C (1 / 2) ltac:(lra)) as (d & Hd & Q). set (t := Rmax (1 / 2) (1 - d / 2)).
  assert (Ht : 1 / 2 <= t < 1 /\ 1 - t < d). { assert (Hd' : 0 < d) by exact Hd. unfold t, Rmax. destruct (Rle_dec (1 / 2) (1 - d / 2)); lra. }
  specialize (Q t). change (D_x no_cond 1 t /\ R_dist t 1 < d -> R_dist (match evaluate s t with Ok v => v | Exn _ => 0 end) (match evaluate s 1 with Ok v => v | Exn _ => 0 end) < 1 / 2) in Q. assert (E1 : evaluate s 1 = Ok 1).
  { replace 1 with (INR 1 * 1) at 1 by (cbn; ring). apply (C123_samples Limited [0; 1] 1 0 4 s 1); [lra|discriminate|unfold hold_init; now rewrite Req_bool_false by lra|discriminate]. }
  assert (E2 : evaluate s t = Ok (0 + np_sinc (2 * (2 / 1) * (t + INR 1 * 1)) * 1)).
  { rewrite evaluate_cons by discriminate. cbv zeta. cbn [h_data h_T h_ns s]. rewrite (index_of 1 [0; 1] t 0) by (try discriminate; cbn [INR Nat.add]; lra). reflexivity. }
  rewrite E1, E2 in Q. assert (B := np_sinc_small (2 * (2 / 1) * (t + INR 1 * 1)) ltac:(cbn [INR]; lra)). assert (B2 : 1 / (PI * Rabs (2 * (2 / 1) * (t + INR 1 * 1))) <= 1 / 2).
  { assert (P := PI2_3_2). rewrite Rabs_pos_eq by (cbn [INR]; lra). cbn [INR]. set (w := 2 * (2 / 1) * (t + 1 * 1)). assert (6 <= w) by (unfold w; lra). replace (1 / 2) with (/ 2) by field. replace (1 / (PI * w)) with (/ (PI * w)) by (field; split; nra). apply Rinv_le_contravar; nra. }
  unfold R_dist in Q. specialize (Q ltac:(unfold D_x, no_cond; repeat split; [lra|]; rewrite Rabs_minus_sym, Rabs_pos_eq; lra)). apply Rabs_def2 in Q. assert (B3 := Rle_abs (np_sinc (2 * (2 / 1) * (t + INR 1 * 1)))). lra.
Qed.
Print Assumptions C123_continuous_refuted.

(** A raised cosine whose denominator vanishes at a sample time: no value (infinite in floats). *)
Theorem C123_cosine_refuted : exists data T alpha ns s k, hold_init Cosine data T alpha ns = Ok s /\ 0 < T /\ 0 < alpha < 1 /\ data <> [] /\ evaluate s (INR k * T) = Exn ArithmeticError.
Proof.
  exists [1; 2; 3], 1, (1 / 8), 4%Z, (mkHold Cosine [1; 2; 3] 4 1 (2 / 1) (1 / 8)), 2%nat. split; [unfold hold_init; now rewrite Req_bool_false by lra|]. split; [lra|]. split; [lra|]. split; [discriminate|].
  rewrite evaluate_cons by discriminate. cbv zeta. cbn [h_data h_T h_ns]. rewrite (index_of 1 [1; 2; 3] (INR 2 * 1) 2) by (try discriminate; cbn [INR Nat.add]; lra).
  change (Z.to_nat (4 / 2 - 1)) with 1%nat. cbn [length Nat.modulo Nat.divmod fst snd Nat.sub seq neighbours Nat.ltb Nat.leb Nat.add impulse_response h_kind h_BW h_T h_alpha h_data]. cbv zeta. rewrite Req_bool_true; [reflexivity|]. cbn [INR]. field.
Qed.
Print Assumptions C123_cosine_refuted.
