(** Proofs about the byte codec and the byte-stream files. *)
From Coq Require Import ZArith List Lia Bool Arith.
From Verif Require Import Base ByteCodec.
Import ListNotations.
Open Scope Z_scope.

(** Specification helper: the integer whose bit [m] is set iff [0 < s_m]. *)
Fixpoint bitsum (s : list Z) : Z :=
  match s with [] => 0 | v :: r => (if 0 <? v then 1 else 0) + 2 * bitsum r end.

Lemma bitsum_bounds s : 0 <= bitsum s < 2 ^ Z.of_nat (length s).
Proof.
  induction s as [|v r IH]; [simpl; lia|]. cbn [bitsum length].
  rewrite Nat2Z.inj_succ, Z.pow_succ_r by lia. destruct (0 <? v); lia.
Qed.

Lemma bitsum_firstn_S s m v :
  nth_error s m = Some v ->
  bitsum (firstn (S m) s) = bitsum (firstn m s) + (if 0 <? v then Z.shiftl 1 (Z.of_nat m) else 0).
Proof.
  revert m; induction s as [|x s IH]; intros m H; [destruct m; discriminate|].
  destruct m.
  - simpl in *. injection H as ->. destruct (0 <? v); reflexivity.
  - simpl in H. change (firstn (S (S m)) (x :: s)) with (x :: firstn (S m) s).
    change (firstn (S m) (x :: s)) with (x :: firstn m s). cbn [bitsum]. rewrite (IH _ H).
    rewrite !Z.shiftl_1_l, Nat2Z.inj_succ, Z.pow_succ_r by lia. destruct (0 <? v); lia.
Qed.

Lemma sum_loop_ok s n : forall k, (k + n <= length s)%nat ->
  sum_loop (seq k n) s (bitsum (firstn k s)) = Ok (bitsum (firstn (k + n) s)).
Proof.
  induction n as [|n IH]; intros k Hk; cbn [seq sum_loop].
  - now rewrite Nat.add_0_r.
  - destruct (nth_error s k) as [v|] eqn:E; [|apply nth_error_None in E; lia].
    assert (Hacc : (if 0 <? v then bitsum (firstn k s) + Z.shiftl 1 (Z.of_nat k) else bitsum (firstn k s))
                   = bitsum (firstn (S k) s)).
    { rewrite (bitsum_firstn_S _ _ _ E). destruct (0 <? v); lia. }
    rewrite Hacc, IH by lia. do 3 f_equal. lia.
Qed.

Lemma sum_loop_full s : sum_loop (seq 0 (length s)) s 0 = Ok (bitsum s).
Proof.
  pose proof (sum_loop_ok s (length s) 0%nat) as H. simpl firstn in H. cbn [bitsum] in H.
  rewrite H by lia. simpl. now rewrite firstn_all.
Qed.

Lemma le_bytes_length n v : length (le_bytes n v) = n.
Proof. revert v; induction n; intros; simpl; auto. Qed.

Lemma le_bytes_range n v : Forall (fun b => 0 <= b < 256) (le_bytes n v).
Proof. revert v; induction n; intros; simpl; constructor; auto. apply Z.mod_pos_bound; lia. Qed.

Lemma pow256 n : 2 ^ (8 * Z.of_nat (S n)) = 256 * 2 ^ (8 * Z.of_nat n).
Proof. replace (8 * Z.of_nat (S n)) with (8 + 8 * Z.of_nat n) by lia. rewrite Z.pow_add_r by lia. reflexivity. Qed.

Lemma le_value_le_bytes n : forall v, le_value (le_bytes n v) = v mod 2 ^ (8 * Z.of_nat n).
Proof.
  induction n as [|n IH]; intros v.
  - simpl. now rewrite Z.mod_1_r.
  - cbn [le_bytes le_value]. rewrite IH, pow256.
    pose proof (Z.pow_pos_nonneg 2 (8 * Z.of_nat n)).
    rewrite Z.rem_mul_r by lia. lia.
Qed.

Lemma le_bytes_le_value bs :
  Forall (fun b => 0 <= b < 256) bs -> le_bytes (length bs) (le_value bs) = bs.
Proof.
  induction 1 as [|b r Hb Hr IH]; [reflexivity|]. cbn [length le_bytes le_value].
  assert (E1 : (b + 256 * le_value r) mod 256 = b).
  { rewrite Z.mul_comm, Z.mod_add by lia. apply Z.mod_small; lia. }
  assert (E2 : (b + 256 * le_value r) / 256 = le_value r).
  { rewrite Z.mul_comm, Z.div_add by lia. rewrite Z.div_small by lia. lia. }
  now rewrite E1, E2, IH.
Qed.

Lemma le_value_range bs : Forall (fun b => 0 <= b < 256) bs -> 0 <= le_value bs < 2 ^ (8 * Z.of_nat (length bs)).
Proof.
  induction 1 as [|b r Hb Hr IH]; [simpl; lia|]. cbn [length le_value]. rewrite pow256. lia.
Qed.

Lemma unpack_pack f v w : (1 <= nbytes f)%nat -> pack f v = Ok w -> unpack f w = Ok v.
Proof.
  intros Hn. unfold pack. destruct (_ && _)%bool eqn:E; [|discriminate]. intros H; apply Ok_inj in H; subst.
  apply andb_true_iff in E. destruct E as [E1 E2].
  apply Z.leb_le in E1, E2. unfold unpack. rewrite le_bytes_length, Nat.eqb_refl, le_value_le_bytes.
  f_equal. fold (bits f). unfold fmt_lo, fmt_hi in *.
  assert (Hb : bits f = 1 + (bits f - 1)) by lia.
  assert (Hb1 : 0 <= bits f - 1) by (unfold bits; lia).
  assert (HP : 2 ^ bits f = 2 * 2 ^ (bits f - 1)).
  { rewrite Hb at 1. rewrite Z.pow_add_r by lia. reflexivity. }
  pose proof (Z.pow_pos_nonneg 2 (bits f - 1)). 
  destruct (signed f); cbn [andb].
  - destruct (Z.leb_spec 0 v).
    + rewrite Z.mod_small by lia. destruct (Z.leb_spec (2 ^ (bits f - 1)) v); lia.
    + replace (v mod 2 ^ bits f) with (v + 2 ^ bits f).
      * destruct (Z.leb_spec (2 ^ (bits f - 1)) (v + 2 ^ bits f)); lia.
      * rewrite <- (Z.mod_small (v + 2 ^ bits f) (2 ^ bits f)) by lia.
        rewrite <- (Z.mod_add v 1 (2 ^ bits f)) by lia. f_equal. lia.
  - apply Z.mod_small. lia.
Qed.

Lemma bitsum_testbit s : forall m, Z.testbit (bitsum s) (Z.of_nat m) = (0 <? nth m s 0).
Proof.
  induction s as [|v s IH]; intros m.
  - cbn [bitsum]. rewrite Z.bits_0. destruct m; reflexivity.
  - cbn [bitsum]. destruct m.
    + cbn [nth Z.of_nat]. destruct (0 <? v).
      * replace (1 + 2 * bitsum s) with (2 * bitsum s + 1) by lia. now rewrite Z.testbit_odd_0.
      * rewrite Z.add_0_l. apply Z.testbit_even_0.
    + rewrite Nat2Z.inj_succ. cbn [nth]. rewrite <- IH. destruct (0 <? v).
      * replace (1 + 2 * bitsum s) with (2 * bitsum s + 1) by lia. rewrite Z.testbit_odd_succ; [reflexivity|lia].
      * rewrite Z.add_0_l. rewrite Z.testbit_even_succ; [reflexivity|lia].
Qed.

Lemma land1_shiftr v m : 0 <= m -> Z.land 1 (Z.shiftr v m) = Z.b2z (Z.testbit v m).
Proof.
  intros Hm. rewrite Z.land_comm. change 1 with (Z.ones 1). rewrite Z.land_ones by lia.
  rewrite Z.pow_1_r, Z.testbit_spec' by lia. now rewrite Z.shiftr_div_pow2.
Qed.

(** The 0/1 indicator of positive entries. *)
Definition indicator (s : list Z) : list Z := map (fun v => if 0 <? v then 1 else 0) s.

Lemma decode_bits s n : (length s = n)%nat ->
  map (fun m => Z.land 1 (Z.shiftr (bitsum s) (Z.of_nat m))) (seq 0 n) = indicator s.
Proof.
  intros <-. unfold indicator.
  assert (E : forall g : Z -> Z, map g s = map (fun m => g (nth m s 0)) (seq 0 (length s))).
  { intros g. rewrite <- (map_map (fun m => nth m s 0) g). now rewrite map_nth_seq. }
  rewrite E. apply map_ext_in.
  intros m _. rewrite land1_shiftr by lia. rewrite bitsum_testbit. now destruct (0 <? nth m s 0).
Qed.

Lemma selector_nbytes M f : number_of_bytes_selector M = Ok f -> (1 <= nbytes f)%nat.
Proof.
  unfold number_of_bytes_selector. repeat destruct (_ <? _)%nat; intros H; try discriminate; injection H as <-; simpl; lia.
Qed.

Lemma codec_round_trip M s w : length s = M -> encode M s = Ok w -> decode M w = Ok (indicator s).
Proof.
  intros HM. unfold encode, decode. destruct (number_of_bytes_selector M) as [f|] eqn:E; [|discriminate]. cbn [bind].
  unfold encode1, decode1. subst M. rewrite sum_loop_full. cbn [bind]. intros H.
  rewrite (unpack_pack _ _ _ (selector_nbytes _ _ E) H). cbn [bind]. f_equal. apply decode_bits; reflexivity.
Qed.

(** When the packed integer does not fit. *)
Lemma bitsum_ge_iff s k : 2 ^ Z.of_nat k <= bitsum s <-> exists m, (k <= m)%nat /\ 0 < nth m s 0.
Proof.
  split.
  - intros H. destruct (bitsum_bounds s) as [H0 _].
    assert (Hpos : 0 < bitsum s) by (pose proof (Z.pow_pos_nonneg 2 (Z.of_nat k)); lia).
    exists (Z.to_nat (Z.log2 (bitsum s))). split.
    + apply Nat2Z.inj_le. rewrite Z2Nat.id by apply Z.log2_nonneg. apply Z.log2_le_pow2; lia.
    + pose proof (bitsum_testbit s (Z.to_nat (Z.log2 (bitsum s)))) as Hb.
      rewrite Z2Nat.id in Hb by apply Z.log2_nonneg. rewrite Z.bit_log2 in Hb by lia. symmetry in Hb. apply Z.ltb_lt; auto.
  - intros (m & Hm & Hv). apply Z.ltb_lt in Hv. rewrite <- bitsum_testbit in Hv.
    destruct (Z.leb_spec (2 ^ Z.of_nat k) (bitsum s)); [assumption|exfalso].
    destruct (bitsum_bounds s) as [H0 _].
    destruct (Z.eq_dec (bitsum s) 0) as [Ez|Ez]; [rewrite Ez, Z.bits_0 in Hv; discriminate|].
    rewrite Z.bits_above_log2 in Hv; [discriminate|lia|].
    apply Z.log2_lt_pow2; [lia|]. eapply Z.lt_le_trans; [eassumption|]. apply Z.pow_le_mono_r; lia.
Qed.

Definition overflows (M : nat) (s : list Z) : Prop :=
  (M = 16%nat /\ 0 < nth 15 s 0)
  \/ ((17 <= M <= 64)%nat /\ exists m, (31 <= m < M)%nat /\ 0 < nth m s 0)
  \/ ((65 <= M <= 128)%nat /\ exists m, (63 <= m < M)%nat /\ 0 < nth m s 0).

Lemma nth_pos_lt s m : 0 < nth m s 0 -> (m < length s)%nat.
Proof. intros H. destruct (Nat.ltb_spec m (length s)); [assumption|]. rewrite nth_overflow in H by assumption. lia. Qed.

Lemma encode_exn_iff M s : length s = M -> (M <= 128)%nat ->
  (encode M s = Exn StructError <-> overflows M s).
Proof.
  intros HM HM128. pose proof (bitsum_bounds s) as HB. rewrite HM in HB.
  unfold encode, encode1. assert (HS : sum_loop (seq 0 M) s 0 = Ok (bitsum s)) by (rewrite <- HM; apply sum_loop_full). rewrite HS.
  unfold number_of_bytes_selector, overflows.
  destruct (Nat.ltb_spec M 9); [|destruct (Nat.ltb_spec M 17); [|destruct (Nat.ltb_spec M 65); [|destruct (Nat.ltb_spec M 129); [|lia]]]];
    cbn [bind]; unfold pack, fmt_lo, fmt_hi, bits; cbn [signed nbytes].
  - assert (2 ^ Z.of_nat M <= 2 ^ 8) by (apply Z.pow_le_mono_r; lia).
    replace (_ && _)%bool with true by (symmetry; apply andb_true_iff; split; apply Z.leb_le; simpl in *; lia).
    split; [discriminate|]. intros [[? ?]|[[? ?]|[? ?]]]; lia.
  - change (8 * Z.of_nat 2 - 1) with 15. pose proof (bitsum_ge_iff s 15) as HG. change (Z.of_nat 15) with 15 in HG.
    assert (2 ^ Z.of_nat M <= 2 ^ 16) by (apply Z.pow_le_mono_r; lia).
    destruct (Z.leb_spec (- 2 ^ 15) (bitsum s)); [|lia].
    destruct (Z.leb_spec (bitsum s) (2 ^ 15 - 1)); cbn [andb].
    + split; [discriminate|]. intros [[? Hx]|[[? ?]|[? ?]]]; [|lia|lia].
      assert (2 ^ 15 <= bitsum s) by (apply HG; exists 15%nat; auto). lia.
    + split; [|reflexivity]. intros _. left. destruct HG as [HG _]. destruct HG as (m & Hm & Hv); [lia|].
      pose proof (nth_pos_lt _ _ Hv). assert (m = 15%nat) by lia. subst m. split; [lia|assumption].
  - change (8 * Z.of_nat 4 - 1) with 31. pose proof (bitsum_ge_iff s 31) as HG. change (Z.of_nat 31) with 31 in HG.
    destruct (Z.leb_spec (- 2 ^ 31) (bitsum s)); [|lia].
    destruct (Z.leb_spec (bitsum s) (2 ^ 31 - 1)); cbn [andb].
    + split; [discriminate|]. intros [[? ?]|[[? (m & Hm & Hv)]|[? ?]]]; [lia| |lia].
      assert (2 ^ 31 <= bitsum s) by (apply HG; exists m; split; [lia|assumption]). lia.
    + split; [|reflexivity]. intros _. right; left. split; [lia|]. destruct HG as [HG _]. destruct HG as (m & Hm & Hv); [lia|].
      pose proof (nth_pos_lt _ _ Hv). exists m. split; [lia|assumption].
  - change (8 * Z.of_nat 8 - 1) with 63. pose proof (bitsum_ge_iff s 63) as HG. change (Z.of_nat 63) with 63 in HG.
    destruct (Z.leb_spec (- 2 ^ 63) (bitsum s)); [|lia].
    destruct (Z.leb_spec (bitsum s) (2 ^ 63 - 1)); cbn [andb].
    + split; [discriminate|]. intros [[? ?]|[[? ?]|[? (m & Hm & Hv)]]]; [lia|lia|].
      assert (2 ^ 63 <= bitsum s) by (apply HG; exists m; split; [lia|assumption]). lia.
    + split; [|reflexivity]. intros _. right; right. split; [lia|]. destruct HG as [HG _]. destruct HG as (m & Hm & Hv); [lia|].
      pose proof (nth_pos_lt _ _ Hv). exists m. split; [lia|assumption].
Qed.

Lemma encode_cases M s : length s = M -> (M <= 128)%nat ->
  (exists w, encode M s = Ok w) \/ encode M s = Exn StructError.
Proof.
  intros HM HM128. unfold encode. destruct (number_of_bytes_selector M) as [f|] eqn:E.
  - cbn [bind]. unfold encode1. subst M. rewrite sum_loop_full. cbn [bind]. unfold pack.
    destruct (_ && _)%bool; eauto.
  - exfalso. revert E. unfold number_of_bytes_selector.
    repeat (destruct (Nat.ltb_spec M 9); [discriminate|]). destruct (Nat.ltb_spec M 17); [discriminate|].
    destruct (Nat.ltb_spec M 65); [discriminate|]. destruct (Nat.ltb_spec M 129); [discriminate|lia].
Qed.

Lemma encode_too_large M s : (128 < M)%nat -> encode M s = Exn GenericException /\ forall w, decode M w = Exn GenericException.
Proof.
  intros H. unfold encode, decode, number_of_bytes_selector.
  destruct (Nat.ltb_spec M 9); [lia|]. destruct (Nat.ltb_spec M 17); [lia|].
  destruct (Nat.ltb_spec M 65); [lia|]. destruct (Nat.ltb_spec M 129); [lia|]. split; reflexivity.
Qed.

Lemma encode_word M s w : encode M s = Ok w ->
  exists f, number_of_bytes_selector M = Ok f /\ length w = nbytes f /\ Forall (fun b => 0 <= b < 256) w.
Proof.
  unfold encode. destruct (number_of_bytes_selector M) as [f|] eqn:E; [|discriminate]. cbn [bind]. unfold encode1.
  destruct (sum_loop _ _ _) as [v|]; [|discriminate]. cbn [bind]. unfold pack. destruct (_ && _)%bool; [|discriminate].
  intros H; apply Ok_inj in H; subst. exists f. repeat split; [apply le_bytes_length|apply le_bytes_range].
Qed.

Definition binary (s : list Z) : Prop := Forall (fun v => v = 0 \/ v = 1) s.

Lemma indicator_binary s : binary s -> indicator s = s.
Proof. induction 1 as [|v r [->| ->] _ IH]; [reflexivity| |]; unfold indicator in *; simpl; now rewrite IH. Qed.

Lemma binary_indicator s : binary (indicator s).
Proof. induction s as [|v r IH]; constructor; auto. destruct (0 <? v); auto. Qed.

Lemma encode_injective M s1 s2 w : length s1 = M -> length s2 = M -> binary s1 -> binary s2 ->
  encode M s1 = Ok w -> encode M s2 = Ok w -> s1 = s2.
Proof.
  intros L1 L2 B1 B2 E1 E2. pose proof (codec_round_trip _ _ _ L1 E1) as R1. pose proof (codec_round_trip _ _ _ L2 E2) as R2.
  rewrite R1 in R2. injection R2 as R2. now rewrite !indicator_binary in R2.
Qed.

(** Decoding any well-sized word. *)
Definition bit_clear_above (f : fmt) (M : nat) (w : list Z) : Prop :=
  forall m, Z.of_nat M <= m -> m < bits f -> Z.testbit (le_value w) m = false.

Lemma bitsum_of_bits v n : 0 <= v < 2 ^ Z.of_nat n ->
  bitsum (map (fun m => Z.land 1 (Z.shiftr v (Z.of_nat m))) (seq 0 n)) = v.
Proof.
  intros Hv. apply Z.bits_inj'. intros k Hk.
  rewrite <- (Z2Nat.id k) by assumption. set (j := Z.to_nat k). rewrite bitsum_testbit.
  destruct (Nat.ltb_spec j n) as [Hj|Hj].
  - replace (nth j (map (fun m : nat => Z.land 1 (Z.shiftr v (Z.of_nat m))) (seq 0 n)) 0)
      with (Z.land 1 (Z.shiftr v (Z.of_nat j))).
    + rewrite land1_shiftr by lia. destruct (Z.testbit v (Z.of_nat j)); reflexivity.
    + set (g := fun m : nat => Z.land 1 (Z.shiftr v (Z.of_nat m))).
      rewrite (nth_indep _ 0 (g 0%nat)) by (rewrite map_length, seq_length; lia).
      rewrite map_nth, seq_nth by lia. reflexivity.
  - rewrite nth_overflow by (rewrite map_length, seq_length; lia).
    destruct (Z.eq_dec v 0) as [->|Hz]; [now rewrite Z.bits_0|].
    symmetry. apply Z.bits_above_log2; [lia|]. apply Z.log2_lt_pow2; [lia|].
    eapply Z.lt_le_trans; [apply Hv|]. apply Z.pow_le_mono_r; lia.
Qed.

Lemma decode_binary M w s : decode M w = Ok s -> length s = M /\ binary s.
Proof.
  unfold decode. destruct (number_of_bytes_selector M) as [f|]; [|discriminate]. cbn [bind]. unfold decode1.
  destruct (unpack f w) as [v|]; [|discriminate]. cbn [bind]. intros H; apply Ok_inj in H; subst. split.
  - now rewrite map_length, seq_length.
  - apply Forall_forall. intros x Hx. apply in_map_iff in Hx. destruct Hx as (m & <- & _). cbv beta.
    rewrite land1_shiftr by lia. destruct (Z.testbit v (Z.of_nat m)); auto.
Qed.

(** Canonical words: the packed value is non-negative and below 2^M. *)
Lemma decode_encode M f w s :
  number_of_bytes_selector M = Ok f -> length w = nbytes f -> Forall (fun b => 0 <= b < 256) w ->
  le_value w < 2 ^ Z.of_nat M -> (signed f = true -> le_value w < 2 ^ (bits f - 1)) ->
  decode M w = Ok s -> encode M s = Ok w.
Proof.
  intros Hf Hl Hr Hv Hs. unfold decode, encode. rewrite Hf. cbn [bind]. unfold decode1, encode1, unpack.
  rewrite Hl, Nat.eqb_refl. pose proof (le_value_range _ Hr) as HR. rewrite Hl in HR. fold (bits f) in HR.
  assert (Hu : (if (signed f && (2 ^ (bits f - 1) <=? le_value w))%bool then le_value w - 2 ^ bits f else le_value w) = le_value w).
  { destruct (signed f); cbn [andb]; [|reflexivity]. specialize (Hs eq_refl).
    destruct (Z.leb_spec (2 ^ (bits f - 1)) (le_value w)); [lia|reflexivity]. }
  cbv zeta. rewrite Hu. cbn [bind]. intros H; apply Ok_inj in H; subst.
  set (l := map _ _). assert (HL : length l = M) by (unfold l; now rewrite map_length, seq_length).
  assert (HS : sum_loop (seq 0 M) l 0 = Ok (bitsum l)) by (rewrite <- HL; apply sum_loop_full). rewrite HS.
  cbn [bind]. unfold l. rewrite bitsum_of_bits by lia.
  unfold pack. assert (Hin : ((fmt_lo f <=? le_value w) && (le_value w <=? fmt_hi f))%bool = true).
  { apply andb_true_iff. unfold fmt_lo, fmt_hi. pose proof (Z.pow_nonneg 2 (bits f - 1)).
    destruct (signed f); split; apply Z.leb_le; try specialize (Hs eq_refl); lia. }
  rewrite Hin. f_equal. rewrite <- Hl. now apply le_bytes_le_value.
Qed.

(** *** Files *)

Lemma read_chunks_words nb : (1 <= nb)%nat -> forall ws fuel,
  Forall (fun w => length w = nb) ws -> (length (concat ws) < fuel)%nat ->
  read_chunks fuel nb (concat ws) = ws ++ [[]].
Proof.
  intros Hnb. induction ws as [|w ws IH]; intros fuel Hw Hf.
  - destruct fuel; [simpl in Hf; lia|]. cbn [concat read_chunks]. rewrite firstn_nil. reflexivity.
  - inversion Hw as [|? ? Hlw Hws]; subst. destruct fuel; [lia|].
    cbn [concat] in *. rewrite app_length in Hf. cbn [read_chunks].
    rewrite firstn_app, Nat.sub_diag, firstn_all, firstn_O, app_nil_r.
    rewrite skipn_app, Nat.sub_diag, skipn_all. cbn [app skipn].
    destruct w as [|b w]; [simpl in Hnb; lia|]. simpl in Hf. rewrite IH; [reflexivity|assumption|lia].
Qed.

Lemma gen_map_all_ok {A B} (g : A -> result B) xs ys e :
  Forall2 (fun x y => g x = Ok y) xs ys -> gen_map g xs e = mkStream ys e.
Proof. induction 1 as [|x y xs ys H _ IH]; cbn [gen_map]; [reflexivity|]. now rewrite H, IH. Qed.

Lemma gen_map_app_exn {A B} (g : A -> result B) xs ys x ex rest e :
  Forall2 (fun x y => g x = Ok y) xs ys -> g x = Exn ex ->
  gen_map g (xs ++ x :: rest) e = mkStream ys (EndExn ex).
Proof.
  induction 1 as [|x' y xs ys H _ IH]; intros Hx; cbn [gen_map app]; [now rewrite Hx|].
  now rewrite H, IH.
Qed.

Lemma Forall2_length_word M f ss ws : number_of_bytes_selector M = Ok f ->
  Forall2 (fun s w => encode M s = Ok w) ss ws -> Forall (fun w => length w = nbytes f) ws.
Proof.
  intros Hf. induction 1 as [|s w ss ws H _ IH]; constructor; auto.
  destruct (encode_word _ _ _ H) as (f' & Hf' & Hl & _). congruence.
Qed.

Lemma encode_encode1 M f s : number_of_bytes_selector M = Ok f -> encode M s = encode1 f M s.
Proof. unfold encode. now intros ->. Qed.
Lemma decode_decode1 M f s : number_of_bytes_selector M = Ok f -> decode M s = decode1 f M s.
Proof. unfold decode. now intros ->. Qed.

Lemma read_written M f ws : number_of_bytes_selector M = Ok f -> Forall (fun w => length w = nbytes f) ws ->
  read_byte_stream_from_file [concat ws] M = mkStream (ws ++ [[]]) (EndExn RuntimeError).
Proof.
  intros Hf Hw. unfold read_byte_stream_from_file. rewrite Hf. cbn [flat_map]. rewrite app_nil_r. unfold read_one_file.
  rewrite read_chunks_words; auto. now apply selector_nbytes with M.
Qed.

Lemma decode_empty M f : number_of_bytes_selector M = Ok f -> decode M [] = Exn StructError.
Proof.
  intros Hf. rewrite (decode_decode1 _ _ _ Hf). unfold decode1, unpack. cbn [length].
  pose proof (selector_nbytes _ _ Hf). destruct (Nat.eqb_spec 0 (nbytes f)); [lia|reflexivity].
Qed.

Lemma Forall2_decode M ss ws : Forall (fun s => length s = M) ss ->
  Forall2 (fun s w => encode M s = Ok w) ss ws ->
  Forall2 (fun w s => decode M w = Ok s) ws (map indicator ss).
Proof.
  intros HL H. revert HL. induction H as [|s w ss ws H _ IH]; intros HL; constructor; inversion HL; subst; auto.
  eapply codec_round_trip; eauto.
Qed.

Lemma encode_stream_ok M ss ws e : (M <= 128)%nat ->
  Forall2 (fun s w => encode M s = Ok w) ss ws ->
  control_signal_2_byte_stream (mkStream ss e) M = mkStream ws e.
Proof.
  intros HM H. unfold control_signal_2_byte_stream. destruct (number_of_bytes_selector M) as [f|ex] eqn:Ef.
  - cbn [items sending]. apply gen_map_all_ok. eapply Forall2_impl; [|exact H]. intros s w. cbv beta. now rewrite (encode_encode1 _ _ _ Ef).
  - exfalso. revert Ef. unfold number_of_bytes_selector.
    destruct (Nat.ltb_spec M 9); [discriminate|]. destruct (Nat.ltb_spec M 17); [discriminate|].
    destruct (Nat.ltb_spec M 65); [discriminate|]. destruct (Nat.ltb_spec M 129); [discriminate|lia].
Qed.

Lemma selector_total M : (M <= 128)%nat -> exists f, number_of_bytes_selector M = Ok f.
Proof.
  intros HM. unfold number_of_bytes_selector.
  destruct (Nat.ltb_spec M 9); [eauto|]. destruct (Nat.ltb_spec M 17); [eauto|].
  destruct (Nat.ltb_spec M 65); [eauto|]. destruct (Nat.ltb_spec M 129); [eauto|lia].
Qed.

Lemma file_round_trip M ss ws : (M <= 128)%nat -> Forall (fun s => length s = M) ss ->
  Forall2 (fun s w => encode M s = Ok w) ss ws ->
  let file := fst (write_byte_stream_to_file (control_signal_2_byte_stream (mkStream ss EndStop) M)) in
  read_byte_stream_from_file [file] M = mkStream (ws ++ [[]]) (EndExn RuntimeError)
  /\ byte_stream_2_control_signal (read_byte_stream_from_file [file] M) M
     = mkStream (map indicator ss) (EndExn StructError).
Proof.
  intros HM HL H. cbv zeta. rewrite (encode_stream_ok _ _ _ _ HM H). unfold write_byte_stream_to_file. cbn [items fst].
  destruct (selector_total M HM) as (f & Hf).
  rewrite (read_written _ _ _ Hf (Forall2_length_word _ _ _ _ Hf H)). split; [reflexivity|].
  unfold byte_stream_2_control_signal. rewrite Hf. cbn [items sending].
  apply gen_map_app_exn.
  - eapply Forall2_impl; [|eapply Forall2_decode; eauto]. intros w s. cbv beta. now rewrite (decode_decode1 _ _ _ Hf).
  - rewrite <- (decode_decode1 _ _ _ Hf). now apply decode_empty with f.
Qed.

Lemma read_many M f (wss : list (list (list Z))) : number_of_bytes_selector M = Ok f ->
  Forall (Forall (fun w => length w = nbytes f)) wss ->
  read_byte_stream_from_file (map (@concat Z) wss) M
  = mkStream (flat_map (fun ws => ws ++ [[]]) wss) (EndExn RuntimeError).
Proof.
  intros Hf H. unfold read_byte_stream_from_file. rewrite Hf. f_equal.
  induction H as [|ws wss Hw _ IH]; [reflexivity|]. cbn [map flat_map]. rewrite IH. f_equal.
  unfold read_one_file. rewrite read_chunks_words; auto. now apply selector_nbytes with M.
Qed.

Lemma many_files_only_first M ss ws wss : (M <= 128)%nat -> Forall (fun s => length s = M) ss ->
  Forall2 (fun s w => encode M s = Ok w) ss ws ->
  (forall f, number_of_bytes_selector M = Ok f -> Forall (Forall (fun w => length w = nbytes f)) wss) ->
  byte_stream_2_control_signal (read_byte_stream_from_file (map (@concat Z) (ws :: wss)) M) M
  = mkStream (map indicator ss) (EndExn StructError).
Proof.
  intros HM HL H Hrest. destruct (selector_total M HM) as (f & Hf). rewrite (read_many _ _ _ Hf).
  2:{ constructor; [eapply Forall2_length_word; eauto|auto]. }
  unfold byte_stream_2_control_signal. rewrite Hf. cbn [items sending flat_map]. rewrite <- app_assoc. cbn [app].
  apply gen_map_app_exn.
  - eapply Forall2_impl; [|eapply Forall2_decode; eauto]. intros w s. cbv beta. now rewrite (decode_decode1 _ _ _ Hf).
  - rewrite <- (decode_decode1 _ _ _ Hf). now apply decode_empty with f.
Qed.

(** *** Splitting over files *)
Lemma wf_run_mono fuel fuel' w e st r : wf_run fuel w e st = Some r -> (fuel <= fuel')%nat -> wf_run fuel' w e st = Some r.
Proof.
  revert fuel' st; induction fuel; intros fuel' st H Hle; [discriminate|]. destruct fuel'; [lia|]. cbn [wf_run] in *.
  destruct (wf_step w e st); [|assumption]. apply IHfuel; [assumption|lia].
Qed.

(** What the files should be: successive groups of [w] words, the last group holding the remainder (possibly empty). *)
Definition split_spec {A} (w : nat) (xs : list A) (files : list (list A)) : Prop :=
  concat files = xs
  /\ length files = (length xs / w + 1)%nat
  /\ (forall i, (i < length xs / w)%nat -> length (nth i files []) = w)
  /\ length (nth (length xs / w) files []) = (length xs mod w)%nat.

Lemma wf_run_spec w e : (1 <= w)%nat -> forall xs dn cur,
  (length cur <= w)%nat -> Forall (fun g => length g = w) dn ->
  exists fuel files, wf_run fuel w e (mkW dn cur (length cur) xs) = Some (files, e)
    /\ concat files = concat dn ++ cur ++ xs
    /\ exists full last, files = dn ++ full ++ [last] /\ Forall (fun g => length g = w) full /\ (length last < w)%nat.
Proof.
  intros Hw. induction xs as [|x xs IH]; intros dn cur Hc Hd.
  - destruct (Nat.ltb_spec (length cur) w) as [Hlt|Hge].
    + exists 1%nat, (dn ++ [cur]). split.
      * cbn [wf_run]. unfold wf_step; cbn [wdone wcur wcount wrest]. now rewrite (proj2 (Nat.ltb_lt _ _) Hlt).
      * split; [now rewrite concat_app; simpl; rewrite !app_nil_r|]. exists [], cur. auto.
    + exists 2%nat, (dn ++ [cur] ++ [[]]). split.
      * cbn [wf_run]. unfold wf_step; cbn [wdone wcur wcount wrest]. rewrite (proj2 (Nat.ltb_ge _ _) Hge). cbn [wdone wcur wcount wrest].
        rewrite (proj2 (Nat.ltb_lt 0 w)) by lia. now rewrite <- app_assoc.
      * split; [rewrite !concat_app; simpl; now rewrite !app_nil_r|]. exists [cur], []. repeat split; auto.
        constructor; [lia|constructor].
  - destruct (Nat.ltb_spec (length cur) w) as [Hlt|Hge].
    + destruct (IH dn (cur ++ [x])) as (fuel & files & Hr & Hcat & Hsh); [rewrite app_length; simpl; lia|assumption|].
      exists (S fuel), files. split; [|split; [|assumption]].
      * cbn [wf_run]. unfold wf_step; cbn [wdone wcur wcount wrest]. rewrite (proj2 (Nat.ltb_lt _ _) Hlt).
        rewrite app_length in Hr. cbn [length] in Hr. now rewrite Nat.add_1_r in Hr.
      * rewrite Hcat, <- app_assoc. reflexivity.
    + assert (Hd' : Forall (fun g : list (list Z) => length g = w) (dn ++ [cur])).
      { apply Forall_app; split; auto. constructor; [lia|constructor]. }
      destruct (IH (dn ++ [cur]) [x]) as (fuel & files & Hr & Hcat & full & last & Hsh & Hfu & Hla); [simpl; lia|assumption|].
      exists (S (S fuel)), files. split; [|split].
      * cbn [wf_run]. unfold wf_step; cbn [wdone wcur wcount wrest]. rewrite (proj2 (Nat.ltb_ge _ _) Hge). cbn [wdone wcur wcount wrest].
        rewrite (proj2 (Nat.ltb_lt 0 w)) by lia. exact Hr.
      * rewrite Hcat, concat_app. simpl. now rewrite app_nil_r, <- app_assoc.
      * exists (cur :: full), last. rewrite Hsh, <- app_assoc. repeat split; auto. constructor; [lia|assumption].
Qed.

Lemma length_concat_uniform {A} w (l : list (list A)) : Forall (fun g => length g = w) l -> length (concat l) = (length l * w)%nat.
Proof. induction 1 as [|g l Hg _ IH]; [reflexivity|]. simpl. rewrite app_length, IH. lia. Qed.

Lemma split_ok w st : (1 <= w)%nat ->
  exists fuel files, (forall fuel', (fuel <= fuel')%nat -> wf_run fuel' w (sending st) (wf_init st) = Some (files, sending st))
    /\ split_spec w (items st) files.
Proof.
  intros Hw. destruct (wf_run_spec w (sending st) Hw (items st) [] []) as (fuel & files & Hr & Hcat & full & last & Hsh & Hfu & Hla);
    [simpl; lia|constructor|].
  exists fuel, files. split; [intros fuel' Hle; eapply wf_run_mono; eauto|].
  simpl in Hcat, Hsh. subst files.
  assert (HL : length (items st) = (length last + length full * w)%nat).
  { rewrite <- Hcat, concat_app, app_length. simpl. rewrite app_nil_r, (length_concat_uniform w) by assumption. lia. }
  assert (HD : (length (items st) / w = length full)%nat).
  { rewrite HL, Nat.div_add by lia. rewrite Nat.div_small by assumption. lia. }
  assert (HMd : (length (items st) mod w = length last)%nat).
  { rewrite HL, Nat.mod_add by lia. now apply Nat.mod_small. }
  unfold split_spec. rewrite HD, HMd. repeat split; auto.
  - rewrite app_length. simpl. lia.
  - intros i Hi. rewrite app_nth1 by assumption. rewrite Forall_forall in Hfu. apply Hfu. now apply nth_In.
  - rewrite app_nth2 by lia. now rewrite Nat.sub_diag.
Qed.

Lemma split_zero_diverges st : forall fuel, wf_run fuel 0 (sending st) (wf_init st) = None.
Proof.
  intros fuel. unfold wf_init. generalize (@nil (list (list Z))) at 1 as dn. generalize (@nil (list Z)) as cur.
  induction fuel; intros cur dn; [reflexivity|]. cbn [wf_run]. unfold wf_step; cbn [wdone wcur wcount wrest]. apply IHfuel.
Qed.

(** *** Wrappers *)
Lemma show_status_go_spec {A} len (xs : list A) e : forall it, (it <= len)%nat ->
  let n := length xs in
  let r := (len - it)%nat in
  show_status_go len it xs e =
    if (n <=? r)%nat then (mkStream xs e, n) else (mkStream (firstn r xs) (EndExn RuntimeError), S r).
Proof.
  induction xs as [|x xs IH]; intros it Hit; cbn [show_status_go length].
  - reflexivity.
  - destruct (Nat.ltb_spec it len).
    + rewrite IH by lia. cbv zeta. replace (len - it)%nat with (S (len - S it)) by lia.
      change (S (length xs) <=? S (len - S it))%nat with (length xs <=? len - S it)%nat.
      destruct (length xs <=? len - S it)%nat; reflexivity.
    + replace (len - it)%nat with 0%nat by lia. reflexivity.
Qed.

Lemma show_status_spec {A} (st : stream A) len :
  show_status st len =
    if (length (items st) <=? len)%nat then (st, length (items st))
    else (mkStream (firstn len (items st)) (EndExn RuntimeError), S len).
Proof.
  unfold show_status. rewrite show_status_go_spec by lia. cbv zeta. rewrite Nat.sub_0_r.
  destruct st; reflexivity.
Qed.

Lemma fill_rows_ok {A} L n (xs : list (list A)) e : (n <= length xs)%nat -> Forall (fun x => length x = L) (firstn n xs) ->
  fill_rows n L xs e = Ok (firstn n xs).
Proof.
  revert xs; induction n; intros xs Hn HF; [reflexivity|]. destruct xs as [|x xs]; [simpl in Hn; lia|].
  cbn [firstn] in *. inversion HF as [|? ? H1 H2]; subst. cbn [fill_rows]. unfold row. rewrite Nat.eqb_refl. cbn [bind].
  rewrite IHn; [reflexivity|simpl in Hn; lia|assumption].
Qed.

Lemma fill_rows_short {A} L n (xs : list (list A)) e : (length xs < n)%nat -> Forall (fun x => length x = L) xs ->
  fill_rows n L xs e = match e with EndStop => Exn StopIteration | EndExn ex => Exn ex end.
Proof.
  revert xs; induction n; intros xs Hn HF; [lia|]. destruct xs as [|x xs]; [reflexivity|].
  inversion HF as [|? ? H1 H2]; subst. cbn [fill_rows]. unfold row. rewrite Nat.eqb_refl. cbn [bind].
  rewrite IHn; [destruct e; reflexivity|simpl in Hn; lia|assumption].
Qed.

Lemma csv_spec M msb good rest bad :
  Forall (fun l => length l = M) good -> length bad <> M ->
  csv_2_control_signal (good ++ bad :: rest) M msb
  = mkStream (map (fun l => if msb then rev l else l) good) (EndExn RuntimeError).
Proof.
  intros HG HB. unfold csv_2_control_signal. apply gen_map_app_exn.
  - induction HG; constructor; auto. unfold csv_row. subst. now rewrite Nat.eqb_refl.
  - unfold csv_row. now rewrite (proj2 (Nat.eqb_neq _ _) HB).
Qed.

Lemma csv_all_good M msb good : Forall (fun l => length l = M) good ->
  csv_2_control_signal good M msb = mkStream (map (fun l => if msb then rev l else l) good) EndStop.
Proof.
  intros HG. unfold csv_2_control_signal. apply gen_map_all_ok.
  induction HG; constructor; auto. unfold csv_row. subst. now rewrite Nat.eqb_refl.
Qed.

Lemma csv_reversed M rows : Forall (fun l => length l = M) rows ->
  csv_2_control_signal (map (@rev Z) rows) M true = mkStream rows EndStop.
Proof.
  intros H. rewrite csv_all_good.
  - rewrite map_map. f_equal. rewrite <- (map_id rows) at 2. apply map_ext. intros; apply rev_involutive.
  - apply Forall_map. eapply Forall_impl; [|exact H]. intros l; simpl; intros <-. apply rev_length.
Qed.

(** *** Whole streams *)
Lemma gen_map_scons {A B C} (g : A -> result B) (h : B -> result C) x y z xs e :
  g x = Ok y -> h y = Ok z ->
  let st := gen_map g (x :: xs) e in
  gen_map h (items st) (sending st) = scons z (gen_map h (items (gen_map g xs e)) (sending (gen_map g xs e))).
Proof. intros Hg Hh. cbv zeta. cbn [gen_map]. rewrite Hg. unfold scons. cbn [items sending gen_map]. now rewrite Hh. Qed.

Lemma stream_round_trip M (st : stream (list Z)) : (M <= 128)%nat -> Forall (fun s => length s = M) (items st) ->
  exists pre post, items st = pre ++ post /\ Forall (fun s => ~ overflows M s) pre /\
    byte_stream_2_control_signal (control_signal_2_byte_stream st M) M
    = mkStream (map indicator pre) (match post with [] => sending st | _ => EndExn StructError end)
    /\ (forall s r, post = s :: r -> overflows M s).
Proof.
  destruct st as [ss e]. cbn [items sending]. intros HM HL.
  unfold byte_stream_2_control_signal, control_signal_2_byte_stream. destruct (selector_total M HM) as (f & Hf). rewrite Hf.
  cbn [items sending]. induction HL as [|s ss Hs HL IH].
  - exists [], []. repeat split; auto. discriminate.
  - destruct (encode_cases M s Hs HM) as [[w Hw]|Hx].
    + destruct IH as (pre & post & -> & Hpre & Heq & Hpost). exists (s :: pre), post. split; [reflexivity|]. split; [|split].
      * constructor; auto. intros Ho. apply (encode_exn_iff M s Hs HM) in Ho. congruence.
      * pose proof (codec_round_trip _ _ _ Hs Hw) as Hd. rewrite (encode_encode1 _ _ _ Hf) in Hw. rewrite (decode_decode1 _ _ _ Hf) in Hd.
        rewrite (gen_map_scons _ _ s w (indicator s) _ _ Hw Hd). rewrite Heq. reflexivity.
      * assumption.
    + exists [], (s :: ss). split; [reflexivity|]. split; [constructor|]. split.
      * rewrite (encode_encode1 _ _ _ Hf) in Hx. cbn [gen_map]. rewrite Hx. reflexivity.
      * intros ? ? [= <- <-]. now apply encode_exn_iff.
Qed.

Lemma sum_loop_short s n : (length s < n)%nat -> forall k acc, (k <= length s)%nat ->
  sum_loop (seq k (n - k)) s acc = Exn IndexError.
Proof.
  intros Hn k. remember (length s - k)%nat as d eqn:Hd. revert k Hd. induction d as [|d IH]; intros k Hd acc Hk.
  - assert (k = length s) by lia. subst k. destruct (n - length s)%nat eqn:E; [lia|]. cbn [seq sum_loop].
    now rewrite (proj2 (nth_error_None _ _)) by lia.
  - destruct (n - k)%nat eqn:E; [lia|]. cbn [seq sum_loop].
    destruct (nth_error s k) eqn:E2; [|apply nth_error_None in E2; lia].
    replace n0 with (n - S k)%nat by lia. apply IH; lia.
Qed.

Lemma encode_short M s : (M <= 128)%nat -> (length s < M)%nat -> encode M s = Exn IndexError.
Proof.
  intros HM HL. destruct (selector_total M HM) as (f & Hf). rewrite (encode_encode1 _ _ _ Hf). unfold encode1.
  pose proof (sum_loop_short s M HL 0%nat 0 ltac:(lia)) as H. rewrite Nat.sub_0_r in H. now rewrite H.
Qed.
