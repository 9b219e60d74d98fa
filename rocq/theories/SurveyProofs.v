(** Lemmas about the survey: filters that tile, first occurrences, envelopes. *)
From Coq Require Import Bool Reals Lra Lia ZArith String List Permutation Sorted.
From Flocq Require Import Core.
From Verif Require Import Base Fom Survey SynthesisProofs.
Import ListNotations.
Open Scope R_scope.

(** *** predicates that tile a list *)
Section Tile.
Context {A : Type}.
Definition hits (ps : list (A -> bool)) (r : A) : nat := length (filter (fun q => q r) ps).
Lemma tile_step (r : A) db ps : Permutation (concat (map (fun q => filter q (r :: db)) ps)) (repeat r (hits ps r) ++ concat (map (fun q => filter q db) ps)).
Proof.
  induction ps as [|q ps IH]; [reflexivity|]. cbn [map concat]. unfold hits in *. cbn [filter]. destruct (q r); cbn [List.length repeat app].
  - rewrite IH. constructor. rewrite !app_assoc. apply Permutation_app_tail, Permutation_app_comm.
  - rewrite IH. rewrite !app_assoc. apply Permutation_app_tail, Permutation_app_comm.
Qed.
Lemma tile db ps (p : A -> bool) : (forall r, In r db -> hits ps r = if p r then 1%nat else 0%nat) -> Permutation (concat (map (fun q => filter q db) ps)) (filter p db).
Proof.
  induction db as [|r db IH]; intros H.
  - clear H. cbn. induction ps as [|q ps IH]; [reflexivity|exact IH].
  - rewrite tile_step, H by now left. cbn [filter]. destruct (p r); cbn [repeat app]; [constructor|]; apply IH; intros; apply H; now right.
Qed.
End Tile.

(** consecutive pairs of a list of edges *)
Fixpoint cells (a : R) (l : list R) : list (R * R) := match l with [] => [] | b :: l => (a, b) :: cells b l end.
Definition in_cell (x : R) (c : R * R) : bool := Rle_bool (fst c) x && negb (Rle_bool (snd c) x).
Lemma cells_hit x : forall l a, StronglySorted Rle (a :: l) -> length (filter (in_cell x) (cells a l)) = if in_cell x (a, last l a) then 1%nat else 0%nat.
Proof.
  induction l as [|b l IH]; intros a H.
  - cbn. unfold in_cell. cbn [fst snd]. destruct (Rle_bool a x); reflexivity.
  - inversion H as [|? ? H1 H2]; subst. inversion H2 as [|? ? Hab _]; subst. cbn [cells filter].
    assert (L : last (b :: l) a = last l b) by (clear; revert a b; induction l as [|c l IH]; intros a b; [reflexivity|]; change (last (c :: l) a = last (c :: l) b); now rewrite (IH a c), (IH b c)). rewrite L.
    assert (Hb : b <= last l b). { destruct l as [|c l]; [apply Rle_refl|]. inversion H1 as [|? ? _ H3]; subst. rewrite Forall_forall in H3. apply H3. clear. revert b c. induction l as [|d l IH]; intros b c; [now left|]. right. apply (IH b d). }
    specialize (IH b H1). unfold in_cell in *. cbn [fst snd] in *.
    destruct (Rle_bool_spec a x), (Rle_bool_spec b x), (Rle_bool_spec (last l b) x); cbn [andb negb List.length] in *; try rewrite IH; try reflexivity; lra.
Qed.
Lemma filter_app_len {A} (f : A -> bool) l l' : length (filter f (l ++ l')) = (length (filter f l) + length (filter f l'))%nat.
Proof. now rewrite filter_app, app_length. Qed.
Lemma prod_hit {A B} (f : A -> bool) (g : B -> bool) l l' : length (filter (fun c => f (fst c) && g (snd c)) (list_prod l l')) = (length (filter f l) * length (filter g l'))%nat.
Proof.
  induction l as [|a l IH]; [reflexivity|]. cbn [list_prod]. rewrite filter_app_len, IH. cbn [filter]. assert (M : length (filter (fun c => f (fst c) && g (snd c)) (map (fun y => (a, y)) l')) = if f a then length (filter g l') else O).
  { clear. induction l' as [|b l' IH]; [now destruct (f a)|]. cbn [map filter fst snd]. destruct (f a); cbn [andb]; [destruct (g b); cbn [List.length]; now rewrite IH|exact IH]. }
  rewrite M. destruct (f a); reflexivity.
Qed.

(** the row test in terms of cells *)
Definition in_opt (x : option R) (c : R * R) : bool := match x with Some x => in_cell x c | None => false end.
Lemma mono_enob a s : Rle_bool (enob_to_snr a) s = Rle_bool a (snr_to_enob s).
Proof.
  assert (P := twenty_pos). assert (E : enob_to_snr a - s = (a - snr_to_enob s) * twenty_log_2) by (unfold enob_to_snr, snr_to_enob; field; lra).
  destruct (Rle_bool_spec (enob_to_snr a) s), (Rle_bool_spec a (snr_to_enob s)); try reflexivity; nra.
Qed.
Definition row_in (r : row) (c : (R * R) * (R * R)) : bool := in_opt (r_fs r) (fst c) && in_opt (option_map snr_to_enob (r_snr r)) (snd c).
Lemma select_cells db BW ENOB : select_bw_and_enob db BW ENOB =
  if negb (Rle_bool (fst BW) (snd BW)) then Exn GenericException else if negb (Rle_bool (fst ENOB) (snd ENOB)) then Exn GenericException else Ok (filter (fun r => row_in r (BW, ENOB)) db).
Proof.
  unfold select_bw_and_enob. destruct (negb (Rle_bool (fst BW) (snd BW))); [reflexivity|]. destruct (negb (Rle_bool (fst ENOB) (snd ENOB))); [reflexivity|]. f_equal. apply filter_ext. intros r.
  unfold row_in, ge_col, lt_col, in_opt, in_cell. cbn [fst snd]. destruct (r_fs r), (r_snr r); cbn [option_map fst snd]; rewrite ?mono_enob, ?andb_false_r, ?andb_assoc; reflexivity.
Qed.
Lemma row_in_spec r BW ENOB : row_in r (BW, ENOB) = true <-> exists f s, r_fs r = Some f /\ r_snr r = Some s /\ fst BW <= f < snd BW /\ fst ENOB <= snr_to_enob s < snd ENOB.
Proof.
  unfold row_in, in_opt, in_cell. cbn [fst snd]. destruct (r_fs r) as [f|], (r_snr r) as [s|]; cbn [option_map andb].
  - destruct (Rle_bool_spec (fst BW) f), (Rle_bool_spec (snd BW) f), (Rle_bool_spec (fst ENOB) (snr_to_enob s)), (Rle_bool_spec (snd ENOB) (snr_to_enob s)); cbn; split; intros HH; try discriminate; try reflexivity;
    try (exists f, s; repeat split; auto; lra); destruct HH as (f' & s' & E1 & E2 & H3 & H4); injection E1 as <-; injection E2 as <-; lra.
  - rewrite andb_false_r. split; [discriminate|]. intros (f' & s' & _ & E & _). discriminate.
  - split; [discriminate|]. intros (f' & s' & E & _). discriminate.
  - split; [discriminate|]. intros (f' & s' & E & _). discriminate.
Qed.
Lemma cells_le l a c : StronglySorted Rle (a :: l) -> In c (cells a l) -> fst c <= snd c.
Proof.
  revert a. induction l as [|b l IH]; intros a H Hc; [contradiction|]. inversion H as [|? ? H1 H2]; subst. destruct Hc as [<-|Hc]; [inversion H2; assumption|]. now apply (IH b).
Qed.
Lemma last_le l a : StronglySorted Rle (a :: l) -> a <= last l a.
Proof.
  intros H. inversion H as [|? ? _ H2]; subst. destruct l as [|b l]; [apply Rle_refl|]. rewrite Forall_forall in H2. apply H2. clear. revert a b. induction l as [|d l IH]; intros a b; [now left|]. right. apply (IH a d).
Qed.
Lemma select_tiles db a l e k : StronglySorted Rle (a :: l) -> StronglySorted Rle (e :: k) ->
  exists parts whole, map (fun c => select_bw_and_enob db (fst c) (snd c)) (list_prod (cells a l) (cells e k)) = map Ok parts
  /\ select_bw_and_enob db (a, last l a) (e, last k e) = Ok whole /\ Permutation (concat parts) whole.
Proof.
  intros H1 H2. exists (map (fun q => filter q db) (map (fun c r => row_in r c) (list_prod (cells a l) (cells e k)))). exists (filter (fun r => row_in r ((a, last l a), (e, last k e))) db). split; [|split].
  - rewrite !map_map. apply map_ext_in. intros [B E] Hin. apply in_prod_iff in Hin as [HB HE]. rewrite select_cells. cbn [fst snd].
    rewrite Rle_bool_true by (exact (cells_le l a B H1 HB)). rewrite Rle_bool_true by (exact (cells_le k e E H2 HE)). reflexivity.
  - rewrite select_cells. cbn [fst snd]. rewrite (Rle_bool_true a) by (apply last_le; exact H1). rewrite (Rle_bool_true e) by (apply last_le; exact H2). reflexivity.
  - apply tile. intros r _. unfold hits.
    assert (M : forall (l0 : list ((R * R) * (R * R))), length (filter (fun q : row -> bool => q r) (map (fun c r => row_in r c) l0)) = length (filter (fun c => row_in r c) l0)).
    { induction l0 as [|c l0 IH]; [reflexivity|]. cbn [map filter]. destruct (row_in r c); cbn [List.length]; now rewrite IH. }
    rewrite M. unfold row_in. rewrite prod_hit. cbn [fst snd]. destruct (r_fs r) as [f|], (r_snr r) as [s|]; cbn [in_opt option_map].
    + assert (X : forall x u v, StronglySorted Rle (u :: v) -> length (filter (in_opt (Some x)) (cells u v)) = if in_cell x (u, last v u) then 1%nat else 0%nat) by (intros; now apply cells_hit).
      rewrite !X by assumption. destruct (in_cell f _), (in_cell (snr_to_enob s) _); reflexivity.
    + assert (X : forall v : list (R * R), length (filter (in_opt None) v) = O) by (induction v; [reflexivity|exact IHv]). rewrite X, andb_false_r. lia.
    + assert (X : forall v : list (R * R), length (filter (in_opt None) v) = O) by (induction v; [reflexivity|exact IHv]). rewrite X. reflexivity.
    + assert (X : forall v : list (R * R), length (filter (in_opt None) v) = O) by (induction v; [reflexivity|exact IHv]). rewrite X. reflexivity.
Qed.

(** *** the groups of the plots *)
Definition shown (r : row) : bool := match r_year r with Some y => Z.leb y 2021 | None => false end.
Lemma groups_tile isscc vlsi : Permutation (concat (groups (read_db isscc vlsi))) (filter shown (read_db isscc vlsi)).
Proof.
  unfold groups. set (db := read_db isscc vlsi).
  apply (tile db [(fun r => String.eqb (r_conf r) "ISSCC" && year_is r); (fun r => String.eqb (r_conf r) "VLSI" && year_is r); (fun r => String.eqb (r_conf r) "ISSCC" && year_before r); (fun r => String.eqb (r_conf r) "VLSI" && year_before r)]).
  intros r Hr. assert (C : r_conf r = "ISSCC"%string \/ r_conf r = "VLSI"%string).
  { unfold db, read_db in Hr. apply in_app_or in Hr. destruct Hr as [Hr|Hr]; apply in_map_iff in Hr as (r0 & <- & _); [now left|now right]. }
  unfold hits, shown, year_is, year_before, current_year. cbn [filter]. destruct C as [-> | ->]; cbn; destruct (r_year r) as [y|]; try reflexivity;
  destruct (Z.eqb_spec y 2021), (Z.ltb_spec y 2021), (Z.leb_spec y 2021); try reflexivity; lia.
Qed.

(** *** first occurrences *)
Lemma existsb_eqb x l : existsb (String.eqb x) l = true <-> In x l.
Proof. rewrite existsb_exists. split; [intros (y & H & E); apply String.eqb_eq in E; now subst|intros H; exists x; split; [exact H|apply String.eqb_refl]]. Qed.
Lemma unique_in l : forall seen x, In x (unique_acc seen l) <-> In x l /\ ~ In x seen.
Proof.
  induction l as [|y l IH]; intros seen x; cbn [unique_acc]; [cbn; tauto|]. destruct (existsb (String.eqb y) seen) eqn:E.
  - apply existsb_eqb in E. rewrite IH. cbn [In]. split; [tauto|]. intros [[->|H] N]; [contradiction|tauto].
  - assert (N : ~ In y seen) by (intros H; apply existsb_eqb in H; congruence). cbn [In]. rewrite IH. cbn [In]. destruct (string_dec y x) as [->|D]; [tauto|]. intuition congruence.
Qed.
Lemma unique_nodup l : forall seen, NoDup (unique_acc seen l).
Proof.
  induction l as [|y l IH]; intros seen; cbn [unique_acc]; [constructor|]. destruct (existsb _ _); [apply IH|]. constructor; [|apply IH]. rewrite unique_in. cbn [In]. tauto.
Qed.
Lemma unique_ext l : forall s s', (forall x, In x s <-> In x s') -> unique_acc s l = unique_acc s' l.
Proof.
  induction l as [|y l IH]; intros s s' H; [reflexivity|]. cbn [unique_acc]. replace (existsb (String.eqb y) s') with (existsb (String.eqb y) s).
  - destruct (existsb (String.eqb y) s); [now apply IH|]. f_equal. apply IH. intros x. cbn. now rewrite H.
  - apply eq_true_iff_eq. now rewrite !existsb_eqb.
Qed.
Lemma unique_app l l' : forall seen, unique_acc seen (l ++ l') = unique_acc seen l ++ unique_acc (l ++ seen) l'.
Proof.
  induction l as [|y l IH]; intros seen; [reflexivity|]. cbn [app unique_acc]. destruct (existsb (String.eqb y) seen) eqn:E.
  - rewrite IH. f_equal. apply unique_ext. intros x. apply existsb_eqb in E. cbn [In]. rewrite in_app_iff. intuition (subst; auto).
  - cbn [app]. rewrite IH. do 2 f_equal. apply unique_ext. intros x. cbn [In]. rewrite !in_app_iff. cbn [In]. intuition.
Qed.

(** *** envelopes *)
Lemma log10_le x y : 0 < x -> x <= y -> log10 x <= log10 y.
Proof. intros H [L|<-]; [left; now apply log10_lt|right; reflexivity]. Qed.
Lemma sq_mono a b c : 0 < c -> 0 <= a -> a < b -> (a / c) ^ 2 < (b / c) ^ 2.
Proof. intros Hc Ha Hab. assert (0 < / c) by now apply Rinv_0_lt_compat. unfold Rdiv. assert (a * / c < b * / c) by nra. assert (0 <= a * / c) by nra. nra. Qed.
Lemma env_sqrt x : 0 <= x -> x < sqrt (1 + x ^ 2).
Proof. intros H. rewrite <- (sqrt_pow2 x) at 1 by exact H. apply sqrt_lt_1; nra. Qed.
Lemma env_sqrt2 x : 1 <= x -> sqrt (1 + x ^ 2) <= x * sqrt 2.
Proof. intros H. rewrite <- (sqrt_pow2 x) at 2 by lra. rewrite <- sqrt_mult by nra. apply sqrt_le_1; nra. Qed.
Lemma env_pos x : 1 <= sqrt (1 + x ^ 2).
Proof. rewrite <- sqrt_1 at 1. apply sqrt_le_1; nra. Qed.
