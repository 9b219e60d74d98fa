(** C108: the ADC survey: selection by bandwidth and resolution, plot groups, envelopes. *)
From Coq Require Import Bool Reals Lra Lia ZArith String List Permutation Sorted.
From Flocq Require Import Core.
From Verif Require Import Base Fom Survey SurveyProofs SynthesisProofs.
Import ListNotations.
Open Scope R_scope.

(** exactly the publications in the half-open ranges, in their order; reversed ranges are refused *)
Theorem C108_select : forall db BW ENOB,
  (fst BW <= snd BW -> fst ENOB <= snd ENOB -> exists p : row -> bool, select_bw_and_enob db BW ENOB = Ok (filter p db)
   /\ forall r, p r = true <-> exists f s, r_fs r = Some f /\ r_snr r = Some s /\ fst BW <= f < snd BW /\ fst ENOB <= snr_to_enob s < snd ENOB)
  /\ (snd BW < fst BW \/ snd ENOB < fst ENOB -> select_bw_and_enob db BW ENOB = Exn GenericException).
Proof.
  intros db BW ENOB. rewrite select_cells. split.
  - intros H1 H2. rewrite !Rle_bool_true by assumption. exists (fun r => row_in r (BW, ENOB)). split; [reflexivity|]. intros r. apply row_in_spec.
  - intros [H|H]; [rewrite Rle_bool_false by exact H; reflexivity|]. rewrite (Rle_bool_false (fst ENOB)) by exact H. now destruct (negb _).
Qed.
Print Assumptions C108_select.
Definition pub (y : Z) (a : string) (f s : R) : row := mkR "" (Some y) a (Some f) (Some s) 0.
Example C108_select_ex : exists p, select_bw_and_enob [pub 2001 "SAR" 5 (enob_to_snr 8); pub 2002 "Pipe" 10 (enob_to_snr 8)] (1, 10) (8, 9)
  = Ok (filter p [pub 2001 "SAR" 5 (enob_to_snr 8); pub 2002 "Pipe" 10 (enob_to_snr 8)]) /\ p (pub 2001 "SAR" 5 (enob_to_snr 8)) = true /\ p (pub 2002 "Pipe" 10 (enob_to_snr 8)) = false.
Proof.
  assert (I : snr_to_enob (enob_to_snr 8) = 8) by (unfold snr_to_enob, enob_to_snr; assert (P := twenty_pos); field; lra).
  destruct (C108_select [pub 2001 "SAR" 5 (enob_to_snr 8); pub 2002 "Pipe" 10 (enob_to_snr 8)] (1, 10) (8, 9)) as [H _]. destruct H as (p & E & S); [cbn; lra|cbn; lra|]. exists p. split; [exact E|]. split.
  - apply S. exists 5, (enob_to_snr 8). cbn. rewrite I. repeat split; lra.
  - destruct (p (pub 2002 "Pipe" 10 (enob_to_snr 8))) eqn:D; [|reflexivity]. apply S in D as (f & s & E1 & _ & H & _). cbn in *. injection E1 as <-. lra.
Qed.

(** a grid of ascending edges splits the selection of its whole range into parts: nothing lost, nothing twice *)
Theorem C108_tiles : forall db b bs e es, StronglySorted Rle (b :: bs) -> StronglySorted Rle (e :: es) ->
  exists parts whole, map (fun c => select_bw_and_enob db (fst c) (snd c)) (list_prod (cells b bs) (cells e es)) = map Ok parts
  /\ select_bw_and_enob db (b, last bs b) (e, last es e) = Ok whole /\ Permutation (concat parts) whole.
Proof. intros. now apply select_tiles. Qed.
Print Assumptions C108_tiles.
Example C108_tiles_ex : cells 1 [2; 5] = [(1, 2); (2, 5)] /\ StronglySorted Rle [1; 2; 5].
Proof. split; [reflexivity|]. repeat constructor; lra. Qed.

(** no range, however wide, returns the publications without SNR or Nyquist frequency *)
Theorem C108_missing : forall db BW ENOB sel r, select_bw_and_enob db BW ENOB = Ok sel -> In r sel -> r_fs r <> None /\ r_snr r <> None.
Proof.
  intros db BW ENOB sel r H Hr. rewrite select_cells in H. destruct (negb _); [discriminate|]. destruct (negb _); [discriminate|]. apply Ok_inj in H. subst sel.
  apply filter_In in Hr as [_ Hr]. apply row_in_spec in Hr as (f & s & -> & -> & _). split; discriminate.
Qed.
Print Assumptions C108_missing.
Theorem C108_everything_refuted : exists db, db <> [] /\ forall BW ENOB sel, select_bw_and_enob db BW ENOB = Ok sel -> sel = [].
Proof.
  exists [mkR "ISSCC" (Some 2001%Z) "SAR" (Some 1) None 0]. split; [discriminate|]. intros BW ENOB sel H. destruct sel as [|r sel]; [reflexivity|]. exfalso.
  pose proof (C108_missing _ _ _ _ r H (or_introl eq_refl)) as [_ N]. rewrite select_cells in H. destruct (negb _); [discriminate|]. destruct (negb _); [discriminate|]. apply Ok_inj in H.
  assert (Hr : In r (r :: sel)) by now left. rewrite <- H in Hr. apply filter_In in Hr as [[<-|[]] _]. now apply N.
Qed.
Print Assumptions C108_everything_refuted.

(** the four point clouds of every plot: each publication up to the current year exactly once, later ones and undated ones never *)
Theorem C108_groups : forall isscc vlsi, let db := read_db isscc vlsi in
  exists p : row -> bool, Permutation (concat (groups db)) (filter p db) /\ forall r, p r = true <-> exists y, r_year r = Some y /\ (y <= 2021)%Z.
Proof.
  intros isscc vlsi. exists shown. split; [apply groups_tile|]. intros r. unfold shown. destruct (r_year r) as [y|]; [|split; [discriminate|intros (y & E & _); discriminate]].
  rewrite Z.leb_le. split; [now exists y|]. intros (y' & E & H). now injection E as <-.
Qed.
Print Assumptions C108_groups.
Theorem C108_groups_content : forall isscc vlsi, groups (read_db isscc vlsi) = [ map (set_conf "ISSCC") (filter year_is isscc); map (set_conf "VLSI") (filter year_is vlsi);
  map (set_conf "ISSCC") (filter year_before isscc); map (set_conf "VLSI") (filter year_before vlsi) ].
Proof.
  intros isscc vlsi. unfold groups, read_db. rewrite !filter_app.
  assert (F : forall c d p l, (forall r, p (set_conf c r) = p r) -> filter (fun r => String.eqb (r_conf r) d && p r) (map (set_conf c) l) = if String.eqb c d then map (set_conf c) (filter p l) else []).
  { intros c d p l Hp. induction l as [|r l IH]; [now destruct (String.eqb c d)|]. cbn [map filter]. cbn [set_conf r_conf]. rewrite Hp, IH. destruct (String.eqb c d); cbn [andb]; [|reflexivity]. now destruct (p r). }
  rewrite !F by reflexivity. cbn. now rewrite !app_nil_r.
Qed.
Print Assumptions C108_groups_content.
Example C108_groups_ex : map (@List.length row) (groups (read_db [pub 2021 "SAR" 1 1; pub 2000 "SAR" 1 1] [pub 2022 "SAR" 1 1; pub 2020 "SAR" 1 1])) = [1; 0; 1; 1]%nat.
Proof. reflexivity. Qed.

(** the architectures: all of them, each once, in the order of their first publication; one colour each *)
Theorem C108_architectures : forall db, NoDup (architectures db) /\ (forall a, In a (architectures db) <-> exists r, In r db /\ r_arch r = a)
  /\ (forall db', exists more, architectures (db ++ db') = architectures db ++ more) /\ List.length (colours db) = List.length (architectures db)
  /\ Forall (fun x => 0 <= x <= 9 / 10) (colours db).
Proof.
  intros db. unfold architectures. split; [apply unique_nodup|]. split; [|split; [|split]].
  - intros a. rewrite unique_in, in_map_iff. split; [intros [(r & E & H) _]; now exists r|intros (r & H & E); split; [now exists r|now intros []]].
  - intros db'. rewrite map_app, unique_app. now eexists.
  - unfold colours. rewrite map_length, seq_length. reflexivity.
  - unfold colours. apply Forall_forall. intros x Hx. apply in_map_iff in Hx as (i & <- & Hi). apply in_seq in Hi. fold (architectures db) in *. set (n := List.length (architectures db)) in *.
    destruct (Nat.eqb_spec n 1); [lra|]. assert (A : 0 <= INR i) by apply pos_INR. assert (B : INR i <= INR (n - 1)) by (apply le_INR; lia). assert (C : 0 < INR (n - 1)) by (apply lt_0_INR; lia).
    unfold Rdiv. assert (0 < / INR (n - 1)) by now apply Rinv_0_lt_compat. split; [nra|]. apply (Rmult_le_reg_r (INR (n - 1))); [exact C|]. rewrite Rmult_assoc, Rinv_l by lra. nra.
Qed.
Print Assumptions C108_architectures.
Example C108_architectures_ex : architectures [pub 2021 "SAR" 1 1; pub 2000 "Flash" 1 1; pub 2001 "SAR" 1 1] = ["SAR"; "Flash"]%string.
Proof. reflexivity. Qed.

(** Walden envelope: even, increasing with |f|, flat at 0.67 fJ below and proportional to f above the corner frequency (within a factor sqrt 2) *)
Theorem C108_walden_envelope : forall f g,
  FoMW_envelope (- f) = FoMW_envelope f /\ (0 <= f -> f < g -> FoMW_envelope f < FoMW_envelope g)
  /\ FoMW_envelope 0 = 67 / 100
  /\ (0 <= f -> 67 / 100 * (f / FoMW_hf_corner) < FoMW_envelope f)
  /\ (FoMW_hf_corner <= f -> FoMW_envelope f <= sqrt 2 * (67 / 100 * (f / FoMW_hf_corner))).
Proof.
  intros f g. assert (C : 0 < FoMW_hf_corner) by (unfold FoMW_hf_corner; lra). unfold FoMW_envelope, FoMW_hf_overall. repeat split.
  - do 2 f_equal. replace (- f / FoMW_hf_corner) with (- (f / FoMW_hf_corner)) by (field; lra). ring_simplify. reflexivity.
  - intros H1 H2. apply Rmult_lt_compat_l; [lra|]. apply sqrt_lt_1; [nra|nra|]. assert (Q := sq_mono f g _ C H1 H2). lra.
  - replace (0 / FoMW_hf_corner) with 0 by (field; lra). replace (1 + 0 ^ 2) with 1 by ring. rewrite sqrt_1. ring.
  - intros H. apply Rmult_lt_compat_l; [lra|]. apply env_sqrt. apply Rmult_le_pos; [exact H|left; now apply Rinv_0_lt_compat].
  - intros H. assert (1 <= f / FoMW_hf_corner) by (apply (Rmult_le_reg_r FoMW_hf_corner); [exact C|]; unfold Rdiv; rewrite Rmult_assoc, Rinv_l by lra; lra).
    assert (Q := env_sqrt2 _ H0). nra.
Qed.
Print Assumptions C108_walden_envelope.
Example C108_walden_ex : FoMW_hf_corner <= 10 ^ 9.
Proof. unfold FoMW_hf_corner. lra. Qed.
(** Schreier envelope: decreasing with |f| from 184.76 dB, and 10 dB per decade above the corner frequency (within 10 log10 sqrt 2 dB) *)
Theorem C108_schreier_envelope : forall f g,
  FoMS_envelope (- f) = FoMS_envelope f /\ (0 <= f -> f < g -> FoMS_envelope g < FoMS_envelope f)
  /\ FoMS_envelope 0 = 18476 / 100
  /\ (0 < f -> FoMS_envelope f < 18476 / 100 - 10 * log10 (f / FoMS_hf_corner))
  /\ (FoMS_hf_corner <= f -> 18476 / 100 - 10 * log10 (f / FoMS_hf_corner) - 10 * log10 (sqrt 2) <= FoMS_envelope f)
  /\ FoMS_envelope f - 10 <= FoMS_envelope (10 * f).
Proof.
  intros f g. assert (C : 0 < FoMS_hf_corner) by (unfold FoMS_hf_corner; lra). unfold FoMS_envelope, FoMS_hf_overall.
  assert (E : forall x, 0 < sqrt (1 + (x / FoMS_hf_corner) ^ 2)) by (intros x; assert (Q := env_pos (x / FoMS_hf_corner)); lra). repeat split.
  - do 4 f_equal. replace (- f / FoMS_hf_corner) with (- (f / FoMS_hf_corner)) by (field; lra). ring_simplify. reflexivity.
  - intros H1 H2. assert (L : sqrt (1 + (f / FoMS_hf_corner) ^ 2) < sqrt (1 + (g / FoMS_hf_corner) ^ 2)) by (apply sqrt_lt_1; [nra|nra|]; assert (Q := sq_mono f g _ C H1 H2); lra).
    assert (Q := log10_lt _ _ (E f) L). lra.
  - replace (0 / FoMS_hf_corner) with 0 by (field; lra). replace (1 + 0 ^ 2) with 1 by ring. rewrite sqrt_1. unfold log10. rewrite ln_1. unfold Rdiv. ring.
  - intros H. assert (P : 0 < f / FoMS_hf_corner) by now apply Rdiv_lt_0_compat. assert (Q := log10_lt _ _ P (env_sqrt _ (Rlt_le _ _ P))). lra.
  - intros H. assert (H0 : 1 <= f / FoMS_hf_corner) by (apply (Rmult_le_reg_r FoMS_hf_corner); [exact C|]; unfold Rdiv; rewrite Rmult_assoc, Rinv_l by lra; lra).
    assert (S2 : 0 < sqrt 2) by (apply sqrt_lt_R0; lra). assert (Q := log10_le _ _ (E f) (env_sqrt2 _ H0)). rewrite log10_mult in Q by lra. lra.
  - assert (L : sqrt (1 + (10 * f / FoMS_hf_corner) ^ 2) <= 10 * sqrt (1 + (f / FoMS_hf_corner) ^ 2)).
    { set (x := f / FoMS_hf_corner). replace (10 * f / FoMS_hf_corner) with (10 * x) by (unfold x; field; lra). rewrite <- (sqrt_pow2 10) at 2 by lra. rewrite <- sqrt_mult by nra. apply sqrt_le_1; nra. }
    assert (Q := log10_le _ _ (E (10 * f)) L). rewrite log10_mult in Q by (try apply E; lra). assert (T : log10 10 = 1) by (unfold log10; field; assert (W := ln10_pos); lra). lra.
Qed.
Print Assumptions C108_schreier_envelope.
Example C108_schreier_ex : FoMS_hf_corner <= 10 ^ 8.
Proof. unfold FoMS_hf_corner. lra. Qed.

(** the jitter lines: the arguments are passed the wrong way round, which makes no difference; 100 dB over the plotted five decades *)
Theorem C108_jitter : forall a b jitter, f_sigma_to_jitter_sndr a b = f_sigma_to_jitter_sndr b a
  /\ (0 < jitter -> exists y, f_sigma_to_jitter_sndr 1000000 jitter = Ok y /\ aperture_line jitter = Ok [(y, 1000000); (y - 100, 100000000000)]).
Proof.
  intros a b jitter. split.
  - unfold f_sigma_to_jitter_sndr. replace (2 * PI * b * a) with (2 * PI * a * b) by ring. reflexivity.
  - intros Hj. assert (Hp := PI_RGT_0). unfold aperture_line, f_sigma_to_jitter_sndr.
    assert (P1 : 0 < 2 * PI * jitter * 1000000) by (apply Rmult_lt_0_compat; [|lra]; nra). assert (P2 : 0 < 2 * PI * 100000000000 * jitter) by nra.
    assert (P3 : 0 < 2 * PI * 1000000 * jitter) by nra. rewrite !Rle_bool_false by assumption. cbn [bind]. eexists. split; [reflexivity|].
    replace (2 * PI * 1000000 * jitter) with (2 * PI * jitter * 1000000) by ring. do 4 f_equal. 
    replace (2 * PI * 100000000000 * jitter) with (2 * PI * jitter * 1000000 * (10 * (10 * (10 * (10 * 10))))) by ring.
    assert (T : log10 10 = 1) by (unfold log10; field; assert (W := ln10_pos); lra). rewrite !log10_mult, T by lra. ring.
Qed.
Print Assumptions C108_jitter.
Example C108_jitter_ex : 0 < / 10 ^ 12.
Proof. apply Rinv_0_lt_compat. lra. Qed.
