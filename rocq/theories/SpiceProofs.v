(** The NGSpice simulator object and what it samples. *)
From Coq Require Import String List Bool Arith ZArith Reals Lia Lra Sorted.
From Flocq Require Import Core.
From Verif Require Import Base Netlist Circuits CircuitLaws Observe ObserveProofs ClosedLoop ClosedLoopProofs ClosedLoopMain SpiceSimulator SpiceRun.
From Verif Require SourceProofs.
Import ListNotations.
Open Scope R_scope.

(** ** Crossings of a clock with numbered phases *)
Section Phases.
Variables (vcm : R) (clk : nat -> R) (ph : nat -> nat) (len n : nat).
Hypothesis Mono : forall i j, (i <= j < len)%nat -> (ph i <= ph j)%nat.
Hypothesis Lvl : forall i, (i < len)%nat -> (ph i <= 2 * n)%nat -> (clk i <= vcm <-> Nat.even (ph i) = true).
Hypothesis Hit : forall p, (p <= 2 * n)%nat -> exists i, (i < len)%nat /\ ph i = p.
Lemma even_dec p : exists h, (p = 2 * h /\ Nat.even p = true)%nat \/ (p = 2 * h + 1 /\ Nat.even p = false)%nat.
Proof.
  destruct (Nat.even p) eqn:E; [apply Nat.even_spec in E; destruct E as [h E]; exists h; left; lia|].
  assert (O : Nat.odd p = true) by (unfold Nat.odd; now rewrite E). apply Nat.odd_spec in O. destruct O as [h O]. exists h. right. lia.
Qed.
Lemma le_low i : (i < len)%nat -> (ph i <= 2 * n)%nat -> Rle_bool (clk i) vcm = Nat.even (ph i).
Proof.
  intros H1 H2. destruct (Lvl i H1 H2) as [A B]. destruct (Nat.even (ph i)); [apply Rle_bool_true, B; reflexivity|].
  apply Rle_bool_false. destruct (Rle_lt_dec (clk i) vcm) as [Hle|]; [specialize (A Hle); discriminate A|assumption].
Qed.
Lemma prefix q : (q < len)%nat -> (ph q <= 2 * n)%nat ->
  (exists h, (ph q = 2 * h \/ ph q = 2 * h + 1)%nat /\ length (crossings vcm clk (S q)) = S h) /\
  forall r i, nth_error (crossings vcm clk (S q)) r = Some i -> (i < len)%nat /\ (ph i = 2 * r)%nat.
Proof.
  induction q as [|q IH]; intros H1 H2.
  - destruct (Hit 0) as (j & Hj1 & Hj2); [lia|]. assert (E0 : ph 0%nat = 0%nat) by (pose proof (Mono 0 j); lia).
    assert (F : falls vcm clk 0 = true) by (unfold falls; rewrite le_low by lia; now rewrite E0).
    rewrite crossings_S, F. cbn [crossings seq filter app]. split; [exists 0%nat; split; [lia|reflexivity]|]. intros [|r] i H; [injection H as <-; lia|]. destruct r; discriminate.
  - assert (Mq : (ph q <= ph (S q))%nat) by (apply Mono; lia).
    destruct IH as [(h & Hh & L) IH]; [lia|lia|].
    assert (St : (ph (S q) <= S (ph q))%nat).
    { destruct (Nat.le_gt_cases (ph (S q)) (S (ph q))) as [|G]; [assumption|]. destruct (Hit (S (ph q))) as (j & Hj1 & Hj2); [lia|].
      destruct (Nat.le_gt_cases j q) as [Lq|Gq]; [pose proof (Mono j q); lia|pose proof (Mono (S q) j); lia]. }
    rewrite crossings_S. unfold falls at 1 2. rewrite le_low by lia. rewrite <- neg_le, le_low by lia.
    destruct (even_dec (ph (S q))) as (h1 & [[P1 E1]|[P1 E1]]), (even_dec (ph q)) as (h0 & [[P0 E0]|[P0 E0]]); rewrite E0, E1; cbn [negb andb].
    + rewrite app_nil_r. split; [exists h; lia|exact IH].
    + split.
      * exists (S h). rewrite app_length. cbn [length]. lia.
      * intros r i H. destruct (Nat.lt_ge_cases r (length (crossings vcm clk (S q)))) as [Lr|Gr]; [rewrite nth_error_app1 in H by exact Lr; now apply IH|].
        rewrite nth_error_app2 in H by exact Gr. destruct (r - _)%nat as [|d] eqn:Ed; [|destruct d; discriminate]. injection H as <-. lia.
    + rewrite app_nil_r. split; [exists h; lia|exact IH].
    + rewrite app_nil_r. split; [exists h; lia|exact IH].
Qed.
Lemma crossings_app a b : exists l, crossings vcm clk (a + b) = crossings vcm clk a ++ l.
Proof. unfold crossings. rewrite seq_app, filter_app. eexists. reflexivity. Qed.
Theorem cross_phase r : (r <= n)%nat -> exists i, nth_error (crossings vcm clk len) r = Some i /\ (i < len)%nat /\ (ph i = 2 * r)%nat.
Proof.
  intro Hr. destruct (Hit (2 * n)) as (q & Hq & Pq); [lia|]. destruct (prefix q Hq ltac:(lia)) as [(h & Hh & L) P].
  destruct (crossings_app (S q) (len - S q)) as [l E]. replace (S q + (len - S q))%nat with len in E by lia. rewrite E.
  destruct (nth_error (crossings vcm clk (S q)) r) as [i|] eqn:Ei; [|apply nth_error_None in Ei; lia].
  exists i. split; [rewrite nth_error_app1 by lia; exact Ei|]. apply (P r i Ei).
Qed.
End Phases.

(** ** The phases of the clock of a test bench *)
Section Clock.
Variables vdd T tt : R.
Hypothesis Hv : 0 < vdd.
Hypothesis Ht : 0 < tt <= T / 2.
Local Notation e := (edge T tt).
Let w := pulse_wave 0 vdd 0 tt tt (T * (1 / 2) - tt) T.
(** phase 0: before the first edge; 2k+1: high after edge k; 2k+2: low after that *)
Definition in_phase (p : nat) (t : R) : Prop :=
  match p with
  | O => 0 <= t <= e 0
  | S q => if Nat.even q then e (Nat.div2 q) < t < e (Nat.div2 q) + T / 2 else e (Nat.div2 q) + T / 2 <= t <= e (S (Nat.div2 q))
  end.
Lemma phase_high k t : in_phase (2 * k + 1) t <-> e k < t < e k + T / 2.
Proof. replace (2 * k + 1)%nat with (S (2 * k)) by lia. unfold in_phase. rewrite Nat.even_mul, Nat.div2_double. reflexivity. Qed.
Lemma phase_low k t : in_phase (2 * S k) t <-> e k + T / 2 <= t <= e (S k).
Proof.
  replace (2 * S k)%nat with (S (S (2 * k))) by lia. unfold in_phase. rewrite Nat.even_succ, <- Nat.negb_even, Nat.even_mul. cbn [negb orb Nat.even]. rewrite Nat.div2_succ_double. reflexivity.
Qed.
Lemma edge_mono k j : (k <= j)%nat -> e k <= e j.
Proof. intro H. apply le_INR in H. unfold edge. nra. Qed.
Lemma div_le x y : x <= y / 2 -> 0 < y -> x / y <= 1 / 2.
Proof. intros H Hy. apply (Rmult_le_reg_r y); [lra|]. unfold Rdiv at 1. rewrite Rmult_assoc, Rinv_l by lra. lra. Qed.
Lemma div_ge x y : y / 2 <= x -> 0 < y -> 1 / 2 <= x / y.
Proof. intros H Hy. apply (Rmult_le_reg_r y); [lra|]. unfold Rdiv at 2. rewrite Rmult_assoc, Rinv_l by lra. lra. Qed.
Lemma low_a k x : 0 <= x <= tt / 2 -> w (INR k * T + x) <= vdd / 2.
Proof. intro H. unfold w. rewrite (wave_at vdd T tt Ht) by lra. rewrite Rlt_bool_true by lra. assert (x / tt <= 1 / 2) by (apply div_le; lra). nra. Qed.
Lemma low_b k x : T / 2 + tt / 2 <= x < T -> w (INR k * T + x) <= vdd / 2.
Proof.
  intro H. unfold w. rewrite (wave_at vdd T tt Ht) by lra. rewrite !Rlt_bool_false by lra. destruct (Rlt_bool_spec x (T / 2 + tt)); [|lra].
  assert (1 / 2 <= (x - T / 2) / tt) by (apply div_ge; lra). nra.
Qed.
Lemma level p t : in_phase p t -> (w t <= vdd / 2 <-> Nat.even p = true).
Proof.
  destruct (even_dec p) as (h & [[-> E]|[-> E]]); rewrite E; intro H.
  - split; [reflexivity|]. intros _. destruct h as [|k].
    + cbn in H. unfold edge in H. rewrite Rmult_0_l in H. replace t with (INR 0 * T + t) by (cbn; ring). apply low_a. lra.
    + apply phase_low in H. unfold edge in H. rewrite S_INR in H. destruct (Rlt_le_dec t ((INR k + 1) * T)) as [Lt|Le].
      * replace t with (INR k * T + (t - INR k * T)) by ring. apply low_b. lra.
      * replace t with (INR (S k) * T + (t - INR (S k) * T)) by ring. apply low_a. rewrite S_INR. lra.
  - apply phase_high in H. unfold edge in H. split; [|discriminate]. intro Hl. exfalso.
    assert (vdd / 2 < w t); [|lra]. replace t with (INR h * T + (t - INR h * T)) by ring. apply (wave_high vdd T tt Hv Ht). lra.
Qed.
Lemma phase_ex t : 0 <= t -> exists p, in_phase p t.
Proof.
  intro H0. destruct (Rle_lt_dec t (e 0)) as [Hl|Hg]; [exists 0%nat; cbn; lra|].
  assert (Ep := edge_pos T tt Ht 0). set (z := Zceil ((t - e 0) / T)). assert (Hz : IZR (z - 1) < (t - e 0) / T <= IZR z).
  { split; [|apply Zceil_ub]. rewrite minus_IZR. assert (F := Zceil_lb ((t - e 0) / T)). fold z in F. lra. }
  assert (Hp : 0 < (t - e 0) / T) by (apply Rdiv_lt_0_compat; lra).
  assert (Z1 : (0 < z)%Z) by (apply lt_IZR; lra). set (k := Z.to_nat (z - 1)). assert (Ik : INR k = IZR z - 1) by (unfold k; rewrite INR_IZR_INZ, Z2Nat.id by lia; rewrite minus_IZR; ring).
  assert (B : INR k * T < t - e 0 <= (INR k + 1) * T).
  { rewrite Ik. rewrite minus_IZR in Hz. replace (t - e 0) with ((t - e 0) / T * T) by (field; lra). nra. }
  assert (Ek : e k = e 0 + INR k * T) by (unfold edge; cbn [INR]; ring). pose proof (edge_S T tt k) as Es.
  destruct (Rlt_le_dec t (e k + T / 2)) as [L|L]; [exists (2 * k + 1)%nat; apply phase_high; lra|exists (2 * S k)%nat; apply phase_low; lra].
Qed.
Lemma phase_bounds p t : in_phase p t -> exists k, (p = 0)%nat /\ t <= e 0 \/ (p = 2 * k + 1)%nat /\ e k < t < e k + T / 2 \/ (p = 2 * S k)%nat /\ e k + T / 2 <= t <= e (S k).
Proof.
  intro H. destruct (even_dec p) as (h & [[-> _]|[-> _]]).
  - destruct h as [|k]; [exists 0%nat; left; cbn in H; split; [reflexivity|lra]|]. exists k. right. right. split; [reflexivity|now apply phase_low].
  - exists h. right. left. split; [reflexivity|now apply phase_high].
Qed.
Lemma phase_mono p q s t : in_phase p s -> in_phase q t -> s <= t -> (p <= q)%nat.
Proof.
  intros Hp Hq H. destruct (phase_bounds p s Hp) as (k & Hk), (phase_bounds q t Hq) as (j & Hj).
  destruct (Nat.le_gt_cases p q) as [|G]; [assumption|exfalso].
  pose proof (edge_S T tt k). pose proof (edge_S T tt j).
  destruct Hk as [[-> _]|[[-> Hk]|[-> Hk]]]; [lia| |].
  - pose proof (edge_mono 0 k ltac:(lia)). destruct Hj as [[-> Hj]|[[-> Hj]|[-> Hj]]]; [lra| |].
    + pose proof (edge_mono (S j) k ltac:(lia)). lra.
    + pose proof (edge_mono (S j) k ltac:(lia)). lra.
  - pose proof (edge_mono 0 k ltac:(lia)). destruct Hj as [[-> Hj]|[[-> Hj]|[-> Hj]]]; [lra| |].
    + pose proof (edge_mono j k ltac:(lia)). lra.
    + pose proof (edge_mono (S j) k ltac:(lia)). lra.
Qed.
Lemma sorted_nth ts i j : StronglySorted Rle ts -> (i <= j < length ts)%nat -> nth i ts 0 <= nth j ts 0.
Proof.
  intros H. revert i j. induction H as [|t ts H IH F]; intros i j Hij; [cbn in Hij; lia|]. destruct i as [|i], j as [|j]; cbn [nth]; [lra| |lia|apply IH; cbn in Hij; lia].
  rewrite Forall_forall in F. apply F, nth_In. cbn in Hij; lia.
Qed.
Lemma phase_fun ts : (forall t, In t ts -> 0 <= t) -> exists ph : nat -> nat, forall i, (i < length ts)%nat -> in_phase (ph i) (nth i ts 0).
Proof.
  induction ts as [|t ts IH]; intro H; [exists (fun _ => 0%nat); intros i Hi; cbn in Hi; lia|].
  destruct IH as [ph Hp]; [intros; apply H; now right|]. destruct (phase_ex t) as [p Hpt]; [apply H; now left|].
  exists (fun i => match i with O => p | S i => ph i end). intros [|i] Hi; [exact Hpt|]. apply Hp. cbn in Hi. lia.
Qed.
(** row [r] is sampled in the low phase before edge [r] *)
Theorem sampled ts n r : covers T tt n ts -> (r <= n)%nat ->
  exists i, nth_error (crossings (vdd / 2) (fun i => nth i (map w ts) 0) (length ts)) r = Some i /\ (i < length ts)%nat /\
    let t := nth i ts 0 in match r with O => 0 <= t <= e 0 | S k => e k + T / 2 <= t <= e (S k) end.
Proof.
  intros (Hs & H0 & Hf & Hc) Hr. destruct (phase_fun ts H0) as [ph Hp].
  destruct (cross_phase (vdd / 2) (fun i => nth i (map w ts) 0) ph (length ts) n) with (r := r) as (i & E & Hi & P); [| | |exact Hr|].
  - intros i j Hij. apply (phase_mono _ _ (nth i ts 0) (nth j ts 0)); try (apply Hp; lia). now apply sorted_nth.
  - intros i Hi _. rewrite (nth_indep _ 0 (w 0)) by (now rewrite map_length). rewrite map_nth. apply level. now apply Hp.
  - intros p Hpn. assert (X : exists t, In t ts /\ in_phase p t).
    { destruct (even_dec p) as (h & [[-> _]|[-> _]]).
      - destruct h as [|k]; [destruct Hf as (t & It & Ht'); exists t; split; [exact It|cbn; split; [now apply H0|exact Ht']]|].
        destruct (Hc k ltac:(lia)) as [_ (t & It & Ht')]. exists t. split; [exact It|now apply phase_low].
      - destruct (Hc h ltac:(lia)) as [(t & It & Ht') _]. exists t. split; [exact It|now apply phase_high]. }
    destruct X as (t & It & Hpt). destruct (In_nth ts t 0 It) as (i & Hi & Ei). exists i. split; [exact Hi|].
    assert (Q := Hp i Hi). rewrite Ei in Q. apply Nat.le_antisymm; [apply (phase_mono _ _ t t Q Hpt); lra|apply (phase_mono _ _ t t Hpt Q); lra].
  - exists i. split; [exact E|]. split; [exact Hi|]. cbv zeta. pose proof (Hp i Hi) as Q. rewrite P in Q. destruct r as [|k]; [exact Q|]. now apply phase_low.
Qed.
End Clock.

(** ** The object *)
Section Object.
Variables (b : bench) (render : result unit) (prog : nat -> result raw).
Definition fresh (g : ng) : Prop := g_made g && g_ran g && g_parsed g = false.
Definition nth_row (v : list (list R)) (r : nat) : result (list R) := match nth_error v r with Some x => Ok x | None => Exn StopIteration end.
Lemma nexts_ready n : forall v p o, exists g', nexts b render prog n (mkNg true true true v (Some p)) o = (map (nth_row v) (seq p n), g', o) /\ g_vec g' = v /\ g_made g' && g_ran g' && g_parsed g' = true.
Proof.
  induction n as [|n IH]; intros v p o; [eexists; repeat split|]. cbn [nexts seq map]. unfold next, lazy_initialize. cbn [g_made g_ran g_parsed andb g_pos g_vec]. unfold nth_row at 1.
  destruct (nth_error v p) as [x|] eqn:E.
  - destruct (IH v (S p) o) as (g' & Eg & H). rewrite Eg. exists g'. split; [reflexivity|exact H].
  - destruct (IH v p o) as (g' & Eg & H). rewrite Eg. exists g'. split; [|exact H]. f_equal. f_equal. f_equal.
    rewrite <- seq_shift, map_map. apply map_ext_in. intros i Hi. apply in_seq in Hi. apply nth_error_None in E. unfold nth_row. rewrite !(proj2 (nth_error_None v _)) by lia. reflexivity.
Qed.
Lemma lazy_fresh g o : fresh g -> lazy_initialize b render prog g o = andthen (andthen (make_netlist render g o) (run prog)) (parse_raw b).
Proof. unfold fresh, lazy_initialize. now intros ->. Qed.
Theorem iterate n g o f v : fresh g -> render = Ok tt -> prog (o_runs o) = Ok f -> parse_file b f (g_vec g) = Ok v ->
  exists g', nexts b render prog (S n) g o = (map (nth_row v) (seq 0 (S n)), g', mkOut (S (o_runs o)) (Some f)) /\ g_vec g' = v.
Proof.
  intros Hf Hr Hp Hv. cbn [nexts]. unfold next. rewrite lazy_fresh by exact Hf. unfold make_netlist. rewrite Hr. cbn [andthen]. unfold run. cbn [o_runs]. rewrite Hp. cbn [andthen]. unfold parse_raw. cbn [o_file g_vec].
  rewrite Hv. cbn [g_pos g_vec g_made g_ran g_parsed]. cbn [seq map]. unfold nth_row at 1. set (o' := mkOut (S (o_runs o)) (Some f)).
  destruct (nth_error v 0) as [x|] eqn:E.
  - destruct (nexts_ready n v 1 o') as (g' & Eg & H1 & H2). rewrite Hr in Eg. rewrite Eg. exists g'. split; [reflexivity|exact H1].
  - destruct (nexts_ready n v 0 o') as (g' & Eg & H1 & H2). rewrite Hr in Eg. rewrite Eg. exists g'. split; [|exact H1]. f_equal. f_equal. f_equal.
    rewrite <- seq_shift, map_map. apply map_ext_in. intros i Hi. apply nth_error_None in E. unfold nth_row. rewrite !(proj2 (nth_error_None v _)) by lia. reflexivity.
Qed.
(** a failed first attempt leaves the array alone and is followed by a complete new one *)
Theorem failed g o e g' o' : g_parsed g = false -> next b render prog g o = (Exn e, g', o') -> e <> StopIteration -> g_parsed g' = false /\ g_vec g' = g_vec g.
Proof.
  intros Hf. unfold next. rewrite lazy_fresh by (unfold fresh; rewrite Hf; apply andb_false_r). unfold make_netlist. destruct render as [[]|er]; cbn [andthen].
  - unfold run. cbn [o_runs]. destruct (prog (o_runs o)) as [f|ep]; cbn [andthen].
    + unfold parse_raw. cbn [o_file g_vec]. destruct (parse_file b f (g_vec g)) as [v|ev].
      * cbn [g_pos g_vec]. destruct (nth_error v 0); [discriminate|]. intros E N. injection E as <- _ _. congruence.
      * intros E _. injection E as _ <- _. split; [exact Hf|reflexivity].
    + intros E _. injection E as _ <- _. split; [exact Hf|reflexivity].
  - intros E _. injection E as _ <- _. split; [exact Hf|reflexivity].
Qed.
Definition alike (g g2 : ng) : Prop := g = g2 \/ g_parsed g = false /\ g_parsed g2 = false /\ g_vec g = g_vec g2.
Lemma next_alike g g2 o : alike g g2 -> exists r h h2 o', next b render prog g o = (r, h, o') /\ next b render prog g2 o = (r, h2, o') /\ alike h h2.
Proof.
  intros [<-|(H1 & H2 & Hv)]; [destruct (next b render prog g o) as [[r h] o']; exists r, h, h, o'; repeat split; now left|].
  unfold next. rewrite !lazy_fresh by (unfold fresh; rewrite ?H1, ?H2; apply andb_false_r). unfold make_netlist. destruct render as [[]|er]; cbn [andthen].
  - unfold run. cbn [o_runs]. destruct (prog (o_runs o)) as [f|ep]; cbn [andthen].
    + unfold parse_raw. cbn [o_file g_vec]. rewrite <- Hv. destruct (parse_file b f (g_vec g)) as [v|ev].
      * cbn [g_pos g_vec g_made g_ran g_parsed]. destruct (nth_error v 0); do 4 eexists; (split; [reflexivity|]); (split; [reflexivity|]); now left.
      * do 4 eexists. split; [reflexivity|]. split; [reflexivity|]. right. auto.
    + do 4 eexists. split; [reflexivity|]. split; [reflexivity|]. right. auto.
  - do 4 eexists. split; [reflexivity|]. split; [reflexivity|]. right. auto.
Qed.
Theorem retry n : forall g g2 o, alike g g2 -> fst (fst (nexts b render prog n g o)) = fst (fst (nexts b render prog n g2 o)) /\ snd (nexts b render prog n g o) = snd (nexts b render prog n g2 o).
Proof.
  induction n as [|n IH]; intros g g2 o H; [split; reflexivity|]. cbn [nexts]. destruct (next_alike g g2 o H) as (r & h & h2 & o' & -> & -> & H').
  specialize (IH h h2 o' H'). destruct (nexts b render prog n h o') as [[a x] y], (nexts b render prog n h2 o') as [[a' x'] y']. cbn [fst snd] in *. destruct IH as [-> ->]. split; reflexivity.
Qed.
End Object.

(** ** The loop that also samples the states *)
Lemma ploop2_app vcm M N l1 l2 st : ploop2 vcm M N st (l1 ++ l2) = bind (ploop2 vcm M N st l1) (fun st => ploop2 vcm M N st l2).
Proof. revert st. induction l1 as [|s l1 IH]; intro st; [reflexivity|]. cbn. destruct (pstep2 vcm M N st s); [cbn; apply IH|reflexivity]. Qed.
(** it does to the control vector what the other one does with the first [M] columns *)
Lemma step2 vcm M N st c xs : pstep2 vcm M N st (c, xs) =
  bind (pstep vcm (mkP (q_en st) (q_idx st) (q_vec st)) (c, firstn M xs)) (fun p =>
    Ok (mkP2 (p_en p) (p_idx p) (p_vec p) (if Nat.eqb (p_idx p) (q_idx st) then q_st st else upd (q_idx st) (firstn N (skipn M xs)) (q_st st)))).
Proof.
  unfold pstep2, pstep. cbn [p_en p_idx p_vec]. destruct st as [en idx vec sv]. cbn [q_en q_idx q_vec q_st].
  destruct (negb en && Rle_bool c vcm).
  - destruct (Nat.ltb idx (length vec)); [|cbn [bind p_en p_idx p_vec]; now rewrite Nat.eqb_refl]. destruct (firstn M xs); [reflexivity|]. cbn [bind p_en p_idx p_vec].
    rewrite (proj2 (Nat.eqb_neq (S idx) idx)) by lia. reflexivity.
  - destruct (en && negb (Rle_bool c vcm)); cbn [bind p_en p_idx p_vec]; now rewrite Nat.eqb_refl.
Qed.
Section Loop2.
Variables (vcm : R) (M N : nat) (clk : nat -> R) (row : nat -> list R) (vec sv : list (list R)).
Hypothesis Ls : length sv = length vec.
Definition kept (K : list nat) (v : list (list R)) : Prop :=
  length v = length sv /\ forall r, (r < length sv)%nat -> nth r v [] = if Nat.ltb r (length K) then firstn N (skipn M (row (nth r K 0%nat))) else nth r sv [].
Lemma loop2_inv n : (forall i, (i < n)%nat -> firstn M (row i) <> []) ->
  exists p st, ploop vcm (mkP false 0 vec) (map (fun i => (clk i, firstn M (row i))) (seq 0 n)) = Ok p /\
    ploop2 vcm M N (mkP2 false 0 vec sv) (map (fun i => (clk i, row i)) (seq 0 n)) = Ok (mkP2 (p_en p) (p_idx p) (p_vec p) st) /\ kept (crossings vcm clk n) st.
Proof.
  induction n as [|n IH]; intro Hr; [do 2 eexists; split; [reflexivity|]; split; [reflexivity|]; split; [reflexivity|]; intros; reflexivity|].
  destruct IH as (p & st & E1 & E2 & K1 & K2); [intros; apply Hr; lia|].
  destruct (loop_inv vcm clk (fun i => firstn M (row i)) vec n) as (p0 & E0 & I1 & I2 & I3 & _); [intros; apply Hr; lia|]. rewrite E1 in E0. injection E0 as <-.
  destruct (loop_inv vcm clk (fun i => firstn M (row i)) vec (S n)) as (p1 & E3 & J1 & J2 & J3 & _); [exact Hr|].
  exists p1. rewrite seq_S, map_app in E3 |- *. rewrite ploop_app, E1 in E3. cbn [bind map plus ploop] in E3.
  destruct (pstep vcm p (clk n, firstn M (row n))) as [p2|] eqn:Ep; [cbn [bind] in E3; injection E3 as ->|discriminate E3].
  eexists. split; [rewrite ploop_app, E1; cbn [bind map plus ploop]; rewrite Ep; reflexivity|].
  rewrite map_app, ploop2_app, E2. cbn [bind map plus ploop2]. rewrite step2. cbn [q_en q_idx q_vec q_st].
  replace (mkP (p_en p) (p_idx p) (p_vec p)) with p by (now destruct p). rewrite Ep. cbn [bind]. split; [reflexivity|].
  rewrite crossings_S in J2 |- *. set (K := crossings vcm clk n) in *. destruct (falls vcm clk n) eqn:Ef.
  - rewrite app_length in J2. cbn [length] in J2. destruct (Nat.eqb_spec (p_idx p1) (p_idx p)) as [Eq|Ne].
    + split; [exact K1|]. intros r Hrr. rewrite app_length. cbn [length]. rewrite K2 by exact Hrr. assert (r < length K)%nat by lia. rewrite !(proj2 (Nat.ltb_lt _ _)) by lia. now rewrite app_nth1 by lia.
    + split; [now rewrite upd_length|]. intros r Hrr. rewrite app_length. cbn [length]. assert (Hi : p_idx p = length K) by lia.
      rewrite nth_upd, K1, Hi. destruct (Nat.eqb_spec (length K) r) as [<-|Hne]; cbn [andb].
      * rewrite !(proj2 (Nat.ltb_lt _ _)) by lia. rewrite app_nth2, Nat.sub_diag by lia. reflexivity.
      * rewrite K2 by exact Hrr. destruct (Nat.ltb_spec r (length K)).
        -- rewrite (proj2 (Nat.ltb_lt r (length K + 1))) by lia. now rewrite app_nth1 by lia.
        -- rewrite (proj2 (Nat.ltb_ge r (length K + 1))) by lia. reflexivity.
  - rewrite app_nil_r in J2 |- *. rewrite (proj2 (Nat.eqb_eq (p_idx p1) (p_idx p))) by lia. split; [exact K1|exact K2].
Qed.
End Loop2.

(** ** A file that holds the waveforms *)
Lemma all_ok_map (X Y : Type) (g : X -> result Y) (h : X -> Y) l : (forall x, In x l -> g x = Ok (h x)) -> all_ok (map g l) = Ok (map h l).
Proof. induction l as [|x l IH]; intro H; [reflexivity|]. cbn [map all_ok]. rewrite H by now left. cbn [bind]. rewrite IH by (intros; apply H; now right). reflexivity. Qed.
Lemma app_par (d x y : string) : ((d ++ x) ++ y = d ++ (x ++ y))%string.
Proof. induction d as [|c d IH]; [reflexivity|]. cbn [String.append]. now rewrite IH. Qed.
Lemma bench_dc vdd T tt sg L M fe M' N T' : b_dc (bench_of (SourceProofs.tb_ckt vdd T tt sg L M fe) M' N T') = vdd / 2.
Proof. reflexivity. Qed.
Section File.
Variables (vdd T tt : R) (w : waves) (ts : list R) (M N n : nat) (b : bench) (f : raw).
Hypothesis Hv : 0 < vdd.
Hypothesis Ht : 0 < tt <= T / 2.
Hypothesis HM : (0 < M)%nat.
Hypothesis BM : b_M b = M.
Hypothesis BN : b_N b = N.
Hypothesis Bd : b_dc b = vdd / 2.
Hypothesis Bh : b_hl b = Some (map (fun m => labname (OUT true m)) (seq 0 M) ++ map (fun m => labname (OUT false m)) (seq 0 M)).
Hypothesis Hf : holds w ts M N f.
Hypothesis Hc : covers T tt n ts.
Hypothesis Clk : forall t, 0 <= t -> w_tb w "CLK"%string t = pulse_wave 0 vdd 0 tt tt (T * (1 / 2) - tt) T t.
Hypothesis Out : forall k m t, (m < M)%nat -> edge T tt k < t <= edge T tt (S k) -> w_tb w (labname (OUT true m)) t = (vdd + so T tt w (S k) m) / 2 /\ (so T tt w (S k) m = vdd \/ so T tt w (S k) m = - vdd).
Let cols : list (list R) := map (fun m => map (w_tb w (labname (OUT true m))) ts) (seq 0 M).
Let sts : list (list R) := map (fun m => map (w_fe w (labname (XX true m))) ts) (seq 0 N) ++ map (fun m => map (w_fe w (labname (XX false m))) ts) (seq 0 N).
Let clk : list R := map (pulse_wave 0 vdd 0 tt tt (T * (1 / 2) - tt) T) ts.
Let K : list nat := crossings (vdd / 2) (fun i => nth i clk 0) (length ts).

Lemma col_clk : column f (vname "CLK") = Ok clk.
Proof. unfold column. destruct Hf as [E _]. change (vname "CLK") with "V(CLK)"%string. rewrite E. f_equal. apply map_ext_in. intros t It. apply Clk. destruct Hc as (_ & H0 & _). now apply H0. Qed.
Lemma col_out m : (m < M)%nat -> column f (vname (labname (OUT true m))) = Ok (map (w_tb w (labname (OUT true m))) ts).
Proof. intro H. unfold column. destruct Hf as (_ & E & _). specialize (E m H). unfold vname. cbn [labname side]. cbn [String.append] in *. rewrite app_par. cbn [String.append] in *. rewrite E. reflexivity. Qed.
Lemma col_st p m : (m < N)%nat -> column f (vname ("XAF." ++ labname (XX p m))) = Ok (map (w_fe w (labname (XX p m))) ts).
Proof. intro H. unfold column. destruct Hf as (_ & _ & E). specialize (E m H). unfold vname. cbn [labname]. destruct p; cbn [side String.append] in *; rewrite app_par; cbn [String.append] in *; destruct E as [E1 E2]; [rewrite E1|rewrite E2]; reflexivity. Qed.
Lemma cols_ok : columns b f = Ok cols.
Proof.
  unfold columns. rewrite Bh, BM, Bd. rewrite app_length, !map_length, !seq_length. rewrite (proj2 (Nat.ltb_ge (M + M) M)) by lia. rewrite Req_bool_false by lra. cbn [andb].
  rewrite firstn_app, map_length, seq_length, Nat.sub_diag, firstn_O, app_nil_r, firstn_all2 by (rewrite map_length, seq_length; lia). rewrite map_map.
  apply all_ok_map. intros m Hm. apply in_seq in Hm. apply col_out. lia.
Qed.
Lemma states_ok : all_ok (map (fun nm => column f (vname nm)) (state_names (b_N b))) = Ok sts.
Proof.
  rewrite BN. unfold state_names, sts. rewrite map_app, !map_map.
  assert (A : forall (X : Type) (a c : list (result X)) x y, all_ok a = Ok x -> all_ok c = Ok y -> all_ok (a ++ c) = Ok (x ++ y)).
  { clear. intros X a c. induction a as [|r a IH]; intros x y Ha Hc; [injection Ha as <-; exact Hc|]. cbn [all_ok app] in *. destruct r as [z|]; [|discriminate]. cbn [bind] in *.
    destruct (all_ok a) as [x'|]; [|discriminate]. cbn [bind] in Ha. injection Ha as <-. rewrite (IH x' y eq_refl Hc). reflexivity. }
  apply A; apply all_ok_map; intros m Hm; apply in_seq in Hm; apply col_st; lia.
Qed.
Lemma zips cs : (forall c, In c cs -> length c = length clk) -> zip_rows clk cs = map (fun i => (nth i clk 0, map (fun c => nth i c 0) cs)) (seq 0 (length clk)).
Proof.
  intro H. unfold zip_rows. replace (fold_right Nat.min (length clk) (map (@length R) cs)) with (length clk); [reflexivity|]. symmetry.
  induction cs as [|c cs IH]; [reflexivity|]. cbn. rewrite IH by (intros; apply H; now right). rewrite H by now left. lia.
Qed.
Lemma clk_len : length clk = length ts.
Proof. unfold clk. apply map_length. Qed.
Lemma len_cols c : In c (map (map (fun x => x / (b_dc b * 2))) cols) -> length c = length clk.
Proof. rewrite clk_len. intro H. apply in_map_iff in H. destruct H as (c' & <- & H). apply in_map_iff in H. destruct H as (m & <- & _). now rewrite !map_length. Qed.
Lemma len_sts c : In c sts -> length c = length clk.
Proof. rewrite clk_len. intro H. apply in_app_or in H. destruct H as [H|H]; apply in_map_iff in H; destruct H as (m & <- & _); apply map_length. Qed.
(** both loops, row by row *)
Theorem both vec st : length st = length vec ->
  exists v s, parse_file b f vec = Ok v /\ parse_states b f vec st = Ok (v, s) /\ length v = length vec /\ length s = length vec /\
    forall r, (r < length vec)%nat -> match nth_error K r with
      | Some i => nth r v [] = map (fun m => ternary (w_tb w (labname (OUT true m)) (nth i ts 0) / vdd)) (seq 0 M) /\ nth r s [] = map (fun m => w_fe w (labname (XX true m)) (nth i ts 0)) (seq 0 N)
      | None => nth r v [] = nth r vec [] /\ nth r s [] = nth r st []
      end.
Proof.
  intro Hl.
  assert (Lc : length cols = M) by (unfold cols; now rewrite map_length, seq_length).
  destruct (parse_spec (vdd / 2) M vec clk cols) as (v & E & L & Rw); [lra|lia| |].
  { intros c H. apply in_map_iff in H. destruct H as (m & <- & _). rewrite clk_len. apply map_length. }
  set (cs := map (map (fun x => x / (b_dc b * 2))) cols). set (row := fun i => map (fun c => nth i c 0) (cs ++ sts)).
  assert (Lcs : length cs = M) by (unfold cs; now rewrite map_length).
  assert (F1 : forall i, firstn M (row i) = map (fun c => nth i c 0) cs).
  { intro i. unfold row. rewrite map_app, firstn_app, map_length, Lcs, Nat.sub_diag, firstn_O, app_nil_r, firstn_all2 by (rewrite map_length; lia). reflexivity. }
  assert (F2 : forall i, skipn M (row i) = map (fun c => nth i c 0) sts).
  { intro i. unfold row. rewrite map_app, skipn_app, map_length, Lcs, Nat.sub_diag, skipn_O, skipn_all2 by (rewrite map_length; lia). reflexivity. }
  destruct (loop2_inv (vdd / 2) M N (fun i => nth i clk 0) row vec st Hl (length clk)) as (p & s & P1 & P2 & Ks1 & Ks2).
  { intros i _. rewrite F1. intro Z. apply (f_equal (@length R)) in Z. rewrite map_length, Lcs in Z. cbn in Z. lia. }
  exists v, s.
  assert (Pf : parse_file b f vec = Ok v) by (unfold parse_file; rewrite col_clk; cbn [bind]; rewrite cols_ok; cbn [bind]; rewrite Bd, BM; exact E).
  assert (Ev : v = p_vec p).
  { unfold parse in E. rewrite (proj2 (Nat.ltb_ge (length cols) M)) in E by lia. rewrite Req_bool_false in E by lra. cbn [andb] in E. rewrite firstn_all2 in E by lia.
    rewrite <- Bd in E. fold cs in E. rewrite zips in E by (exact len_cols). rewrite (map_ext (fun i => (nth i clk 0, firstn M (row i))) (fun i => (nth i clk 0, map (fun c => nth i c 0) cs))) in P1 by (intro i; now rewrite F1).
    rewrite Bd in E. rewrite P1 in E. cbn [bind] in E. now injection E. }
  split; [exact Pf|]. split.
  { unfold parse_states. rewrite col_clk. cbn [bind]. rewrite cols_ok. cbn [bind]. rewrite states_ok. cbn [bind]. fold cs. rewrite zips.
    - rewrite Bd, BM, BN. unfold row in P2. rewrite P2. cbn [bind q_vec q_st]. now rewrite Ev.
    - intros c H. apply in_app_or in H. destruct H as [H|H]; [now apply len_cols|now apply len_sts]. }
  split; [exact L|]. split; [congruence|]. intros r Hr. specialize (Rw r Hr). cbv zeta in Rw. rewrite clk_len in Rw. fold K in Rw. specialize (Ks2 r ltac:(congruence)). rewrite clk_len in Ks2. fold K in Ks2.
  destruct (nth_error K r) as [i|] eqn:Ei.
  - assert (Hlt : (r < length K)%nat) by (apply nth_error_Some; congruence). rewrite (proj2 (Nat.ltb_lt _ _) Hlt) in Rw, Ks2. rewrite (nth_error_nth K r 0%nat Ei) in Rw, Ks2.
    assert (Hi : (i < length ts)%nat) by (apply nth_error_In in Ei; unfold K, crossings in Ei; apply filter_In in Ei; destruct Ei as [Ei _]; apply in_seq in Ei; lia).
    assert (Nt : forall g, nth i (map g ts) 0 = g (nth i ts 0)) by (intro g; rewrite (nth_indep _ 0 (g 0)) by (now rewrite map_length); apply map_nth).
    split.
    + rewrite Rw. rewrite firstn_all2 by lia. unfold cols. rewrite map_map. apply map_ext. intro m. rewrite Nt. do 2 f_equal. lra.
    + rewrite Ks2, F2. unfold sts. rewrite map_app, !map_map. rewrite firstn_app, map_length, seq_length, Nat.sub_diag, firstn_O, app_nil_r, firstn_all2 by (rewrite map_length, seq_length; lia).
      apply map_ext. intro m. apply Nt.
  - apply nth_error_None in Ei. rewrite (proj2 (Nat.ltb_ge _ _) Ei) in Rw, Ks2. split; assumption.
Qed.
Lemma ternary_level s : s = vdd \/ s = - vdd -> ternary ((vdd + s) / 2 / vdd) = (1 + s / vdd) / 2.
Proof.
  intro H. assert (E : (vdd + s) / 2 / vdd = (1 + s / vdd) / 2) by (field; lra). rewrite E. assert (Q : s / vdd = 1 \/ s / vdd = - 1) by (destruct H as [->| ->]; [left|right]; field; lra).
  destruct Q as [-> | ->]; unfold ternary; [rewrite Rlt_bool_true by lra; lra|]. rewrite Rlt_bool_false, Rlt_bool_true by lra. lra.
Qed.
Theorem samples vec st : length st = length vec ->
  exists v s tau, parse_file b f vec = Ok v /\ parse_states b f vec st = Ok (v, s) /\ length v = length vec /\ length s = length vec /\
    forall r, (r < length vec)%nat -> (r <= n)%nat ->
      In (tau r) ts /\ nth r s [] = map (fun m => w_fe w (labname (XX true m)) (tau r)) (seq 0 N) /\
      match r with
      | O => 0 <= tau r <= edge T tt 0 /\ nth r v [] = map (fun m => ternary (w_tb w (labname (OUT true m)) (tau r) / vdd)) (seq 0 M)
      | S k => edge T tt k + T / 2 <= tau r <= edge T tt (S k) /\ nth r v [] = map (fun m => (1 + so T tt w r m / vdd) / 2) (seq 0 M)
      end.
Proof.
  intro Hl. destruct (both vec st Hl) as (v & s & E1 & E2 & L1 & L2 & Rw). exists v, s, (fun r => match nth_error K r with Some i => nth i ts 0 | None => 0 end).
  repeat (split; [assumption|]). intros r Hr Hn. specialize (Rw r Hr). destruct (sampled vdd T tt Hv Ht ts n r Hc Hn) as (i & Ei & Hi & Hb). fold clk in Ei. fold K in Ei. rewrite Ei in Rw |- *. cbv zeta in Hb.
  destruct Rw as [R1 R2]. split; [now apply nth_In|]. split; [exact R2|]. destruct r as [|k]; [split; assumption|]. split; [exact Hb|]. rewrite R1. apply map_ext_in. intros m Hm. apply in_seq in Hm.
  destruct (Out k m (nth i ts 0)) as [O1 O2]; [lia|lra|]. rewrite O1. now apply ternary_level.
Qed.
End File.
