(** C103: iterating over a SPICE simulation of an emitted test bench.  [covers T tt n ts] (SpiceRun.v): the time points [ts] of the run see the first [n] high
    phases of the clock and the low phases around them.  [holds w ts M N f]: the raw file [f] holds the waveforms [w] at these points.  [obeys], [nominal], [so],
    [edge]: ClosedLoop.v (C102). *)
From Coq Require Import String List Bool Arith ZArith Reals Lia Lra Sorted.
From Flocq Require Import Core.
From Verif Require Import Base LinAlg FirExtras AnalogSystem AnalogProofs Netlist Circuits CircuitLaws CircuitControl XspiceLaws Observe ClosedLoop ClosedLoopProofs ClosedLoopMain SpiceSimulator SpiceRun SpiceProofs.
From Verif Require SourceProofs P_CircuitControl P_ClosedLoop.
Import ListNotations.
Open Scope R_scope.

(** ** The object *)
Theorem C103_size : forall b t_end, 0 < b_T b -> 0 <= t_end ->
  exists g, ng_init b t_end = Ok g /\ g_parsed g = false /\ (forall r, In r (g_vec g) -> r = repeat 0 (b_M b)) /\ forall r, (r < length (g_vec g))%nat <-> INR r * b_T b < t_end.
Proof.
  intros b te HT He. unfold ng_init. rewrite Req_bool_false by lra. assert (Hq : 0 <= te / b_T b) by (apply Rmult_le_pos; [lra|apply Rlt_le, Rinv_0_lt_compat; lra]).
  assert (Hz : (0 <= Zceil (te / b_T b))%Z) by (apply le_IZR; pose proof (Zceil_ub (te / b_T b)); lra).
  rewrite (proj2 (Z.ltb_ge _ _)) by exact Hz. eexists. split; [reflexivity|]. split; [reflexivity|]. cbn [g_vec]. split; [intros r H; now apply repeat_spec in H|].
  intro r. rewrite repeat_length. pose proof (Zceil_ub (te / b_T b)) as U. pose proof (Zceil_lb (te / b_T b)) as Lb.
  assert (Et : te = te / b_T b * b_T b) by (field; lra). split; intro H.
  - assert (Hr : INR r <= IZR (Zceil (te / b_T b)) - 1). { rewrite INR_IZR_INZ, <- minus_IZR. apply IZR_le. lia. } rewrite Et. apply Rmult_lt_compat_r; lra.
  - assert (Hr : INR r < te / b_T b) by (apply (Rmult_lt_reg_r (b_T b)); lra). rewrite INR_IZR_INZ in Hr. apply Rlt_le_trans with (2 := U) in Hr. apply lt_IZR in Hr. lia.
Qed.
Print Assumptions C103_size.
(** It is refused for a clock without a period, and for an end time a period or more before the start. *)
Theorem C103_size_errors : forall b t_end e, ng_init b t_end = Exn e <-> (b_T b = 0 /\ e = ZeroDivisionError) \/ (b_T b <> 0 /\ t_end / b_T b <= -1 /\ e = ValueError).
Proof.
  intros b te e. unfold ng_init. destruct (Req_bool_spec (b_T b) 0) as [E|E].
  - split; [intro H; injection H as <-; auto|]. intros [[_ ->]|[N _]]; [reflexivity|contradiction].
  - pose proof (Zceil_ub (te / b_T b)) as U. pose proof (Zceil_lb (te / b_T b)) as L. destruct (Z.ltb_spec (Zceil (te / b_T b)) 0) as [H|H].
    + assert (X : IZR (Zceil (te / b_T b)) <= -1) by (apply IZR_le; lia). split; [intro H'; injection H' as <-; right; repeat split; auto; lra|]. intros [[N _]|(_ & _ & ->)]; [contradiction|reflexivity].
    + assert (X : 0 <= IZR (Zceil (te / b_T b))) by (apply IZR_le; lia). split; [discriminate|]. intros [[N _]|(_ & N & _)]; [contradiction|lra].
Qed.
Print Assumptions C103_size_errors.
(** One run serves all calls; the rows come in order, then StopIteration for good. *)
Theorem C103_once : forall b render prog n g o f v, g_parsed g = false -> render = Ok tt -> prog (o_runs o) = Ok f -> parse_file b f (g_vec g) = Ok v ->
  exists rs g' o', nexts b render prog (S n) g o = (rs, g', o') /\ o_runs o' = S (o_runs o) /\ length rs = S n /\
    forall r, (r <= n)%nat -> nth r rs (Exn GenericException) = match nth_error v r with Some x => Ok x | None => Exn StopIteration end.
Proof.
  intros b render prog n g o f v Hf Hr Hp Hv. destruct (iterate b render prog n g o f v) as (g' & E & _); try assumption; [unfold fresh; rewrite Hf; apply andb_false_r|].
  do 3 eexists. split; [exact E|]. split; [reflexivity|]. split; [now rewrite map_length, seq_length|]. intros r H.
  rewrite (nth_indep _ _ (nth_row v 0)) by (rewrite map_length, seq_length; lia). rewrite map_nth, seq_nth by lia. reflexivity.
Qed.
Print Assumptions C103_once.
(** A failure (of the templates, of ngspice, of parsing) leaves an object that starts all over at the next call. *)
Theorem C103_retry : forall b render prog g o e g' o', g_parsed g = false -> next b render prog g o = (Exn e, g', o') -> e <> StopIteration ->
  g_vec g' = g_vec g /\ forall n, fst (fst (nexts b render prog n g' o')) = fst (fst (nexts b render prog n g o')) /\ snd (nexts b render prog n g' o') = snd (nexts b render prog n g o').
Proof.
  intros b render prog g o e g' o' Hp E He. destruct (failed b render prog g o e g' o' Hp E He) as [H1 H2]. split; [exact H2|]. intro n. apply retry. right. auto.
Qed.
Print Assumptions C103_retry.
(** Parsing a second, shorter file leaves rows of the first in place. *)
Definition two (a c : list R) : raw := fun nm => if String.eqb nm "V(CLK)" then Some a else if String.eqb nm "V(OUT0_P)" then Some c else None.
Ltac bools := repeat match goal with
  | |- context [Rle_bool ?a ?b] => first [rewrite (Rle_bool_true a b) by lra|rewrite (Rle_bool_false a b) by lra]
  | |- context [Rlt_bool ?a ?b] => first [rewrite (Rlt_bool_true a b) by lra|rewrite (Rlt_bool_false a b) by lra]
  | |- context [Req_bool ?a ?b] => first [rewrite (Req_bool_true a b) by lra|rewrite (Req_bool_false a b) by lra] end.
Ltac runp := unfold parse_file, column, columns; cbn [b_hl b_dc b_M two vname String.append String.eqb Ascii.eqb Bool.eqb bind length Nat.ltb Nat.leb Nat.eqb negb]; bools; cbn [andb firstn map all_ok column two vname String.append String.eqb Ascii.eqb Bool.eqb bind];
  unfold parse; cbn [length Nat.ltb Nat.leb Nat.eqb]; bools; cbn [andb firstn map]; unfold zip_rows; cbn [length map fold_right Nat.min seq nth ploop];
  repeat (unfold pstep at 1; cbn [p_en p_idx p_vec negb andb]; bools; cbn [andb negb length Nat.ltb Nat.leb bind upd p_en p_idx p_vec map]); unfold ternary; bools; reflexivity.
Theorem C103_reparse_refuted : exists b f1 f2 v0 v1 v2 v2', parse_file b f1 v0 = Ok v1 /\ parse_file b f2 v1 = Ok v2 /\ parse_file b f2 v0 = Ok v2' /\ v0 = [[0]; [0]] /\ v2 <> v2'.
Proof.
  exists (mkBench (Some ["OUT0_P"%string]) (1 / 2) 1 0 1), (two [0; 1; 0] [1; 1; 1]), (two [0; 1] [0; 0]), [[0]; [0]], [[1]; [1]], [[0]; [1]], [[0]; [0]].
  split; [runp|]. split; [runp|]. split; [runp|]. split; [reflexivity|]. intro H. injection H. lra.
Qed.
Print Assumptions C103_reparse_refuted.

(** ** The test benches *)
Lemma rows_of b T vdd tt w ts n f (S : asys Rring) prog t_end g K : b_T b = T -> 0 < vdd -> 0 < tt <= T / 2 -> (0 < sM S)%nat -> b_M b = sM S -> b_N b = sN S -> b_dc b = vdd / 2 ->
  b_hl b = Some (map (fun m => labname (OUT true m)) (seq 0 (sM S)) ++ map (fun m => labname (OUT false m)) (seq 0 (sM S))) ->
  0 <= t_end -> ng_init b t_end = Ok g -> prog 0%nat = Ok f -> holds w ts (sM S) (sN S) f -> covers T tt n ts ->
  (forall t, 0 <= t -> w_tb w "CLK"%string t = pulse_wave 0 vdd 0 tt tt (T * (1 / 2) - tt) T t) ->
  (forall k m t, (m < sM S)%nat -> edge T tt k < t <= edge T tt (Datatypes.S k) -> w_tb w (labname (OUT true m)) t = (vdd + so T tt w (Datatypes.S k) m) / 2 /\ (so T tt w (Datatypes.S k) m = vdd \/ so T tt w (Datatypes.S k) m = - vdd)) ->
  exists rs g' o', nexts b (Ok Datatypes.tt) prog (Datatypes.S K) g (mkOut 0 None) = (rs, g', o') /\ o_runs o' = 1%nat /\ length rs = Datatypes.S K /\
    forall r, (r <= K)%nat ->
      (t_end <= INR r * T -> nth r rs (Exn GenericException) = Exn StopIteration) /\
      (INR r * T < t_end -> (r <= n)%nat -> (0 < r)%nat -> nth r rs (Exn GenericException) = Ok (map (fun m => (1 + so T tt w r m / vdd) / 2) (seq 0 (sM S)))).
Proof.
  intros BT Hv Ht HM BM BN Bd Bh He Hg Hp Hf Hc Clk Out. destruct (C103_size b t_end) as (g0 & Eg & P0 & _ & Sz); [lra|exact He|]. rewrite Hg in Eg. injection Eg as <-.
  destruct (samples vdd T tt w ts (sM S) (sN S) n b f Hv Ht HM BM BN Bd Bh Hf Hc Clk Out (g_vec g) (g_vec g) eq_refl) as (v & s & tau & E & _ & L & _ & Rw).
  destruct (C103_once b (Ok Datatypes.tt) prog K g (mkOut 0 None) f v P0 eq_refl Hp E) as (rs & g' & o' & N1 & N2 & N3 & N4). exists rs, g', o'. split; [exact N1|]. split; [exact N2|]. split; [exact N3|].
  intros r Hr. rewrite (N4 r Hr). specialize (Sz r). rewrite BT in Sz. split.
  - intro H. rewrite (proj2 (nth_error_None v r)); [reflexivity|]. destruct (Nat.lt_ge_cases r (length (g_vec g))) as [A|A]; [apply Sz in A; lra|lia].
  - intros H Hn H0. apply Sz in H. specialize (Rw r H Hn). destruct Rw as (_ & _ & Rw). destruct r as [|k]; [lia|]. destruct Rw as [_ Rw].
    rewrite (nth_error_nth' v [] (n := Datatypes.S k)) by lia. now rewrite Rw.
Qed.
(** The op-amp test bench: row r holds the control signals before the r-th edge, 1 for +vdd and 0 for -vdd; ngspice runs once; there are ceil(t_end / T) rows. *)
Theorem C103_opamp : forall anon danon vdd T tt sg S G C kt kf kd law st w ts n f prog t_end g K, 0 < vdd -> 0 < tt <= T / 2 -> valid S -> aG S = Some G -> aGt S <> None -> (0 < sM S)%nat ->
  opamp_frontend S C = Ok kf -> testbench vdd T tt sg (sL S) (sM S) (k_name kf) = Ok kt -> control_ckt S T 0 0 vdd 0 0 = Ok kd -> obeys anon danon kt kf kd law st w ->
  0 <= t_end -> ng_init (bench_of kt (sM S) (sN S) T) t_end = Ok g -> prog 0%nat = Ok f -> holds w ts (sM S) (sN S) f -> covers T tt n ts ->
  exists rs g' o', nexts (bench_of kt (sM S) (sN S) T) (Ok Datatypes.tt) prog (Datatypes.S K) g (mkOut 0 None) = (rs, g', o') /\ o_runs o' = 1%nat /\ length rs = Datatypes.S K /\
    forall r, (r <= K)%nat ->
      (t_end <= INR r * T -> nth r rs (Exn GenericException) = Exn StopIteration) /\
      (INR r * T < t_end -> (r <= n)%nat -> (0 < r)%nat -> nth r rs (Exn GenericException) = Ok (map (fun m => (1 + so T tt w r m / vdd) / 2) (seq 0 (sM S)))).
Proof.
  intros anon danon vdd T tt sg S G C kt kf kd law st w ts n f prog te g K Hv Ht V HG HGt HM Hf Hk Hd W He Hg Hp Hh Hc.
  destruct (opamp_levels anon danon vdd T tt sg S G C kt kf kd law st w Hv Ht V HG HGt Hf Hk Hd W) as [Clk Out]. destruct (testbench_eq _ _ _ _ _ _ _ _ Hk) as [_ Et].
  apply (rows_of (bench_of kt (sM S) (sN S) T) T vdd tt w ts n f S prog te g K); try assumption; try reflexivity. now rewrite Et.
Qed.
Print Assumptions C103_opamp.
Theorem C103_gmc : forall anon danon vdd T tt sg S G C gain kt kf cs kd law st w ts n f prog t_end g K, 0 < vdd -> 0 < tt <= T / 2 -> valid S -> aG S = Some G -> aGt S <> None -> (0 < sM S)%nat -> (0 < sN S)%nat ->
  gmc_frontend S C gain = Ok (kf, cs) -> testbench vdd T tt sg (sL S) (sM S) (k_name kf) = Ok kt -> control_ckt S T 0 0 vdd 0 0 = Ok kd -> obeys anon danon kt kf kd law st w ->
  0 <= t_end -> ng_init (bench_of kt (sM S) (sN S) T) t_end = Ok g -> prog 0%nat = Ok f -> holds w ts (sM S) (sN S) f -> covers T tt n ts ->
  exists rs g' o', nexts (bench_of kt (sM S) (sN S) T) (Ok Datatypes.tt) prog (Datatypes.S K) g (mkOut 0 None) = (rs, g', o') /\ o_runs o' = 1%nat /\ length rs = Datatypes.S K /\
    forall r, (r <= K)%nat ->
      (t_end <= INR r * T -> nth r rs (Exn GenericException) = Exn StopIteration) /\
      (INR r * T < t_end -> (r <= n)%nat -> (0 < r)%nat -> nth r rs (Exn GenericException) = Ok (map (fun m => (1 + so T tt w r m / vdd) / 2) (seq 0 (sM S)))).
Proof.
  intros anon danon vdd T tt sg S G C gain kt kf cs kd law st w ts n f prog te g K Hv Ht V HG HGt HM HN Hf Hk Hd W He Hg Hp Hh Hc.
  destruct (gmc_levels anon danon vdd T tt sg S G C gain kt kf cs kd law st w Hv Ht V HG HGt HN Hf Hk Hd W) as [Clk Out]. destruct (testbench_eq _ _ _ _ _ _ _ _ Hk) as [_ Et].
  apply (rows_of (bench_of kt (sM S) (sN S) T) T vdd tt w ts n f S prog te g K); try assumption; try reflexivity. now rewrite Et.
Qed.
Print Assumptions C103_gmc.
(** So the rows are the control signals of the loop with unit controls (C102), one step late: row r is its r-th decision minus one step, row 0 what was there before. *)
Theorem C103_reproduces : forall anon danon vdd T tt sg S G C kt kf kd w ts n f prog t_end g K u x s, 0 < vdd -> 0 < tt <= T / 2 -> valid S -> aG S = Some G -> aGt S <> None -> (0 < sM S)%nat -> C > 0 ->
  opamp_frontend S C = Ok kf -> testbench vdd T tt sg (sL S) (sM S) (k_name kf) = Ok kt -> control_ckt S T 0 0 vdd 0 0 = Ok kd ->
  obeys anon danon kt kf kd (P_ClosedLoop.opamp_law anon kf) (state_nodes (sN S)) w ->
  nominal S G 1 u (edge T tt) x s -> no_ties S (uw sg) (edge T tt) (xw w) (so T tt w) -> (forall l t, vdd * u l t = uw sg l t) ->
  (forall n, (n < sN S)%nat -> xw w n (edge T tt 0) = vdd * x n (edge T tt 0)) -> (forall m, (m < sM S)%nat -> ow w m (edge T tt 0) = vdd * s O m) ->
  0 <= t_end -> ng_init (bench_of kt (sM S) (sN S) T) t_end = Ok g -> prog 0%nat = Ok f -> holds w ts (sM S) (sN S) f -> covers T tt n ts ->
  exists rs g' o', nexts (bench_of kt (sM S) (sN S) T) (Ok Datatypes.tt) prog (Datatypes.S K) g (mkOut 0 None) = (rs, g', o') /\
    forall r, (0 < r <= K)%nat -> (r <= n)%nat -> INR r * T < t_end -> nth r rs (Exn GenericException) = Ok (map (fun m => (1 + s r m) / 2) (seq 0 (sM S))).
Proof.
  intros anon danon vdd T tt sg S G C kt kf kd w ts n f prog te g K u x s Hv Ht V HG HGt HM HC Hf Hk Hd W Hn Nt Hu Hx Hs He Hg Hp Hh Hc.
  destruct (C103_opamp anon danon vdd T tt sg S G C kt kf kd _ _ w ts n f prog te g K Hv Ht V HG HGt HM Hf Hk Hd W He Hg Hp Hh Hc) as (rs & g' & o' & N1 & _ & _ & N4).
  exists rs, g', o'. split; [exact N1|]. intros r Hr Hrn Hrt. destruct (N4 r ltac:(lia)) as [_ N5]. rewrite N5 by (lia || lra). f_equal. apply map_ext_in. intros m Hm. apply in_seq in Hm.
  destruct (P_ClosedLoop.C102_reproduces anon danon vdd T tt sg S G C kt kf kd w u x s Hv Ht V HG HGt HC Hf Hk Hd W Hn Nt Hu Hx Hs r) as [Q _]. unfold so. rewrite Q by lia. field. lra.
Qed.
Print Assumptions C103_reproduces.

(** ** The copy in cbadc.simulator, which samples states as well *)
(** Same control vector; the states of a row are the voltages of the P nodes alone, at one instant in the low phase before the edge. *)
Theorem C103_states : forall anon danon vdd T tt sg S G C kt kf kd law st w ts n f vec sv, 0 < vdd -> 0 < tt <= T / 2 -> valid S -> aG S = Some G -> aGt S <> None -> (0 < sM S)%nat ->
  opamp_frontend S C = Ok kf -> testbench vdd T tt sg (sL S) (sM S) (k_name kf) = Ok kt -> control_ckt S T 0 0 vdd 0 0 = Ok kd -> obeys anon danon kt kf kd law st w ->
  holds w ts (sM S) (sN S) f -> covers T tt n ts -> length sv = length vec -> let b := bench_of kt (sM S) (sN S) T in
  exists v s, parse_file b f vec = Ok v /\ parse_states b f vec sv = Ok (v, s) /\ length s = length vec /\
    forall r, (r < length vec)%nat -> (r <= n)%nat -> exists t, In t ts /\ edge T tt r - T / 2 <= t <= edge T tt r /\ nth r s [] = map (fun i => w_fe w (labname (XX true i)) t) (seq 0 (sN S)).
Proof.
  intros anon danon vdd T tt sg S G C kt kf kd law st w ts n f vec sv Hv Ht V HG HGt HM Hf Hk Hd W Hh Hc Hl b.
  destruct (opamp_levels anon danon vdd T tt sg S G C kt kf kd law st w Hv Ht V HG HGt Hf Hk Hd W) as [Clk Out]. destruct (testbench_eq _ _ _ _ _ _ _ _ Hk) as [_ Et].
  assert (Bd : b_dc b = vdd / 2) by (unfold b; now rewrite Et).
  destruct (samples vdd T tt w ts (sM S) (sN S) n b f Hv Ht HM eq_refl eq_refl Bd eq_refl Hh Hc Clk Out vec sv Hl) as (v & s & tau & E1 & E2 & _ & L2 & Rw).
  exists v, s. repeat (split; [assumption|]). intros r Hr Hn. destruct (Rw r Hr Hn) as (I & R1 & R2). exists (tau r). split; [exact I|]. split; [|exact R1].
  destruct r as [|k]; [destruct R2 as [R2 _]; unfold edge in *; cbn [INR] in *; lra|]. destruct R2 as [R2 _]. pose proof (edge_S T tt k). lra.
Qed.
Print Assumptions C103_states.
(** The method that should return them never does. *)
Example C103_sampled : forall b st, sampled_states b st = Exn ValueError.
Proof. reflexivity. Qed.

(** ** Non-vacuity: the test bench of C102, seven time points *)
Definition ts1 : list R := [0; 1 / 2; 1; 3 / 2; 2; 5 / 2; 3].
Definition f1 : raw := fun nm =>
  if String.eqb nm "V(CLK)" then Some (map (w_tb P_ClosedLoop.w1 "CLK") ts1) else if String.eqb nm "V(OUT0_P)" then Some (map (w_tb P_ClosedLoop.w1 "OUT0_P") ts1)
  else if String.eqb nm "V(XAF.X0_P)" then Some (map (w_fe P_ClosedLoop.w1 "X0_P") ts1) else if String.eqb nm "V(XAF.X0_N)" then Some (map (w_fe P_ClosedLoop.w1 "X0_N") ts1) else None.
Example C103_ex : forall anon danon, exists G kt kf kd g, aG P_ClosedLoop.S1 = Some G /\ (0 < sM P_ClosedLoop.S1)%nat /\ opamp_frontend P_ClosedLoop.S1 1 = Ok kf /\
  testbench 1 1 (1 / 4) P_ClosedLoop.sg1 1 1 (k_name kf) = Ok kt /\ control_ckt P_ClosedLoop.S1 1 0 0 1 0 0 = Ok kd /\ obeys anon danon kt kf kd (P_ClosedLoop.opamp_law anon kf) (state_nodes 1) P_ClosedLoop.w1 /\
  ng_init (bench_of kt 1 1 1) 3 = Ok g /\ holds P_ClosedLoop.w1 ts1 1 1 f1 /\ covers 1 (1 / 4) 3 ts1 /\
  exists rs g' o', nexts (bench_of kt 1 1 1) (Ok tt) (fun _ => Ok f1) 4 g (mkOut 0 None) = (rs, g', o') /\ nth 1 rs (Exn GenericException) = Ok [1] /\ nth 2 rs (Exn GenericException) = Ok [1] /\ nth 3 rs (Exn GenericException) = Exn StopIteration.
Proof.
  intros anon danon. destruct (P_ClosedLoop.C102_opamp_ex anon danon) as (G & kt & kf & kd & H1 & H2 & H3 & H4 & H5 & H6 & H7 & _ & _ & _).
  destruct (C103_size (bench_of kt 1 1 1) 3) as (g & Eg & _); [cbn; lra|lra|].
  assert (Hh : holds P_ClosedLoop.w1 ts1 1 1 f1).
  { split; [reflexivity|]. split; [intros m Hm; replace m with 0%nat by lia; reflexivity|]. intros n Hn. replace n with 0%nat by lia. split; reflexivity. }
  assert (Hc : covers 1 (1 / 4) 3 ts1).
  { split; [unfold ts1; repeat (constructor; [|repeat (constructor; try lra)]); constructor|]. split; [unfold ts1; cbn; intros t H; repeat (destruct H as [<-|H]; [lra|]); destruct H|].
    split; [exists 0; split; [now left|unfold edge; cbn; lra]|].
    intros k Hk. unfold edge, ts1. assert (C : k = 0%nat \/ k = 1%nat \/ k = 2%nat) by lia. destruct C as [->|[->| ->]]; cbn [INR]; split.
    - exists (1 / 2). split; [cbn; tauto|lra]. - exists 1. split; [cbn; tauto|lra]. - exists (3 / 2). split; [cbn; tauto|lra]. - exists 2. split; [cbn; tauto|lra]. - exists (5 / 2). split; [cbn; tauto|lra]. - exists 3. split; [cbn; tauto|lra]. }
  exists G, kt, kf, kd, g. split; [exact H1|]. split; [cbn; lia|]. split; [exact H4|]. split; [exact H5|]. split; [exact H6|]. split; [exact H7|]. split; [exact Eg|]. split; [exact Hh|]. split; [exact Hc|].
  destruct (C103_opamp anon danon 1 1 (1 / 4) P_ClosedLoop.sg1 P_ClosedLoop.S1 G 1 kt kf kd (P_ClosedLoop.opamp_law anon kf) (state_nodes 1) P_ClosedLoop.w1 ts1 3 f1 (fun _ => Ok f1) 3 g 3) as (rs & g' & o' & N1 & _ & _ & N4); try eassumption; try lra; try reflexivity.
  { cbn; lia. }
  exists rs, g', o'. split; [exact N1|]. split; [|split].
  - destruct (N4 1%nat ltac:(lia)) as [_ N5]. rewrite N5 by (cbn [INR]; lia || lra). cbn. unfold so, ow. cbn. f_equal. f_equal. lra.
  - destruct (N4 2%nat ltac:(lia)) as [_ N5]. rewrite N5 by (cbn [INR]; lia || lra). cbn. unfold so, ow. cbn. f_equal. f_equal. lra.
  - destruct (N4 3%nat ltac:(lia)) as [N5 _]. apply N5. cbn [INR]. lra.
Qed.
(** a run that fails once, then works *)
Example C103_retry_ex : let b := mkBench (Some ["OUT0_P"%string]) (1 / 2) 1 0 1 in let g := mkNg false false false [[0]] None in
  let prog n := match n with O => Exn GenericException | _ => Ok (two [0] [1]) end in
  g_parsed g = false /\ (exists g' o', next b (Ok tt) prog g (mkOut 0 None) = (Exn GenericException, g', o') /\ exists g2 o2, next b (Ok tt) prog g' o' = (Ok [1], g2, o2)).
Proof.
  cbv zeta. split; [reflexivity|]. do 2 eexists. split; [reflexivity|]. unfold next, lazy_initialize, make_netlist. cbn [g_made g_ran g_parsed andb andthen]. unfold run at 1. cbn [o_runs andthen]. unfold parse_raw. cbn [o_file g_vec].
  assert (E : parse_file (mkBench (Some ["OUT0_P"%string]) (1 / 2) 1 0 1) (two [0] [1]) [[0]] = Ok [[1]]) by runp. rewrite E. cbn [g_pos g_vec nth_error]. do 2 eexists. reflexivity.
Qed.
