(** Behaviour of the circuits of CircuitControl.v. *)
From Coq Require Import String Ascii List Bool Arith Reals Lia Lra.
From Verif Require Import Base LinAlg FirExtras Netlist NetlistProofs NetlistTree AnalogSystem AnalogProofs IntegratorsProofs ParallelProofs ModulatorProofs Circuits CircuitProofs CircuitControl XspiceLaws CircuitControlProofs.
Import ListNotations.
Open Scope R_scope.

(** a digital state that follows from a voltage below or above the thresholds *)
Definition threshold (il ih x : R) (b : bool) : Prop := (x < il -> b = false) /\ (ih < x -> b = true).

Section Comparator.
Variable anon : dcid -> nat -> string.
Variable cards : list dmod.
Variable defs : list dckt.
Variables il ih ol oh : R.
Hypothesis Cadc : exists r f, card cards "adc" = Some (PAdc il ih r f).
Hypothesis Cdff : exists a b c d e f, card cards "dflip" = Some (PDff a b c d e f).
Hypothesis Cdac : exists a b c d, card cards "dac" = Some (PDac ol oh a b c d).

Lemma cmp_lines nm a b c d e f g h i : let k := diff_comparator nm il ih ol oh a b c d e f g h i in
  dlines anon k = [DAdc "Aclk_adc" "CLK" (Some "VCM") "CLKD" "adc"; DAdc "Ain_adc" "IN" (Some "VCM") "OUT" "adc";
    DDff "Adffp" "OUT" "CLKD" "SET" "RES" "F_OUT_P" "F_OUT_N" "dflip"; DDac "Adac_p" "F_OUT_P" "OUT_P" "dac"; DDac "Adac_n" "F_OUT_N" "OUT_N" "dac"]%string
  /\ dformals anon k = ["CLK"; "IN"; "OUT_P"; "OUT_N"; "VCM"]%string.
Proof. repeat split; vm_compute; reflexivity. Qed.

Lemma cmp_sem n nm a b c d e f g h i va vd : sat anon cards defs n (diff_comparator nm il ih ol oh a b c d e f g h i) va vd ->
  (forall t, threshold il ih (va "CLK" t - va "VCM" t) (vd "CLKD" t))%string /\
  forall t0, exists q, threshold il ih (va "IN" t0 - va "VCM" t0)%string q /\ forall t1, latched (vd "CLKD"%string) t0 t1 ->
    va "OUT_P"%string t1 = (if q then oh else ol) /\ va "OUT_N"%string t1 = (if q then ol else oh).
Proof.
  intro H. assert (H1 : forall l, In l (dlines anon (diff_comparator nm il ih ol oh a b c d e f g h i)) -> law cards va vd l) by (destruct n; apply H). clear H.
  destruct (cmp_lines nm a b c d e f g h i) as (E & _). cbv zeta in E. rewrite E in H1. clear E.
  destruct Cadc as (r1 & r2 & E1), Cdff as (q1 & q2 & q3 & q4 & q5 & q6 & E2), Cdac as (w1 & w2 & w3 & w4 & E3).
  assert (L1 := H1 _ (or_introl eq_refl)). assert (L2 := H1 _ (or_intror (or_introl eq_refl))).
  assert (L3 := H1 _ (or_intror (or_intror (or_introl eq_refl)))). assert (L4 := H1 _ (or_intror (or_intror (or_intror (or_introl eq_refl))))).
  assert (L5 := H1 _ (or_intror (or_intror (or_intror (or_intror (or_introl eq_refl)))))). cbn [law] in *. rewrite ?E1, ?E2, ?E3 in *. clear H1.
  split; [intro t; exact (L1 t)|]. intro t0. exists (vd "OUT"%string t0). split; [exact (L2 t0)|]. intros t1 Hl.
  destruct (L3 t0 t1 Hl) as [Q Qn]. rewrite L4, L5, Q, Qn. destruct (vd "OUT"%string t0); auto.
Qed.
End Comparator.

(** ** The multi-input comparator *)
Lemma seq_from a n : seq a n = map (fun i => a + i)%nat (seq 0 n).
Proof.
  revert a. induction n as [|n IH]; intro a; [reflexivity|]. cbn [seq map]. rewrite Nat.add_0_r. f_equal.
  rewrite (IH (S a)), <- seq_shift, map_map. apply map_ext. intro i. lia.
Qed.
Ltac in_calls := repeat (first [ left; reflexivity | right; left; reflexivity | right ]).
Section Mic.
Variable anon : dcid -> nat -> string.
Variables N L M m : nat.
Variable nm : string.
Variable comps : list dcomp.
Let Q : nat := (N + L + M)%nat.
Let k := Dckt nm (dpins N L M) comps (sum_calls N L M ++ cmp_calls m).
Definition mic_root (t : dterm) : dterm :=
  match t with
  | DPin Sum (LA i) =>
      if Nat.eqb i (2 * (N + L + M)) then DOwn LStilde
      else let p := Nat.ltb i (N + L + M) in
           let j := if p then i else (i - (N + L + M))%nat in
           if Nat.ltb j N then DOwn (B (XX p j)) else if Nat.ltb j (N + L) then DOwn (B (IN p (j - N))) else DOwn (B (SS p (j - N - L)))
  | DPin Cmp (B OUTP) => DOwn (B (SS true m))
  | DPin Cmp (B OUTN) => DOwn (B (SS false m))
  | DPin Cmp LIn => DOwn LStilde
  | DPin Cmp l => DOwn l
  | t => t
  end.
Ltac mroot := cbn [mic_root];
  repeat match goal with
         | |- context [Nat.eqb ?a ?b] => destruct (Nat.eqb_spec a b); try lia
         | |- context [Nat.ltb ?a ?b] => destruct (Nat.ltb_spec a b); try lia
         end; try reflexivity; repeat f_equal; lia.
Lemma mic_rooted : rooted anon k mic_root.
Proof.
  intros a b H. cbn [d_calls k] in H. apply in_app_or in H. destruct H as [H|H].
  - cbn [sum_calls In] in H. destruct H as [H|H]; [injection H as <- <-; repeat split; try discriminate; mroot|].
    apply in_app_or in H. destruct H as [H|H]; [|apply in_app_or in H; destruct H as [H|H]];
      apply in_flat_map in H; destruct H as (j & Hj & H); apply in_seq in Hj; cbn [In] in H; destruct H as [H|[H|[]]]; injection H as <- <-;
      repeat split; try discriminate; mroot.
  - cbn [cmp_calls In] in H. repeat (destruct H as [H|H]; [injection H as <- <-; repeat split; discriminate|]). destruct H.
Qed.
Lemma mic_own l : dnode anon k (DOwn l) = dlabname l.
Proof. apply (dnode_root anon k mic_root mic_rooted (DOwn l)). reflexivity. Qed.
Lemma mic_pin a b : In (DOwn a, b) (sum_calls N L M ++ cmp_calls m) -> dnode anon k b = dlabname a.
Proof. intro H. exact (dnode_second anon k mic_root mic_rooted (DOwn a) b H). Qed.
Lemma mic_formals : dformals anon k = map dlabname (dpins N L M).
Proof. unfold dformals. cbn [d_terms k]. apply map_ext. intro l. apply mic_own. Qed.

Lemma pair_list {X} (f : nat -> X) (d : X) q : let ns := map f (seq 0 (2 * q + 1)) in
  combine (firstn q ns) (firstn q (skipn q ns)) = map (fun i => (f i, f (q + i)%nat)) (seq 0 q) /\ last ns d = f (2 * q)%nat.
Proof.
  cbv zeta. split.
  - assert (S1 : seq 0 (2 * q + 1) = seq 0 q ++ seq q q ++ [(2 * q)%nat]).
    { replace (2 * q + 1)%nat with (q + (q + 1))%nat by lia. rewrite seq_app. cbn [plus]. f_equal. rewrite seq_app. f_equal. cbn. f_equal. lia. }
    rewrite S1, !map_app. assert (L1 : length (map f (seq 0 q)) = q) by (now rewrite map_length, seq_length).
    assert (L2 : length (map f (seq q q)) = q) by (now rewrite map_length, seq_length).
    rewrite firstn_app, L1, Nat.sub_diag. cbn [firstn]. rewrite app_nil_r, firstn_all2 by lia.
    rewrite skipn_app, L1, Nat.sub_diag. cbn [skipn]. rewrite skipn_all2 by lia. cbn [app].
    rewrite firstn_app, L2, Nat.sub_diag. cbn [firstn]. rewrite app_nil_r, firstn_all2 by lia.
    assert (E : seq q q = map (fun i => q + i)%nat (seq 0 q)) by apply seq_from.
    rewrite E, map_map. clear. induction (seq 0 q) as [|x l IH]; [reflexivity|]. cbn. now rewrite IH.
  - rewrite seq_app. cbn [plus seq]. rewrite map_app. cbn [map]. apply last_last.
Qed.

Definition pr (f : bool -> nat -> lab) (i : nat) : string * string := (labname (f true i), labname (f false i)).
Lemma mic_sum_line md : demit anon k (Leaf Sum (KSum (N + L + M)) md) =
  DSum "As" (map (pr XX) (seq 0 N) ++ map (pr IN) (seq 0 L) ++ map (pr SS) (seq 0 M)) "STILDE" (m_name md).
Proof.
  unfold demit. cbv zeta. destruct (pair_list (fun i => dnode anon k (DPin Sum (LA i))) ""%string (N + L + M)) as [E1 E2]. cbv zeta in E1, E2.
  rewrite E1, E2. clear E1 E2. f_equal.
  - rewrite (seq_app (N + L)), (seq_app N), !map_app, <- app_assoc. cbn [plus]. rewrite (seq_from N L), (seq_from (N + L) M), !map_map.
    f_equal; [|f_equal]; apply map_ext_in; intros i Hi; apply in_seq in Hi; unfold pr; f_equal.
    + rewrite (mic_pin (B (XX true i))); [reflexivity|]. apply in_or_app. left. right. apply in_or_app. left. apply in_flat_map. exists i. split; [apply in_seq; lia|now left].
    + rewrite (mic_pin (B (XX false i))); [reflexivity|]. apply in_or_app. left. right. apply in_or_app. left. apply in_flat_map. exists i. split; [apply in_seq; lia|right; now left].
    + rewrite (mic_pin (B (IN true i))); [reflexivity|]. apply in_or_app. left. right. apply in_or_app. right. apply in_or_app. left. apply in_flat_map. exists i. split; [apply in_seq; lia|now left].
    + rewrite (mic_pin (B (IN false i))); [reflexivity|]. apply in_or_app. left. right. apply in_or_app. right. apply in_or_app. left. apply in_flat_map. exists i. split; [apply in_seq; lia|right; left].
      unfold down. do 3 f_equal. lia.
    + rewrite (mic_pin (B (SS true i))); [reflexivity|]. apply in_or_app. left. right. apply in_or_app. right. apply in_or_app. right. apply in_flat_map. exists i. split; [apply in_seq; lia|now left].
    + rewrite (mic_pin (B (SS false i))); [reflexivity|]. apply in_or_app. left. right. apply in_or_app. right. apply in_or_app. right. apply in_flat_map. exists i. split; [apply in_seq; lia|right; left].
      unfold down. do 3 f_equal. lia.
  - apply (mic_pin LStilde). now left.
Qed.
Lemma mic_cmp_line T ih il oh ol : demit anon k (Inst Cmp (cmp_ckt T ih il oh ol)) =
  DX "Xcomp" ["CLK"; "STILDE"; labname (SS true m); labname (SS false m); "VCM"]%string "clocked_comparator".
Proof.
  cbn [demit cmp_ckt diff_comparator d_terms d_name map dcname]. f_equal.
  rewrite (mic_pin (B CLK)), (mic_pin LStilde (DPin Cmp LIn)), (mic_pin (B (SS true m)) (DPin Cmp (B OUTP))), (mic_pin (B (SS false m)) (DPin Cmp (B OUTN))), (mic_pin (B VCM) (DPin Cmp (B VCM)));
    try reflexivity; apply in_or_app; right; unfold cmp_calls; cbn [In]; tauto.
Qed.
End Mic.

Lemma f2_cons {X Y} (P : X -> Y -> Prop) x l y k : Forall2 P (x :: l) (y :: k) -> P x y /\ Forall2 P l k.
Proof. intro H. inversion H. auto. Qed.
Lemma ok_inj {X} (a b : X) : Ok a = Ok b -> a = b.
Proof. now intros [= ->]. Qed.
(** differential voltages *)
Definition dv (va : string -> R -> R) (f : bool -> nat -> lab) (n : nat) (t : R) : list R := map (fun i => va (labname (f true i)) t - va (labname (f false i)) t) (seq 0 n).
Lemma combine_app {X Y} (a b : list X) (c d : list Y) : length a = length c -> combine (a ++ b) (c ++ d) = combine a c ++ combine b d.
Proof. revert c. induction a as [|x a IH]; intros [|y c] H; try discriminate; [reflexivity|]. cbn. now rewrite IH by (cbn in H; lia). Qed.
Lemma repeat_app' {X} (x : X) a b : repeat x (a + b) = repeat x a ++ repeat x b.
Proof. induction a; cbn; congruence. Qed.
Lemma sum_part (va : string -> R -> R) t (g : nat -> R) f n :
  fold_right Rplus 0 (map (fun '(g, o, (p, q)) => g * (va p t - va q t + o)) (combine (combine (map g (seq 0 n)) (repeat 0 n)) (map (pr f) (seq 0 n))))
  = rsum n (fun i => g i * nth i (dv va f n t) 0).
Proof.
  unfold rsum. f_equal. assert (G : forall l k, length l = k -> combine (combine (map g l) (repeat 0 k)) (map (pr f) l) = map (fun i => ((g i, 0), pr f i)) l).
  { induction l as [|i l IH]; intros k <-; [reflexivity|]. cbn. now rewrite IH. }
  rewrite (G (seq 0 n) n (seq_length n 0)), map_map. apply map_ext_in. intros i Hi. apply in_seq in Hi. unfold pr, dv.
  rewrite (nth_map_seq (fun i => va (labname (f true i)) t - va (labname (f false i)) t)) by lia. rewrite Rplus_0_r. reflexivity.
Qed.

Lemma lin_rsum (G : nd2 Rring) (x : list R) i : lin (K := Rring) G x i = rsum (cols G) (fun k => ent G i k * nth k x 0).
Proof. unfold lin. apply ksum_rsum. Qed.
(** the observation of row [mt] in the circuit *)
Section MicSem.
Variable anon : dcid -> nat -> string.
Variable cards : list dmod.
Variable defs : list dckt.
Variable S : asys Rring.
Hypothesis V : valid S.
Variables T ih il oh ol : R.
Variables m mt : nat.
Hypothesis Cadc : exists r f, card cards "adc" = Some (PAdc il ih r f).
Hypothesis Cdff : exists a b c d e f, card cards "dflip" = Some (PDff a b c d e f).
Hypothesis Cdac : exists a b c d, card cards "dac" = Some (PDac ol oh a b c d).
Hypothesis Csum : forall G, aGt S = Some G -> card cards ("sum_" ++ dec mt) = Some (m_par (sum_model (sN S) (sL S) (sM S) mt G (aBt S) (aAt S) oh ol)).
Hypothesis Dcmp : sub_def defs "clocked_comparator" = Some (cmp_ckt T ih il oh ol).

Lemma mic_sem n k va vd : mic_ckt S T m mt ih il oh ol = Ok k -> sat anon cards defs (Datatypes.S n) k va vd ->
  exists ck, (forall t, threshold il ih (va "CLK" t - va "VCM" t) (ck t))%string /\
    forall t0 o, control_observation S (dv va XX (sN S) t0) (Some (dv va IN (sL S) t0)) (Some (dv va SS (sM S) t0)) = Ok o ->
    exists q, threshold il ih (nth mt o 0 + (oh + ol) / 2 - va "VCM"%string t0) q /\ forall t1, latched ck t0 t1 ->
      va (labname (SS true m)) t1 = (if q then oh else ol) /\ va (labname (SS false m)) t1 = (if q then ol else oh).
Proof.
  unfold mic_ckt. destruct (aGt S) as [G|] eqn:EG; [|discriminate]. destruct (Nat.ltb_spec mt (rows G)) as [Hmt|]; [|discriminate]. intro HK. apply ok_inj in HK. subst k.
  intros [H1 H2].
  set (k := Dckt _ _ _ _) in *. assert (HL : dlines anon k = [demit anon k (Leaf Sum (KSum (sN S + sL S + sM S)) (sum_model (sN S) (sL S) (sM S) mt G (aBt S) (aAt S) oh ol)); demit anon k (Inst Cmp (cmp_ckt T ih il oh ol))]) by reflexivity.
  subst k. rewrite mic_sum_line, mic_cmp_line in HL. rewrite HL in H1, H2.
  assert (L1 := H1 _ (or_introl eq_refl)). clear H1. cbn [law m_name sum_model] in L1. rewrite (Csum G eq_refl) in L1. cbn [m_par sum_model] in L1.
  destruct (H2 _ _ _ (or_intror (or_introl eq_refl))) as (d & va' & vd' & Ed & Ag & Hs). rewrite Dcmp in Ed. injection Ed as <-. clear H2.
  destruct (cmp_lines anon il ih ol oh "clocked_comparator" ((oh - ol) / 2) (/ 10 ^ 12) 0 (T / 100) (T / 100) (T / 1000) (T / 1000) fs fs) as (_ & Ef).
  cbv zeta in Ef. unfold cmp_ckt in Ag. rewrite Ef in Ag. clear Ef.
  apply f2_cons in Ag. destruct Ag as [A1 Ag]. apply f2_cons in Ag. destruct Ag as [A2 Ag]. apply f2_cons in Ag. destruct Ag as [A3 Ag].
  apply f2_cons in Ag. destruct Ag as [A4 Ag]. apply f2_cons in Ag. destruct Ag as [A5 _]. cbv beta in A1, A2, A3, A4, A5.
  destruct (cmp_sem anon cards defs il ih ol oh Cadc Cdff Cdac _ _ _ _ _ _ _ _ _ _ _ _ _ Hs) as [B1 B2].
  exists (vd' "CLKD"%string). split; [intro t; rewrite <- (proj1 (A1 t)), <- (proj1 (A5 t)); apply B1|].
  intros t0 o Ho. destruct (B2 t0) as (q & Hq & O1). exists q. split; [|intros t1 Hl; rewrite <- (proj1 (A3 t1)), <- (proj1 (A4 t1)); exact (O1 t1 Hl)].
  rewrite (proj1 (A2 t0)), (proj1 (A5 t0)), L1 in Hq. replace (nth mt o 0 + (oh + ol) / 2) with (1 * fold_right Rplus 0 (map (fun '(g, o0, (p, n0)) => g * (va p t0 - va n0 t0 + o0))
    (combine (combine (row G mt ++ row (aBt S) mt ++ row (aAt S) mt) (repeat 0 (sN S + sL S + sM S))) (map (pr XX) (seq 0 (sN S)) ++ map (pr IN) (seq 0 (sL S)) ++ map (pr SS) (seq 0 (sM S))))) + ((oh - ol) / 2 + ol)); [exact Hq|].
  clear Hq O1 B1 B2 L1. assert (NG : aGt S <> None) by congruence.
  assert (Ldv : forall f n, length (dv va f n t0) = n) by (intros; unfold dv; now rewrite map_length, seq_length).
  assert (Obs := control_observation_xus (K := Rring) S _ _ _ V NG (Ldv XX (sN S)) (Ldv IN (sL S)) (Ldv SS (sM S))). assert (Obs' := eq_trans (eq_sym Ho) Obs). injection Obs' as ->. clear Obs.
  assert (Hm : (mt < sMt S)%nat) by (unfold sMt; rewrite EG; exact Hmt).
  pose proof (v_Gt _ V) as VG. rewrite EG in VG. destruct (v_Bt _ V) as [_ VB], (v_At _ V) as [_ VA].
  unfold row. rewrite VG, VB, VA. rewrite !repeat_app', <- app_assoc.
  rewrite !combine_app by (repeat rewrite ?app_length, ?map_length, ?seq_length, ?repeat_length, ?combine_length; lia).
  rewrite !map_app, !fold_app_R, !sum_part.
  assert (E : nth mt (vadd (vadd (obs_x S (dv va XX (sN S) t0)) (obs_u S (dv va IN (sL S) t0))) (obs_s S (dv va SS (sM S) t0))) 0
    = lin G (dv va XX (sN S) t0) mt + lin (aBt S) (dv va IN (sL S) t0) mt + lin (aAt S) (dv va SS (sM S) t0) mt).
  { unfold obs_x, obs_u, obs_s, vadd, lino. rewrite EG.
    assert (N1 : forall (f g : nat -> R) n i, (i < n)%nat -> nth i (map2 Rplus (map f (seq 0 n)) (map g (seq 0 n))) 0 = f i + g i).
    { intros f g n0 i Hi. rewrite (nth_map2 Rplus _ _ i 0 0) by (now rewrite map_length, seq_length). now rewrite !nth_map_seq. }
    change (@radd Rring) with Rplus. rewrite (nth_map2 Rplus _ _ mt 0 0); [|rewrite map2_length, !map_length, !seq_length; lia|rewrite map_length, seq_length; exact Hm].
    f_equal; [apply (N1 (lin G _) (lin (aBt S) _)); exact Hm|]. apply (nth_map_seq (lin (aAt S) _)). exact Hm. }
  cbn [car Rring] in E |- *. rewrite E. rewrite !lin_rsum, VG, VB, VA. lra.
Qed.
End MicSem.
