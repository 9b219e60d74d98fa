(** The Gm-C front end: Kirchhoff's current law at the integrator nodes of the generated netlist, cells expanded, gives the state equation. *)
From Coq Require Import String List Bool Arith Reals Lia Lra.
From Flocq Require Import Core.
From Verif Require Import Base LinAlg FirExtras Netlist NetlistProofs AnalogSystem IntegratorsProofs Circuits CircuitLaws CircuitProofs OpampCircuit.
Import ListNotations.
Open Scope R_scope.

Lemma total_cons f x l : total f (x :: l) = f x + total f l.
Proof. reflexivity. Qed.
Lemma sum_zero {X} (f : X -> R) l : (forall x, In x l -> f x = 0) -> fold_right Rplus 0 (map f l) = 0.
Proof. induction l as [|x l IH]; intro H; [reflexivity|]. cbn [map fold_right]. rewrite IH, (H x (or_introl eq_refl)); [lra|]. intros y Hy. apply H. now right. Qed.

Section Gm.
Variable anon : cid -> lab -> string.
Variables (N L M : nat) (A B G : nat -> nat -> R) (C : R) (gain : option R).
Let entry := entry A B G.
Definition row_list (n : nat) : list rpair := row_pairs MA n N A ++ row_pairs MB n L B ++ row_pairs MG n M G.
Definition r_dc (g : R) : R := 2 * (g / (max_abs N L B * C)).
Definition dc_comps : list comp := match gain with None => [] | Some g => [mkComp (CRdc true) (KR (r_dc g)); mkComp (CRdc false) (KR (r_dc g))] end.
Definition dc_cell_calls (n : nat) : list (term * term) :=
  match gain with None => [] | Some _ => [own (XX true n) (CRdc true) P0; own (XX false n) (CRdc false) P1; own VCM (CRdc true) P1; own VCM (CRdc false) P0] end.
Definition cell (n : nat) : ckt :=
  mkCkt (cell_name n) (cell_pins N L M) (map (ota_comp C) (row_list n) ++ dc_comps) (flat_map (ota_calls C) (row_list n) ++ dc_cell_calls n).
Lemma cell_ok n : (gain = None \/ max_abs N L B * C <> 0) -> gm_cell N L M A B (Some G) C gain n = Ok (cell n).
Proof.
  intro H. unfold gm_cell, cell, dc_comps, dc_cell_calls, r_dc. destruct gain as [g|]; [|reflexivity].
  destruct H as [H|H]; [discriminate|]. destruct (Req_bool_spec (max_abs N L B * C) 0); [contradiction|]. reflexivity.
Qed.

Lemma row_pairs_in k n J m x : In x (row_pairs k n J m) -> rp_k x = k /\ rp_n x = n /\ (rp_j x < J)%nat /\ rp_val x = m n (rp_j x) /\ rp_val x <> 0.
Proof.
  intro H. apply in_flat_map in H. destruct H as (j & Hj & H). apply in_seq in Hj. destruct (Req_bool_spec (m n j) 0); [destruct H|].
  destruct H as [<-|[]]. cbn. repeat split; auto; lia.
Qed.
Lemma row_in n x : In x (row_list n) -> rp_n x = n /\ (rp_j x < width N L M (rp_k x))%nat /\ rp_val x = entry (rp_k x) n (rp_j x) /\ rp_val x <> 0.
Proof.
  intro H. unfold row_list in H. apply in_app_or in H. destruct H as [H|H]; [|apply in_app_or in H; destruct H as [H|H]];
    apply row_pairs_in in H; destruct H as (E & H1 & H2 & H3 & H4); rewrite E; auto.
Qed.

Definition gm_att (n : nat) (c : cid) (m : lab) : lab :=
  match c with
  | COta k i j =>
      let neg := Rlt_bool (entry k i j * C) 0 in
      match m with OUTP => XX true i | OUTN => XX false i | INP => cell_src k neg j | INN => cell_src k (negb neg) j | _ => m end
  | CRdc p => match m with P0 => if p then XX true n else VCM | _ => if p then VCM else XX false n end
  | _ => m
  end.
Lemma cell_src_real k p j : real_lab (cell_src k p j).
Proof. destruct k; split; discriminate. Qed.
Ltac one := injection 1 as <- <-; eexists; eexists; eexists; split; [reflexivity|split; [reflexivity|split; [|first [apply cell_src_real|split; discriminate]]]].
Ltac each H := repeat (destruct H as [H|H]; [revert H; one; try reflexivity|]); try destruct H.
Ltac inn := cbn; repeat (first [left; reflexivity|right]).
Lemma gm_att_ok n : att_ok (cell n) (gm_att n).
Proof.
  intros a b H. cbn [k_calls cell] in H. apply in_app_or in H. destruct H as [H|H].
  - apply in_flat_map in H. destruct H as (x & Hx & H). apply row_in in Hx. destruct Hx as (En & _ & Ev & _). unfold ota_calls in H.
    rewrite En, Ev in H. apply in_app_or in H. destruct H as [H|H]; [each H|].
    destruct (Rlt_bool (entry (rp_k x) n (rp_j x) * C) 0) eqn:E; each H; cbn; rewrite E; reflexivity.
  - unfold dc_cell_calls in H. destruct gain; each H.
Qed.
Definition ota_line (x : rpair) : line :=
  let neg := Rlt_bool (rp_val x * C) 0 in
  LG (cname (COta (rp_k x) (rp_n x) (rp_j x))) (labname (XX true (rp_n x))) (labname (XX false (rp_n x)))
    (labname (cell_src (rp_k x) neg (rp_j x))) (labname (cell_src (rp_k x) (negb neg) (rp_j x))) (Rabs (rp_val x * C)).
Definition dc_lines (n : nat) : list line :=
  match gain with
  | None => []
  | Some g => [LR "Rp" (labname (XX true n)) (labname VCM) (r_dc g); LR "Rn" (labname VCM) (labname (XX false n)) (r_dc g)]
  end.
Lemma cell_lines n : lines anon (cell n) = map ota_line (row_list n) ++ dc_lines n.
Proof.
  unfold lines. change (k_comps (cell n)) with (map (ota_comp C) (row_list n) ++ dc_comps). rewrite map_app, map_map.
  pose proof (fun l c m => node_pin anon (cell n) (gm_att n) (gm_att_ok n) l c m) as Np. f_equal.
  - apply map_ext_in. intros x Hx. assert (Hc : forall y, In y (ota_calls C x) -> In y (k_calls (cell n))).
    { intros y Hy. cbn [k_calls cell]. apply in_or_app. left. apply in_flat_map. eauto. }
    unfold ota_comp, ota_line. cbn [emit c_kind c_id]. unfold ota_calls in Hc.
    destruct (Rlt_bool (rp_val x * C) 0); cbn [negb]; f_equal; apply Np; apply Hc; inn.
  - assert (Hc : forall y, In y (dc_cell_calls n) -> In y (k_calls (cell n))) by (intros y Hy; cbn [k_calls cell]; apply in_or_app; auto).
    unfold dc_comps, dc_lines, dc_cell_calls in *. destruct gain; [|reflexivity]. cbn [map emit c_kind c_id].
    repeat f_equal; apply Np; apply Hc; inn.
Qed.
Lemma cell_formals n : formals anon (cell n) = map labname (cell_pins N L M).
Proof. unfold formals. change (k_terms (cell n)) with (cell_pins N L M). apply map_ext. intro l. apply (node_own anon _ _ (gm_att_ok n)). Qed.

(** ** The front end *)
Definition gmc_ckt : ckt := mkCkt "ota_frontend" (fe_terms L M) (dc_comp N L M :: flat_map (gmc_comps N L M C) (seq 0 N))
        (dc_calls N L M ++ flat_map (gmc_calls N L M) (seq 0 N)).
Definition up (l : lab) : lab := match l with SS p i => OUT p i | _ => l end.
Definition fe_att (c : cid) (m : lab) : lab :=
  match c with
  | CDC | CGm _ => up m
  | CCap p i => match m with P0 => if p then XX true i else VCM | _ => if p then VCM else XX false i end
  | _ => m
  end.
Lemma fe_att_ok : att_ok gmc_ckt fe_att.
Proof.
  intros a b H. cbn [k_calls gmc_ckt] in H. apply in_app_or in H. destruct H as [H|H].
  - unfold dc_calls in H. apply in_app_or in H. destruct H as [H|H]; [each H|].
    apply in_app_or in H. destruct H as [H|H]; [|apply in_app_or in H; destruct H as [H|H]]; apply in_flat_map in H; destruct H as (n & _ & H); each H.
  - apply in_flat_map in H. destruct H as (n & _ & H). unfold gmc_calls in H. apply in_app_or in H. destruct H as [H|H]; [each H|].
    apply in_app_or in H. destruct H as [H|H]; [|apply in_app_or in H; destruct H as [H|H]; [|apply in_app_or in H; destruct H as [H|H]]].
    4: each H. all: apply in_flat_map in H; destruct H as (m & _ & H); each H.
Qed.
Definition gm_inst (n : nat) : line := LX (cname (CGm n)) (map (fun l => labname (up l)) (cell_pins N L M)) (cell_name n).
Definition cap_lines (n : nat) : list line :=
  [LC (cname (CCap true n)) (labname (XX true n)) (labname VCM) (2 * C); LC (cname (CCap false n)) (labname VCM) (labname (XX false n)) (2 * C)].
Lemma pins_cases l : In l (cell_pins N L M) -> (l = VSS \/ l = VDD \/ l = VCM) \/ (exists p i, (i < N)%nat /\ l = XX p i) \/ (exists p i, (i < L)%nat /\ l = IN p i) \/ (exists p i, (i < M)%nat /\ l = SS p i).
Proof.
  intro H. unfold cell_pins in H. apply in_app_or in H. destruct H as [H|H]; [destruct H as [<-|[<-|[<-|[]]]]; auto|].
  repeat (apply in_app_or in H; destruct H as [H|H]); apply in_map_iff in H; destruct H as (i & <- & Hi); apply in_seq in Hi; right.
  1,2: left; eexists; eexists; split; [|reflexivity]; lia. 1,2: right; left; eexists; eexists; split; [|reflexivity]; lia.
  all: right; right; eexists; eexists; split; [|reflexivity]; lia.
Qed.
Lemma gmc_lines : lines anon gmc_ckt = emit anon gmc_ckt (dc_comp N L M) :: flat_map (fun n => gm_inst n :: cap_lines n) (seq 0 N).
Proof.
  unfold lines. change (k_comps gmc_ckt) with (dc_comp N L M :: flat_map (gmc_comps N L M C) (seq 0 N)). cbn [map]. f_equal.
  rewrite flat_map_concat_map, concat_map, map_map, <- flat_map_concat_map. rewrite !flat_map_concat_map. f_equal. apply map_ext_in. intros n Hn.
  pose proof (fun l c m => node_pin anon gmc_ckt fe_att fe_att_ok l c m) as Np.
  assert (Hc : forall y, In y (gmc_calls N L M n) -> In y (k_calls gmc_ckt)).
  { intros y Hy. cbn [k_calls gmc_ckt]. apply in_or_app. right. apply in_flat_map. eauto. }
  unfold gmc_comps, cap_lines. cbn [map emit c_kind c_id]. f_equal; [|].
  - unfold gm_inst. f_equal. apply map_ext_in. intros l Hl. apply Np. apply Hc. unfold gmc_calls. apply in_or_app.
    destruct (pins_cases l Hl) as [[->|[->| ->]]|[(p & i & Hi & ->)|[(p & i & Hi & ->)|(p & i & Hi & ->)]]].
    1-3: left; inn.
    + right. apply in_or_app. left. apply in_flat_map. exists i. split; [apply in_seq; lia|]. destruct p; inn.
    + right. apply in_or_app. right. apply in_or_app. left. apply in_flat_map. exists i. split; [apply in_seq; lia|]. destruct p; inn.
    + right. apply in_or_app. right. apply in_or_app. right. apply in_or_app. left. apply in_flat_map. exists i. split; [apply in_seq; lia|]. destruct p; inn.
  - assert (Hc2 : forall y, In y [own (XX true n) (CCap true n) P0; own VCM (CCap true n) P1; own (XX false n) (CCap false n) P1; own VCM (CCap false n) P0] -> In y (k_calls gmc_ckt)).
    { intros y Hy. apply Hc. unfold gmc_calls. do 4 (apply in_or_app; right). exact Hy. }
    repeat f_equal; apply Np; apply Hc2; inn.
Qed.

(** ** Expansion *)
Lemma assoc_pins (g : lab -> string) l pins : (forall x, In x pins -> real_lab x) -> In l pins -> assoc (combine (map labname pins) (map g pins)) (labname l) = Some (g l).
Proof.
  induction pins as [|x pins IH]; intros Hr Hl; [destruct Hl|]. cbn. destruct (String.eqb_spec (labname l) (labname x)) as [E|E].
  - apply labname_inj in E; [now subst|apply Hr; exact Hl|apply Hr; now left].
  - apply IH; [intros y Hy; apply Hr; now right|]. destruct Hl as [->|Hl]; [contradiction|exact Hl].
Qed.
Lemma pins_real l : In l (cell_pins N L M) -> real_lab l.
Proof. intro H. destruct (pins_cases l H) as [[->|[->| ->]]|[(p & i & Hi & ->)|[(p & i & Hi & ->)|(p & i & Hi & ->)]]]; split; discriminate. Qed.
Lemma in_pins l : (l = VSS \/ l = VDD \/ l = VCM) \/ (exists p i, (i < N)%nat /\ l = XX p i) \/ (exists p i, (i < L)%nat /\ l = IN p i) \/ (exists p i, (i < M)%nat /\ l = SS p i) -> In l (cell_pins N L M).
Proof.
  intro H. unfold cell_pins. apply in_or_app. destruct H as [[->|[->| ->]]|H]; [left; inn|left; inn|left; inn|]. right.
  destruct H as [(p & i & Hi & ->)|[(p & i & Hi & ->)|(p & i & Hi & ->)]]; destruct p.
  - apply in_or_app. left. apply in_map, in_seq. lia.
  - apply in_or_app. right. apply in_or_app. left. apply in_map, in_seq. lia.
  - do 2 (apply in_or_app; right). apply in_or_app. left. apply in_map, in_seq. lia.
  - do 3 (apply in_or_app; right). apply in_or_app. left. apply in_map, in_seq. lia.
  - do 4 (apply in_or_app; right). apply in_or_app. left. apply in_map, in_seq. lia.
  - do 5 (apply in_or_app; right). apply in_map, in_seq. lia.
Qed.
Lemma rename_pin inst l : In l (cell_pins N L M) -> rename inst (map labname (cell_pins N L M)) (map (fun l => labname (up l)) (cell_pins N L M)) (labname l) = labname (up l).
Proof. intro H. unfold rename. rewrite (assoc_pins (fun l => labname (up l))); [reflexivity|apply pins_real|exact H]. Qed.

Definition cells : list ckt := map cell (seq 0 N).
Lemma find_cell n : (n < N)%nat -> find (fun d => String.eqb (k_name d) (cell_name n)) cells = Some (cell n).
Proof.
  intro Hn. unfold cells. assert (Hi : In n (seq 0 N)) by (apply in_seq; lia). induction (seq 0 N) as [|m l IH]; [destruct Hi|]. cbn [map find].
  change (k_name (cell m)) with (cell_name m). destruct (String.eqb_spec (cell_name m) (cell_name n)) as [E|E].
  - unfold cell_name in E. cbn [append] in E. injection E as E. apply dec_inj in E. now subst.
  - apply IH. destruct Hi as [->|Hi]; [contradiction|exact Hi].
Qed.
Definition flat_ota (n : nat) (x : rpair) : line :=
  let neg := Rlt_bool (rp_val x * C) 0 in
  LG (cname (CGm n) ++ "." ++ cname (COta (rp_k x) (rp_n x) (rp_j x))) (labname (XX true (rp_n x))) (labname (XX false (rp_n x)))
    (labname (src (rp_k x) neg (rp_j x))) (labname (src (rp_k x) (negb neg) (rp_j x))) (Rabs (rp_val x * C)).
Definition flat_dc (n : nat) : list line :=
  match gain with
  | None => []
  | Some g => [LR (cname (CGm n) ++ "." ++ "Rp") (labname (XX true n)) (labname VCM) (r_dc g); LR (cname (CGm n) ++ "." ++ "Rn") (labname VCM) (labname (XX false n)) (r_dc g)]
  end.
Lemma up_src k p j : up (cell_src k p j) = src k p j.
Proof. now destruct k. Qed.
Lemma src_in k p j : (j < width N L M k)%nat -> In (cell_src k p j) (cell_pins N L M).
Proof. intro H. apply in_pins. right. destruct k; cbn in *; eauto 8. Qed.
Lemma expand_cell n : (n < N)%nat -> expand anon cells (gm_inst n) = map (flat_ota n) (row_list n) ++ flat_dc n.
Proof.
  intro Hn. unfold expand, gm_inst. rewrite find_cell by exact Hn. rewrite cell_lines, cell_formals, map_app, map_map. f_equal.
  - apply map_ext_in. intros x Hx. apply row_in in Hx. destruct Hx as (En & Hj & _). unfold ota_line, flat_ota. cbn [rename_line].
    assert (HX : forall p, In (XX p (rp_n x)) (cell_pins N L M)) by (intro; apply in_pins; right; left; rewrite En; eauto).
    rewrite !rename_pin by (first [apply HX|apply src_in; exact Hj]). rewrite !up_src. reflexivity.
  - unfold dc_lines, flat_dc. destruct gain; [|reflexivity]. cbn [map rename_line].
    assert (HX : forall p, In (XX p n) (cell_pins N L M)) by (intro; apply in_pins; right; left; eauto).
    assert (HV : In VCM (cell_pins N L M)) by (apply in_pins; auto). rewrite !rename_pin by (first [apply HX|apply HV]). reflexivity.
Qed.
Definition row_flat (n : nat) : list line := map (flat_ota n) (row_list n) ++ flat_dc n ++ cap_lines n.
Lemma gmc_flat : flatten anon cells gmc_ckt = emit anon gmc_ckt (dc_comp N L M) :: flat_map row_flat (seq 0 N).
Proof.
  unfold flatten. rewrite gmc_lines. cbn [flat_map].
  assert (E : expand anon cells (emit anon gmc_ckt (dc_comp N L M)) = [emit anon gmc_ckt (dc_comp N L M)]).
  { cbn [emit dc_comp c_kind c_id expand]. destruct (find _ cells) as [d|] eqn:F; [|reflexivity]. exfalso. apply find_some in F. destruct F as [Hd F].
    unfold cells in Hd. apply in_map_iff in Hd. destruct Hd as (n & <- & _). change (k_name (cell n)) with (cell_name n) in F. discriminate. }
  rewrite E. cbn [app]. f_equal. rewrite flat_map_concat_map, flat_map_concat_map, concat_map, map_map, <- !flat_map_concat_map.
  assert (S0 : forall n, In n (seq 0 N) -> (n < N)%nat) by (intros n Hn; apply in_seq in Hn; lia).
  induction (seq 0 N) as [|n l IH]; [reflexivity|]. cbn [flat_map concat map]. rewrite <- IH by (intros m Hm; apply S0; now right).
  rewrite concat_app. f_equal. cbn [map concat]. rewrite expand_cell by (apply S0; now left). unfold row_flat. rewrite app_assoc. f_equal.
Qed.

(** ** Currents *)
Variables (v dv il : string -> R).
Let V l := v (labname l).
Let DV l := dv (labname l).
Lemma at_xx p n q j i : at_node (labname (XX p n)) (labname (XX q j)) i = if Bool.eqb p q && Nat.eqb j n then i else 0.
Proof.
  rewrite at_lab by (split; discriminate). destruct (lab_dec _ _) as [E|E].
  - injection E as -> ->. now rewrite Bool.eqb_reflx, Nat.eqb_refl.
  - destruct (Bool.eqb p q) eqn:E1, (Nat.eqb_spec j n); try reflexivity. apply Bool.eqb_prop in E1. subst. contradiction.
Qed.
Lemma at_vcm p n i : at_node (labname (XX p n)) (labname VCM) i = 0.
Proof. rewrite at_lab by (split; discriminate). destruct (lab_dec _ _); [discriminate|reflexivity]. Qed.
Let I p n := inflow v dv il (labname (XX p n)).
Definition u (k : mat) (j : nat) : R := V (src k true j) - V (src k false j).
Lemma ota_diff n m x : In x (row_list m) -> I true n (flat_ota m x) - I false n (flat_ota m x) = if Nat.eqb m n then 2 * C * (rp_val x * u (rp_k x) (rp_j x)) else 0.
Proof.
  intro Hx. apply row_in in Hx. destruct Hx as (En & _). unfold I, flat_ota. cbn [inflow]. rewrite !at_xx, En. cbn [Bool.eqb andb].
  destruct (Nat.eqb m n); [|lra]. unfold u, V. destruct (Rlt_bool_spec (rp_val x * C) 0) as [H|H]; cbn [negb].
  - rewrite Rabs_left by exact H. lra.
  - rewrite Rabs_right by lra. lra.
Qed.
Definition leak : R := match gain with None => 0 | Some g => max_abs N L B / (4 * g) end.
Lemma dc_diff n m : (forall g, gain = Some g -> g <> 0 /\ max_abs N L B * C <> 0) ->
  total (I true n) (flat_dc m) - total (I false n) (flat_dc m) = if Nat.eqb m n then - 2 * C * (leak * (V (XX true n) - V (XX false n))) else 0.
Proof.
  intro H. unfold flat_dc, leak. destruct gain as [g|]; [|cbn; destruct (Nat.eqb m n); lra]. specialize (H g eq_refl).
  unfold total, I. cbn [map fold_right inflow]. rewrite !at_xx, !at_vcm. cbn [Bool.eqb andb]. destruct (Nat.eqb_spec m n) as [->|]; [|lra].
  unfold r_dc, V. destruct H as [Hg Hm]. assert (max_abs N L B <> 0 /\ C <> 0) by (split; intro E; apply Hm; rewrite E; ring).
  field. tauto.
Qed.
Lemma cap_diff n m : total (I true n) (cap_lines m) - total (I false n) (cap_lines m) = if Nat.eqb m n then - 2 * C * (DV (XX true n) - DV (XX false n)) else 0.
Proof.
  unfold total, I, cap_lines. cbn [map fold_right inflow]. rewrite !at_xx, !at_vcm. cbn [Bool.eqb andb]. unfold DV. destruct (Nat.eqb_spec m n) as [->|]; lra.
Qed.
Lemma row_sum k n J m : fold_right Rplus 0 (map (fun x => rp_val x * u (rp_k x) (rp_j x)) (row_pairs k n J m)) = rsum J (fun j => m n j * u k j).
Proof.
  unfold row_pairs, rsum. rewrite sum_flat_map. apply sum_ext. intros j _. destruct (Req_bool_spec (m n j) 0) as [E|E]; cbn; [rewrite E|]; lra.
Qed.
Definition rhs (n : nat) : R :=
  rsum N (fun j => A n j * (V (XX true j) - V (XX false j))) + rsum L (fun l => B n l * (V (IN true l) - V (IN false l)))
  + rsum M (fun m => G n m * (V (OUT true m) - V (OUT false m))) - leak * (V (XX true n) - V (XX false n)).
Lemma row_diff n m : (forall g, gain = Some g -> g <> 0 /\ max_abs N L B * C <> 0) ->
  total (I true n) (row_flat m) - total (I false n) (row_flat m) = if Nat.eqb m n then 2 * C * (rhs n - (DV (XX true n) - DV (XX false n))) else 0.
Proof.
  intro Hg. unfold row_flat. rewrite !total_app.
  pose proof (dc_diff n m Hg) as D1. pose proof (cap_diff n m) as D2.
  assert (D3 : total (I true n) (map (flat_ota m) (row_list m)) - total (I false n) (map (flat_ota m) (row_list m)) =
    if Nat.eqb m n then 2 * C * fold_right Rplus 0 (map (fun x => rp_val x * u (rp_k x) (rp_j x)) (row_list m)) else 0).
  { rewrite !total_map. pose proof (ota_diff n m) as H. induction (row_list m) as [|x l IH]; [cbn; destruct (Nat.eqb m n); lra|].
    cbn [map fold_right]. specialize (IH (fun y Hy => H y (or_intror Hy))). specialize (H x (or_introl eq_refl)). destruct (Nat.eqb m n); lra. }
  destruct (Nat.eqb_spec m n) as [->|]; [|lra]. unfold row_list in D3 at 3. rewrite !map_app, !fold_app_R, !row_sum in D3. unfold u, src in D3. unfold rhs. lra.
Qed.

Theorem gmc_kcl n : C <> 0 -> (forall g, gain = Some g -> g <> 0 /\ max_abs N L B * C <> 0) -> (n < N)%nat ->
  kcl v dv il (flatten anon cells gmc_ckt) (labname (XX true n)) -> kcl v dv il (flatten anon cells gmc_ckt) (labname (XX false n)) ->
  DV (XX true n) - DV (XX false n) = rhs n.
Proof.
  intros HC Hg Hn. unfold kcl. rewrite gmc_flat, !total_cons, !total_flat_map. cbn [inflow emit dc_comp c_kind c_id].
  fold (I true n). fold (I false n). intros H1 H2.
  assert (D : fold_right Rplus 0 (map (fun m => total (I true n) (row_flat m)) (seq 0 N)) - fold_right Rplus 0 (map (fun m => total (I false n) (row_flat m)) (seq 0 N))
    = rsum N (fun m => if Nat.eqb m n then 2 * C * (rhs n - (DV (XX true n) - DV (XX false n))) else 0)).
  { unfold rsum. clear H1 H2. induction (seq 0 N) as [|m l IH]; [cbn; lra|]. cbn [map fold_right]. rewrite <- IH, <- (row_diff n m Hg). lra. }
  rewrite (rsum_single N n (fun _ => 2 * C * (rhs n - (DV (XX true n) - DV (XX false n))))) in D by exact Hn.
  assert (E : 2 * C * (rhs n - (DV (XX true n) - DV (XX false n))) = 0) by lra.
  apply Rmult_integral in E. destruct E as [E|E]; lra.
Qed.
End Gm.

Theorem gmc_ok (S : asys Rring) C gain G : aG S = Some G -> (gain = None \/ max_abs (sN S) (sL S) (ent (aB S)) * C <> 0) ->
  gmc_frontend S C gain = Ok (gmc_ckt (sN S) (sL S) (sM S) C, cells (sN S) (sL S) (sM S) (ent (aA S)) (ent (aB S)) (ent G) C gain).
Proof.
  intros EG H. unfold gmc_frontend. rewrite EG.
  assert (E : forall l, all_ok (map (gm_cell (sN S) (sL S) (sM S) (ent (aA S)) (ent (aB S)) (Some (ent G)) C gain) l) =
     Ok (map (cell (sN S) (sL S) (sM S) (ent (aA S)) (ent (aB S)) (ent G) C gain) l)).
  { induction l as [|n l IH]; [reflexivity|]. cbn [map all_ok]. rewrite cell_ok by exact H. cbn [bind]. rewrite IH. reflexivity. }
  rewrite E. reflexivity.
Qed.
