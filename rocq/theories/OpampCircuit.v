(** The op-amp front end: Kirchhoff's current law at the virtual grounds of the generated netlist gives the state equation. *)
From Coq Require Import String List Bool Arith Reals Lia Lra.
From Flocq Require Import Core.
From Verif Require Import Base LinAlg FirExtras Netlist NetlistProofs AnalogSystem IntegratorsProofs Circuits CircuitLaws CircuitProofs.
Import ListNotations.
Open Scope R_scope.

Section Op.
Variable anon : cid -> lab -> string.
Variables (N L M : nat) (A B G : nat -> nat -> R) (C : R).
Definition entry (k : mat) : nat -> nat -> R := match k with MA => A | MB => B | MG => G end.
Definition width (k : mat) : nat := match k with MA => N | MB => L | MG => M end.
Let ps := net_pairs N L M A B G.

Lemma mat_pairs_in k J m x : In x (mat_pairs k N J m) -> rp_k x = k /\ (rp_n x < N)%nat /\ (rp_j x < J)%nat /\ rp_val x = m (rp_n x) (rp_j x) /\ rp_val x <> 0.
Proof.
  intro H. apply in_flat_map in H. destruct H as (n & Hn & H). apply in_flat_map in H. destruct H as (j & Hj & H).
  apply in_seq in Hn, Hj. destruct (Req_bool_spec (m n j) 0); [destruct H|]. destruct H as [<-|[]]. cbn. repeat split; auto; lia.
Qed.
Lemma pairs_in x : In x ps -> (rp_n x < N)%nat /\ (rp_j x < width (rp_k x))%nat /\ rp_val x = entry (rp_k x) (rp_n x) (rp_j x) /\ rp_val x <> 0.
Proof.
  intro H. unfold ps, net_pairs in H. apply in_app_or in H. destruct H as [H|H]; [|apply in_app_or in H; destruct H as [H|H]];
    apply mat_pairs_in in H; destruct H as (E & H1 & H2 & H3 & H4); rewrite E; auto.
Qed.

Definition op_att (c : cid) (m : lab) : lab :=
  match c with
  | CDC => match m with SS p i => OUT p i | _ => m end
  | CRes p k i j => match m with P0 => src k p j | _ => VGND (if Rlt_bool (entry k i j) 0 then p else negb p) i end
  | CCap p i => match m with P0 => VGND p i | _ => XX p i end
  | COp i => match m with OUTP => XX true i | OUTN => XX false i | INP => VGND true i | INN => VGND false i | _ => m end
  | _ => m
  end.
Definition op_ckt : ckt := mkCkt "opamp_analog_frontend" (fe_terms L M)
            (dc_comp N L M :: flat_map (pair_comps C) ps ++ map op_comp (seq 0 N)
             ++ map (fun n => mkComp (CCap true n) (KC C)) (seq 0 N) ++ map (fun n => mkComp (CCap false n) (KC C)) (seq 0 N))
            (dc_calls N L M ++ flat_map pair_calls ps ++ flat_map op_calls (seq 0 N) ++ flat_map cap_calls (seq 0 N)).

Lemma src_real k p j : real_lab (src k p j).
Proof. destruct k; split; discriminate. Qed.
Ltac one := injection 1 as <- <-; eexists; eexists; eexists; split; [reflexivity|split; [reflexivity|split; [|first [apply src_real|split; discriminate]]]].
Ltac each H := repeat (destruct H as [H|H]; [revert H; one; try reflexivity|]); try destruct H.
Lemma op_att_ok : att_ok op_ckt op_att.
Proof.
  intros a b H. cbn [k_calls op_ckt] in H. apply in_app_or in H. destruct H as [H|H]; [|apply in_app_or in H; destruct H as [H|H]; [|apply in_app_or in H; destruct H as [H|H]]].
  - unfold dc_calls in H. apply in_app_or in H. destruct H as [H|H]; [each H|].
    apply in_app_or in H. destruct H as [H|H]; [|apply in_app_or in H; destruct H as [H|H]]; apply in_flat_map in H; destruct H as (n & _ & H); each H.
  - apply in_flat_map in H. destruct H as (x & Hx & H). apply pairs_in in Hx. destruct Hx as (_ & _ & Ev & _). unfold pair_calls in H.
    destruct (Rlt_bool (rp_val x) 0) eqn:E; rewrite Ev in E; each H; cbn; rewrite E; reflexivity.
  - apply in_flat_map in H. destruct H as (n & _ & H). each H.
  - apply in_flat_map in H. destruct H as (n & _ & H). each H.
Qed.

Definition pair_lines (x : rpair) : list line :=
  let neg := Rlt_bool (rp_val x) 0 in
  let r := 1 / (1 * C * Rabs (rp_val x)) in
  [LR (cname (CRes true (rp_k x) (rp_n x) (rp_j x))) (labname (src (rp_k x) true (rp_j x))) (labname (VGND neg (rp_n x))) r;
   LR (cname (CRes false (rp_k x) (rp_n x) (rp_j x))) (labname (src (rp_k x) false (rp_j x))) (labname (VGND (negb neg) (rp_n x))) r].
Definition op_line (n : nat) : line :=
  LX (cname (COp n)) [labname VDD; labname VSS; labname VCM; labname (VGND true n); labname (VGND false n); labname (XX true n); labname (XX false n)] "opamp".
Definition cap_line (p : bool) (n : nat) : line := LC (cname (CCap p n)) (labname (VGND p n)) (labname (XX p n)) C.

Lemma in_calls1 x c : In x ps -> In c (pair_calls x) -> In c (k_calls op_ckt).
Proof. intros Hx Hc. cbn [k_calls op_ckt]. apply in_or_app. right. apply in_or_app. left. apply in_flat_map. eauto. Qed.
Lemma in_calls2 n c : (n < N)%nat -> In c (op_calls n) -> In c (k_calls op_ckt).
Proof. intros Hx Hc. cbn [k_calls op_ckt]. apply in_or_app. right. apply in_or_app. right. apply in_or_app. left. apply in_flat_map. exists n. split; [apply in_seq; lia|exact Hc]. Qed.
Lemma in_calls3 n c : (n < N)%nat -> In c (cap_calls n) -> In c (k_calls op_ckt).
Proof. intros Hx Hc. cbn [k_calls op_ckt]. apply in_or_app. right. apply in_or_app. right. apply in_or_app. right. apply in_flat_map. exists n. split; [apply in_seq; lia|exact Hc]. Qed.

Ltac inn := cbn; repeat (first [left; reflexivity|right]).
Theorem op_lines : lines anon op_ckt =
  emit anon op_ckt (dc_comp N L M) :: flat_map pair_lines ps ++ map op_line (seq 0 N) ++ map (cap_line true) (seq 0 N) ++ map (cap_line false) (seq 0 N).
Proof.
  unfold lines. change (k_comps op_ckt) with (dc_comp N L M :: flat_map (pair_comps C) ps ++ map op_comp (seq 0 N)
             ++ map (fun n => mkComp (CCap true n) (KC C)) (seq 0 N) ++ map (fun n => mkComp (CCap false n) (KC C)) (seq 0 N)).
  rewrite map_cons, !map_app, !map_map. f_equal. f_equal; [|f_equal; [|f_equal]].
  - rewrite flat_map_concat_map, concat_map, map_map, <- flat_map_concat_map. rewrite !flat_map_concat_map. f_equal. apply map_ext_in. intros x Hx.
    pose proof (in_calls1 x) as Hc. unfold pair_comps, pair_lines, pair_calls in *. cbn [map emit c_kind c_id].
    destruct (Rlt_bool (rp_val x) 0); cbn [negb];
    repeat f_equal; symmetry; symmetry; apply (node_pin anon op_ckt op_att op_att_ok); apply Hc; auto; inn.
  - apply map_ext_in. intros n Hn. apply in_seq in Hn. unfold op_comp, op_line. cbn [emit c_kind c_id map op_pins].
    repeat f_equal; apply (node_pin anon op_ckt op_att op_att_ok); apply (in_calls2 n); try lia; inn.
  - apply map_ext_in. intros n Hn. apply in_seq in Hn. unfold cap_line. cbn [emit c_kind c_id].
    f_equal; apply (node_pin anon op_ckt op_att op_att_ok); apply (in_calls3 n); try lia; inn.
  - apply map_ext_in. intros n Hn. apply in_seq in Hn. unfold cap_line. cbn [emit c_kind c_id].
    f_equal; apply (node_pin anon op_ckt op_att op_att_ok); apply (in_calls3 n); try lia; inn.
Qed.

(** ** Currents *)
Variables (v dv il : string -> R).
Let V l := v (labname l).
Let DV l := dv (labname l).
Definition drive (x : rpair) : R := V (src (rp_k x) true (rp_j x)) - V (src (rp_k x) false (rp_j x)).
Definition vg (n : nat) : R := V (VGND true n) - V (VGND false n).

Lemma at_lab a b i : real_lab a -> real_lab b -> at_node (labname a) (labname b) i = if lab_dec a b then i else 0.
Proof. intros Ha Hb. unfold at_node. rewrite eqb_lab by assumption. now destruct (lab_dec a b). Qed.
Lemma at_src k p n q j i : at_node (labname (VGND p n)) (labname (src k q j)) i = 0.
Proof. rewrite at_lab; [|split; discriminate|apply src_real]. destruct (lab_dec _ _) as [E|]; [destruct k; discriminate|reflexivity]. Qed.
Lemma at_vg p n q j i : at_node (labname (VGND p n)) (labname (VGND q j)) i = if Bool.eqb p q && Nat.eqb j n then i else 0.
Proof.
  rewrite at_lab by (split; discriminate). destruct (lab_dec _ _) as [E|E].
  - injection E as -> ->. now rewrite Bool.eqb_reflx, Nat.eqb_refl.
  - destruct (Bool.eqb p q) eqn:E1, (Nat.eqb_spec j n); try reflexivity. apply Bool.eqb_prop in E1. subst. contradiction.
Qed.

Lemma pair_diff n x : C > 0 -> In x ps ->
  total (inflow v dv il (labname (VGND true n))) (pair_lines x) - total (inflow v dv il (labname (VGND false n))) (pair_lines x)
  = if Nat.eqb (rp_n x) n then - C * (rp_val x * drive x + Rabs (rp_val x) * vg n) else 0.
Proof.
  intros HC Hx. apply pairs_in in Hx. destruct Hx as (_ & _ & _ & Hv).
  unfold total, pair_lines. cbn [map fold_right inflow]. rewrite !at_src, !at_vg.
  assert (Hr : forall y, y / (1 / (1 * C * Rabs (rp_val x))) = y * (C * Rabs (rp_val x))).
  { intro y. field. split; [apply Rabs_no_R0; exact Hv|lra]. }
  rewrite !Hr. unfold drive, vg, V.
  destruct (Nat.eqb_spec (rp_n x) n) as [->|Hn]; [|rewrite !andb_false_r; lra]. rewrite !andb_true_r.
  destruct (Rlt_bool_spec (rp_val x) 0) as [Hs|Hs]; cbn [negb Bool.eqb].
  - rewrite Rabs_left by lra. lra.
  - rewrite Rabs_right by lra. lra.
Qed.

Lemma pairs_sum k n J m (u : nat -> R) : (forall x, In x (mat_pairs k N J m) -> True) -> (n < N)%nat ->
  fold_right Rplus 0 (map (fun x => if Nat.eqb (rp_n x) n then - C * (rp_val x * u (rp_j x) + Rabs (rp_val x) * vg n) else 0) (mat_pairs k N J m))
  = - C * (rsum J (fun j => m n j * u j) + rsum J (fun j => Rabs (m n j)) * vg n).
Proof.
  intros _ Hn. unfold mat_pairs. rewrite sum_flat_map.
  rewrite (sum_ext _ (fun i => if Nat.eqb i n then - C * (rsum J (fun j => m n j * u j) + rsum J (fun j => Rabs (m n j)) * vg n) else 0)).
  - apply (rsum_single N n (fun _ => - C * (rsum J (fun j => m n j * u j) + rsum J (fun j => Rabs (m n j)) * vg n))). exact Hn.
  - intros i _. rewrite sum_flat_map. destruct (Nat.eqb_spec i n) as [->|Hi].
    + rewrite (sum_ext _ (fun j => - C * (m n j * u j + Rabs (m n j) * vg n))).
      * change (rsum J (fun j => - C * (m n j * u j + Rabs (m n j) * vg n)) = - C * (rsum J (fun j => m n j * u j) + rsum J (fun j => Rabs (m n j)) * vg n)).
        clear. induction J as [|J IH]; [rewrite !rsum_0; lra|]. rewrite !rsum_S, IH. lra.
      * intros j _. destruct (Req_bool_spec (m n j) 0) as [E|E]; cbn.
        -- rewrite E, Rabs_R0. lra.
        -- rewrite Nat.eqb_refl. lra.
    + rewrite (sum_ext _ (fun _ => 0)); [clear; unfold rsum; induction (seq 0 J); cbn; lra|]. intros j _.
      destruct (Req_bool_spec (m i j) 0); cbn; [reflexivity|]. destruct (Nat.eqb_spec i n); [contradiction|lra].
Qed.

Definition cap_total (p q : bool) (n : nat) : R := total (inflow v dv il (labname (VGND p n))) (map (cap_line q) (seq 0 N)).
Lemma cap_sum p q n : (n < N)%nat -> cap_total p q n = if Bool.eqb p q then C * (DV (XX q n) - DV (VGND q n)) else 0.
Proof.
  intro Hn. unfold cap_total. rewrite total_map.
  rewrite (sum_ext _ (fun i => if Nat.eqb i n then (if Bool.eqb p q then C * (DV (XX q i) - DV (VGND q i)) else 0) else 0)).
  - apply (rsum_single N n (fun i => if Bool.eqb p q then C * (DV (XX q i) - DV (VGND q i)) else 0)). exact Hn.
  - intros i _. unfold cap_line. cbn [inflow]. rewrite at_vg. rewrite at_lab by (split; discriminate).
    destruct (lab_dec _ _) as [E|_]; [discriminate|]. unfold DV. destruct (Nat.eqb_spec i n) as [->|]; [|rewrite andb_false_r; lra].
    rewrite andb_true_r. destruct (Bool.eqb p q); lra.
Qed.

Definition rowabs (n : nat) : R := rsum L (fun j => Rabs (B n j)) + rsum N (fun j => Rabs (A n j)) + rsum M (fun j => Rabs (G n j)).

Theorem op_kcl n : C > 0 -> (n < N)%nat -> kcl v dv il (lines anon op_ckt) (labname (VGND true n)) -> kcl v dv il (lines anon op_ckt) (labname (VGND false n)) ->
  DV (XX true n) - DV (XX false n) =
    rsum N (fun j => A n j * (V (XX true j) - V (XX false j))) + rsum L (fun l => B n l * (V (IN true l) - V (IN false l)))
    + rsum M (fun m => G n m * (V (OUT true m) - V (OUT false m)))
    + (DV (VGND true n) - DV (VGND false n)) + rowabs n * vg n.
Proof.
  intros HC Hn. unfold kcl. rewrite op_lines.
  assert (E : forall p, total (inflow v dv il (labname (VGND p n)))
     (emit anon op_ckt (dc_comp N L M) :: flat_map pair_lines ps ++ map op_line (seq 0 N) ++ map (cap_line true) (seq 0 N) ++ map (cap_line false) (seq 0 N))
     = fold_right Rplus 0 (map (fun x => total (inflow v dv il (labname (VGND p n))) (pair_lines x)) ps) + cap_total p true n + cap_total p false n).
  { intro p. change (total ?f (?a :: ?l)) with (f a + total f l). cbn [emit dc_comp c_kind inflow].
    rewrite !total_app, total_flat_map. fold (cap_total p true n). fold (cap_total p false n). rewrite (total_map _ op_line).
    rewrite (sum_ext (fun i => inflow v dv il (labname (VGND p n)) (op_line i)) (fun _ => 0)) by reflexivity.
    assert (Z : fold_right Rplus 0 (map (fun _ : nat => 0) (seq 0 N)) = 0) by (induction (seq 0 N); cbn; lra).
    rewrite Z. lra. }
  rewrite !E, !cap_sum by assumption. cbn [Bool.eqb]. intros H1 H2.
  set (TP := fold_right Rplus 0 (map (fun x => total (inflow v dv il (labname (VGND true n))) (pair_lines x)) ps)) in *.
  set (TN := fold_right Rplus 0 (map (fun x => total (inflow v dv il (labname (VGND false n))) (pair_lines x)) ps)) in *.
  assert (D : TP - TN = fold_right Rplus 0 (map (fun x => if Nat.eqb (rp_n x) n then - C * (rp_val x * drive x + Rabs (rp_val x) * vg n) else 0) ps)).
  { unfold TP, TN. clear H1 H2 TP TN E. assert (Hs : forall x, In x ps -> In x ps) by auto. revert Hs. generalize ps at 1 3 4 5 as l. induction l as [|x l IH]; intro Hs; [cbn; lra|].
    cbn [map fold_right]. rewrite <- IH by (intros y Hy; apply Hs; now right). rewrite <- (pair_diff n x HC) by (apply Hs; now left). lra. }
  assert (Dd : forall k J m, (forall x, In x (mat_pairs k N J m) -> rp_k x = k) ->
    fold_right Rplus 0 (map (fun x => if Nat.eqb (rp_n x) n then - C * (rp_val x * drive x + Rabs (rp_val x) * vg n) else 0) (mat_pairs k N J m))
    = - C * (rsum J (fun j => m n j * (V (src k true j) - V (src k false j))) + rsum J (fun j => Rabs (m n j)) * vg n)).
  { intros k J m Hk. rewrite <- (pairs_sum k n J m (fun j => V (src k true j) - V (src k false j))) by auto. apply sum_ext. intros x Hx. unfold drive. now rewrite (Hk x Hx). }
  unfold ps, net_pairs in D. rewrite !map_app, !fold_app_R in D.
  rewrite !Dd in D by (intros x Hx; apply mat_pairs_in in Hx; tauto). unfold src in D. unfold rowabs.
  set (a := rsum N (fun j => A n j * _)) in *. set (b := rsum L (fun j => B n j * _)) in *. set (g := rsum M (fun j => G n j * _)) in *.
  set (a' := rsum N _) in *. set (b' := rsum L _) in *. set (g' := rsum M _) in *.
  set (DX := DV (XX true n)) in *. set (DX' := DV (XX false n)) in *. set (W := DV (VGND true n)) in *. set (W' := DV (VGND false n)) in *.
  apply (Rmult_eq_reg_l C); [|lra]. nra.
Qed.
End Op.
