(** The op-amp sub-circuit, and the op-amp front end with it expanded: finite gain and bandwidth. *)
From Coq Require Import String List Bool Arith Reals Lia Lra.
From Flocq Require Import Core.
From Verif Require Import Base LinAlg FirExtras Netlist NetlistProofs AnalogSystem IntegratorsProofs Circuits CircuitLaws CircuitProofs OpampCircuit.
Import ListNotations.
Open Scope R_scope.

Definition cell_att (c : cid) (m : lab) : lab :=
  match c, m with
  | CGota, OUTP => HX | CGota, OUTN => VCM
  | CBuf true, OUTP => OUTP | CBuf true, OUTN => VCM | CBuf true, INP => HX | CBuf true, INN => VCM
  | CBuf false, OUTP => OUTN | CBuf false, OUTN => VCM | CBuf false, INP => VCM | CBuf false, INN => HX
  | _, P0 => HX | _, P1 => VCM
  | _, _ => m
  end.
Lemma cell_att_ok gb dc c : att_ok (opamp gb dc c) cell_att.
Proof.
  intros a b H. cbn [k_calls opamp] in H.
  repeat (destruct H as [H|H]; [revert H; injection 1 as <- <-; eexists; eexists; eexists; split; [reflexivity|split; [reflexivity|split; [reflexivity|split; discriminate]]]|]).
  destruct H.
Qed.
Ltac inn := cbn; repeat (first [left; reflexivity|right]).

Section Cell.
Variable anon : cid -> lab -> string.
Variables gb dc c : R.
Let gm := 2 * PI * gb * c.
Lemma cell_lines : lines anon (opamp gb dc c) =
  [LG "Gota" "X" "VCM" "IN_P" "IN_N" gm; LE "Ebuf_p" "OUT_P" "VCM" "X" "VCM" 1; LE "Ebuf_n" "OUT_N" "VCM" "VCM" "X" 1; LR "Rx" "X" "VCM" (dc / gm); LC "Cx" "X" "VCM" c].
Proof.
  unfold lines. cbn [k_comps opamp map emit c_kind c_id cname pn append].
  pose proof (node_pin anon _ _ (cell_att_ok gb dc c)) as Np.
  rewrite (Np HX CGota OUTP) by inn. rewrite (Np VCM CGota OUTN) by inn. rewrite (Np INP CGota INP) by inn. rewrite (Np INN CGota INN) by inn.
  rewrite (Np OUTP (CBuf true) OUTP) by inn. rewrite (Np VCM (CBuf true) OUTN) by inn. rewrite (Np HX (CBuf true) INP) by inn. rewrite (Np VCM (CBuf true) INN) by inn.
  rewrite (Np OUTN (CBuf false) OUTP) by inn. rewrite (Np VCM (CBuf false) OUTN) by inn. rewrite (Np VCM (CBuf false) INP) by inn. rewrite (Np HX (CBuf false) INN) by inn.
  rewrite (Np HX CRx P0) by inn. rewrite (Np VCM CRx P1) by inn. rewrite (Np HX CCx P0) by inn. rewrite (Np VCM CCx P1) by inn. reflexivity.
Qed.
Lemma cell_formals : formals anon (opamp gb dc c) = ["VDD"; "VSS"; "VCM"; "IN_P"; "IN_N"; "OUT_P"; "OUT_N"]%string.
Proof. unfold formals. cbn [k_terms opamp op_pins map]. rewrite !(node_own anon _ _ (cell_att_ok gb dc c)). reflexivity. Qed.

Lemma cell_law (vx vcm ip im op on dvx dvcm dop don : R) : c > 0 -> gb > 0 -> dc <> 0 ->
  - (gm * (ip - im)) + (vcm - vx) / (dc / gm) + c * (dvcm - dvx) = 0 -> op - vcm = 1 * (vx - vcm) -> on - vcm = 1 * (vcm - vx) ->
  dop - dvcm = 1 * (dvx - dvcm) -> don - dvcm = 1 * (dvcm - dvx) ->
  op - on = 2 * (vx - vcm) /\ dop - don = - (2 * PI * gb) * (2 * (ip - im) + (op - on) / dc).
Proof.
  intros Hc Hg Hd H E1 E2 E3 E4. split; [lra|].
  assert (Hgm : gm > 0) by (unfold gm; pose proof PI_RGT_0; assert (0 < 2 * PI) by lra; apply Rmult_lt_0_compat; [apply Rmult_lt_0_compat|]; lra).
  assert (Hy : op - on = 2 * (vx - vcm)) by lra. rewrite Hy.
  assert (E : dop - don = 2 * (dvx - dvcm)) by lra. rewrite E.
  assert (F : c * (dvx - dvcm) = - (gm * (ip - im)) - (vx - vcm) / dc * gm).
  { assert ((vcm - vx) / (dc / gm) = - ((vx - vcm) / dc * gm)) by (field; split; [exact Hd|lra]). lra. }
  apply (Rmult_eq_reg_l c); [|lra]. replace (c * (2 * (dvx - dvcm))) with (2 * (c * (dvx - dvcm))) by ring. rewrite F. unfold gm. field. exact Hd.
Qed.
End Cell.

(** ** The front end with the op-amps expanded *)
Section Flat.
Variable anon : cid -> lab -> string.
Variables (N L M : nat) (A B G : nat -> nat -> R) (C gb dc c : R).
Let gm := 2 * PI * gb * c.
Definition inner (n : nat) : string := ("Xop_" ++ dec n ++ ".X")%string.
Definition op_flat (n : nat) : list line :=
  let i s := ("Xop_" ++ dec n ++ "." ++ s)%string in
  [LG (i "Gota"%string) (inner n) "VCM" (labname (VGND true n)) (labname (VGND false n)) gm;
   LE (i "Ebuf_p"%string) (labname (XX true n)) "VCM" (inner n) "VCM" 1; LE (i "Ebuf_n"%string) (labname (XX false n)) "VCM" "VCM" (inner n) 1;
   LR (i "Rx"%string) (inner n) "VCM" (dc / gm); LC (i "Cx"%string) (inner n) "VCM" c].
Lemma append_assoc' (a b d : string) : ((a ++ b) ++ d)%string = (a ++ b ++ d)%string.
Proof. induction a; cbn; congruence. Qed.
Lemma op_flat_ok n : expand anon [opamp gb dc c] (op_line n) = op_flat n.
Proof.
  unfold expand, op_line. cbn [find k_name opamp String.eqb Ascii.eqb Bool.eqb].
  change (k_name (opamp gb dc c)) with "opamp"%string.
  rewrite cell_lines, cell_formals. cbn [map rename_line]. unfold op_flat, inner.
  unfold rename. cbn [combine assoc String.eqb Ascii.eqb Bool.eqb]. cbn [cname labname]. 
  rewrite !append_assoc'. reflexivity.
Qed.
Let k := op_ckt N L M A B G C.
Let ls := lines anon k.
Let fl := flatten anon [opamp gb dc c] k.
Let ps := net_pairs N L M A B G.
Lemma fl_eq : fl = emit anon k (dc_comp N L M) :: flat_map (pair_lines C) ps ++ flat_map op_flat (seq 0 N) ++ map (cap_line C true) (seq 0 N) ++ map (cap_line C false) (seq 0 N).
Proof.
  unfold fl, flatten. unfold k at 1. rewrite op_lines. cbn [flat_map].
  change (expand anon [opamp gb dc c] (emit anon (op_ckt N L M A B G C) (dc_comp N L M))) with [emit anon k (dc_comp N L M)]. cbn [app]. f_equal.
  rewrite !flat_map_app. fold ps. f_equal; [|f_equal; [|f_equal]].
  - induction ps as [|x l IH]; [reflexivity|]. cbn [flat_map]. rewrite flat_map_app, IH. reflexivity.
  - induction (seq 0 N) as [|n l IH]; [reflexivity|]. cbn [map flat_map]. now rewrite op_flat_ok, IH.
  - induction (seq 0 N) as [|n l IH]; [reflexivity|]. cbn [map flat_map]. now rewrite IH.
  - induction (seq 0 N) as [|n l IH]; [reflexivity|]. cbn [map flat_map]. now rewrite IH.
Qed.
Variables (v dv il : string -> R).
Lemma total_cons f x l : total f (x :: l) = f x + total f l.
Proof. reflexivity. Qed.
Lemma flat_kcl p n : kcl v dv il fl (labname (VGND p n)) -> kcl v dv il ls (labname (VGND p n)).
Proof.
  unfold kcl. rewrite fl_eq. unfold ls, k. rewrite op_lines. fold ps. fold k. rewrite !total_cons, !total_app. intro H. rewrite <- H. f_equal. f_equal. f_equal.
  rewrite total_map, total_flat_map. apply sum_ext. intros i _. unfold op_line, op_flat, total. cbn [map fold_right inflow labname append inner].
  unfold at_node. cbn [String.eqb Ascii.eqb Bool.eqb append]. lra.
Qed.
Lemma at_inner_lab n l i : real_lab l -> at_node (inner n) (labname l) i = 0.
Proof.
  intro Hl. unfold at_node. destruct (String.eqb_spec (inner n) (labname l)) as [E|]; [|reflexivity]. exfalso.
  destruct l; unfold inner in E; cbn in E; try discriminate E. injection E as E. symmetry in E. revert E. apply not_indexed. cbn. lia.
Qed.
Lemma at_inner n m i : at_node (inner n) (inner m) i = if Nat.eqb m n then i else 0.
Proof.
  unfold at_node. destruct (Nat.eqb_spec m n) as [->|Hn]; [now rewrite String.eqb_refl|].
  destruct (String.eqb_spec (inner n) (inner m)) as [E|]; [|reflexivity]. exfalso. unfold inner in E. cbn [append] in E. injection E as E.
  apply dec_split in E; [|cbn; lia|cbn; lia]. destruct E; congruence.
Qed.
Lemma kcl_inner n : (n < N)%nat -> kcl v dv il fl (inner n) ->
  - (gm * (v (labname (VGND true n)) - v (labname (VGND false n)))) + (v "VCM"%string - v (inner n)) / (dc / gm) + c * (dv "VCM"%string - dv (inner n)) = 0.
Proof.
  intros Hn. unfold kcl. rewrite fl_eq, total_cons, !total_app, !total_flat_map, !total_map.
  change (inflow v dv il (inner n) (emit anon k (dc_comp N L M))) with 0.
  assert (Z : forall X (f : X -> R) l, (forall x, f x = 0) -> fold_right Rplus 0 (map f l) = 0).
  { intros X f l H. induction l as [|x l IH]; [reflexivity|]. cbn. rewrite H, IH. lra. }
  assert (Rl : forall p i, real_lab (VGND p i) /\ real_lab (XX p i)) by (intros; repeat split; discriminate).
  rewrite (Z rpair), (Z nat (fun i => inflow v dv il (inner n) (cap_line C true i))), (Z nat (fun i => inflow v dv il (inner n) (cap_line C false i))).
  - rewrite (sum_ext _ (fun m => if Nat.eqb m n then - (gm * (v (labname (VGND true m)) - v (labname (VGND false m)))) + (v "VCM"%string - v (inner m)) / (dc / gm) + c * (dv "VCM"%string - dv (inner m)) else 0)).
    + intro H. rewrite <- H.
      replace (fold_right Rplus 0 _) with (rsum N (fun m => if Nat.eqb m n then - (gm * (v (labname (VGND true m)) - v (labname (VGND false m)))) + (v "VCM"%string - v (inner m)) / (dc / gm) + c * (dv "VCM"%string - dv (inner m)) else 0)) by reflexivity.
      rewrite (rsum_single N n (fun m => - (gm * (v (labname (VGND true m)) - v (labname (VGND false m)))) + (v "VCM"%string - v (inner m)) / (dc / gm) + c * (dv "VCM"%string - dv (inner m)))) by exact Hn. lra.
    + intros m _. unfold total, op_flat. cbn [map fold_right inflow]. rewrite !at_inner. change "VCM"%string with (labname VCM). rewrite !at_inner_lab by (split; discriminate).
      destruct (Nat.eqb m n); lra.
  - intro i. unfold cap_line. cbn [inflow]. rewrite !at_inner_lab by apply Rl. lra.
  - intro i. unfold cap_line. cbn [inflow]. rewrite !at_inner_lab by apply Rl. lra.
  - intro x. unfold total, pair_lines. cbn [map fold_right inflow]. rewrite !at_inner_lab by (first [apply src_real|apply Rl]). lra.
Qed.
Lemma in_flat n l : (n < N)%nat -> In l (op_flat n) -> In l fl.
Proof.
  intros Hn Hl. rewrite fl_eq. right. apply in_or_app. right. apply in_or_app. left. apply in_flat_map. exists n. split; [apply in_seq; lia|exact Hl].
Qed.
Theorem op_finite n : C > 0 -> gb > 0 -> dc <> 0 -> c > 0 -> (n < N)%nat ->
  (forall p, kcl v dv il fl (labname (VGND p n))) -> kcl v dv il fl (inner n) -> (forall l, In l fl -> vcvs v l /\ vcvs dv l) ->
  let V l := v (labname l) in let DV l := dv (labname l) in
  let w := V (VGND true n) - V (VGND false n) in
  DV (XX true n) - DV (XX false n) =
    rsum N (fun j => A n j * (V (XX true j) - V (XX false j))) + rsum L (fun l => B n l * (V (IN true l) - V (IN false l)))
    + rsum M (fun m => G n m * (V (OUT true m) - V (OUT false m)))
    + (DV (VGND true n) - DV (VGND false n)) + rowabs N L M A B G n * w /\
  DV (XX true n) - DV (XX false n) = - (2 * PI * gb) * (2 * w + (V (XX true n) - V (XX false n)) / dc).
Proof.
  intros HC Hg Hd Hc Hn H1 H2 H3 V DV w. split.
  - apply (op_kcl anon N L M A B G C v dv il n HC Hn); apply flat_kcl; apply H1.
  - assert (In1 := in_flat n (LE ("Xop_" ++ dec n ++ "." ++ "Ebuf_p") (labname (XX true n)) "VCM" (inner n) "VCM" 1) Hn ltac:(inn)).
    assert (In2 := in_flat n (LE ("Xop_" ++ dec n ++ "." ++ "Ebuf_n") (labname (XX false n)) "VCM" "VCM" (inner n) 1) Hn ltac:(inn)).
    apply H3 in In1, In2. destruct In1 as [E1 E3], In2 as [E2 E4]. cbn [vcvs] in E1, E2, E3, E4.
    exact (proj2 (cell_law gb dc c _ _ _ _ _ _ _ _ _ _ Hc Hg Hd (kcl_inner n Hn H2) E1 E2 E3 E4)).
Qed.
End Flat.
