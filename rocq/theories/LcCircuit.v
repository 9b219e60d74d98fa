(** The LC ladder: its state equation, its energy, and Kirchhoff's laws on the generated netlist. *)
From Coq Require Import String List Bool Arith Reals Lia Lra.
From Flocq Require Import Core.
From Verif Require Import Base LinAlg FirExtras Netlist NetlistProofs AnalogSystem IntegratorsProofs Circuits CircuitLaws CircuitProofs OpampCircuit GmCircuit.
Import ListNotations.
Open Scope R_scope.

Lemma rsum_split a b f : rsum (a + b) f = rsum a f + rsum b (fun j => f (a + j)%nat).
Proof. induction b as [|b IH]; [rewrite Nat.add_0_r, rsum_0; lra|]. rewrite Nat.add_succ_r, !rsum_S, IH. lra. Qed.
Lemma rsum_pick n j (f : nat -> R) : rsum n (fun i => (if Nat.eqb j i then 1 else 0) * f i) = if Nat.ltb j n then f j else 0.
Proof.
  destruct (Nat.ltb_spec j n) as [H|H].
  - rewrite (rsum_ext n _ (fun i => if Nat.eqb i j then f i else 0)); [now apply rsum_single|]. intros i _. rewrite Nat.eqb_sym. destruct (Nat.eqb i j); lra.
  - apply rsum_zero. intros i Hi. destruct (Nat.eqb_spec j i); [lia|lra].
Qed.
Lemma rsum_scale n c f : rsum n (fun i => c * f i) = c * rsum n f.
Proof. induction n as [|n IH]; [rewrite !rsum_0; lra|]. rewrite !rsum_S, IH. lra. Qed.

Section Ladder.
Variables (M : nat) (L C Rin : R).
Hypothesis HM : (0 < M)%nat.
(** the state: capacitor voltages, then inductor currents *)
Definition apply_A (z : nat -> R) (i : nat) : R := rsum (2 * M - 1) (fun j => lc_A M L C Rin i j * z j).
Definition cur (z : nat -> R) (j : nat) : R := if Nat.ltb j (M - 1) then z (M + j)%nat else 0.
Lemma A_split z i : apply_A z i = rsum M (fun j => lc_A M L C Rin i j * z j) + rsum (M - 1) (fun j => lc_A M L C Rin i (M + j)%nat * z (M + j)%nat).
Proof. unfold apply_A. replace (2 * M - 1)%nat with (M + (M - 1))%nat by lia. apply (rsum_split M (M - 1) (fun j => lc_A M L C Rin i j * z j)). Qed.
Lemma A_cap z i : (i < M)%nat ->
  apply_A z i = (if Nat.eqb i 0 then - z O / (Rin * C) else 0) + ((match i with O => 0 | S i => cur z i end) - cur z i) / C.
Proof.
  intro Hi. rewrite A_split.
  assert (E1 : rsum M (fun j => lc_A M L C Rin i j * z j) = if Nat.eqb i 0 then - z O / (Rin * C) else 0).
  { rewrite (rsum_ext M _ (fun j => if Nat.eqb j 0 then (if Nat.eqb i 0 then - z j / (Rin * C) else 0) else 0)).
    - rewrite (rsum_single M 0 (fun j => if Nat.eqb i 0 then - z j / (Rin * C) else 0)) by exact HM. reflexivity.
    - intros j Hj. unfold lc_A. rewrite (proj2 (Nat.ltb_lt i M) Hi), (proj2 (Nat.ltb_lt j M) Hj).
      destruct (Nat.eqb i 0), (Nat.eqb j 0); cbn [andb]; lra. }
  assert (E2 : rsum (M - 1) (fun j => lc_A M L C Rin i (M + j)%nat * z (M + j)%nat) = ((match i with O => 0 | S i => cur z i end) - cur z i) / C).
  { rewrite (rsum_ext (M - 1) _ (fun j => / C * ((if Nat.eqb i (S j) then 1 else 0) * z (M + j)%nat + - ((if Nat.eqb i j then 1 else 0) * z (M + j)%nat)))).
    - rewrite rsum_scale, rsum_add. rewrite (rsum_ext _ (fun j => - ((if Nat.eqb i j then 1 else 0) * z (M + j)%nat)) (fun j => -1 * ((if Nat.eqb i j then 1 else 0) * z (M + j)%nat))) by (intros; lra).
      rewrite rsum_scale. rewrite (rsum_pick (M - 1) i (fun j => z (M + j)%nat)). fold (cur z i).
      assert (E3 : rsum (M - 1) (fun j => (if Nat.eqb i (S j) then 1 else 0) * z (M + j)%nat) = match i with O => 0 | S i => cur z i end).
      { destruct i as [|i]; [apply rsum_zero; intros; cbn; lra|]. exact (rsum_pick (M - 1) i (fun j => z (M + j)%nat)). }
      rewrite E3. unfold Rdiv. lra.
    - intros j Hj. unfold lc_A. rewrite (proj2 (Nat.ltb_lt i M) Hi). destruct (Nat.ltb_spec (M + j) M); [lia|].
      replace (M + j - M)%nat with j by lia. unfold Rdiv. destruct (Nat.eqb i j), (Nat.eqb i (S j)); lra. }
  rewrite E1, E2. reflexivity.
Qed.
Lemma A_ind z i : (i < M - 1)%nat -> apply_A z (M + i) = (z i - z (S i)) / (2 * L).
Proof.
  intro Hi. rewrite A_split.
  rewrite (rsum_zero (M - 1)).
  2:{ intros j Hj. unfold lc_A. destruct (Nat.ltb_spec (M + i) M); [lia|]. destruct (Nat.ltb_spec (M + j) M); [lia|]. lra. }
  rewrite (rsum_ext M _ (fun j => / (2 * L) * ((if Nat.eqb i j then 1 else 0) * z j + -1 * ((if Nat.eqb (S i) j then 1 else 0) * z j)))).
  - rewrite rsum_scale, rsum_add, rsum_scale, !rsum_pick. rewrite (proj2 (Nat.ltb_lt i M)), (proj2 (Nat.ltb_lt (S i) M)) by lia. unfold Rdiv. lra.
  - intros j Hj. unfold lc_A. destruct (Nat.ltb_spec (M + i) M); [lia|]. rewrite (proj2 (Nat.ltb_lt j M) Hj).
    replace (M + i - M)%nat with i by lia. unfold Rdiv. destruct (Nat.eqb i j), (Nat.eqb (S i) j); lra.
Qed.

(** the power into the stored energy C v^2/... : twice the rate of C sum v^2 / 2 + 2 L sum i^2 / 2 *)
Lemma telescope n (f g : nat -> R) : rsum (S n) (fun i => f i * ((match i with O => 0 | S i => g i end) - (if Nat.ltb i n then g i else 0))) = - rsum n (fun i => g i * (f i - f (S i))).
Proof.
  assert (T : forall m, rsum (S m) (fun i => f i * ((match i with O => 0 | S i => g i end) - g i)) = - rsum m (fun i => g i * (f i - f (S i))) - f m * g m).
  { induction m as [|m IH]; [rewrite rsum_S, !rsum_0; lra|]. rewrite rsum_S, IH, rsum_S. lra. }
  rewrite rsum_S, (rsum_ext n _ (fun i => f i * ((match i with O => 0 | S i => g i end) - g i))).
  - destruct n as [|n]; [rewrite !rsum_0; cbn; lra|]. rewrite T, (rsum_S n (fun i => g i * _)). destruct (Nat.ltb_spec (S n) (S n)); [lia|]. lra.
  - intros i Hi. now rewrite (proj2 (Nat.ltb_lt i n) Hi).
Qed.
Theorem passive z : L <> 0 -> C <> 0 -> Rin <> 0 ->
  rsum M (fun i => C * (2 * z i * apply_A z i)) + rsum (M - 1) (fun i => 2 * L * (2 * z (M + i)%nat * apply_A z (M + i)%nat)) = - 2 * (z O * z O) / Rin.
Proof.
  intros HL HC HR.
  rewrite (rsum_ext M _ (fun i => (if Nat.eqb i 0 then - 2 * (z i * z i) / Rin else 0) + 2 * (z i * ((match i with O => 0 | S i => cur z i end) - cur z i)))).
  2:{ intros i Hi. rewrite A_cap by exact Hi. destruct (Nat.eqb_spec i 0) as [->|]; field; auto. }
  rewrite (rsum_ext (M - 1) _ (fun i => 2 * (cur z i * (z i - z (S i))))).
  2:{ intros i Hi. rewrite A_ind by exact Hi. unfold cur. rewrite (proj2 (Nat.ltb_lt i (M - 1)) Hi). field. exact HL. }
  rewrite rsum_add, !rsum_scale, (rsum_single M 0 (fun i => - 2 * (z i * z i) / Rin)) by exact HM.
  replace (rsum M (fun i => z i * ((match i with O => 0 | S i => cur z i end) - cur z i))) with
    (rsum (S (M - 1)) (fun i => z i * ((match i with O => 0 | S i => cur z i end) - (if Nat.ltb i (M - 1) then cur z i else 0)))).
  - rewrite telescope. lra.
  - replace (S (M - 1)) with M by lia. apply rsum_ext. intros i _. unfold cur at 2 4. destruct (Nat.ltb i (M - 1)); lra.
Qed.
End Ladder.

(** ** The netlist *)
Section Lc.
Variable anon : cid -> lab -> string.
Variables (M : nat) (L C Rin : R) (G : nat -> R).
Let k := lc_frontend M L C Rin G.
Definition lc_att (c : cid) (m : lab) : lab :=
  match c with
  | CDC => up m
  | CGmLc p i => match m with
                 | OUTP => if p then VDD else XX false i | OUTN => if p then XX true i else VSS
                 | INP => OUT true i | INN => OUT false i | _ => m end
  | CTank i => match m with P0 => XX true i | _ => XX false i end
  | CRin p => match m with P0 => IN p 0 | _ => XX p 0 end
  | CInd p i => match m with P0 => XX p i | _ => XX p (S i) end
  | _ => m
  end.
Ltac one := injection 1 as <- <-; eexists; eexists; eexists; split; [reflexivity|split; [reflexivity|split; [|split; discriminate]]].
Ltac each H := repeat (destruct H as [H|H]; [revert H; one; try reflexivity|]); try destruct H.
Ltac inn := cbn; repeat (first [left; reflexivity|right]).
Lemma lc_att_ok : att_ok k lc_att.
Proof.
  intros a b H. cbn [k_calls lc_frontend k] in H. apply in_app_or in H. destruct H as [H|H].
  - unfold dc_calls in H. apply in_app_or in H. destruct H as [H|H]; [each H|].
    apply in_app_or in H. destruct H as [H|H]; [|apply in_app_or in H; destruct H as [H|H]]; apply in_flat_map in H; destruct H as (n & _ & H); each H.
  - apply in_flat_map in H. destruct H as (n & _ & H). unfold lc_calls in H. apply in_app_or in H. destruct H as [H|H]; [each H|].
    destruct n; each H.
Qed.
Definition ind_line (p : bool) (i : nat) : line := LL (cname (CInd p i)) (labname (XX p i)) (labname (XX p (S i))) L.
Definition tank_line (i : nat) : line := LC (cname (CTank i)) (labname (XX true i)) (labname (XX false i)) C.
Definition rin_line (p : bool) : line := LR (cname (CRin p)) (labname (IN p 0)) (labname (XX p 0)) Rin.
Definition gmp_line (m : nat) : line := LG (cname (CGmLc true m)) (labname VDD) (labname (XX true m)) (labname (OUT true m)) (labname (OUT false m)) (Rabs (G m * C / 2)).
Definition gmn_line (m : nat) : line := LG (cname (CGmLc false m)) (labname (XX false m)) (labname VSS) (labname (OUT true m)) (labname (OUT false m)) (Rabs (G m * C / 2)).
Lemma in_lc m c : (m < M)%nat -> In c (lc_calls m) -> In c (k_calls k).
Proof. intros Hm Hc. cbn [k_calls lc_frontend k]. apply in_or_app. right. apply in_flat_map. exists m. split; [apply in_seq; lia|exact Hc]. Qed.
Lemma lc_lines : (0 < M)%nat -> lines anon k = emit anon k (dc_comp M 1 M) ::
  map (ind_line true) (seq 0 (M - 1)) ++ map (ind_line false) (seq 0 (M - 1)) ++ map tank_line (seq 0 M) ++ [rin_line true; rin_line false] ++ map gmp_line (seq 0 M) ++ map gmn_line (seq 0 M).
Proof.
  intro HM. unfold lines. change (k_comps k) with (dc_comp M 1 M :: lc_comps M L C Rin G). cbn [map]. f_equal. unfold lc_comps. rewrite !map_app, !map_map.
  pose proof (fun l c m => node_pin anon k lc_att lc_att_ok l c m) as Np.
  f_equal; [|f_equal; [|f_equal; [|f_equal; [|f_equal]]]].
  1,2: apply map_ext_in; intros i Hi; apply in_seq in Hi; unfold ind_line; cbn [emit c_kind c_id]; f_equal; apply Np; apply (in_lc (S i)); try lia; unfold lc_calls; apply in_or_app; right; inn.
  2: { cbn [map emit c_kind c_id]. unfold rin_line. repeat f_equal; apply Np; apply (in_lc 0); try lia; unfold lc_calls; apply in_or_app; right; inn. }
  all: apply map_ext_in; intros i Hi; apply in_seq in Hi; unfold tank_line, gmp_line, gmn_line; cbn [emit c_kind c_id]; f_equal; apply Np; apply (in_lc i); try lia; unfold lc_calls; apply in_or_app; left; inn.
Qed.

Variables (v dv il di : string -> R).
Let V l := v (labname l).
Let DV l := dv (labname l).
Definition Il (p : bool) (i : nat) : R := il (cname (CInd p i)).
Lemma at_in p n q j i : at_node (labname (XX p n)) (labname (IN q j)) i = 0.
Proof. rewrite at_lab by (split; discriminate). destruct (lab_dec _ _); [discriminate|reflexivity]. Qed.
Lemma at_vdd p n i : at_node (labname (XX p n)) (labname VDD) i = 0.
Proof. rewrite at_lab by (split; discriminate). destruct (lab_dec _ _); [discriminate|reflexivity]. Qed.
Lemma at_vss p n i : at_node (labname (XX p n)) (labname VSS) i = 0.
Proof. rewrite at_lab by (split; discriminate). destruct (lab_dec _ _); [discriminate|reflexivity]. Qed.
Definition cut (f : nat -> R) (j : nat) : R := if Nat.ltb j (M - 1) then f j else 0.
Let I p n := inflow v dv il (labname (XX p n)).
Lemma ind_total p q n : (n < M)%nat -> total (I p n) (map (ind_line q) (seq 0 (M - 1))) =
  if Bool.eqb p q then (match n with O => 0 | S n => Il p n end) - cut (Il p) n else 0.
Proof.
  intro Hn. rewrite total_map. unfold I, ind_line. cbn [inflow].
  rewrite (sum_ext _ (fun i => (if Bool.eqb p q then (if Nat.eqb i n then - Il p i else 0) else 0) + (if Bool.eqb p q then (if Nat.eqb (S i) n then Il p i else 0) else 0))).
  - change (rsum (M - 1) (fun i => (if Bool.eqb p q then (if Nat.eqb i n then - Il p i else 0) else 0) + (if Bool.eqb p q then (if Nat.eqb (S i) n then Il p i else 0) else 0)) =
      if Bool.eqb p q then (match n with O => 0 | S n => Il p n end) - cut (Il p) n else 0).
    rewrite rsum_add. destruct (Bool.eqb p q); [|rewrite !rsum_zero by auto; lra].
    assert (E1 : rsum (M - 1) (fun i => if Nat.eqb i n then - Il p i else 0) = - cut (Il p) n).
    { unfold cut. destruct (Nat.ltb_spec n (M - 1)); [now rewrite (rsum_single (M - 1) n (fun i => - Il p i))|].
      rewrite rsum_zero; [lra|]. intros i Hi. destruct (Nat.eqb_spec i n); [lia|reflexivity]. }
    rewrite E1. destruct n as [|n]; [rewrite rsum_zero by auto; lra|]. cbn [Nat.eqb]. rewrite (rsum_single (M - 1) n (Il p)) by lia. lra.
  - intros i _. rewrite !at_xx. destruct (Bool.eqb p q) eqn:E; cbn [andb]; [|lra]. apply Bool.eqb_prop in E. subst q. unfold Il.
    destruct (Nat.eqb i n), (Nat.eqb (S i) n); lra.
Qed.
Lemma seq_total p n (f : nat -> line) (g : nat -> R) : (n < M)%nat -> (forall m, I p n (f m) = if Nat.eqb m n then g m else 0) -> total (I p n) (map f (seq 0 M)) = g n.
Proof. intros Hn H. rewrite total_map, (sum_ext _ (fun m => if Nat.eqb m n then g m else 0)) by (intros; apply H). exact (rsum_single M n g Hn). Qed.

Theorem lc_nodes n : (n < M)%nat -> forall p, kcl v dv il (lines anon k) (labname (XX p n)) ->
  let sg : R := if p then 1 else -1 in
  sg * C * (DV (XX true n) - DV (XX false n)) = (match n with O => 0 | S n => Il p n end) - cut (Il p) n + (if Nat.eqb n 0 then (V (IN p 0) - V (XX p 0)) / Rin else 0)
    + sg * Rabs (G n * C / 2) * (V (OUT true n) - V (OUT false n)).
Proof.
  intros Hn p. unfold kcl. rewrite lc_lines by lia. rewrite total_cons, !total_app. cbn [inflow emit dc_comp c_kind c_id]. fold (I p n).
  rewrite !ind_total by exact Hn.
  rewrite (seq_total p n tank_line (fun m => (if p then -1 else 1) * C * (DV (XX true m) - DV (XX false m))) Hn).
  2:{ intro m. unfold I, tank_line. cbn [inflow]. rewrite !at_xx. unfold DV. destruct p, (Nat.eqb_spec m n) as [->|]; cbn [Bool.eqb andb]; lra. }
  rewrite (seq_total p n gmp_line (fun m => (if p then Rabs (G m * C / 2) * (V (OUT true m) - V (OUT false m)) else 0)) Hn).
  2:{ intro m. unfold I, gmp_line. cbn [inflow]. rewrite at_xx, at_vdd. unfold V. destruct p, (Nat.eqb_spec m n) as [->|]; cbn [Bool.eqb andb]; lra. }
  rewrite (seq_total p n gmn_line (fun m => (if p then 0 else - (Rabs (G m * C / 2) * (V (OUT true m) - V (OUT false m))))) Hn).
  2:{ intro m. unfold I, gmn_line. cbn [inflow]. rewrite at_xx, at_vss. unfold V. destruct p, (Nat.eqb_spec m n) as [->|]; cbn [Bool.eqb andb]; lra. }
  assert (E : total (I p n) [rin_line true; rin_line false] = if Nat.eqb n 0 then (V (IN p 0) - V (XX p 0)) / Rin else 0).
  { unfold total, I, rin_line. cbn [map fold_right inflow]. rewrite !at_in, !at_xx, !(Nat.eqb_sym 0 n). unfold V.
    destruct p, (Nat.eqb_spec n 0) as [->|]; cbn [Bool.eqb andb]; lra. }
  rewrite E. cbv zeta. destruct p; cbn [Bool.eqb]; intro H; lra.
Qed.

Definition zstate (i : nat) : R := if Nat.ltb i M then V (XX true i) - V (XX false i) else (Il true (i - M) - Il false (i - M)) / 2.
Definition dzstate (i : nat) : R := if Nat.ltb i M then DV (XX true i) - DV (XX false i) else (di (cname (CInd true (i - M))) - di (cname (CInd false (i - M)))) / 2.
Theorem lc_kirchhoff i : (i < 2 * M - 1)%nat -> L <> 0 -> C > 0 -> Rin <> 0 ->
  (forall n p, (n < M)%nat -> kcl v dv il (lines anon k) (labname (XX p n))) -> (forall l, In l (lines anon k) -> inductor v di l) ->
  dzstate i = apply_A M L C (2 * Rin) zstate i + lc_B (2 * Rin) C i * (V (IN true 0) - V (IN false 0))
    + (if Nat.ltb i M then Rabs (G i) / 2 * (V (OUT true i) - V (OUT false i)) else 0).
Proof.
  intros Hi HL HC HR Hk Hl. assert (HM : (0 < M)%nat) by lia. destruct (Nat.ltb_spec i M) as [Hm|Hm].
  - rewrite A_cap by assumption. pose proof (lc_nodes i Hm true (Hk i true Hm)) as H1. pose proof (lc_nodes i Hm false (Hk i false Hm)) as H2. cbv zeta in H1, H2.
    unfold dzstate. rewrite (proj2 (Nat.ltb_lt i M) Hm).
    assert (Eg : Rabs (G i * C / 2) = Rabs (G i) / 2 * C).
    { unfold Rdiv. rewrite !Rabs_mult, (Rabs_right C), (Rabs_right (/ 2)) by lra. lra. }
    rewrite Eg in H1, H2.
    assert (Ec : forall j, cur M zstate j = (cut (Il true) j - cut (Il false) j) / 2).
    { intro j. unfold cur, cut, zstate. destruct (Nat.ltb_spec j (M - 1)); [|lra]. destruct (Nat.ltb_spec (M + j) M); [lia|]. now replace (M + j - M)%nat with j by lia. }
    assert (Ep : match i with O => 0 | S i => cur M zstate i end = ((match i with O => 0 | S n => Il true n end) - (match i with O => 0 | S n => Il false n end)) / 2).
    { destruct i as [|j]; [lra|]. rewrite Ec. unfold cut. destruct (Nat.ltb_spec j (M - 1)); [reflexivity|lia]. }
    rewrite Ep, Ec. unfold lc_B. apply (Rmult_eq_reg_l (2 * C)); [|lra].
    set (gt := match i with O => 0 | S n => Il true n end) in *. set (gf := match i with O => 0 | S n => Il false n end) in *.
    destruct (Nat.eqb_spec i 0) as [->|Hi0].
    + unfold zstate. rewrite (proj2 (Nat.ltb_lt 0 M) HM). apply (Rmult_eq_reg_l Rin); [|exact HR].
      match goal with |- Rin * ?x = Rin * ?y => assert (E : Rin * x = Rin * (C * (DV (XX true 0) - DV (XX false 0)) - -1 * C * (DV (XX true 0) - DV (XX false 0)))) by lra end.
      rewrite E. replace (C * (DV (XX true 0) - DV (XX false 0))) with (1 * C * (DV (XX true 0) - DV (XX false 0))) by lra. rewrite H1, H2. field. split; lra.
    + match goal with |- ?x = ?y => assert (E : x = C * (DV (XX true i) - DV (XX false i)) - -1 * C * (DV (XX true i) - DV (XX false i))) by lra end.
      rewrite E. replace (C * (DV (XX true i) - DV (XX false i))) with (1 * C * (DV (XX true i) - DV (XX false i))) by lra. rewrite H1, H2. field. lra.
  - replace i with (M + (i - M))%nat by lia. set (j := (i - M)%nat). assert (Hj : (j < M - 1)%nat) by lia. rewrite A_ind by assumption.
    unfold dzstate, lc_B. destruct (Nat.ltb_spec (M + j) M); [lia|]. destruct (Nat.eqb_spec (M + j) 0); [lia|]. replace (M + j - M)%nat with j by lia.
    assert (Hin : forall p, In (ind_line p j) (lines anon k)).
    { intro p. rewrite lc_lines by exact HM. right. destruct p; [apply in_or_app; left|apply in_or_app; right; apply in_or_app; left]; apply in_map, in_seq; lia. }
    pose proof (Hl _ (Hin true)) as E1. pose proof (Hl _ (Hin false)) as E2. unfold ind_line in E1, E2. cbn [inductor] in E1, E2. unfold zstate, V.
    rewrite (proj2 (Nat.ltb_lt j M)), (proj2 (Nat.ltb_lt (S j) M)) by lia.
    apply (Rmult_eq_reg_l (2 * L)); [|lra]. set (a := di _) in *. set (b := di (cname (CInd false j))) in *.
    replace (2 * L * ((a - b) / 2)) with (L * a - L * b) by lra. rewrite E1, E2. field. exact HL.
Qed.
End Lc.
