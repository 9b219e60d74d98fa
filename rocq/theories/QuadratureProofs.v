(** Facts about synthesis/quadrature.py. *)
From Coq Require Import List Arith Lia Bool Reals Lra.
From Flocq Require Import Core.
From Verif Require Import Base LinAlg FirExtras AnalogSystem AnalogProofs ChainProofs Signals DigitalControl DigitalControlProofs Fom Integrators IntegratorsProofs Simulator Stability SynthesisProofs LinearOde LcCircuit Quadrature.
Import ListNotations.
Open Scope R_scope.

Ltac nb := repeat match goal with
  | |- context [Nat.leb ?a ?b] => destruct (Nat.leb_spec a b); try lia
  | |- context [Nat.ltb ?a ?b] => destruct (Nat.ltb_spec a b); try lia
  | |- context [Nat.eqb ?a ?b] => destruct (Nat.eqb_spec a b); try lia
  end; cbn [andb].

(** block diagonal of two copies *)
Definition dbl (m : nd2 Rring) (m2 : nd2 Rring) : Prop :=
  rows m2 = (rows m + rows m)%nat /\ cols m2 = (cols m + cols m)%nat /\
  (forall i j, (i < rows m)%nat -> (j < cols m)%nat -> ent m2 i j = ent m i j /\ ent m2 (rows m + i)%nat (cols m + j)%nat = ent m i j /\
     ent m2 i (cols m + j)%nat = 0 /\ ent m2 (rows m + i)%nat j = 0).

Lemma dbl_setblk m r c : rows m = r -> cols m = c ->
  dbl m (setblk (setblk (zeros (r + (r + 0)) (c + (c + 0))) 0 (0 + r) 0 (0 + c) m) (0 + r) (0 + r + r) (0 + c) (0 + c + c) m).
Proof.
  intros <- <-. split; [cbn; lia|]. split; [cbn; lia|]. intros i j Hi Hj. rewrite !ent_setblk. unfold inb. cbn [zeros ent].
  repeat split; nb; try reflexivity; f_equal; lia.
Qed.

Lemma nth_app2 (x y : list R) n j : length x = n -> nth (n + j) (x ++ y) 0 = nth j y 0.
Proof. intros <-. rewrite app_nth2 by lia. f_equal. lia. Qed.
Lemma lin_app (m : nd2 Rring) (x y : list R) n n' i : cols m = (n + n')%nat -> length x = n ->
  lin m (x ++ y) i = rsum n (fun k => ent m i k * nth k x 0) + rsum n' (fun k => ent m i (n + k)%nat * nth k y 0).
Proof.
  intros Hc Hx. rewrite lin_rsum, Hc, rsum_split. f_equal; apply rsum_ext; intros k Hk.
  - now rewrite app_nth1 by lia.
  - now rewrite nth_app2.
Qed.
Lemma dbl_lin m m2 (x y : list R) i : dbl m m2 -> length x = cols m -> (i < rows m)%nat ->
  lin m2 (x ++ y) i = lin m x i /\ lin m2 (x ++ y) (rows m + i)%nat = lin m y i.
Proof.
  intros (R2 & C2 & E) Hx Hi. rewrite !(lin_app m2 x y (cols m) (cols m)) by assumption. rewrite !lin_rsum. split.
  - rewrite (rsum_zero _ (fun k => ent m2 i (cols m + k)%nat * nth k y 0)), Rplus_0_r.
    + apply rsum_ext. intros k Hk. now rewrite (proj1 (E i k Hi Hk)).
    + intros k Hk. destruct (E i k Hi Hk) as (_ & _ & -> & _). apply Rmult_0_l.
  - rewrite (rsum_zero _ (fun k => ent m2 (rows m + i)%nat k * nth k x 0)), Rplus_0_l.
    + apply rsum_ext. intros k Hk. destruct (E i k Hi Hk) as (_ & -> & _ & _). reflexivity.
    + intros k Hk. destruct (E i k Hi Hk) as (_ & _ & _ & ->). apply Rmult_0_l.
Qed.

(** what stack makes of two copies *)
Lemma stack2 S0 : valid S0 -> exists S g gt, stack [S0; S0] = Ok S /\ valid S /\ aG S = Some g /\ aGt S = Some gt /\
  dbl (aA S0) (aA S) /\ dbl (aB S0) (aB S) /\ dbl (aCT S0) (aCT S) /\
  match aG S0 with Some g0 => dbl g0 g | None => rows g = (sN S0 + sN S0)%nat /\ cols g = 0%nat end /\
  match aGt S0 with Some g0 => dbl g0 gt | None => rows gt = 0%nat /\ cols gt = (sN S0 + sN S0)%nat end /\
  dbl (aD S0) (aD S) /\ dbl (aAt S0) (aAt S) /\
  rows (aBt S) = (sMt S0 + sMt S0)%nat /\ cols (aBt S) = (sL S0 + sL S0)%nat /\ (forall i j, ent (aBt S) i j = 0).
Proof.
  intros V. unfold stack. cbn [fold_left stack_step tA tB tCT tG tGt tD tAt tn tm tmt tl_ tnt total map list_sum fold_right].
  set (N := (sN S0 + (sN S0 + 0))%nat). set (M := (sM S0 + (sM S0 + 0))%nat). set (L := (sL S0 + (sL S0 + 0))%nat).
  set (Mt := (sMt S0 + (sMt S0 + 0))%nat). set (Nt := (sNt S0 + (sNt S0 + 0))%nat).
  match goal with |- exists S g gt, as_init ?A ?B ?C ?G ?Gtt ?D ?Bt ?At = Ok S /\ _ =>
    destruct (as_init_total N L Nt M Mt A B C G Gtt D Bt At) as (S & E & SN & SL & SNt & SM & SMt) end.
  { repeat split. all: unfold has_shape, setblk_opt; try reflexivity; destruct (aG S0), (aGt S0); auto. }
  destruct (as_init_ok _ _ _ _ _ _ _ _ _ E) as (_ & VS & EA & EB & EC & EG & EGt & ED & EBt & EAt).
  injection EA as EA. cbn [colof rowof mato matd] in *.
  eexists S, _, _. split; [exact E|]. split; [exact VS|]. split; [exact EG|]. split; [exact EGt|].
  rewrite <- EA, EB, EC, ED, EBt, EAt. destruct V as [VA VB VC VG VGt [VD1 VD2] [VBt1 VBt2] [VAt1 VAt2]].
  split; [apply dbl_setblk; [reflexivity|exact VA]|].
  split; [apply dbl_setblk; [exact VB|reflexivity]|].
  split; [apply dbl_setblk; [reflexivity|exact VC]|].
  split. { unfold M, sM. destruct (aG S0) as [g|] eqn:Eg; cbn [setblk_opt]; [apply dbl_setblk; [exact VG|reflexivity]|]. cbn. unfold N. lia. }
  split. { unfold Mt, sMt. destruct (aGt S0) as [g|] eqn:Eg; cbn [setblk_opt]; [apply dbl_setblk; [reflexivity|exact VGt]|]. cbn. unfold N. lia. }
  split; [apply dbl_setblk; assumption|]. split; [apply dbl_setblk; assumption|].
  cbn [zeros rows cols ent]. unfold Mt, L. split; [lia|]. split; [lia|]. reflexivity.
Qed.

Lemma rsum_delta n (c : R) (f : nat -> R) i : (i < n)%nat -> rsum n (fun k => (if Nat.eqb i k then c else 0) * f k) = c * f i.
Proof.
  intros Hi. rewrite (rsum_ext _ _ (fun k => if Nat.eqb k i then c * f k else 0)).
  - now apply (IntegratorsProofs.rsum_single n i (fun k => c * f k)).
  - intros k _. rewrite (Nat.eqb_sym i k). destruct (Nat.eqb k i); ring.
Qed.
Lemma quad_lin n k kb (x y : list R) i : length x = n -> length y = n -> (i < n)%nat ->
  lin (quad_blocks n k kb) (x ++ y) i = k * nth i x 0 - kb * nth i y 0 /\
  lin (quad_blocks n k kb) (x ++ y) (n + i)%nat = k * nth i y 0 + kb * nth i x 0.
Proof.
  intros Hx Hy Hi. rewrite !(lin_app _ x y n n) by (auto; cbn; lia). split.
  - rewrite <- (rsum_delta n k (fun j => nth j x 0) i Hi). unfold Rminus. rewrite Ropp_mult_distr_l, <- (rsum_delta n (- kb) (fun j => nth j y 0) i Hi).
    f_equal; apply rsum_ext; intros j Hj; f_equal; unfold quad_blocks; rewrite !ent_setblk; unfold inb; cbn [zeros ent ceye]; nb; reflexivity.
  - rewrite <- (rsum_delta n k (fun j => nth j y 0) i Hi), <- (rsum_delta n kb (fun j => nth j x 0) i Hi), Rplus_comm.
    f_equal; apply rsum_ext; intros j Hj; f_equal; unfold quad_blocks; rewrite !ent_setblk; unfold inb; cbn [zeros ent ceye]; nb; reflexivity.
Qed.
Lemma bp_A_lin (A0 A : nd2 Rring) n w (x y : list R) i : dbl A0 A -> rows A0 = n -> cols A0 = n -> length x = n -> length y = n -> (i < n)%nat ->
  let A' := setblk (setblk A 0 n n (rows A) (ceye (- w) n)) n (rows A) 0 n (ceye w n) in
  lin A' (x ++ y) i = lin A0 x i - w * nth i y 0 /\ lin A' (x ++ y) (n + i)%nat = lin A0 y i + w * nth i x 0.
Proof.
  intros (R2 & C2 & E) HR HC Hx Hy Hi A'. rewrite HR in *. rewrite HC in *. rewrite !(lin_app A' x y n n) by (auto; unfold A'; cbn; lia).
  rewrite !lin_rsum, HC. split.
  - unfold Rminus. rewrite Ropp_mult_distr_l, <- (rsum_delta n (- w) (fun j => nth j y 0) i Hi).
    f_equal; apply rsum_ext; intros j Hj; f_equal; unfold A'; rewrite !ent_setblk; unfold inb; cbn [zeros ent ceye]; nb; try reflexivity;
      now rewrite (proj1 (E i j Hi Hj)).
  - rewrite Rplus_comm, <- (rsum_delta n w (fun j => nth j x 0) i Hi).
    f_equal; apply rsum_ext; intros j Hj; f_equal; unfold A'; rewrite !ent_setblk; unfold inb; cbn [zeros ent ceye]; nb; try reflexivity;
      now destruct (E i j Hi Hj) as (_ & -> & _).
Qed.

Definition bp_freq (fc : R) : R := 2 * PI * fc.
(** what get_bandpass returns *)
Lemma bandpass_inv k h S d h' S0 d0 fc : b_front k = Some (S0, d0) -> b_fc k = Some fc -> valid S0 -> get_bandpass k h = Ok (S, d, h') ->
  let n := sN S0 in let w := bp_freq fc in let T := ck_T (d_clk d0) in
  valid S /\ sN S = (n + n)%nat /\ (1 <= n)%nat /\ dc_init h (d_clk d0) (2 * d_M d0) None 0 None = Ok (d, h') /\
  (forall x y i, length x = n -> length y = n -> (i < n)%nat ->
     lin (aA S) (x ++ y) i = lin (aA S0) x i - w * nth i y 0 /\ lin (aA S) (x ++ y) (n + i)%nat = lin (aA S0) y i + w * nth i x 0) /\
  dbl (aCT S0) (aCT S) /\ (forall i j, ent (aD S) i j = 0) /\
  (exists g0 g gt, aG S0 = Some g0 /\ aG S = Some g /\ aGt S = Some gt /\
     if b_modulate k then dbl g0 g /\ match aGt S0 with Some gt0 => dbl gt0 gt | None => True end
     else let beta := ent g0 0%nat 0%nat in let phi := dflt (b_phi k) 0 in let delta := dflt (b_delta k) 0 in
       sM S0 = n /\ sMt S0 = n /\ sin (w * T / 2) <> 0 /\ beta * T <> 0 /\
       g = quad_blocks n (beta * T * w / (2 * sin (w * T / 2)) * cos phi) (beta * T * w / (2 * sin (w * T / 2)) * sin phi) /\
       gt = quad_blocks n (-1 / (beta * T) * cos (w * (T / 2 + delta) - phi)) (-1 / (beta * T) * sin (w * (T / 2 + delta) - phi))) /\
  if b_scalar k then exists S2, stack [S0; S0] = Ok S2 /\ dbl (aB S0) (aB S2) /\ (1 <= sL S0)%nat /\ sL S = 1%nat /\
      forall i j, ent (aB S) i j = if Nat.leb n i then - ent (aB S2) i 1%nat else ent (aB S2) i 0%nat
  else dbl (aB S0) (aB S).
Proof.
  intros EF EC V H n w T. unfold get_bandpass in H. rewrite EF, EC in H. fold n T in H. change (2 * PI * fc) with w in H.
  apply bind_ok in H as (beta & Eb & H). destruct (stack2 S0 V) as (S2 & g & gt & ES & V2 & EG & EGt & DA & DB & DC & DG & DGt & DD & DAt & RBt & CBt & ZBt).
  rewrite ES in H. cbn [bind] in H. apply bind_ok in H as ([g' gt'] & Egg & H). apply bind_ok in H as ([d' h1] & Ed & H).
  apply bind_ok in H as ([B Bt] & EB & H). apply bind_ok in H as (S' & EI & H). apply Ok_inj in H. inversion H; subst S' d' h1; clear H.
  unfold gamma00 in Eb. destruct (aG S0) as [g0|] eqn:EG0; [|discriminate].
  assert (Rg0 : rows g0 = n) by (assert (X := v_G _ V); now rewrite EG0 in X).
  destruct (Nat.eqb_spec (rows g0) 0) as [|Hr]; [discriminate|]. destruct (Nat.eqb_spec (cols g0) 0) as [|Hc]; [discriminate|]. cbn [orb] in Eb. apply Ok_inj in Eb.
  destruct (as_init_ok _ _ _ _ _ _ _ _ _ EI) as (F & VS & EA & EBs & ECs & EGs & EGts & EDs & EBts & EAts).
  injection EA as EA. cbn [colof rowof mato matd] in *.
  destruct DA as (RA2 & CA2 & DA). assert (SN2 : sN S2 = (n + n)%nat) by exact RA2.
  assert (SN : sN S = (n + n)%nat) by (unfold sN; rewrite <- EA; exact SN2).
  split; [exact VS|]. split; [exact SN|]. split; [lia|]. split; [exact Ed|]. split.
  { intros x y i Hx Hy Hi. rewrite <- EA. change (sN S2) with (rows (aA S2)). apply bp_A_lin; auto; [now repeat split; try apply DA|]. exact (v_A _ V). }
  split; [now rewrite ECs|]. split; [intros i j; rewrite EDs; reflexivity|]. split.
  - exists g0. destruct (b_modulate k).
    + apply Ok_inj in Egg. inversion Egg; subst g' gt'. exists g, gt. rewrite EG in EGs. rewrite EGt in EGts. cbn in EGs, EGts. split; [reflexivity|]. split; [exact EGs|]. split; [exact EGts|].
      split; [exact DG|]. destruct (aGt S0); [exact DGt|exact I].
    + apply bind_ok in Egg as ([g1 gt1] & E1 & E2). apply Ok_inj in E2. inversion E2; subst g' gt'; clear E2. unfold bp_gammas in E1.
      destruct (Req_bool_spec (2 * sin (w * T / 2)) 0) as [|Hs]; [discriminate|]. destruct (Req_bool_spec (beta * T) 0) as [|Hb]; [discriminate|]. cbn [orb] in E1.
      apply Ok_inj in E1. inversion E1; subst g1 gt1; clear E1.
      cbn in EGs, EGts. eexists _, _. split; [reflexivity|]. split; [exact EGs|]. split; [exact EGts|].
      assert (SMs : sM S = (2 * n)%nat) by (unfold sM; rewrite EGs; reflexivity). assert (SMts : sMt S = (2 * n)%nat) by (unfold sMt; rewrite EGts; reflexivity).
      destruct F as (_ & _ & _ & _ & _ & _ & _ & FAt). cbn [opt_shape has_shape] in FAt. destruct DAt as (RAt & CAt & _). destruct FAt as [F1 F2].
      rewrite (proj1 (v_At _ V)) in RAt. rewrite (proj2 (v_At _ V)) in CAt. subst beta.
      split; [lia|]. split; [lia|]. split; [lra|]. split; [exact Hb|]. split; reflexivity.
  - destruct (b_scalar k).
    + exists S2. split; [exact ES|]. split; [exact DB|]. unfold bp_scalar in EB. destruct (Nat.ltb_spec (cols (aB S2)) 2) as [|HL]; [discriminate|].
      destruct (Nat.ltb_spec (cols (aBt S2)) 2); [discriminate|]. cbn [orb] in EB. apply Ok_inj in EB. injection EB as EB1 _. rewrite <- EB1 in EBs.
      destruct DB as (_ & CB & _). split; [unfold sL; lia|]. split; [unfold sL; now rewrite EBs|]. intros i j. rewrite EBs. cbn [ent].
      rewrite SN2. replace (Nat.div2 (n + n)) with n; [reflexivity|]. replace (n + n)%nat with (2 * n)%nat by lia. now rewrite Nat.div2_double.
    + apply Ok_inj in EB. injection EB as EB1 _. now rewrite EBs, <- EB1.
Qed.

Lemma bandpass_total k h S0 d0 fc : b_front k = Some (S0, d0) -> b_fc k = Some fc -> valid S0 ->
  let n := sN S0 in let w := bp_freq fc in let T := ck_T (d_clk d0) in
  ((exists v, get_bandpass k h = Ok v) <->
   exists g0, aG S0 = Some g0 /\ (1 <= n)%nat /\ (1 <= sM S0)%nat /\
     (b_modulate k = false -> sM S0 = n /\ sMt S0 = n /\ sin (w * T / 2) <> 0 /\ ent g0 0%nat 0%nat * T <> 0) /\
     (b_scalar k = true -> (1 <= sL S0)%nat)).
Proof.
  intros EF EC V n w T. split.
  - intros ([[S d] h'] & H). destruct (bandpass_inv _ _ _ _ _ _ _ _ EF EC V H) as (_ & _ & Hn & _ & _ & _ & _ & (g0 & g & gt & EG0 & _ & _ & HG) & HB).
    exists g0. split; [exact EG0|]. split; [exact Hn|]. split.
    { unfold get_bandpass in H. rewrite EF, EC in H. apply bind_ok in H as (beta & Eb & _). unfold gamma00 in Eb. rewrite EG0 in Eb. unfold sM. rewrite EG0.
      destruct (Nat.eqb_spec (cols g0) 0) as [|Hc]; [rewrite orb_true_r in Eb; discriminate|lia]. }
    split.
    + intros Em. rewrite Em in HG. destruct HG as (X1 & X2 & X3 & X4 & _). exact (conj X1 (conj X2 (conj X3 X4))).
    + intros Es. rewrite Es in HB. destruct HB as (S2 & _ & _ & HL & _). exact HL.
  - intros (g0 & EG0 & Hn & HM & Hmod & Hsc). unfold get_bandpass. rewrite EF, EC. unfold gamma00. rewrite EG0.
    assert (Rg0 : rows g0 = n) by (assert (X := v_G _ V); now rewrite EG0 in X). assert (Cg0 : cols g0 = sM S0) by (unfold sM; now rewrite EG0).
    rewrite Rg0, Cg0. destruct (Nat.eqb_spec n 0); [lia|]. destruct (Nat.eqb_spec (sM S0) 0); [lia|]. cbn [orb bind].
    destruct (stack2 S0 V) as (S2 & g & gt & ES & V2 & EG & EGt & DA & DB & DC & DG & DGt & DD & DAt & RBt & CBt & ZBt).
    rewrite ES. cbn [bind]. fold n T. change (2 * PI * fc) with w.
    assert (SN2 : sN S2 = (n + n)%nat) by (exact (proj1 DA)).
    assert (X : exists g' gt', (if b_modulate k then Ok (aG S2, aGt S2) else
       bind (bp_gammas n (ent g0 0%nat 0%nat) T w (dflt (b_phi k) 0) (dflt (b_delta k) 0)) (fun '(g, gt) => Ok (Some g, Some gt))) = Ok (Some g', Some gt') /\
       rows g' = (n + n)%nat /\ cols gt' = (n + n)%nat /\ rows gt' = (sMt S0 + sMt S0)%nat /\ cols g' = (sM S0 + sM S0)%nat).
    { destruct (b_modulate k) eqn:Em.
      - exists g, gt. rewrite EG, EGt. split; [reflexivity|]. rewrite EG0 in DG. destruct DG as (D1 & D2 & _). unfold sMt, sM. rewrite EG0.
        assert (VGt := v_Gt _ V). fold n in VGt. destruct (aGt S0) as [gt0|]; [destruct DGt as (D3 & D4 & _)|destruct DGt as (D3 & D4)]; repeat split; try lia.
      - destruct (Hmod eq_refl) as (M1 & M2 & Hs & Hb). unfold bp_gammas. destruct (Req_bool_spec (2 * sin (w * T / 2)) 0) as [Z|_]; [exfalso; apply Hs; lra|].
        destruct (Req_bool_spec (ent g0 0%nat 0%nat * T) 0) as [Z|_]; [contradiction|]. cbn [orb bind]. eexists _, _. split; [reflexivity|]. rewrite M1, M2. cbn. repeat split; lia. }
    destruct X as (g' & gt' & -> & R1 & C2 & R2 & C1). cbn [bind].
    unfold dc_init. rewrite Rlt_bool_false by lra. cbn [init_resp bind].
    assert (Y : exists B Bt L, (if b_scalar k then bp_scalar S2 else Ok (aB S2, aBt S2)) = Ok (B, Bt) /\ rows B = (n + n)%nat /\ cols B = L /\ rows Bt = (sMt S0 + sMt S0)%nat /\ cols Bt = L).
    { destruct DB as (D1 & D2 & _). rewrite (v_B _ V) in D1. fold n in D1. fold (sL S0) in D2. destruct (b_scalar k).
      - unfold bp_scalar. specialize (Hsc eq_refl). destruct (Nat.ltb_spec (cols (aB S2)) 2); [lia|]. destruct (Nat.ltb_spec (cols (aBt S2)) 2); [lia|]. cbn [orb].
        eexists _, _, 1%nat. split; [reflexivity|]. cbn. repeat split; lia.
      - exists (aB S2), (aBt S2), (cols (aB S2)). split; [reflexivity|]. repeat split; lia. }
    destruct Y as (B & Bt & L & -> & RB & CB & RBt' & CBt'). cbn [bind option_map].
    match goal with |- exists v, bind (as_init ?A ?B ?C ?G ?Gtt ?D ?Bt ?At) _ = _ =>
      destruct (as_init_total (n + n) L (sNt S0 + sNt S0) (sM S0 + sM S0) (sMt S0 + sMt S0) A B C G Gtt D Bt At) as (S & E & _) end.
    { unfold fits. cbn [has_shape col_shape row_shape opt_shape setblk rows cols].
      assert (VC := v_CT _ V). destruct DA as (A1 & A2 & _), DC as (C3 & C4 & _), DAt as (T1 & T2 & _). rewrite (v_A _ V) in A2. fold n in A2.
      rewrite (proj1 (v_At _ V)) in T1. rewrite (proj2 (v_At _ V)) in T2. unfold n in *. unfold sN in A1, A2. unfold sNt. rewrite VC in C4. repeat split; try assumption; try lia; try (now rewrite A1). }
    rewrite E. cbn [bind]. eauto.
Qed.
