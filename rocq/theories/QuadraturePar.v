(** Parallel leap-frogs. *)
From Coq Require Import List Arith Lia Bool Reals Lra.
From Coquelicot Require Import Complex.
From Flocq Require Import Core.
From Verif Require Import Base LinAlg FirExtras AnalogSystem AnalogProofs ChainProofs Signals DigitalControl DigitalControlProofs Fom Integrators IntegratorsProofs Simulator Stability SynthesisProofs LinearOde LcCircuit LeapFrogPoles Quadrature QuadratureProofs QuadratureRun.
Import ListNotations.
Open Scope R_scope.

(** *** Block matrices *)
Lemma inb_block n a m r : (r < n)%nat -> inb (m * n) (m * n + n) (a * n + r) = Nat.eqb a m.
Proof.
  intros Hr. destruct (Nat.eqb_spec a m) as [->|Hn]; [apply inb_true; lia|]. apply inb_false.
  destruct (Nat.lt_ge_cases a m) as [L|L]; [left|right].
  - assert (S a * n <= m * n)%nat by (apply Nat.mul_le_mono_r; lia). cbn [Nat.mul] in *. lia.
  - assert (S m * n <= a * n)%nat by (apply Nat.mul_le_mono_r; lia). cbn [Nat.mul] in *. lia.
Qed.
Lemma inb_block' n a m r : (r < n)%nat -> inb (m * n) ((m + 1) * n) (a * n + r) = Nat.eqb a m.
Proof. intros Hr. replace ((m + 1) * n)%nat with (m * n + n)%nat by lia. now apply inb_block. Qed.
(** block diagonal of [m] copies *)
Definition bdiag (m : nat) (blk mat : nd2 Rring) : Prop :=
  forall a b i j, (i < rows blk)%nat -> (j < cols blk)%nat -> ent mat (a * rows blk + i)%nat (b * cols blk + j)%nat = if Nat.eqb a b && Nat.ltb a m then ent blk i j else 0.
Lemma bdiag_zeros blk r c : bdiag 0 blk (zeros r c).
Proof. intros a b i j _ _. cbn [zeros ent]. nb; try reflexivity. Qed.
Lemma bdiag_step m blk mat : bdiag m blk mat -> bdiag (S m) blk (setblk mat (m * rows blk) (m * rows blk + rows blk) (m * cols blk) (m * cols blk + cols blk) blk).
Proof.
  intros H a b i j Hi Hj. rewrite ent_setblk, !inb_block by assumption. rewrite H by assumption.
  destruct (Nat.eqb_spec a m) as [->|]; destruct (Nat.eqb_spec b m) as [->|]; cbn [andb]; nb; try reflexivity. f_equal; lia.
Qed.

Lemma stack_fold S0 g0 gt0 st0 m : valid S0 -> aG S0 = Some g0 -> aGt S0 = Some gt0 ->
  tn st0 = 0%nat -> tm st0 = 0%nat -> tmt st0 = 0%nat -> tl_ st0 = 0%nat -> tnt st0 = 0%nat ->
  bdiag 0 (aA S0) (tA st0) -> bdiag 0 (aB S0) (tB st0) -> bdiag 0 g0 (tG st0) ->
  let st := fold_left stack_step (repeat S0 m) st0 in
  tn st = (m * sN S0)%nat /\ tm st = (m * sM S0)%nat /\ tmt st = (m * sMt S0)%nat /\ tl_ st = (m * sL S0)%nat /\ tnt st = (m * sNt S0)%nat /\
  bdiag m (aA S0) (tA st) /\ bdiag m (aB S0) (tB st) /\ bdiag m g0 (tG st) /\
  rows (tA st) = rows (tA st0) /\ cols (tA st) = cols (tA st0) /\ rows (tB st) = rows (tB st0) /\ cols (tB st) = cols (tB st0) /\
  rows (tCT st) = rows (tCT st0) /\ cols (tCT st) = cols (tCT st0) /\ rows (tG st) = rows (tG st0) /\ cols (tG st) = cols (tG st0) /\
  rows (tGt st) = rows (tGt st0) /\ cols (tGt st) = cols (tGt st0) /\ rows (tD st) = rows (tD st0) /\ cols (tD st) = cols (tD st0) /\ rows (tAt st) = rows (tAt st0) /\ cols (tAt st) = cols (tAt st0).
Proof.
  intros V EG EGt Z1 Z2 Z3 Z4 Z5 B1 B2 B3. induction m as [|m IH].
  - cbn [repeat fold_left]. rewrite Z1, Z2, Z3, Z4, Z5. repeat split; auto.
  - intros st. assert (E : st = stack_step (fold_left stack_step (repeat S0 m) st0) S0).
    { unfold st. replace (S m) with (m + 1)%nat by lia. rewrite repeat_app, fold_left_app. reflexivity. }
    cbn zeta in IH. set (s1 := fold_left stack_step (repeat S0 m) st0) in *. clearbody st. subst st.
    destruct IH as (I1 & I2 & I3 & I4 & I5 & IA & IB & IG & R1 & R2 & R3 & R4 & R5 & R6 & R7 & R8 & R9 & R10 & R11 & R12 & R13 & R14).
    unfold stack_step. cbn [tn tm tmt tl_ tnt tA tB tCT tG tGt tD tAt setblk rows cols]. rewrite EG, EGt. cbn [setblk_opt setblk rows cols].
    do 5 (split; [lia|]). rewrite I1, I2, I4. split; [|split; [|split; [|repeat split; assumption]]].
    + assert (CA := v_A _ V). assert (X := bdiag_step m _ _ IA). rewrite CA in X. exact X.
    + assert (RB := v_B _ V). assert (X := bdiag_step m _ _ IB). rewrite RB in X. exact X.
    + assert (RG := v_G _ V). rewrite EG in RG. assert (X := bdiag_step m _ _ IG). rewrite RG in X. unfold sM. rewrite EG. exact X.
Qed.
Lemma total_repeat {A} (f : A -> nat) (x : A) m : list_sum (map f (repeat x m)) = (m * f x)%nat.
Proof. induction m as [|m IH]; [reflexivity|]. cbn [repeat map]. change (f x + list_sum (map f (repeat x m)) = S m * f x)%nat. rewrite IH. lia. Qed.
Lemma stack_copies S0 g0 gt0 m : valid S0 -> aG S0 = Some g0 -> aGt S0 = Some gt0 -> (1 <= m)%nat ->
  exists S g gt, stack (repeat S0 m) = Ok S /\ valid S /\ sN S = (m * sN S0)%nat /\ sL S = (m * sL S0)%nat /\ sM S = (m * sM S0)%nat /\ sMt S = (m * sMt S0)%nat /\ sNt S = (m * sNt S0)%nat /\
    aG S = Some g /\ aGt S = Some gt /\ bdiag m (aA S0) (aA S) /\ bdiag m (aB S0) (aB S) /\ bdiag m g0 g.
Proof.
  intros V EG EGt Hm. unfold stack. destruct (repeat S0 m) as [|s l] eqn:E; [destruct m; [lia|discriminate]|]. rewrite <- E.
  unfold total. rewrite !total_repeat.
  match goal with |- context [fold_left stack_step (repeat S0 m) ?st0] => destruct (stack_fold S0 g0 gt0 st0 m V EG EGt eq_refl eq_refl eq_refl eq_refl eq_refl) as
    (_ & _ & _ & _ & _ & BA & BB & BG & R1 & R2 & R3 & R4 & R5 & R6 & R7 & R8 & R9 & R10 & R11 & R12 & R13 & R14); [apply bdiag_zeros|apply bdiag_zeros|apply bdiag_zeros|];
    set (st := fold_left stack_step (repeat S0 m) st0) in * end.
  match goal with |- exists S g gt, as_init ?A ?B ?C ?G ?Gtt ?D ?Bt ?At = Ok S /\ _ =>
    destruct (as_init_total (m * sN S0) (m * sL S0) (m * sNt S0) (m * sM S0) (m * sMt S0) A B C G Gtt D Bt At) as (S & ES & SN & SL & SNt & SM & SMt) end.
  { unfold fits. cbn [has_shape col_shape row_shape opt_shape]. cbn [tA tB tCT tG tGt tD tAt zeros rows cols] in R1, R2, R3, R4, R5, R6, R7, R8, R9, R10, R11, R12, R13, R14. repeat split; assumption. }
  destruct (as_init_ok _ _ _ _ _ _ _ _ _ ES) as (_ & VS & EA & EB & _ & EGs & EGts & _). injection EA as EA. cbn [colof rowof mato matd] in EB, EGs, EGts.
  exists S, (tG st), (tGt st). split; [exact ES|]. split; [exact VS|]. do 5 (split; [assumption|]). split; [exact EGs|]. split; [exact EGts|]. rewrite <- EA, EB. auto.
Qed.

(** a copy of [A0] in each of the [m] diagonal blocks, [K a b] times the identity in the others *)
Definition coupled (m n : nat) (A0 A : nd2 Rring) (K : nat -> nat -> R) : Prop :=
  rows A = (m * n)%nat /\ cols A = (m * n)%nat /\
  forall a b i j, (a < m)%nat -> (b < m)%nat -> (i < n)%nat -> (j < n)%nat -> ent A (a * n + i)%nat (b * n + j)%nat = if Nat.eqb a b then ent A0 i j else if Nat.eqb i j then K a b else 0.
Lemma coupled_set m n A0 A K r c v : coupled m n A0 A K -> r <> c ->
  coupled m n A0 (set_block n A r c v) (fun a b => if Nat.eqb a r && Nat.eqb b c then v else K a b).
Proof.
  intros (R & C & E) Hrc. split; [exact R|]. split; [exact C|]. intros a b i j Ha Hb Hi Hj. unfold set_block. rewrite ent_setblk, !inb_block' by assumption. rewrite E by assumption. unfold ceye. cbn [ent].
  destruct (Nat.eqb_spec a r) as [->|]; destruct (Nat.eqb_spec b c) as [->|]; cbn [andb]; try reflexivity.
  replace (r * n + i - r * n)%nat with i by lia. replace (c * n + j - c * n)%nat with j by lia. nb; reflexivity.
Qed.
Lemma coupled_ext m n A0 A K K' : coupled m n A0 A K -> (forall a b, (a < m)%nat -> (b < m)%nat -> a <> b -> K a b = K' a b) -> coupled m n A0 A K'.
Proof. intros (R & C & E) H. split; [exact R|]. split; [exact C|]. intros a b i j Ha Hb Hi Hj. rewrite E by assumption. destruct (Nat.eqb_spec a b); [reflexivity|]. now rewrite H. Qed.

Lemma rsum_blocks m n (f : nat -> R) : rsum (m * n) f = rsum m (fun b => rsum n (fun j => f (b * n + j)%nat)).
Proof.
  induction m as [|m IH]; [reflexivity|]. replace (S m * n)%nat with (m * n + n)%nat by lia. rewrite rsum_split, IH, rsum_S. reflexivity.
Qed.
Definition block (n a : nat) (X : list R) : list R := firstn n (skipn (a * n) X).
Lemma block_len n a m (X : list R) : length X = (m * n)%nat -> (a < m)%nat -> length (block n a X) = n.
Proof.
  intros H Ha. unfold block. rewrite firstn_length, skipn_length, H. assert (S a * n <= m * n)%nat by (apply Nat.mul_le_mono_r; lia). cbn [Nat.mul] in *. lia.
Qed.
Lemma nth_skipn' (X : list R) k i : nth i (skipn k X) 0 = nth (k + i) X 0.
Proof. revert X. induction k as [|k IH]; intros [|x X]; cbn [skipn Nat.add nth]; auto; now destruct i. Qed.
Lemma nth_firstn' (X : list R) k i : (i < k)%nat -> nth i (firstn k X) 0 = nth i X 0.
Proof. revert X i. induction k as [|k IH]; intros [|x X] [|i] H; cbn; auto; try lia. apply IH. lia. Qed.
Lemma block_nth n a (X : list R) i : (i < n)%nat -> nth i (block n a X) 0 = nth (a * n + i) X 0.
Proof. intros Hi. unfold block. rewrite nth_firstn' by exact Hi. apply nth_skipn'. Qed.
Lemma coupled_lin m n A0 A K (X : list R) a i : coupled m n A0 A K -> cols A0 = n -> (a < m)%nat -> (i < n)%nat ->
  lin A X (a * n + i)%nat = lin A0 (block n a X) i + rsum m (fun b => if Nat.eqb a b then 0 else K a b * nth (b * n + i) X 0).
Proof.
  intros (R & C & E) HC Ha Hi. rewrite (lin_rsum A), C, rsum_blocks.
  transitivity (rsum m (fun b => (if Nat.eqb b a then lin A0 (block n a X) i else 0) + (if Nat.eqb a b then 0 else K a b * nth (b * n + i) X 0))).
  - apply rsum_ext. intros b Hb. rewrite (Nat.eqb_sym b a). destruct (Nat.eqb_spec a b) as [<-|Hn].
    + rewrite Rplus_0_r, lin_rsum, HC. apply rsum_ext. intros k Hk. rewrite E by assumption. rewrite Nat.eqb_refl, block_nth by exact Hk. reflexivity.
    + rewrite Rplus_0_l. rewrite <- (rsum_delta n (K a b) (fun k => nth (b * n + k) X 0) i Hi). apply rsum_ext. intros k Hk. rewrite E by assumption. destruct (Nat.eqb_spec a b); [contradiction|]. reflexivity.
  - rewrite rsum_add. apply f_equal2; [|reflexivity]. exact (IntegratorsProofs.rsum_single m a (fun _ => lin A0 (block n a X) i) Ha).
Qed.
Lemma bdiag_lin m blk mat (X : list R) a i : bdiag m blk mat -> cols mat = (m * cols blk)%nat -> (a < m)%nat -> (i < rows blk)%nat ->
  lin mat X (a * rows blk + i)%nat = lin blk (block (cols blk) a X) i.
Proof.
  intros H HC Ha Hi. rewrite (lin_rsum mat), HC, rsum_blocks.
  transitivity (rsum m (fun b => if Nat.eqb b a then lin blk (block (cols blk) a X) i else 0)).
  - apply rsum_ext. intros b Hb. rewrite (Nat.eqb_sym b a). destruct (Nat.eqb_spec a b) as [<-|Hn].
    + rewrite lin_rsum. apply rsum_ext. intros k Hk. rewrite H by assumption. rewrite Nat.eqb_refl, block_nth by exact Hk. destruct (Nat.ltb_spec a m); [reflexivity|lia].
    + apply rsum_zero. intros k Hk. rewrite H by assumption. destruct (Nat.eqb_spec a b); [contradiction|]. apply Rmult_0_l.
  - exact (IntegratorsProofs.rsum_single m a (fun _ => lin blk (block (cols blk) a X) i) Ha).
Qed.

(** *** The leap-frogs *)
Section Lf.
Variable gi : nat -> R.
Definition lfkw (e : R) (n : nat) (BW : R) : kwargs := mkKw (Some e) None None (Some n) (Some BW) None None None None false None false false.
(** the analog system of get_leap_frog does not depend on what was built before *)
Lemma lf_build_heap N beta alpha rho kappa delta T h1 h2 S d h' : lf_build N beta alpha rho kappa delta T h1 = Ok (S, d, h') ->
  exists d2 h2', lf_build N beta alpha rho kappa delta T h2 = Ok (S, d2, h2').
Proof.
  unfold lf_build. destruct (Nat.eqb N 0); [discriminate|]. intros H. apply bind_ok in H as (S1 & E1 & H). apply bind_ok in H as (clk & E2 & H). apply bind_ok in H as ([d1 h1'] & E3 & H).
  apply Ok_inj in H. injection H as -> _ _. rewrite E1. cbn [bind]. rewrite E2. cbn [bind]. unfold dc_init. rewrite Rlt_bool_false by lra. cbn [init_resp bind]. eauto.
Qed.
Lemma lf_heap e n BW h1 h2 S d h' : get_lf gi (lfkw e n BW) h1 = Ok (S, d, h') -> exists d2 h2', get_lf gi (lfkw e n BW) h2 = Ok (S, d2, h2').
Proof.
  unfold get_lf, lfkw. cbn [k_N k_BW k_ENOB]. unfold lf_enob. cbv zeta. repeat match goal with |- context [if ?c then Exn _ else _] => destruct c; [discriminate|] end. apply lf_build_heap.
Qed.
Lemma leap_frogs_ok e n BW m : forall h S d h', get_lf gi (lfkw e n BW) h = Ok (S, d, h') -> exists h2, leap_frogs gi (lfkw e n BW) m h = Ok (repeat S m, h2).
Proof.
  induction m as [|m IH]; intros h S d h' H; cbn [leap_frogs repeat]; [eauto|]. rewrite H. cbn [bind]. destruct (lf_heap _ _ _ h h' _ _ _ H) as (d2 & h2 & H2).
  destruct (IH _ _ _ _ H2) as (h3 & ->). cbn [bind]. eauto.
Qed.
Lemma leap_frogs_inv e n BW m h l h2 : (1 <= m)%nat -> leap_frogs gi (lfkw e n BW) m h = Ok (l, h2) -> exists S d h', get_lf gi (lfkw e n BW) h = Ok (S, d, h') /\ l = repeat S m.
Proof.
  intros Hm H. destruct m as [|m]; [lia|]. assert (H0 := H). cbn [leap_frogs] in H0. apply bind_ok in H0 as ([[S d] h'] & E & _). exists S, d, h'. split; [exact E|].
  destruct (leap_frogs_ok e n BW (Datatypes.S m) h S d h' E) as (h3 & E3). rewrite H in E3. apply Ok_inj in E3. injection E3 as E3 _. exact E3.
Qed.
Lemma lf_parts e n BW h S d h' : get_lf gi (lfkw e n BW) h = Ok (S, d, h') ->
  (1 <= n)%nat /\ valid S /\ sN S = n /\ sL S = 1%nat /\ sM S = n /\ sMt S = n /\ BW <> 0 /\
  (exists g0 gt0, aG S = Some g0 /\ aGt S = Some gt0) /\ exists beta alpha k, alpha * beta = - (PI * BW) ^ 2 /\ integrator_system S (repeat beta n) (repeat alpha (n - 1)) (repeat 0 n) k.
Proof.
  intros H. destruct (get_lf_inv _ _ _ _ _ _ H) as (N & B & beta & alpha & T & EN & HN & EB & HB & (_ & _ & _ & Hab) & _ & (V & IS & Lk & P & W & ET)).
  cbn [lfkw k_N k_BW] in EN, EB. injection EN as <-. subst B. assert (IS' := IS). destruct IS as (D1 & D2 & D3 & D4 & HD & HO & HC). rewrite repeat_length in *.
  assert (NC : ncontrols (diag0 (map (fun m => beta * dflt (k_delta (lfkw e n BW)) 1 ^ m) (seq 0 n))) = n) by (unfold ncontrols, diag0; cbn [rows cols]; rewrite map_length, seq_length; now destruct (Nat.eqb n 1)).
  rewrite NC in *.
  split; [exact HN|]. split; [exact V|]. split; [exact D1|]. split; [exact D2|]. split; [exact D3|]. split; [exact D4|]. split; [exact HB|]. split.
  - assert (X := HD (repeat 0 n) 0 (repeat 0 n) (repeat_length _ _) (repeat_length _ _)).
    assert (Y := HC (repeat 0 n) 0 (repeat 0 n) (repeat_length _ _) (repeat_length _ _)).
    destruct (aG S) as [g|] eqn:EG; [|unfold sM in D3; rewrite EG in D3; lia]. destruct (aGt S) as [gt|] eqn:EGt; [|unfold sMt in D4; rewrite EGt in D4; lia]. eauto.
  - exists beta, alpha. eexists. split; [exact Hab|exact IS'].
Qed.

(** the coupling of lines 270-304: pole a(a-1)/2 + b between the leap-frogs b < a *)
Definition coupling (poles : list R) (a b : nat) : R :=
  if Nat.ltb b a then nth (a * (a - 1) / 2 + b) poles 0 else - nth (b * (b - 1) / 2 + a) poles 0.

Lemma couple_coupled m n A0 : forall l A K poles A', coupled m n A0 A K -> (forall k r c, In (k, r, c) l -> (c < r)%nat) -> couple n poles l A = Ok A' ->
  exists K', coupled m n A0 A' K' /\ (forall k r c, In (k, r, c) l -> (k < length poles)%nat) /\
    K' = fold_left (fun K '(k, r, c) => fun a b => if Nat.eqb a c && Nat.eqb b r then - nth k poles 0 else if Nat.eqb a r && Nat.eqb b c then nth k poles 0 else K a b) l K.
Proof.
  induction l as [|[[k r] c] l IH]; intros A K poles A' HK Hlt H.
  - cbn [couple] in H. apply Ok_inj in H. subst A'. exists K. split; [exact HK|]. split; [intros ? ? ? []|reflexivity].
  - cbn [couple] in H. apply bind_ok in H as (p & Ep & H). unfold pole in Ep. destruct (nth_error poles k) as [p'|] eqn:EK; [|discriminate]. apply Ok_inj in Ep. subst p'.
    assert (Hrc := Hlt k r c (or_introl eq_refl)). assert (Hk : (k < length poles)%nat) by (apply nth_error_Some; congruence). apply nth_error_nth with (d := 0) in EK.
    destruct (IH _ _ poles A' (coupled_set m n A0 _ _ c r (- p) (coupled_set m n A0 _ _ r c p HK ltac:(lia)) ltac:(lia)) (fun k' r' c' Hin => Hlt k' r' c' (or_intror Hin)) H) as (K' & C' & L' & E').
    exists K'. split; [exact C'|]. split; [intros k' r' c' [E|Hin]; [injection E as <- <- <-; exact Hk|now apply L' in Hin]|]. rewrite E'. cbn [fold_left]. rewrite EK. reflexivity.
Qed.

Definition cpl3 := [(0, 1, 0); (1, 2, 0); (2, 2, 1)]%nat.
Definition cpl4 := [(0, 1, 0); (1, 2, 0); (2, 2, 1); (3, 3, 0); (4, 3, 1); (5, 3, 2)]%nat.
Lemma couple3 n A0 A K poles A' : coupled 3 n A0 A K -> couple n poles cpl3 A = Ok A' -> coupled 3 n A0 A' (coupling poles) /\ (3 <= length poles)%nat.
Proof.
  intros HK H. destruct (couple_coupled 3 n A0 cpl3 A K poles A' HK) with (2 := H) as (K' & C' & L & E).
  { intros k r c Hin. unfold cpl3 in Hin. cbn [In] in Hin. repeat (destruct Hin as [E|Hin]; [injection E as <- <- <-; lia|]). destruct Hin. }
  split.
  - eapply coupled_ext; [exact C'|]. intros a b Ha Hb Hab. rewrite E. destruct a as [|[|[|a]]]; try lia; destruct b as [|[|[|b]]]; try lia; reflexivity.
  - assert (2 < length poles)%nat; [|lia]. apply (L 2%nat 2%nat 1%nat). unfold cpl3. cbn [In]. tauto.
Qed.
Lemma couple4 n A0 A K poles A' : coupled 4 n A0 A K -> couple n poles cpl4 A = Ok A' -> coupled 4 n A0 A' (coupling poles) /\ (6 <= length poles)%nat.
Proof.
  intros HK H. destruct (couple_coupled 4 n A0 cpl4 A K poles A' HK) with (2 := H) as (K' & C' & L & E).
  { intros k r c Hin. unfold cpl4 in Hin. cbn [In] in Hin. repeat (destruct Hin as [E|Hin]; [injection E as <- <- <-; lia|]). destruct Hin. }
  split.
  - eapply coupled_ext; [exact C'|]. intros a b Ha Hb Hab. rewrite E. destruct a as [|[|[|[|a]]]]; try lia; destruct b as [|[|[|[|b]]]]; try lia; reflexivity.
  - assert (5 < length poles)%nat; [|lia]. apply (L 5%nat 3%nat 2%nat). unfold cpl4. cbn [In]. tauto.
Qed.
Lemma couple_total n poles : forall l A, (forall k r c, In (k, r, c) l -> (k < length poles)%nat) -> exists A', couple n poles l A = Ok A'.
Proof.
  induction l as [|[[k r] c] l IH]; intros A H; cbn [couple]; [eauto|]. unfold pole. destruct (nth_error poles k) as [p|] eqn:E.
  - cbn [bind]. apply IH. intros k' r' c' Hin. apply (H k' r' c'). now right.
  - exfalso. apply nth_error_None in E. specialize (H k r c (or_introl eq_refl)). lia.
Qed.
End Lf.

Lemma couple_gen_long n M poles A A' : (2 <= M)%nat -> couple_gen n M poles A = Ok A' -> (M * (M - 1) <= length poles)%nat.
Proof.
  intros HM H. unfold couple_gen in H.
  assert (X : forall l acc, fold_left (fun A ij => let '(i, j) := ij in bind A (fun A => bind (pole poles (i + j * M)) (fun p =>
      let A := set_block n A i j p in bind (pole_neg poles (i + j * M)) (fun p => Ok (set_block n A (M - i - 1) (M - 1 - j) (- p)))))) l acc = Ok A' ->
      (exists a, acc = Ok a) /\ forall i j, In (i, j) l -> (i + j * M < length poles)%nat).
  { clear H. induction l as [|[i j] l IH]; intros acc H; cbn [fold_left] in H; [split; [eauto|intros ? ? []]|].
    destruct (IH _ H) as ((a & Ea) & Hl). apply bind_ok in Ea as (a0 & -> & Ea). apply bind_ok in Ea as (p & Ep & _). split; [eauto|].
    intros i' j' [E|Hin]; [|now apply Hl]. injection E as <- <-. unfold pole in Ep. destruct (nth_error poles (i + j * M)) eqn:E; [|discriminate]. apply nth_error_Some. congruence. }
  destruct (X _ _ H) as (_ & Hl). specialize (Hl (M - 1)%nat (M - 2)%nat).
  assert (Hin : In ((M - 1)%nat, (M - 2)%nat) (flat_map (fun i => map (fun j => (i, j)) (seq 0 i)) (seq 1 (M - 1)))).
  { apply in_flat_map. exists (M - 1)%nat. split; [apply in_seq; lia|]. apply in_map_iff. exists (M - 2)%nat. split; [reflexivity|]. apply in_seq. lia. }
  specialize (Hl Hin). destruct M as [|[|M]]; try lia. replace (S (S M) - 1)%nat with (S M) in * by lia. replace (S (S M) - 2)%nat with M in Hl by lia. nia.
Qed.
Lemma sum_seq M : (2 * list_sum (seq 1 (M - 1)) = M * (M - 1))%nat.
Proof.
  destruct M as [|M]; [reflexivity|]. replace (S M - 1)%nat with M by lia. induction M as [|M IH]; [reflexivity|].
  rewrite seq_S, list_sum_app. change (list_sum [(1 + M)%nat]) with (1 + M + 0)%nat. lia.
Qed.

Definition plf_poles (fp : R) (M : nat) (fps : option (list R)) : list R := match fps with Some l => l | None => repeat (2 * PI * fp) (M * (M - 1) / 2) end.
(** the coupled leap-frogs: [S0] in each branch, the input in all of them, branch [b] acting on branch [a] with gain [K a b] *)
Definition parallel_dyn (S0 S : asys Rring) (M n : nat) (K : nat -> nat -> R) : Prop :=
  valid S /\ sN S = (M * n)%nat /\ sL S = 1%nat /\ sM S = (M * n)%nat /\ aG S <> None /\ (forall i j, ent (aD S) i j = 0) /\ (forall i j, ent (aBt S) i j = 0) /\
  (forall X a i, (a < M)%nat -> (i < n)%nat -> lin (aA S) X (a * n + i)%nat = lin (aA S0) (block n a X) i + rsum M (fun b => if Nat.eqb a b then 0 else K a b * nth (b * n + i) X 0)) /\
  forall X u C, length X = (M * n)%nat -> length C = (M * n)%nat -> exists v, derivative S X [u] C = Ok v /\
    forall a, (a < M)%nat -> exists va, derivative S0 (block n a X) [u] (block n a C) = Ok va /\
      forall i, (i < n)%nat -> nth (a * n + i) v 0 = nth i va 0 + rsum M (fun b => if Nat.eqb a b then 0 else K a b * nth (b * n + i) X 0).

Section Plf.
Variable gi : nat -> R.
Lemma parallel_build S0 M n A K : valid S0 -> (1 <= M)%nat -> sN S0 = n -> sL S0 = 1%nat -> sM S0 = n -> sMt S0 = n -> (exists g0 gt0, aG S0 = Some g0 /\ aGt S0 = Some gt0) ->
  forall S2, stack (repeat S0 M) = Ok S2 -> coupled M n (aA S0) A K ->
  exists S', as_init (D2 A) (D2 (row_sums (aB S2))) (D2 (aCT S2)) (option_map (@D2 Rring) (aG S2)) (option_map (@D2 Rring) (aGt S2)) None None None = Ok S' /\ parallel_dyn S0 S' M n K.
Proof.
  intros V HM SN0 SL0 SM0 SMt0 (g0 & gt0 & EG0 & EGt0) S2 ES HA.
  destruct (stack_copies S0 g0 gt0 M V EG0 EGt0 HM) as (S2' & g & gt & ES' & V2 & SN & SL & SM & SMt & SNt & EG & EGt & BA & BB & BG). rewrite ES in ES'. apply Ok_inj in ES'. subst S2'.
  rewrite EG, EGt. cbn [option_map]. rewrite SN0 in SN. rewrite SL0 in SL. rewrite SM0 in SM. rewrite SMt0 in SMt.
  assert (RB0 : rows (aB S0) = n) by (rewrite (v_B _ V); exact SN0). assert (CA0 : cols (aA S0) = n) by (rewrite (v_A _ V); exact SN0).
  assert (Rg0 : rows g0 = n) by (assert (X := v_G _ V); rewrite EG0 in X; congruence). assert (Cg0 : cols g0 = n) by (unfold sM in SM0; now rewrite EG0 in SM0).
  assert (Cg : cols g = (M * n)%nat) by (unfold sM in SM; now rewrite EG in SM). assert (Rg : rows g = (M * n)%nat) by (assert (X := v_G _ V2); rewrite EG in X; congruence).
  match goal with |- exists S', as_init ?A ?B ?C ?G ?Gtt ?D ?Bt ?At = Ok S' /\ _ =>
    destruct (as_init_total (M * n) 1 (sNt S2) (M * n) (M * n) A B C G Gtt D Bt At) as (S' & E & SN' & SL' & SNt' & SM' & SMt') end.
  { unfold fits. cbn [has_shape col_shape row_shape opt_shape row_sums rows cols]. destruct HA as (RA & CA & _). assert (X := v_Gt _ V2). rewrite EGt in X. unfold sMt in SMt. rewrite EGt in SMt.
    assert (Y := v_CT _ V2). assert (Z := v_B _ V2). repeat split; try assumption; try congruence. }
  exists S'. split; [exact E|]. destruct (as_init_ok _ _ _ _ _ _ _ _ _ E) as (_ & VS & EA & EB & _ & EGs & _ & EDs & EBts & _). injection EA as EA. cbn [colof rowof mato matd] in EB, EGs, EDs, EBts.
  assert (HAL : forall X a i, (a < M)%nat -> (i < n)%nat -> lin (aA S') X (a * n + i)%nat = lin (aA S0) (block n a X) i + rsum M (fun b => if Nat.eqb a b then 0 else K a b * nth (b * n + i) X 0)).
  { intros X a i Ha Hi. rewrite <- EA. apply coupled_lin; auto. }
  unfold parallel_dyn. split; [exact VS|]. split; [exact SN'|]. split; [exact SL'|]. split; [exact SM'|]. split; [congruence|].
  split; [intros i j; rewrite EDs; reflexivity|]. split; [intros i j; rewrite EBts; reflexivity|]. split; [exact HAL|].
  intros X u C HX HC. exists (rhs S' X [u] C). split; [apply derivative_rhs; auto; congruence|].
  intros a Ha. exists (rhs S0 (block n a X) [u] (block n a C)). split; [apply derivative_rhs; auto; try congruence; rewrite (block_len n a M) by assumption; congruence|].
  intros i Hi. assert (Hai : (a * n + i < M * n)%nat) by (assert (S a * n <= M * n)%nat by (apply Nat.mul_le_mono_r; lia); cbn [Nat.mul] in *; lia).
  rewrite !rhs_nth by lia. rewrite HAL by assumption.
  assert (E1 : lin (aB S') [u] (a * n + i)%nat = lin (aB S0) [u] i).
  { rewrite EB, !lin_rsum. fold (sL S0). rewrite SL0. cbn [row_sums cols ent]. rewrite !rsum_S, !rsum_0. cbn [nth]. apply f_equal2; [reflexivity|]. apply f_equal2; [|reflexivity].
    fold (sL S2). rewrite SL, ksum_rsum. rewrite Nat.mul_1_r.
    transitivity (rsum M (fun b => if Nat.eqb b a then ent (aB S0) i 0%nat else 0)); [|exact (IntegratorsProofs.rsum_single M a (fun _ => ent (aB S0) i 0%nat) Ha)].
    apply rsum_ext. intros b Hb. specialize (BB a b i 0%nat ltac:(lia)). unfold sL in SL0. rewrite RB0, SL0 in BB. rewrite Nat.mul_1_r, Nat.add_0_r in BB. rewrite BB by lia. nb; reflexivity. }
  assert (E2 : lino (aG S') C (a * n + i)%nat = lino (aG S0) (block n a C) i).
  { rewrite EGs, EG0. cbn [option_map mato lino]. assert (Z := bdiag_lin M g0 g C a i BG). rewrite Rg0, Cg0 in Z. apply Z; assumption. }
  rewrite E1, E2. rring.
Qed.

Lemma stack_coupled S0 M n K : valid S0 -> (1 <= M)%nat -> sN S0 = n -> (exists g0 gt0, aG S0 = Some g0 /\ aGt S0 = Some gt0) ->
  exists S2, stack (repeat S0 M) = Ok S2 /\ ((forall a b, K a b = 0) -> coupled M n (aA S0) (aA S2) K).
Proof.
  intros V HM SN0 (g0 & gt0 & EG0 & EGt0). destruct (stack_copies S0 g0 gt0 M V EG0 EGt0 HM) as (S2 & g & gt & ES & V2 & SN & SL & SM & SMt & SNt & EG & EGt & BA & BB & BG).
  exists S2. split; [exact ES|]. intros HK. rewrite SN0 in SN. assert (CA0 : cols (aA S0) = n) by (rewrite (v_A _ V); exact SN0). unfold sN in SN, SN0. split; [exact SN|]. split; [rewrite (v_A _ V2); exact SN|].
  intros a b i j Ha Hb Hi Hj. specialize (BA a b i j). rewrite SN0, CA0 in BA. rewrite BA by assumption. rewrite HK. nb; reflexivity.
Qed.

Lemma plf_inv k h S h' : get_plf gi k h = Ok (S, h') -> exists e n M BW fp, p_ENOB k = Some e /\ p_N k = Some n /\ p_M k = Some M /\ p_BW k = Some BW /\ p_fp k = Some fp /\
  let poles := plf_poles fp M (p_fps k) in
  exists S0 d0 h0, get_lf gi (lfkw e n BW) h = Ok (S0, d0, h0) /\
    ((M = 3%nat /\ (3 <= length poles)%nat /\ parallel_dyn S0 S M n (coupling poles)) \/
     (M = 4%nat /\ (6 <= length poles)%nat /\ parallel_dyn S0 S M n (coupling poles)) \/
     ((2 <= M)%nat /\ M <> 3%nat /\ M <> 4%nat /\ (M * (M - 1) <= length poles)%nat)).
Proof.
  intros H. unfold get_plf in H. destruct (p_ENOB k) as [e|]; [|discriminate]. destruct (p_N k) as [n|]; [|discriminate]. destruct (p_M k) as [M|]; [|discriminate]. destruct (p_BW k) as [BW|]; [|discriminate]. destruct (p_fp k) as [fp|]; [|discriminate].
  destruct (Nat.leb_spec M 1) as [|HM]; [discriminate|]. exists e, n, M, BW, fp. do 5 (split; [reflexivity|]).
  assert (EP : (match p_fps k with Some l => l | None => repeat (1 * (2 * PI * fp)) (list_sum (seq 1 (M - 1))) end) = plf_poles fp M (p_fps k)).
  { unfold plf_poles. destruct (p_fps k); [reflexivity|]. rewrite Rmult_1_l. f_equal. assert (X := sum_seq M). rewrite <- X, Nat.mul_comm, Nat.div_mul by lia. reflexivity. }
  rewrite EP in H. cbn zeta. set (poles := plf_poles fp M (p_fps k)) in *. apply bind_ok in H as ([l h1] & EL & H).
  destruct (leap_frogs_inv gi e n BW M h l h1 ltac:(lia) EL) as (S0 & d0 & h0 & E0 & ->). exists S0, d0, h0. split; [exact E0|].
  destruct (lf_parts gi e n BW h S0 d0 h0 E0) as (Hn & V & SN0 & SL0 & SM0 & SMt0 & HB & HG & _).
  destruct (stack_coupled S0 M n (fun _ _ => 0) V ltac:(lia) SN0 HG) as (S2 & ES & HC). specialize (HC (fun _ _ => eq_refl)).
  rewrite ES in H. cbn [bind] in H. apply bind_ok in H as (A & EA & H). apply bind_ok in H as (S' & EI & H). apply Ok_inj in H. injection H as -> _.
  destruct (Nat.eqb_spec M 3) as [->|N3]; [left|right; destruct (Nat.eqb_spec M 4) as [->|N4]; [left|right]].
  - destruct (couple3 gi n (aA S0) (aA S2) _ poles A HC EA) as [CA HL]. destruct (parallel_build S0 3 n A _ V ltac:(lia) SN0 SL0 SM0 SMt0 HG S2 ES CA) as (S' & E' & D'). rewrite EI in E'. apply Ok_inj in E'. subst S'. auto.
  - destruct (couple4 gi n (aA S0) (aA S2) _ poles A HC EA) as [CA HL]. destruct (parallel_build S0 4 n A _ V ltac:(lia) SN0 SL0 SM0 SMt0 HG S2 ES CA) as (S' & E' & D'). rewrite EI in E'. apply Ok_inj in E'. subst S'. auto.
  - split; [lia|]. split; [exact N3|]. split; [exact N4|]. now apply couple_gen_long with n (aA S2) A.
Qed.

Lemma plf_ok k h e n M BW fp S0 d0 h0 : p_ENOB k = Some e -> p_N k = Some n -> p_M k = Some M -> p_BW k = Some BW -> p_fp k = Some fp -> get_lf gi (lfkw e n BW) h = Ok (S0, d0, h0) ->
  let poles := plf_poles fp M (p_fps k) in (M = 3%nat /\ (3 <= length poles)%nat) \/ (M = 4%nat /\ (6 <= length poles)%nat) -> exists S h', get_plf gi k h = Ok (S, h').
Proof.
  intros E1 E2 E3 E4 E5 E0 poles HM. unfold get_plf. rewrite E1, E2, E3, E4, E5. destruct (Nat.leb_spec M 1) as [|HM1]; [lia|].
  assert (EP : (match p_fps k with Some l => l | None => repeat (1 * (2 * PI * fp)) (list_sum (seq 1 (M - 1))) end) = poles).
  { unfold poles, plf_poles. destruct (p_fps k); [reflexivity|]. rewrite Rmult_1_l. f_equal. assert (X := sum_seq M). rewrite <- X, Nat.mul_comm, Nat.div_mul by lia. reflexivity. }
  rewrite EP. destruct (leap_frogs_ok gi e n BW M h S0 d0 h0 E0) as (h2 & EL). unfold lfkw in EL. rewrite EL. cbn [bind].
  destruct (lf_parts gi e n BW h S0 d0 h0 E0) as (Hn & V & SN0 & SL0 & SM0 & SMt0 & HB & HG & _).
  destruct (stack_coupled S0 M n (fun _ _ => 0) V ltac:(lia) SN0 HG) as (S2 & ES & HC). specialize (HC (fun _ _ => eq_refl)). rewrite ES. cbn [bind].
  destruct HM as [[-> HL]|[-> HL]]; cbn [Nat.eqb].
  - destruct (couple_total n poles cpl3 (aA S2)) as (A & EA). { intros k' r c Hin. unfold cpl3 in Hin. cbn [In] in Hin. repeat (destruct Hin as [E|Hin]; [injection E as <- <- <-; lia|]). destruct Hin. }
    fold cpl3. rewrite EA. cbn [bind]. destruct (couple3 gi n (aA S0) (aA S2) _ poles A HC EA) as [CA _]. destruct (parallel_build S0 3 n A _ V ltac:(lia) SN0 SL0 SM0 SMt0 HG S2 ES CA) as (S' & -> & _). cbn [bind]. eauto.
  - destruct (couple_total n poles cpl4 (aA S2)) as (A & EA). { intros k' r c Hin. unfold cpl4 in Hin. cbn [In] in Hin. repeat (destruct Hin as [E|Hin]; [injection E as <- <- <-; lia|]). destruct Hin. }
    fold cpl4. rewrite EA. cbn [bind]. destruct (couple4 gi n (aA S0) (aA S2) _ poles A HC EA) as [CA _]. destruct (parallel_build S0 4 n A _ V ltac:(lia) SN0 SL0 SM0 SMt0 HG S2 ES CA) as (S' & -> & _). cbn [bind]. eauto.
Qed.
End Plf.
