(** Facts about the AnalogSystem constructor, derivative and observations. *)
From Coq Require Import List Arith Lia Bool.
From Verif Require Import Base LinAlg AnalogSystem.
Import ListNotations.

Section P.
Context {K : cring}.
Add Ring Kring : (rth K).
Local Notation "0" := (r0 K).
Local Notation "1" := (r1 K).
Local Infix "+" := (radd K).
Local Infix "*" := (rmul K).

(** *** Specification vocabulary *)
(** entry [i] of the product matrix times vector *)
Definition lin (m : nd2 K) (x : list K) (i : nat) : K := ksum (cols m) (fun k => ent m i k * nth k x 0).
Definition lino (m : option (nd2 K)) (x : list K) (i : nat) : K := match m with Some m => lin m x i | None => 0 end.
(** A x + B u + Gamma c, with no third term for a system without controls *)
Definition rhs (s : asys K) (x u c : list K) : list K :=
  map (fun i => lin (aA s) x i + lin (aB s) u i + lino (aG s) c i) (seq O (sN s)).
(** C^T x + D u *)
Definition out (s : asys K) (x u : list K) : list K :=
  map (fun i => lin (aCT s) x i + lin (aD s) u i) (seq O (sNt s)).
(** Gamma_tilde^T x and A_tilde c, B_tilde u *)
Definition obs_x (s : asys K) (x : list K) : list K := map (lino (aGt s) x) (seq O (sMt s)).
Definition obs_s (s : asys K) (c : list K) : list K := map (lin (aAt s) c) (seq O (sMt s)).
Definition obs_u (s : asys K) (u : list K) : list K := map (lin (aBt s) u) (seq O (sMt s)).

Definition has_shape (r c : nat) (a : ndarr K) : Prop := match a with D2 m => rows m = r /\ cols m = c | D1 _ => False end.
Definition col_shape (r c : nat) (a : ndarr K) : Prop := match a with D2 m => rows m = r /\ cols m = c | D1 v => length v = r /\ c = 1%nat end.
Definition row_shape (r c : nat) (a : ndarr K) : Prop := match a with D2 m => rows m = r /\ cols m = c | D1 v => r = 1%nat /\ length v = c end.
Definition opt_shape (r c : nat) (a : option (ndarr K)) : Prop := match a with None => True | Some a => has_shape r c a end.

Record valid (s : asys K) : Prop := mkValid {
  v_A : cols (aA s) = sN s;
  v_B : rows (aB s) = sN s;
  v_CT : cols (aCT s) = sN s;
  v_G : match aG s with Some g => rows g = sN s | None => True end;
  v_Gt : match aGt s with Some g => cols g = sN s | None => True end;
  v_D : rows (aD s) = sNt s /\ cols (aD s) = sL s;
  v_Bt : rows (aBt s) = sMt s /\ cols (aBt s) = sL s;
  v_At : rows (aAt s) = sMt s /\ cols (aAt s) = sM s
}.

Lemma bind_ok {A B} (r : result A) (f : A -> result B) b : bind r f = Ok b -> exists a, r = Ok a /\ f a = Ok b.
Proof. destruct r as [a|e]; simpl; [eauto|discriminate]. Qed.

(** what the matching pieces are for given arguments *)
Lemma chk_opt_ok r c a m : chk_opt r c a = Ok m -> opt_shape r c a /\ rows m = r /\ cols m = c /\
  match a with None => m = zeros r c | Some a => a = D2 m end.
Proof.
  destruct a as [a|]; cbn [chk_opt opt_shape].
  - destruct (Nat.eqb_spec (shape0 a) r) as [E|E]; cbn [negb]; [|discriminate].
    destruct a as [v|m0]; [discriminate|]. cbn [shape0] in E.
    destruct (Nat.eqb_spec (cols m0) c) as [E'|E']; cbn [negb]; [|discriminate].
    intros H; apply Ok_inj in H; subst m0. cbn. auto.
  - intros H; apply Ok_inj in H; subst m. cbn. auto.
Qed.
Lemma chk_opt_total r c a : opt_shape r c a -> exists m, chk_opt r c a = Ok m.
Proof.
  destruct a as [[v|m]|]; cbn [chk_opt opt_shape has_shape]; [contradiction| |eauto].
  intros [E1 E2]. cbn [shape0]. rewrite E1, E2, !Nat.eqb_refl. cbn. eauto.
Qed.

Definition colof (N : nat) (b : ndarr K) : nd2 K := match b with D1 v => mk2 N 1 (fun i _ => nth i v 0) | D2 m => m end.
Definition rowof (N : nat) (b : ndarr K) : nd2 K := match b with D1 v => mk2 1 N (fun _ j => nth j v 0) | D2 m => m end.
Definition mato (a : option (ndarr K)) : option (nd2 K) := match a with Some (D2 m) => Some m | _ => None end.
Definition matd (r c : nat) (a : option (ndarr K)) : nd2 K := match a with Some (D2 m) => m | _ => zeros r c end.

Definition fits (N L Nt M Mt : nat) (A B CT : ndarr K) (G Gt D Bt At : option (ndarr K)) : Prop :=
  has_shape N N A /\ col_shape N L B /\ row_shape Nt N CT /\
  match G with None => M = O | Some g => has_shape N M g end /\
  match Gt with None => Mt = O | Some g => has_shape Mt N g end /\
  opt_shape Nt L D /\ opt_shape Mt L Bt /\ opt_shape Mt M At.

(** The constructor succeeds exactly on matching shapes, and stores what it was given. *)
Lemma as_init_ok A B CT G Gt D Bt At s :
  as_init A B CT G Gt D Bt At = Ok s ->
  fits (sN s) (sL s) (sNt s) (sM s) (sMt s) A B CT G Gt D Bt At /\ valid s /\
  A = D2 (aA s) /\ aB s = colof (sN s) B /\ aCT s = rowof (sN s) CT /\ aG s = mato G /\ aGt s = mato Gt /\
  aD s = matd (sNt s) (sL s) D /\ aBt s = matd (sMt s) (sL s) Bt /\ aAt s = matd (sMt s) (sM s) At.
Proof.
  unfold as_init. intros H.
  apply bind_ok in H as ([g M] & HG & H). apply bind_ok in H as ([gt Mt] & HGt & H).
  destruct A as [v|a]; [discriminate|]. cbn [shape0] in *.
  destruct (Nat.eqb_spec (rows a) (cols a)) as [Esq|]; cbn [negb] in H; [|discriminate].
  apply bind_ok in H as (b & Hb & H). apply bind_ok in H as (c & Hc & H).
  destruct (Nat.eqb_spec (rows b) (rows a)) as [Eb|]; cbn [negb] in H; [|discriminate].
  destruct (Nat.eqb_spec (cols c) (rows a)) as [Ec|]; cbn [negb] in H; [|discriminate].
  apply bind_ok in H as (d & Hd & H). apply bind_ok in H as (bt & Hbt & H). apply bind_ok in H as (at_ & Hat & H).
  apply Ok_inj in H. subst s.
  apply chk_opt_ok in Hd as (Sd & Rd & Cd & Ed), Hbt as (Sbt & Rbt & Cbt & Ebt), Hat as (Sat & Rat & Cat & Eat).
  assert (HGs : aG (mkAS a b c g gt d bt at_) = mato G /\ sM (mkAS a b c g gt d bt at_) = M /\
                match G with None => M = O | Some g => has_shape (rows a) M g end /\
                match g with Some g => rows g = rows a | None => True end).
  { unfold chk_gamma in HG. destruct G as [G|].
    - destruct (Nat.eqb_spec (shape0 G) (rows a)) as [E|]; cbn [negb] in HG; [|discriminate].
      destruct G as [|m]; [discriminate|]. apply Ok_inj in HG. injection HG as <- <-. cbn in *. auto.
    - apply Ok_inj in HG. injection HG as <- <-. cbn. auto. }
  assert (HGts : aGt (mkAS a b c g gt d bt at_) = mato Gt /\ sMt (mkAS a b c g gt d bt at_) = Mt /\
                match Gt with None => Mt = O | Some g => has_shape Mt (rows a) g end /\
                match gt with Some g => cols g = rows a | None => True end).
  { unfold chk_gammat in HGt. destruct Gt as [[|m]|]; [discriminate| |].
    - destruct (Nat.eqb_spec (cols m) (rows a)) as [E|]; cbn [negb] in HGt; [|discriminate].
      apply Ok_inj in HGt. injection HGt as <- <-. cbn. auto.
    - apply Ok_inj in HGt. injection HGt as <- <-. cbn. auto. }
  assert (HB : b = colof (rows a) B /\ col_shape (rows a) (cols b) B).
  { unfold as_column in Hb. destruct B as [v|m].
    - destruct (Nat.eqb_spec (length v) (rows a)); [|discriminate]. apply Ok_inj in Hb. subst b. cbn. auto.
    - apply Ok_inj in Hb. subst b. cbn. auto. }
  assert (HC : c = rowof (rows a) CT /\ row_shape (rows c) (rows a) CT).
  { unfold as_row in Hc. destruct CT as [v|m].
    - destruct (Nat.eqb_spec (length v) (rows a)); [|discriminate]. apply Ok_inj in Hc. subst c. cbn. auto.
    - apply Ok_inj in Hc. subst c. cbn. auto. }
  destruct HGs as (G1 & G2 & G3 & G4), HGts as (T1 & T2 & T3 & T4), HB as [B1 B2], HC as [C1 C2].
  split; [|split; [|repeat split]].
  - unfold fits. rewrite G2, T2. cbn [sN sL sNt aA aB aCT]. repeat split; auto.
  - constructor; rewrite ?G2, ?T2; cbn [sN sL sNt aA aB aCT aD aBt aAt aG aGt]; auto.
  - exact B1.
  - exact C1.
  - exact G1.
  - exact T1.
  - destruct D as [[|m]|]; [contradiction|injection Ed as <-; reflexivity|exact Ed].
  - rewrite T2. destruct Bt as [[|m]|]; [contradiction|injection Ebt as <-; reflexivity|exact Ebt].
  - rewrite T2, G2. destruct At as [[|m]|]; [contradiction|injection Eat as <-; reflexivity|exact Eat].
Qed.

Lemma as_init_total N L Nt M Mt A B CT G Gt D Bt At :
  fits N L Nt M Mt A B CT G Gt D Bt At ->
  exists s, as_init A B CT G Gt D Bt At = Ok s /\ sN s = N /\ sL s = L /\ sNt s = Nt /\ sM s = M /\ sMt s = Mt.
Proof.
  intros (HA & HB & HC & HG & HGt & HD & HBt & HAt).
  destruct A as [|a]; [contradiction|]. destruct HA as [Ra Ca].
  assert (EG : chk_gamma G N = Ok (mato G, M)).
  { destruct G as [[|g]|]; [contradiction| |subst; reflexivity]. destruct HG as [R C]. cbn. rewrite R, Nat.eqb_refl. cbn. now subst. }
  assert (EGt : chk_gammat Gt N = Ok (mato Gt, Mt)).
  { destruct Gt as [[|g]|]; [contradiction| |subst; reflexivity]. destruct HGt as [R C]. cbn. rewrite C, Nat.eqb_refl. cbn. now subst. }
  assert (EB : as_column N B = Ok (colof N B) /\ rows (colof N B) = N /\ cols (colof N B) = L).
  { destruct B as [v|b]; cbn in *; destruct HB as [E1 E2]; rewrite ?E1, ?E2, ?Nat.eqb_refl; auto. }
  assert (EC : as_row N CT = Ok (rowof N CT) /\ rows (rowof N CT) = Nt /\ cols (rowof N CT) = N).
  { destruct CT as [v|b]; cbn in *; destruct HC as [E1 E2]; rewrite ?E1, ?E2, ?Nat.eqb_refl; auto. }
  destruct EB as (EB & RB & CB), EC as (EC & RC & CC).
  destruct (chk_opt_total _ _ _ HD) as [d Ed], (chk_opt_total _ _ _ HBt) as [bt Ebt], (chk_opt_total _ _ _ HAt) as [at_ Eat].
  exists (mkAS a (colof N B) (rowof N CT) (mato G) (mato Gt) d bt at_).
  split.
  - unfold as_init. cbn [shape0]. rewrite Ra, Ca, EG. cbn [bind]. rewrite EGt. cbn [bind]. rewrite Nat.eqb_refl. cbn [negb].
    rewrite EB. cbn [bind]. rewrite EC. cbn [bind]. rewrite RB, CC, Nat.eqb_refl. cbn [negb]. rewrite RC, CB, Ed. cbn [bind].
    rewrite Ebt. cbn [bind]. rewrite Eat. reflexivity.
  - unfold sN, sL, sNt, sM, sMt. cbn [aA aB aCT aG aGt].
    repeat split; auto.
    + destruct G as [[|g]|]; cbn in *; try contradiction; [destruct HG|]; auto.
    + destruct Gt as [[|g]|]; cbn in *; try contradiction; [destruct HGt|]; auto.
Qed.

(** *** derivative, observations *)
Lemma dotv_ok m x : cols m = length x -> dotv m x = Ok (map (lin m x) (seq O (rows m))).
Proof. intros H. unfold dotv. rewrite H, Nat.eqb_refl. unfold lin. now rewrite H. Qed.

Lemma vadd_map (f g : nat -> K) l : vadd (map f l) (map g l) = map (fun i => f i + g i) l.
Proof. unfold vadd. induction l; simpl; f_equal; auto. Qed.

Lemma derivative_rhs s x u c : valid s -> aG s <> None -> length x = sN s -> length u = sL s -> length c = sM s ->
  derivative s x u c = Ok (rhs s x u c).
Proof.
  intros V HG Hx Hu Hc. unfold derivative, rhs. rewrite dotv_ok by (rewrite (v_A _ V); auto). cbn [bind].
  rewrite dotv_ok by (symmetry; exact Hu). cbn [bind].
  pose proof (v_G _ V) as VG. unfold sM in Hc. destruct (aG s) as [g|] eqn:E; [|congruence]. cbn [dotv_opt lino].
  rewrite dotv_ok by auto. cbn [bind]. rewrite VG, (v_B _ V). fold (sN s). now rewrite !vadd_map.
Qed.

Lemma derivative_none s x u c : valid s -> aG s = None -> length x = sN s -> length u = sL s -> derivative s x u c = Exn TypeError.
Proof.
  intros V HG Hx Hu. unfold derivative. rewrite dotv_ok by (rewrite (v_A _ V); auto). cbn [bind].
  rewrite dotv_ok by (symmetry; exact Hu). cbn [bind]. now rewrite HG.
Qed.

Lemma signal_observation_ok s x : valid s -> length x = sN s -> signal_observation s x = Ok (map (lin (aCT s) x) (seq O (sNt s))).
Proof. intros V Hx. unfold signal_observation. rewrite dotv_ok; auto. rewrite (v_CT _ V); auto. Qed.

Lemma control_observation_x s x : valid s -> aGt s <> None -> length x = sN s -> control_observation s x None None = Ok (obs_x s x).
Proof.
  intros V HG Hx. unfold control_observation, obs_x, sMt. pose proof (v_Gt _ V). destruct (aGt s) as [g|]; [|congruence].
  cbn [dotv_opt]. rewrite dotv_ok by congruence. reflexivity.
Qed.
Lemma control_observation_xus s x u c : valid s -> aGt s <> None -> length x = sN s -> length u = sL s -> length c = sM s ->
  control_observation s x (Some u) (Some c) = Ok (vadd (vadd (obs_x s x) (obs_u s u)) (obs_s s c)).
Proof.
  intros V HG Hx Hu Hc. unfold control_observation.
  pose proof (control_observation_x s x V HG Hx) as E. cbn [control_observation] in E. rewrite E. cbn [bind].
  destruct (v_Bt _ V) as [R1 C1], (v_At _ V) as [R2 C2].
  rewrite dotv_ok by congruence. cbn [bind]. rewrite dotv_ok by congruence. cbn [bind]. rewrite R1, R2. reflexivity.
Qed.

Lemma lin_add m x y i : length x = length y -> lin m (vadd x y) i = lin m x i + lin m y i.
Proof.
  intros H. unfold lin. rewrite <- ksum_add. apply ksum_ext. intros k _.
  destruct (Nat.lt_ge_cases k (length x)) as [L|L].
  - unfold vadd. rewrite (map2_nth _ _ _ _ 0 0) by lia. ring.
  - rewrite !nth_overflow by (rewrite ?vadd_length; lia). ring.
Qed.
Lemma lin_scale m a x i : lin m (vscale a x) i = a * lin m x i.
Proof.
  unfold lin. rewrite <- ksum_scale. apply ksum_ext. intros k _. unfold vscale.
  destruct (Nat.lt_ge_cases k (length x)) as [L|L].
  - rewrite (nth_indep _ 0 (a * 0)) by (now rewrite map_length). rewrite (map_nth (rmul K a)). ring.
  - rewrite !nth_overflow by (rewrite ?map_length; lia). ring.
Qed.
Lemma lino_add m x y i : length x = length y -> lino m (vadd x y) i = lino m x i + lino m y i.
Proof. destruct m; intros; simpl; [now apply lin_add|ring]. Qed.
Lemma lino_scale m a x i : lino m (vscale a x) i = a * lino m x i.
Proof. destruct m; intros; simpl; [now apply lin_scale|ring]. Qed.

Lemma rhs_linear s a x u c x' u' c' : length x = length x' -> length u = length u' -> length c = length c' ->
  rhs s (vadd (vscale a x) x') (vadd (vscale a u) u') (vadd (vscale a c) c') = vadd (vscale a (rhs s x u c)) (rhs s x' u' c').
Proof.
  intros H1 H2 H3. unfold rhs. unfold vscale at 4. rewrite map_map, vadd_map. apply map_ext. intros i.
  rewrite !lin_add, lino_add, !lin_scale, lino_scale by (now rewrite vscale_length). ring.
Qed.

Lemma obs_u_zero (S : asys K) u : (forall i j, ent (aBt S) i j = 0) -> obs_u S u = vzero (sMt S).
Proof.
  intros Z. unfold obs_u, vzero. generalize (seq_length (sMt S) O). generalize (seq O (sMt S)) as l. generalize (sMt S) as n.
  intros n l <-. induction l as [|i l IH]; [reflexivity|]. cbn. f_equal; [|exact IH].
  unfold lin. apply ksum_zero. intros k _. rewrite Z. ring.
Qed.

Lemma vadd_mid_zero (a b c : list K) : length a = length b -> length c = length b -> vadd (vadd a b) c = vadd a c -> b = vzero (length b).
Proof.
  unfold vadd, vzero. revert b c; induction a as [|x a IH]; intros [|y b] [|z c] H1 H2 H; cbn in *; try discriminate; [reflexivity|].
  injection H as H H'. f_equal; [|apply (IH b c); congruence].
  transitivity (x + y + z + ropp K x + ropp K z); [ring|]. rewrite H. ring.
Qed.

End P.
