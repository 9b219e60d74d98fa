From Coq Require Import List Arith Bool Reals Lia Lra Permutation.
From Verif Require Import Base LinAlg FirExtras AnalogSystem IntegratorsProofs CircuitProofs LcCircuit AnalogProofs Modulator.
Import ListNotations.
Open Scope R_scope.

(** ** Shuffling *)
Definition sh (h i : nat) : nat := if Nat.even i then Nat.div2 i else (h + Nat.div2 i)%nat.
Definition de (h j : nat) : nat := if Nat.ltb j h then (2 * j)%nat else (2 * (j - h) + 1)%nat.
Lemma div2_even i : Nat.div2 (2 * i) = i. Proof. apply Nat.div2_double. Qed.
Lemma div2_odd i : Nat.div2 (2 * i + 1) = i. Proof. rewrite Nat.add_1_r. apply Nat.div2_succ_double. Qed.
Lemma even_2 i : Nat.even (2 * i) = true. Proof. rewrite Nat.even_mul. reflexivity. Qed.
Lemma even_21 i : Nat.even (2 * i + 1) = false. Proof. rewrite Nat.add_1_r, Nat.even_succ. rewrite <- Nat.negb_even, even_2. reflexivity. Qed.
Lemma cases2 i : exists k, i = (2 * k)%nat \/ i = (2 * k + 1)%nat.
Proof. destruct (Nat.Even_or_Odd i) as [[k ->]|[k ->]]; exists k; auto. Qed.
Lemma sh_de h j : (j < 2 * h)%nat -> sh h (de h j) = j /\ (de h j < 2 * h)%nat.
Proof.
  intro H. unfold sh, de. destruct (Nat.ltb_spec j h).
  - rewrite even_2, div2_even. lia.
  - rewrite even_21, div2_odd. lia.
Qed.
Lemma de_sh h i : (i < 2 * h)%nat -> de h (sh h i) = i /\ (sh h i < 2 * h)%nat.
Proof.
  intro H. unfold sh, de. destruct (cases2 i) as [k [->| ->]].
  - rewrite even_2, div2_even. destruct (Nat.ltb_spec k h); lia.
  - rewrite even_21, div2_odd. destruct (Nat.ltb_spec (h + k) h); lia.
Qed.
Lemma shuffler_eq h : shuffler h = map (sh h) (seq 0 (2 * h)). Proof. reflexivity. Qed.
Lemma nth_map_seq {X} (f : nat -> X) n i d : (i < n)%nat -> nth i (map f (seq 0 n)) d = f i.
Proof. intro H. rewrite (nth_indep _ d (f 0%nat)) by (rewrite map_length, seq_length; exact H). rewrite map_nth, seq_nth by exact H. reflexivity. Qed.
Lemma de_shuffler_eq h : de_shuffler h = map (de h) (seq 0 (2 * h)).
Proof.
  unfold de_shuffler.
  assert (I : forall k, (k <= 2 * h)%nat -> let l := fold_left (fun d i => upd (nth i (shuffler h) 0%nat) i d) (seq 0 k) (repeat 0%nat (2 * h)) in
    length l = (2 * h)%nat /\ forall j, (j < 2 * h)%nat -> (de h j < k)%nat -> nth j l 0%nat = de h j).
  { induction k as [|k IH]; intro Hk; cbv zeta; [split; [apply repeat_length|intros; lia]|].
    rewrite seq_S, fold_left_app. cbn [fold_left plus]. destruct IH as [I1 I2]; [lia|]. set (l := fold_left _ (seq 0 k) _) in *.
    split; [now rewrite upd_length|]. intros j Hj Hd. rewrite nth_upd, I1. rewrite shuffler_eq, nth_map_seq by lia.
    rewrite (proj2 (Nat.ltb_lt j (2 * h))) by lia. rewrite andb_true_r. destruct (Nat.eqb_spec (sh h k) j) as [<-|Hne].
    - symmetry. apply de_sh. lia.
    - apply I2; [exact Hj|]. assert (de h j <> k) by (intros <-; apply Hne; now apply sh_de). lia. }
  destruct (I (2 * h)%nat (le_n _)) as [I1 I2]. apply (list_ext _ _ 0%nat); [now rewrite I1, map_length, seq_length|].
  intros i Hi. rewrite I1 in Hi. rewrite nth_map_seq by exact Hi. apply I2; [exact Hi|]. now apply sh_de.
Qed.
Lemma gather_ok {X} (x : list X) (f : nat -> nat) n d : (forall i, (i < n)%nat -> (f i < length x)%nat) ->
  gather x (map f (seq 0 n)) = Ok (map (fun i => nth (f i) x d) (seq 0 n)).
Proof.
  intro H. assert (G : forall l, (forall i, In i l -> (f i < length x)%nat) -> gather x (map f l) = Ok (map (fun i => nth (f i) x d) l)).
  { induction l as [|i l IH]; intro Hl; [reflexivity|]. cbn [map]. change (gather x (f i :: map f l)) with (bind (gather x (map f l)) (fun r => match nth_error x (f i) with Some v => Ok (v :: r) | None => Exn IndexError end)).
    rewrite IH by (intros; apply Hl; now right). cbn [bind]. rewrite (nth_error_nth' x d) by (apply Hl; now left). reflexivity. }
  apply G. intros i Hi. apply in_seq in Hi. apply H. lia.
Qed.

(** ** The rotation *)
Definition rot (h : nat) (phi : R) (i j : nat) : R :=
  if Nat.eqb i j then cos phi else if Nat.eqb (i + h) j then - sin phi else if Nat.eqb (j + h) i then sin phi else 0.
Lemma buf_eq m phi h i j : sN (m_sys m) = (2 * h)%nat -> (i < 2 * h)%nat -> (j < 2 * h)%nat -> @eq R (ent (m_buf (rotation_matrix m phi)) i j) (rot h phi i j).
Proof.
  intros HN Hi Hj. unfold rotation_matrix. rewrite HN, div2_even. cbn [m_buf setblk ent scale_eye]. rewrite !Nat.sub_0_r. unfold rot.
  repeat match goal with |- context [Nat.leb ?a ?b] => destruct (Nat.leb_spec a b) | |- context [Nat.ltb ?a ?b] => destruct (Nat.ltb_spec a b) end;
  cbn [andb]; repeat match goal with |- context [Nat.eqb ?a ?b] => destruct (Nat.eqb_spec a b) end; try lia; cbn [car Rring]; try ring; try reflexivity.
Qed.
Lemma rows_buf m phi : rows (m_buf (rotation_matrix m phi)) = rows (m_buf m). Proof. reflexivity. Qed.
Lemma cols_buf m phi : cols (m_buf (rotation_matrix m phi)) = cols (m_buf m). Proof. reflexivity. Qed.

Lemma rsum_two n a b (p q : R) (f : nat -> R) : (a < n)%nat -> (b < n)%nat -> a <> b -> (forall k, (k < n)%nat -> f k = if Nat.eqb a k then p else if Nat.eqb b k then q else 0) -> rsum n f = p + q.
Proof.
  intros Ha Hb Hab Hf.
  rewrite (rsum_ext n f (fun k => (if Nat.eqb a k then 1 else 0) * (fun _ => p) k + (if Nat.eqb b k then 1 else 0) * (fun _ => q) k)).
  - rewrite rsum_add, !rsum_pick. rewrite (proj2 (Nat.ltb_lt a n) Ha), (proj2 (Nat.ltb_lt b n) Hb). reflexivity.
  - intros k Hk. rewrite Hf by exact Hk. destruct (Nat.eqb_spec a k), (Nat.eqb_spec b k); subst; try congruence; ring.
Qed.
(** the coordinate paired with position [p] *)
Definition mate (h p : nat) : nat := if Nat.ltb p h then (p + h)%nat else (p - h)%nat.
Definition sgn (h p : nat) : R := if Nat.ltb p h then - 1 else 1.
Definition turn (h : nat) (phi : R) (y : nat -> R) (p : nat) : R := cos phi * y p + sgn h p * sin phi * y (mate h p).
Lemma rot_apply h phi y p : (p < 2 * h)%nat -> rsum (2 * h) (fun k => rot h phi p k * y k) = turn h phi y p.
Proof.
  intro Hp. unfold turn, mate, sgn. destruct (Nat.ltb_spec p h) as [H|H].
  - rewrite (rsum_two (2 * h) p (p + h) (cos phi * y p) (- sin phi * y (p + h)%nat)); [ring|lia|lia|lia|].
    intros k Hk. unfold rot. destruct (Nat.eqb_spec p k) as [->|]; [reflexivity|]. destruct (Nat.eqb_spec (p + h) k) as [<-|]; [reflexivity|]. destruct (Nat.eqb_spec (k + h) p); [lia|ring].
  - rewrite (rsum_two (2 * h) p (p - h) (cos phi * y p) (sin phi * y (p - h)%nat)); [ring|lia|lia|lia|].
    intros k Hk. unfold rot. destruct (Nat.eqb_spec p k) as [->|]; [reflexivity|]. destruct (Nat.eqb_spec (p + h) k); [lia|].
    destruct (Nat.eqb_spec (k + h) p), (Nat.eqb_spec (p - h) k); try lia; [rewrite e0; reflexivity|ring].
Qed.
Lemma mate_mate h p : (p < 2 * h)%nat -> mate h (mate h p) = p /\ (mate h p < 2 * h)%nat /\ sgn h (mate h p) = - sgn h p /\ sgn h p * sgn h p = 1.
Proof.
  intro Hp. unfold mate, sgn. destruct (Nat.ltb_spec p h).
  - destruct (Nat.ltb_spec (p + h) h); [lia|]. repeat split; try lia; lra.
  - destruct (Nat.ltb_spec (p - h) h); [|lia]. repeat split; try lia; lra.
Qed.

(** shuffle, rotate, shuffle back *)
Definition pipe (h : nat) (phi : R) (x : list R) : list R := map (fun j => turn h phi (fun p => nth (sh h p) x 0) (de h j)) (seq 0 (2 * h)).
Lemma pipe_length h phi x : length (pipe h phi x) = (2 * h)%nat. Proof. unfold pipe. now rewrite map_length, seq_length. Qed.
Lemma pipe_ok (b : nd2 Rring) h phi x : rows b = (2 * h)%nat -> cols b = (2 * h)%nat -> (forall i j, (i < 2 * h)%nat -> (j < 2 * h)%nat -> ent b i j = rot h phi i j) ->
  (2 * h <= length x)%nat -> 
  bind (gather x (shuffler h)) (fun y => bind (dotv (K := Rring) b y) (fun z => gather z (de_shuffler h))) = Ok (pipe h phi x).
Proof.
  intros Hr Hc Hb Hx. rewrite shuffler_eq, (gather_ok x (sh h) (2 * h) 0) by (intros i Hi; pose proof (de_sh h i Hi); lia). cbn [bind].
  unfold dotv. rewrite map_length, seq_length, Hc, Nat.eqb_refl. cbn [bind]. rewrite Hr, de_shuffler_eq.
  rewrite (gather_ok _ (de h) (2 * h) 0) by (intros i Hi; rewrite map_length, seq_length; now apply sh_de). f_equal. unfold pipe. apply map_ext_in.
  intros j Hj. apply in_seq in Hj. assert (Hd : (de h j < 2 * h)%nat) by (apply sh_de; lia).
  rewrite (nth_map_seq (fun i => _) (2 * h) (de h j) 0 Hd). rewrite <- rot_apply by exact Hd. rewrite (ksum_rsum (2 * h)). apply rsum_ext. intros k Hk.
  rewrite (nth_map_seq _ _ _ _ Hk). rewrite Hb by (try exact Hd; lia). reflexivity.
Qed.

(** ** Specification: which coordinates are turned against each other *)
Definition pairs (N : nat) : list (nat * nat) :=
  let k := Nat.div N 4 in
  if Nat.eqb (Nat.modulo N 4) 0
  then map (fun j => (j, (j + k)%nat)) (seq 0 k) ++ map (fun j => (j, (j + k)%nat)) (seq (2 * k) k)
  else map (fun j => (j, (j + 3 * k + 1)%nat)) (seq 0 (k + 1)) ++ map (fun j => ((2 * k + 1 + j)%nat, (k + 1 + j)%nat)) (seq 0 k).
Definition flat (l : list (nat * nat)) : list nat := flat_map (fun '(a, b) => [a; b]) l.
Definition rotated (N : nat) (phi : R) (x w : list R) : Prop := length w = N /\ forall a b, In (a, b) (pairs N) ->
  nth a w 0 = cos phi * nth a x 0 - sin phi * nth b x 0 /\ nth b w 0 = sin phi * nth a x 0 + cos phi * nth b x 0.
Definition normsq (x : list R) : R := fold_right (fun v s => v * v + s) 0 x.

Lemma four h : (exists k, h = 2 * k /\ Nat.div (2 * h) 4 = k /\ Nat.modulo (2 * h) 4 = 0)%nat \/ (exists k, h = 2 * k + 1 /\ Nat.div (2 * h) 4 = k /\ Nat.modulo (2 * h) 4 = 2)%nat.
Proof.
  destruct (cases2 h) as [k [->| ->]]; [left|right]; exists k; (split; [reflexivity|]); split.
  - symmetry. apply (Nat.div_unique _ 4 k 0); lia.
  - symmetry. apply (Nat.mod_unique _ 4 k 0); lia.
  - symmetry. apply (Nat.div_unique _ 4 k 2); lia.
  - symmetry. apply (Nat.mod_unique _ 4 k 2); lia.
Qed.
Lemma flat_in l j : In j (flat l) <-> exists a b, In (a, b) l /\ (j = a \/ j = b).
Proof.
  unfold flat. rewrite in_flat_map. split.
  - intros ((a & b) & H & [<-|[<-|[]]]); exists a, b; auto.
  - intros (a & b & H & [->| ->]); exists (a, b); split; auto; cbn; auto.
Qed.
Lemma flat_length l : length (flat l) = (2 * length l)%nat.
Proof. unfold flat. induction l as [|(a & b) l IH]; [reflexivity|]. cbn [flat_map length app]. rewrite IH. lia. Qed.
(** a pair, in terms of the shuffled positions *)
Lemma pairs_in h a b : In (a, b) (pairs (2 * h)) <-> exists p, (p < h)%nat /\ a = sh h p /\ b = sh h (p + h).
Proof.
  unfold pairs, sh. destruct (four h) as [(k & Hh & -> & ->)|(k & Hh & -> & ->)]; cbn [Nat.eqb]; rewrite in_app_iff, !in_map_iff; split.
  - intros [(j & E & Hj)|(j & E & Hj)]; apply in_seq in Hj; injection E as <- <-.
    + exists (2 * j)%nat. rewrite even_2, div2_even. replace (2 * j + h)%nat with (2 * (j + k))%nat by lia. rewrite even_2, div2_even. lia.
    + exists (2 * (j - h) + 1)%nat. rewrite even_21, div2_odd. replace (2 * (j - h) + 1 + h)%nat with (2 * (j - h + k) + 1)%nat by lia. rewrite even_21, div2_odd. lia.
  - intros (p & Hp & -> & ->). destruct (cases2 p) as [q [->| ->]].
    + left. exists q. rewrite even_2, div2_even. replace (2 * q + h)%nat with (2 * (q + k))%nat by lia. rewrite even_2, div2_even, in_seq. split; [reflexivity|lia].
    + right. exists (h + q)%nat. rewrite even_21, div2_odd. replace (2 * q + 1 + h)%nat with (2 * (q + k) + 1)%nat by lia. rewrite even_21, div2_odd, in_seq. split; [f_equal|]; lia.
  - intros [(j & E & Hj)|(j & E & Hj)]; apply in_seq in Hj; injection E as <- <-.
    + exists (2 * j)%nat. rewrite even_2, div2_even. replace (2 * j + h)%nat with (2 * (j + k) + 1)%nat by lia. rewrite even_21, div2_odd. lia.
    + exists (2 * j + 1)%nat. rewrite even_21, div2_odd. replace (2 * j + 1 + h)%nat with (2 * (j + k + 1))%nat by lia. rewrite even_2, div2_even. lia.
  - intros (p & Hp & -> & ->). destruct (cases2 p) as [q [->| ->]].
    + left. exists q. rewrite even_2, div2_even. replace (2 * q + h)%nat with (2 * (q + k) + 1)%nat by lia. rewrite even_21, div2_odd, in_seq. split; [f_equal|]; lia.
    + right. exists q. rewrite even_21, div2_odd. replace (2 * q + 1 + h)%nat with (2 * (q + k + 1))%nat by lia. rewrite even_2, div2_even, in_seq. split; [f_equal|]; lia.
Qed.
Lemma pairs_perm h : Permutation (seq 0 (2 * h)) (flat (pairs (2 * h))).
Proof.
  apply NoDup_Permutation_bis; [apply seq_NoDup| |].
  - rewrite flat_length, seq_length. unfold pairs. destruct (four h) as [(k & Hh & -> & ->)|(k & Hh & -> & ->)]; cbn [Nat.eqb]; rewrite app_length, !map_length, !seq_length; lia.
  - intros j Hj. apply in_seq in Hj. destruct (sh_de h j ltac:(lia)) as [E Hd]. apply flat_in. destruct (Nat.ltb_spec (de h j) h).
    + exists (sh h (de h j)), (sh h (de h j + h)). split; [apply pairs_in; eauto|auto].
    + exists (sh h (de h j - h)), (sh h (de h j - h + h)). split; [apply pairs_in; exists (de h j - h)%nat; repeat split; lia|]. right. rewrite Nat.sub_add by lia. auto.
Qed.
Lemma pairs_lt h a b : In (a, b) (pairs (2 * h)) -> (a < 2 * h)%nat /\ (b < 2 * h)%nat.
Proof. intro H. apply pairs_in in H. destruct H as (p & Hp & -> & ->). split; apply de_sh; lia. Qed.
Lemma pipe_rotated h phi x : rotated (2 * h) phi x (pipe h phi x).
Proof.
  split; [apply pipe_length|]. intros a b H. destruct (pairs_lt _ _ _ H) as [Ha Hb]. apply pairs_in in H. destruct H as (p & Hp & -> & ->).
  unfold pipe. rewrite !(nth_map_seq _ _ _ _ Ha), !(nth_map_seq _ _ _ _ Hb). rewrite (proj1 (de_sh h p ltac:(lia))), (proj1 (de_sh h (p + h) ltac:(lia))). unfold turn, sgn, mate.
  rewrite (proj2 (Nat.ltb_lt p h)) by exact Hp. rewrite (proj2 (Nat.ltb_ge (p + h) h)) by lia. rewrite Nat.add_sub. split; ring.
Qed.
(** ** Consequences of the specification *)
Lemma normsq_flat x h : length x = (2 * h)%nat -> normsq x = fold_right (fun '(a, b) s => nth a x 0 * nth a x 0 + nth b x 0 * nth b x 0 + s) 0 (pairs (2 * h)).
Proof.
  intro Hx. assert (E : x = map (fun i => nth i x 0) (seq 0 (2 * h))) by (apply (list_ext _ _ 0); [now rewrite map_length, seq_length|]; intros i Hi; rewrite nth_map_seq by lia; reflexivity).
  rewrite E at 1. set (g := fun l => normsq (map (fun i => nth i x 0) l)). transitivity (g (seq 0 (2 * h))); [reflexivity|].
  transitivity (g (flat (pairs (2 * h)))).
  - assert (P := pairs_perm h). unfold g, normsq. clear E g Hx. induction P; cbn [map fold_right]; [reflexivity|rewrite IHP; reflexivity|ring|congruence].
  - unfold g. induction (pairs (2 * h)) as [|(a & b) l IH]; [reflexivity|]. cbn [flat flat_map app map fold_right]. unfold normsq in *. cbn [fold_right]. fold (flat l). rewrite IH. ring.
Qed.
Lemma rotated_norm h phi x w : length x = (2 * h)%nat -> rotated (2 * h) phi x w -> normsq w = normsq x.
Proof.
  intros Hx [Hw Hr]. rewrite (normsq_flat w h Hw), (normsq_flat x h Hx). induction (pairs (2 * h)) as [|(a & b) l IH]; [reflexivity|]. cbn [fold_right].
  rewrite IH by (intros; apply Hr; now right). destruct (Hr a b (or_introl eq_refl)) as [-> ->]. pose proof (sin2_cos2 phi) as E. unfold Rsqr in E.
  transitivity ((sin phi * sin phi + cos phi * cos phi) * (nth a x 0 * nth a x 0 + nth b x 0 * nth b x 0) + fold_right (fun '(a, b) s => nth a x 0 * nth a x 0 + nth b x 0 * nth b x 0 + s) 0 l); [ring|].
  rewrite E. ring.
Qed.
Lemma rotated_add h a b x w v : rotated (2 * h) a x w -> rotated (2 * h) b w v -> rotated (2 * h) (a + b) x v.
Proof.
  intros [_ H1] [Hl H2]. split; [exact Hl|]. intros i j Hij. destruct (H1 i j Hij) as [E1 E2], (H2 i j Hij) as [E3 E4]. rewrite E3, E4, E1, E2, cos_plus, sin_plus. split; ring.
Qed.
Lemma rotated_zero h x v : length x = (2 * h)%nat -> rotated (2 * h) 0 x v -> v = x.
Proof.
  intros Hx [Hl H]. apply (list_ext _ _ 0); [lia|]. intros j Hj. rewrite Hl in Hj.
  assert (Hin : In j (flat (pairs (2 * h)))) by (apply (Permutation_in _ (pairs_perm h)), in_seq; lia).
  apply flat_in in Hin. destruct Hin as (a & b & Hab & Hj'). destruct (H a b Hab) as [E1 E2]. rewrite cos_0, sin_0 in E1, E2. destruct Hj' as [->| ->]; [rewrite E1|rewrite E2]; ring.
Qed.
(** ** The object *)
Record wf (m : smod) : Prop := mkWf { w_v : valid (m_sys m); w_N : Nat.even (sN (m_sys m)) = true; w_M : Nat.even (sM (m_sys m)) = true;
  w_r : rows (m_buf m) = sN (m_sys m); w_c : cols (m_buf m) = sN (m_sys m) }.
Lemma init_wf S f m : valid S -> mod_init S f = Ok m -> wf m /\ m_sys m = S /\ m_w m = 2 * PI * f.
Proof.
  intros V. unfold mod_init. rewrite <- !Nat.negb_even. destruct (Nat.even (sN S)) eqn:E1, (Nat.even (sM S)) eqn:E2; cbn [negb]; intro H; try discriminate. injection H as <-.
  split; [constructor; cbn; auto|split; reflexivity].
Qed.
Lemma rotation_wf m phi : wf m -> wf (rotation_matrix m phi).
Proof. intros [A B C D E]. constructor; cbn; auto. Qed.
Lemma even_half n : Nat.even n = true -> n = (2 * Nat.div2 n)%nat.
Proof. intro H. apply Nat.even_spec in H. destruct H as [k ->]. now rewrite div2_even. Qed.

Lemma bind3 {X Y} (g : result X) (d : X -> result X) (e : X -> result X) (c : X -> result Y) :
  bind g (fun y => bind (d y) (fun z => bind (e z) c)) = bind (bind g (fun y => bind (d y) e)) c.
Proof. destruct g as [y|]; [|reflexivity]. cbn [bind]. destruct (d y); reflexivity. Qed.
Lemma observation_pipe m t x u s : wf m -> (sN (m_sys m) <= length x)%nat ->
  mod_observation m t x u s = bind (control_observation (K := Rring) (m_sys m) (pipe (Nat.div2 (sN (m_sys m))) (- m_w m * t) x) u s) (fun r => Ok (r, demodulate m t)).
Proof.
  intros W Hx. pose proof (even_half _ (w_N _ W)) as HN. set (h := Nat.div2 (sN (m_sys m))) in *. unfold mod_observation. fold h.
  assert (P := pipe_ok (m_buf (demodulate m t)) h (- m_w m * t) x). 
  unfold demodulate in *. rewrite rows_buf, cols_buf, (w_r _ W), (w_c _ W) in P. specialize (P HN HN). 
  specialize (P (fun i j Hi Hj => buf_eq m _ h i j HN Hi Hj)). assert (HL : (2 * h <= @length R x)%nat) by (rewrite <- HN; exact Hx). specialize (P HL). clear HL.
  refine (eq_trans (bind3 (gather x (shuffler h)) (dotv (K := Rring) (m_buf (rotation_matrix m (- m_w m * t)))) (fun z => gather z (de_shuffler h)) _) _).
  exact (f_equal (fun r => bind r (fun w => bind (control_observation (K := Rring) (m_sys m) w u s) (fun r => Ok (r, rotation_matrix m (- m_w m * t))))) P).
Qed.
Lemma observation_short m t x u s : wf m -> (length x < sN (m_sys m))%nat -> mod_observation m t x u s = Exn IndexError.
Proof.
  intros W Hx. pose proof (even_half _ (w_N _ W)) as HN. set (h := Nat.div2 (sN (m_sys m))) in *. unfold mod_observation. fold h.
  replace (gather x (shuffler h)) with (@Exn (list R) IndexError); [reflexivity|]. symmetry. rewrite shuffler_eq.
  assert (Hin : In (de h (length x)) (seq 0 (2 * h))) by (apply in_seq; pose proof (sh_de h (length x)); lia).
  assert (G : forall l, In (de h (length x)) l -> gather x (map (sh h) l) = Exn IndexError).
  { clear Hin. induction l as [|i l IH]; [intros []|]. intros Hl. cbn [map].
    change (gather x (sh h i :: map (sh h) l)) with (bind (gather x (map (sh h) l)) (fun r => match nth_error x (sh h i) with Some v => Ok (v :: r) | None => Exn IndexError end)).
    destruct Hl as [->|Hl]; [|now rewrite IH]. destruct (sh_de h (length x) ltac:(lia)) as [-> _]. rewrite (proj2 (nth_error_None x (length x)) (le_n _)).
    assert (Hg : forall q, (exists r, gather x q = Ok r) \/ gather x q = Exn IndexError).
    { induction q as [|q0 q IHq]; [left; eexists; reflexivity|]. change (gather x (q0 :: q)) with (bind (gather x q) (fun r => match nth_error x q0 with Some v => Ok (v :: r) | None => Exn IndexError end)).
      destruct IHq as [[r ->]| ->]; [cbn [bind]; destruct (nth_error x q0); eauto|now right]. }
    destruct (Hg (map (sh h) l)) as [[r ->]| ->]; reflexivity. }
  now apply G.
Qed.

(** ** derivative: the leading block of the rotation *)
Definition cut (h M : nat) (phi : R) (y : nat -> R) (p : nat) : R :=
  cos phi * y p - (if Nat.ltb (p + h) M then sin phi * y (p + h)%nat else 0) + (if Nat.leb h p then sin phi * y (p - h)%nat else 0).
Lemma rot_cut h M phi y p : (0 < h)%nat -> (p < M)%nat -> (M <= 2 * h)%nat -> rsum M (fun k => rot h phi p k * y k) = cut h M phi y p.
Proof.
  intros Hh Hp HM. unfold cut.
  rewrite (rsum_ext M _ (fun k => (if Nat.eqb p k then 1 else 0) * (cos phi * y k) + ((if Nat.eqb (p + h) k then 1 else 0) * (- sin phi * y k) + (if Nat.eqb (p - h) k then 1 else 0) * ((if Nat.leb h p then 1 else 0) * (sin phi * y k))))).
  - rewrite !rsum_add, !rsum_pick. rewrite (proj2 (Nat.ltb_lt p M) Hp). rewrite (proj2 (Nat.ltb_lt (p - h) M)) by lia. destruct (Nat.ltb_spec (p + h) M), (Nat.leb_spec h p); ring.
  - intros k Hk. unfold rot. destruct (Nat.eqb_spec p k), (Nat.eqb_spec (p + h) k), (Nat.eqb_spec (k + h) p), (Nat.eqb_spec (p - h) k), (Nat.leb_spec h p); try lia; ring.
Qed.
Definition pipe_cut (h hm : nat) (phi : R) (s : list R) : list R := map (fun j => cut h (2 * hm) phi (fun p => nth (sh hm p) s 0) (de hm j)) (seq 0 (2 * hm)).
Lemma pipe_cut_ok (b : nd2 Rring) h hm phi s : rows b = (2 * hm)%nat -> cols b = (2 * hm)%nat -> (hm <= h)%nat -> (forall i j, (i < 2 * h)%nat -> (j < 2 * h)%nat -> ent b i j = rot h phi i j) ->
  (2 * hm <= length s)%nat ->
  bind (gather s (shuffler hm)) (fun y => bind (dotv (K := Rring) b y) (fun z => gather z (de_shuffler hm))) = Ok (pipe_cut h hm phi s).
Proof.
  intros Hr Hc Hh Hb Hx. rewrite shuffler_eq, (gather_ok s (sh hm) (2 * hm) 0) by (intros i Hi; pose proof (de_sh hm i Hi); lia). cbn [bind].
  unfold dotv. rewrite map_length, seq_length, Hc, Nat.eqb_refl. cbn [bind]. rewrite Hr, de_shuffler_eq.
  rewrite (gather_ok _ (de hm) (2 * hm) 0) by (intros i Hi; rewrite map_length, seq_length; now apply sh_de). f_equal. unfold pipe_cut. apply map_ext_in.
  intros j Hj. apply in_seq in Hj. assert (Hd : (de hm j < 2 * hm)%nat) by (apply sh_de; lia).
  rewrite (nth_map_seq (fun i => _) (2 * hm) (de hm j) 0 Hd). rewrite <- rot_cut by lia. rewrite (ksum_rsum (2 * hm)). apply rsum_ext. intros k Hk.
  rewrite (nth_map_seq _ _ _ _ Hk). rewrite Hb by lia. reflexivity.
Qed.
Lemma cut_full h phi y p : (p < 2 * h)%nat -> cut h (2 * h) phi y p = turn h phi y p.
Proof.
  intro Hp. unfold cut, turn, sgn, mate. destruct (Nat.ltb_spec p h).
  - rewrite (proj2 (Nat.ltb_lt _ _)) by lia. rewrite (proj2 (Nat.leb_gt _ _)) by lia. ring.
  - rewrite (proj2 (Nat.ltb_ge _ _)) by lia. rewrite (proj2 (Nat.leb_le _ _)) by lia. ring.
Qed.
Lemma pipe_cut_full h phi s : pipe_cut h h phi s = pipe h phi s.
Proof. unfold pipe_cut, pipe. apply map_ext_in. intros j Hj. apply in_seq in Hj. apply cut_full. apply sh_de. lia. Qed.
Lemma pipe_cut_small h hm phi s : (2 * hm <= h)%nat -> length s = (2 * hm)%nat -> pipe_cut h hm phi s = map (fun v => cos phi * v) s.
Proof.
  intros Hh Hs. unfold pipe_cut. apply (list_ext _ _ 0); [now rewrite !map_length, seq_length|]. intros j Hj. rewrite map_length, seq_length in Hj.
  rewrite (nth_map_seq _ _ _ _ Hj). destruct (sh_de hm j Hj) as [E Hd]. unfold cut. rewrite E. rewrite (proj2 (Nat.ltb_ge _ _)) by lia. rewrite (proj2 (Nat.leb_gt _ _)) by lia.
  rewrite (nth_indep (map _ s) 0 ((fun v => cos phi * v) 0)) by (rewrite map_length; lia). rewrite (map_nth (fun v => cos phi * v)). ring.
Qed.
Lemma mod_derivative_pipe m x t u s : wf m -> aG (m_sys m) <> None -> length x = sN (m_sys m) -> length u = sL (m_sys m) -> length s = sM (m_sys m) -> (sM (m_sys m) <= sN (m_sys m))%nat ->
  mod_derivative m x t u s = Ok (rhs (m_sys m) x u (pipe_cut (Nat.div2 (sN (m_sys m))) (Nat.div2 (sM (m_sys m))) (m_w m * t) s), modulate m t).
Proof.
  intros W HG Hx Hu Hs HMN. pose proof (even_half _ (w_N _ W)) as HN. pose proof (even_half _ (w_M _ W)) as HM.
  set (h := Nat.div2 (sN (m_sys m))) in *. set (hm := Nat.div2 (sM (m_sys m))) in *.
  assert (P := pipe_cut_ok (block (m_buf (modulate m t)) (sM (m_sys m))) h hm (m_w m * t) s).
  assert (HR : rows (block (m_buf (modulate m t)) (sM (m_sys m))) = (2 * hm)%nat) by (unfold block, modulate; cbn [rows]; rewrite rows_buf, (w_r _ W), Nat.min_l by exact HMN; exact HM).
  assert (HC : cols (block (m_buf (modulate m t)) (sM (m_sys m))) = (2 * hm)%nat) by (unfold block, modulate; cbn [cols]; rewrite cols_buf, (w_c _ W), Nat.min_l by exact HMN; exact HM).
  specialize (P HR HC ltac:(lia) (fun i j Hi Hj => buf_eq m _ h i j HN Hi Hj)).
  assert (HL : (2 * hm <= @length R s)%nat) by (rewrite <- HM; apply Nat.eq_le_incl; symmetry; exact Hs). specialize (P HL).
  set (w := pipe_cut h hm (m_w m * t) s) in *.
  assert (Hw : @length R w = sM (m_sys m)) by (unfold w, pipe_cut; rewrite map_length, seq_length; symmetry; exact HM).
  pose proof (derivative_rhs (K := Rring) (m_sys m) x u w (w_v _ W) HG Hx Hu Hw) as D.
  unfold mod_derivative, derivative in *. cbv zeta. fold hm.
  destruct (dotv (aA (m_sys m)) x) as [ax|]; [|discriminate D]. cbn [bind] in D |- *. destruct (dotv (aB (m_sys m)) u) as [bu|]; [|discriminate D]. cbn [bind] in D |- *.
  refine (eq_trans (bind3 (gather s (shuffler hm)) (dotv (K := Rring) (block (m_buf (modulate m t)) (sM (m_sys m)))) (fun z => gather z (de_shuffler hm)) _) _).
  refine (eq_trans (f_equal (fun r => bind r _) P) _). cbn [bind].
  destruct (dotv_opt (aG (m_sys m)) w) as [gw|]; [|discriminate D]. cbn [bind] in D |- *. injection D as D. now rewrite D.
Qed.
Lemma mod_derivative_wide m x t u s : wf m -> length x = sN (m_sys m) -> length u = sL (m_sys m) -> length s = sM (m_sys m) -> (sN (m_sys m) < sM (m_sys m))%nat ->
  mod_derivative m x t u s = Exn ValueError.
Proof.
  intros W Hx Hu Hs HMN. pose proof (even_half _ (w_M _ W)) as HM. set (hm := Nat.div2 (sM (m_sys m))) in *.
  unfold mod_derivative. cbv zeta. fold hm. rewrite (dotv_ok (K := Rring)) by (rewrite (v_A _ (w_v _ W)); symmetry; exact Hx). cbn [bind].
  rewrite (dotv_ok (K := Rring)) by (symmetry; exact Hu). cbn [bind].
  rewrite shuffler_eq, (gather_ok s (sh hm) (2 * hm) 0) by (intros i Hi; pose proof (de_sh hm i Hi); lia). cbn [bind].
  unfold dotv. rewrite map_length, seq_length. unfold block, modulate. cbn [cols]. rewrite cols_buf, (w_c _ W), Nat.min_r by lia.
  rewrite (proj2 (Nat.eqb_neq _ _)) by lia. reflexivity.
Qed.
Lemma mod_derivative_none m x t u : wf m -> aG (m_sys m) = None -> length x = sN (m_sys m) -> length u = sL (m_sys m) -> mod_derivative m x t u [] = Exn TypeError.
Proof.
  intros W HG Hx Hu. unfold mod_derivative. cbv zeta. rewrite (dotv_ok (K := Rring)) by (rewrite (v_A _ (w_v _ W)); symmetry; exact Hx). cbn [bind].
  rewrite (dotv_ok (K := Rring)) by (symmetry; exact Hu). cbn [bind]. unfold sM. rewrite HG. reflexivity.
Qed.
