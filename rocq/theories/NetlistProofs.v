(** Proofs about nets: connectivity and net names after any sequence of [connect] calls. *)
From Coq Require Import String Ascii List Lia Arith Bool ZArith Relation_Operators Relations.
From Verif Require Import Base Netlist.
Import ListNotations.
Open Scope nat_scope.

Section Rel.
Context {T : Type}.
Notation call := (T * T * string)%type.
Definition c_first (c : call) : T := fst (fst c).
Definition c_second (c : call) : T := snd (fst c).

(** wired together by the calls: the equivalence closure *)
Inductive wired (l : list call) : T -> T -> Prop :=
| w_call c : In c l -> wired l (c_first c) (c_second c)
| w_refl a : wired l a a
| w_sym a b : wired l a b -> wired l b a
| w_trans a b c : wired l a b -> wired l b c -> wired l a c.
Definition touched (l : list call) (t : T) : Prop := exists c, In c l /\ (t = c_first c \/ t = c_second c).

Lemma wired_mono l k a b : (forall c, In c l -> In c k) -> wired l a b -> wired k a b.
Proof. intros H. induction 1; [apply w_call; auto|apply w_refl|now apply w_sym|eapply w_trans; eauto]. Qed.
Lemma wired_app l c a b : wired l a b -> wired (l ++ [c]) a b.
Proof. apply wired_mono. intros. apply in_or_app. auto. Qed.

Lemma wired_step l c a b : wired (l ++ [c]) a b <->
  wired l a b \/ (wired l a (c_first c) /\ wired l (c_second c) b) \/ (wired l a (c_second c) /\ wired l (c_first c) b).
Proof.
  split.
  - induction 1 as [d Hd|x|x y _ IH|x y z _ IH1 _ IH2].
    + apply in_app_or in Hd. destruct Hd as [Hd|[<-|[]]]; [left; now apply w_call|]. right. left. split; apply w_refl.
    + left. apply w_refl.
    + destruct IH as [H|[[H1 H2]|[H1 H2]]]; [left; now apply w_sym| |].
      * right. right. split; now apply w_sym.
      * right. left. split; now apply w_sym.
    + destruct IH1 as [H|[[H1 H2]|[H1 H2]]], IH2 as [K|[[K1 K2]|[K1 K2]]].
      * left. eapply w_trans; eauto.
      * right. left. split; [eapply w_trans; eauto|auto].
      * right. right. split; [eapply w_trans; eauto|auto].
      * right. left. split; [auto|eapply w_trans; eauto].
      * right. left. split; [auto|auto].
      * left. eapply w_trans; [exact H1|exact K2].
      * right. right. split; [auto|eapply w_trans; eauto].
      * left. eapply w_trans; [exact H1|exact K2].
      * right. right. split; [auto|auto].
  - intros [H|[[H1 H2]|[H1 H2]]].
    + now apply wired_app.
    + eapply w_trans; [apply wired_app; exact H1|]. eapply w_trans; [|apply wired_app; exact H2]. apply w_call. apply in_or_app. cbn. auto.
    + eapply w_trans; [apply wired_app; exact H1|]. eapply w_trans; [|apply wired_app; exact H2]. apply w_sym. apply w_call. apply in_or_app. cbn. auto.
Qed.

Lemma wired_touched l a b : wired l a b -> a = b \/ (touched l a /\ touched l b).
Proof.
  induction 1 as [c H|x|x y _ IH|x y z _ IH1 _ IH2].
  - right. split; exists c; auto.
  - now left.
  - destruct IH as [->|[]]; auto.
  - destruct IH1 as [->|[]], IH2 as [->|[]]; auto.
Qed.
Lemma wired_untouched l a b : ~ touched l a -> wired l a b -> a = b.
Proof. intros H W. destruct (wired_touched _ _ _ W) as [|[? _]]; [auto|contradiction]. Qed.
Lemma wired_untouched' l a b : ~ touched l b -> wired l a b -> a = b.
Proof. intros H W. destruct (wired_touched _ _ _ W) as [|[_ ?]]; [auto|contradiction]. Qed.
Lemma touched_app l c t : touched (l ++ [c]) t <-> touched l t \/ t = c_first c \/ t = c_second c.
Proof.
  split.
  - intros (d & Hd & Ht). apply in_app_or in Hd. destruct Hd as [Hd|[<-|[]]]; [left; exists d; auto|right; auto].
  - intros [(d & Hd & Ht)|H].
    + exists d. split; [apply in_or_app; auto|auto].
    + exists c. split; [apply in_or_app; cbn; auto|auto].
Qed.

(** no call joins two nets that both exist already *)
Definition no_merge (calls : list call) : Prop := forall l c r, calls = l ++ c :: r ->
  ~ touched l (c_first c) \/ ~ touched l (c_second c) \/ wired l (c_first c) (c_second c).

Lemma no_merge_app l c : no_merge (l ++ [c]) -> no_merge l /\ (~ touched l (c_first c) \/ ~ touched l (c_second c) \/ wired l (c_first c) (c_second c)).
Proof.
  intro H. split.
  - intros k d r ->. apply (H k d (r ++ [c])). now rewrite <- app_assoc.
  - exact (H l c [] eq_refl).
Qed.
End Rel.

Section Nets.
Context {T : Type}.
Variable teq : forall a b : T, {a = b} + {a <> b}.
Variable tname : T -> string.
Notation call := (T * T * string)%type.
Notation cget := (cget teq).
Notation connect := (connect teq tname).
Notation connect_all := (connect_all teq tname).
Definition c_label (c : call) : string := net_label tname (c_first c) (c_second c) (snd c).

Lemma upd_port_length (l : list (port T)) p f : length (upd_port l p f) = length l.
Proof. revert p. induction l as [|x l IH]; intros [|p]; cbn; auto. Qed.
Lemma port_at_upd (l : list (port T)) p q f : p < length l -> port_at (upd_port l p f) q = if Nat.eqb p q then f (port_at l q) else port_at l q.
Proof.
  unfold port_at. revert p q. induction l as [|x l IH]; intros p q Hp; [cbn in Hp; lia|].
  destruct p as [|p], q as [|q]; cbn; auto. apply IH. cbn in Hp. lia.
Qed.
Lemma port_at_app (l : list (port T)) x q : q < length l -> port_at (l ++ [x]) q = port_at l q.
Proof. intro H. unfold port_at. now rewrite app_nth1. Qed.

(** what [connect] does to the assignment of terminals to ports, and to the port names *)
Lemma connect_conns st f s n t : cget (conns (connect st f s n)) t =
  match cget (conns st) f, cget (conns st) s with
  | Some p, _ => if teq t s then Some p else cget (conns st) t
  | None, Some q => if teq t f then Some q else cget (conns st) t
  | None, None => if teq t s then Some (length (ports st)) else if teq t f then Some (length (ports st)) else cget (conns st) t
  end.
Proof.
  unfold Netlist.connect. set (j := join teq st f s).
  assert (E : conns (match cget (conns j) f with Some p => mkSub (conns j) (upd_port (ports j) p (fun x => mkPort (p_terms x) (net_label tname f s n))) | None => j end) = conns j)
    by (destruct (cget (conns j) f); reflexivity).
  rewrite E. clear E. unfold j, join. destruct (cget (conns st) f), (cget (conns st) s); reflexivity.
Qed.

Definition wf (st : sub T) : Prop := forall t p, cget (conns st) t = Some p -> p < length (ports st).

Lemma connect_first st f s n : exists p, cget (conns (connect st f s n)) f = Some p.
Proof.
  rewrite connect_conns. destruct (cget (conns st) f) as [p|] eqn:E; [|destruct (cget (conns st) s)].
  - destruct (teq f s); eauto.
  - destruct (teq f f); [eauto|contradiction].
  - destruct (teq f s); [eauto|]. destruct (teq f f); [eauto|contradiction].
Qed.

Lemma connect_ports st f s n p q : wf st -> cget (conns (connect st f s n)) f = Some p -> q < length (ports (connect st f s n)) /\ q <> p \/ q = p ->
  p_name (port_at (ports (connect st f s n)) q) = if Nat.eqb q p then net_label tname f s n else p_name (port_at (ports st) q).
Proof.
  intros Hwf. unfold Netlist.connect. set (j := join teq st f s). intros Hp Hq.
  assert (Hj : cget (conns j) f = Some p) by (destruct (cget (conns j) f) eqn:E; [rewrite <- E; exact Hp|rewrite E in Hp; discriminate]). clear Hp. rewrite Hj in *. cbn [ports conns] in *.
  assert (Lj : p < length (ports j)).
  { revert Hj. unfold j, join. destruct (cget (conns st) f) as [a|] eqn:Ef, (cget (conns st) s) as [b|] eqn:Es; cbn; rewrite ?upd_port_length, ?app_length; cbn; rewrite ?Ef.
    - destruct (teq f s); intros [= <-]; eauto.
    - destruct (teq f s); intros [= <-]; eauto.
    - destruct (teq f f); [|contradiction]. intros [= <-]; eauto.
    - destruct (teq f s); [intros [= <-]; lia|]. destruct (teq f f); [|contradiction]. intros [= <-]; lia. }
  rewrite port_at_upd by exact Lj. destruct (Nat.eqb_spec q p) as [->|Hne].
  { rewrite Nat.eqb_refl. reflexivity. }
  destruct (Nat.eqb_spec p q) as [->|_]; [contradiction|]. destruct Hq as [[Hq _]|]; [|contradiction]. rewrite upd_port_length in Hq.
  revert Hj Lj Hq. unfold j, join. destruct (cget (conns st) f) as [a|] eqn:Ef, (cget (conns st) s) as [b|] eqn:Es; cbn [conns ports]; rewrite ?upd_port_length; intros Hj Lj Hq.
  - rewrite port_at_upd by eauto. destruct (Nat.eqb a q); reflexivity.
  - rewrite port_at_upd by eauto. destruct (Nat.eqb a q); reflexivity.
  - rewrite port_at_upd by eauto. destruct (Nat.eqb b q); reflexivity.
  - rewrite app_length in Hq. cbn in Hq, Hj. f_equal. apply port_at_app.
    destruct (teq f s); [injection Hj as <-; lia|]. destruct (teq f f); [|contradiction]. injection Hj as <-. lia.
Qed.

Lemma connect_length st f s n : length (ports st) <= length (ports (connect st f s n)) /\
  (cget (conns st) f = None -> cget (conns st) s = None -> length (ports (connect st f s n)) = S (length (ports st))).
Proof.
  unfold Netlist.connect, join. destruct (cget (conns st) f) as [a|] eqn:Ef, (cget (conns st) s) as [b|] eqn:Es; cbn [conns];
  match goal with |- context [match ?x with Some _ => _ | None => _ end] => destruct x end; cbn [ports]; rewrite ?upd_port_length, ?app_length; cbn; split; intros; try lia; discriminate.
Qed.

Lemma connect_wf st f s n : wf st -> wf (connect st f s n).
Proof.
  intros Hwf t p. destruct (connect_length st f s n) as [L1 L2]. rewrite connect_conns.
  destruct (cget (conns st) f) as [a|] eqn:Ef, (cget (conns st) s) as [b|] eqn:Es.
  - destruct (teq t s); [intros [= <-]|intros H]; (eapply Nat.lt_le_trans; [|exact L1]); eauto.
  - destruct (teq t s); [intros [= <-]|intros H]; (eapply Nat.lt_le_trans; [|exact L1]); eauto.
  - destruct (teq t f); [intros [= <-]|intros H]; (eapply Nat.lt_le_trans; [|exact L1]); eauto.
  - specialize (L2 eq_refl eq_refl). rewrite L2. destruct (teq t s); [intros [= <-]; lia|]. destruct (teq t f); [intros [= <-]; lia|].
    intros H. apply Hwf in H. lia.
Qed.

(** The invariant *)
Definition on_net (calls : list call) (a : T) (n : string) : Prop :=
  exists l c r, calls = l ++ c :: r /\ wired calls (c_first c) a /\ (forall d, In d r -> ~ wired calls (c_first d) a) /\ n = c_label c.

Definition inv (calls : list call) (st : sub T) : Prop :=
  wf st /\
  (forall t, cget (conns st) t = None <-> ~ touched calls t) /\
  (forall a b p q, cget (conns st) a = Some p -> cget (conns st) b = Some q -> (p = q <-> wired calls a b)) /\
  (forall a p, cget (conns st) a = Some p -> on_net calls a (p_name (port_at (ports st) p))).

Lemma connect_all_app st l c : connect_all st (l ++ [c]) = connect (connect_all st l) (c_first c) (c_second c) (snd c).
Proof. unfold Netlist.connect_all. rewrite fold_left_app. destruct c as [[f s] n]. reflexivity. Qed.

Lemma some_touched calls st t p : (forall t, cget (conns st) t = None <-> ~ touched calls t) -> cget (conns st) t = Some p -> ~ ~ touched calls t.
Proof. intros H E N. apply H in N. congruence. Qed.

Lemma inv_run calls : no_merge calls -> inv calls (connect_all sub0 calls).
Proof.
  induction calls as [|c l IH] using rev_ind; intro D.
  { split; [intros t p [=]|]. split; [|split].
    - intro t. split; [intros _ (c & [] & _)|reflexivity].
    - intros a b p q [=].
    - intros a p [=]. }
  destruct (no_merge_app _ _ D) as [Dl Dc]. specialize (IH Dl). rewrite connect_all_app. set (st := connect_all sub0 l) in *.
  set (f := c_first c) in *. set (s := c_second c) in *. destruct IH as (Hwf & Hnone & Hnet & Hlab).
  assert (W' := connect_wf st f s (snd c) Hwf). set (st' := connect st f s (snd c)) in *.
  assert (HT : forall t, touched (l ++ [c]) t <-> touched l t \/ t = f \/ t = s) by (intro; apply touched_app).
  assert (HW : forall a b, wired (l ++ [c]) a b <-> wired l a b \/ (wired l a f /\ wired l s b) \/ (wired l a s /\ wired l f b)) by (intros; apply wired_step).
  assert (Hnone' : forall t, cget (conns st') t = None <-> ~ touched (l ++ [c]) t).
  { intro t. rewrite HT. unfold st'. rewrite connect_conns.
    destruct (cget (conns st) f) as [a|] eqn:Ef; [|destruct (cget (conns st) s) as [b|] eqn:Es].
    - destruct (teq t s) as [->|N]; [split; [discriminate|tauto]|]. rewrite Hnone. split; [|tauto]. intros H [K|[->|K]]; [tauto| |tauto]. apply Hnone in H. congruence.
    - destruct (teq t f) as [->|N]; [split; [discriminate|tauto]|]. rewrite Hnone. split; [|tauto]. intros H [K|[K| ->]]; [tauto|tauto|]. apply Hnone in H. congruence.
    - destruct (teq t s) as [->|N]; [split; [discriminate|tauto]|]. destruct (teq t f) as [->|N']; [split; [discriminate|tauto]|]. rewrite Hnone. tauto. }
  assert (Hnet' : forall a b p q, cget (conns st') a = Some p -> cget (conns st') b = Some q -> (p = q <-> wired (l ++ [c]) a b)).
  { intros a b p q Ha Hb. rewrite HW. unfold st' in Ha, Hb. rewrite connect_conns in Ha, Hb.
    assert (U : forall x y, cget (conns st) x = None -> wired l x y -> x = y) by (intros x y Hx; apply wired_untouched; now apply Hnone).
    assert (U' : forall x y, cget (conns st) y = None -> wired l x y -> x = y) by (intros x y Hy; apply wired_untouched'; now apply Hnone).
    destruct (cget (conns st) f) as [pf|] eqn:Ef; [destruct (cget (conns st) s) as [ps|] eqn:Es|destruct (cget (conns st) s) as [ps|] eqn:Es].
    - (* both connected: same net already *)
      assert (Wfs : wired l f s). { destruct Dc as [N|[N|W]]; [apply Hnone in N; congruence|apply Hnone in N; congruence|exact W]. }
      assert (pf = ps) by (apply (Hnet f s); assumption). subst ps.
      assert (E : forall x r, (if teq x s then Some pf else cget (conns st) x) = Some r -> cget (conns st) x = Some r).
      { intros x r. destruct (teq x s) as [->|]; [rewrite Es|]; auto. }
      apply E in Ha, Hb. rewrite (Hnet a b p q Ha Hb). split; [auto|]. intros [H|[[H1 H2]|[H1 H2]]]; [auto| |].
      + eapply w_trans; [exact H1|]. eapply w_trans; [exact Wfs|exact H2].
      + eapply w_trans; [exact H1|]. eapply w_trans; [apply w_sym; exact Wfs|exact H2].
    - (* second is new *)
      destruct (teq a s) as [->|Na], (teq b s) as [->|Nb].
      + split; [intros _; left; apply w_refl|intros _; congruence].
      + injection Ha as <-. rewrite (Hnet f b pf q Ef Hb). split; [intro W; right; right; split; [apply w_refl|exact W]|].
        intros [H|[[H1 H2]|[H1 H2]]]; [apply U in H; congruence| |exact H2]. apply U in H2; [congruence|exact Es].
      + injection Hb as <-. rewrite (Hnet a f p pf Ha Ef). split; [intro W; right; left; split; [exact W|apply w_refl]|].
        intros [H|[[H1 H2]|[H1 H2]]]; [apply U' in H; congruence|exact H1|]. apply U' in H1; [congruence|exact Es].
      + rewrite (Hnet a b p q Ha Hb). split; [auto|]. intros [H|[[H1 H2]|[H1 H2]]]; [auto| |].
        * apply U in H2; congruence.
        * apply U' in H1; congruence.
    - (* first is new *)
      destruct (teq a f) as [->|Na], (teq b f) as [->|Nb].
      + split; [intros _; left; apply w_refl|intros _; congruence].
      + injection Ha as <-. rewrite (Hnet s b ps q Es Hb). split; [intro W; right; left; split; [apply w_refl|exact W]|].
        intros [H|[[H1 H2]|[H1 H2]]]; [apply U in H; congruence|exact H2|]. apply U in H2; [congruence|exact Ef].
      + injection Hb as <-. rewrite (Hnet a s p ps Ha Es). split; [intro W; right; right; split; [exact W|apply w_refl]|].
        intros [H|[[H1 H2]|[H1 H2]]]; [apply U' in H; congruence| |exact H1]. apply U' in H1; [congruence|exact Ef].
      + rewrite (Hnet a b p q Ha Hb). split; [auto|]. intros [H|[[H1 H2]|[H1 H2]]]; [auto| |].
        * apply U' in H1; congruence.
        * apply U in H2; congruence.
    - (* both are new *)
      assert (Fr : forall x r, cget (conns st) x = Some r -> r <> length (ports st)) by (intros x r Hx; apply Hwf in Hx; lia).
      assert (Wfs : wired l f f) by apply w_refl. assert (Wss : wired l s s) by apply w_refl.
      destruct (teq a s) as [->|Na]; [|destruct (teq a f) as [->|Na']]; (destruct (teq b s) as [->|Nb]; [|destruct (teq b f) as [->|Nb']]).
      + split; [intros _; left; apply w_refl|congruence].
      + split; [intros _; right; right; split; apply w_refl|congruence].
      + injection Ha as <-. split; [intro E; symmetry in E; apply Fr in Hb; contradiction|]. intros [H|[[H1 H2]|[H1 H2]]].
        * apply U in H; congruence.
        * apply U in H2; congruence.
        * apply U in H2; congruence.
      + split; [intros _; right; left; split; apply w_refl|congruence].
      + split; [intros _; left; apply w_refl|congruence].
      + injection Ha as <-. split; [intro E; symmetry in E; apply Fr in Hb; contradiction|]. intros [H|[[H1 H2]|[H1 H2]]].
        * apply U in H; congruence.
        * apply U in H2; congruence.
        * apply U in H2; congruence.
      + injection Hb as <-. split; [intro E; apply Fr in Ha; contradiction|]. intros [H|[[H1 H2]|[H1 H2]]].
        * apply U' in H; congruence.
        * apply U' in H1; congruence.
        * apply U' in H1; congruence.
      + injection Hb as <-. split; [intro E; apply Fr in Ha; contradiction|]. intros [H|[[H1 H2]|[H1 H2]]].
        * apply U' in H; congruence.
        * apply U' in H1; congruence.
        * apply U' in H1; congruence.
      + rewrite (Hnet a b p q Ha Hb). split; [auto|]. intros [H|[[H1 H2]|[H1 H2]]]; [auto| |].
        * apply U' in H1; congruence.
        * apply U' in H1; congruence. }
  split; [exact W'|]. split; [exact Hnone'|]. split; [exact Hnet'|].
  intros a q Hq. destruct (connect_first st f s (snd c)) as [p Hp]. fold st' in Hp.
  assert (Nm := connect_ports st f s (snd c) p q Hwf Hp). fold st' in Nm. rewrite Nm; [|destruct (Nat.eq_dec q p); [auto|left; split; [eapply W'; exact Hq|assumption]]]. clear Nm.
  destruct (Nat.eqb_spec q p) as [->|Hqp].
  { exists l, c, []. split; [reflexivity|]. split; [apply (Hnet' f a p p Hp Hq); reflexivity|]. split; [intros d []|reflexivity]. }
  assert (Hfa : ~ wired (l ++ [c]) f a) by (intro W; apply Hqp; symmetry; apply (Hnet' f a p q Hp Hq); exact W).
  assert (Wfs : wired (l ++ [c]) f s) by (unfold f, s; apply w_call; apply in_or_app; cbn; auto).
  assert (Nas : a <> s) by (intros ->; contradiction). assert (Naf : a <> f) by (intros ->; apply Hfa, w_refl).
  assert (Hold : cget (conns st) a = Some q).
  { unfold st' in Hq. rewrite connect_conns in Hq. destruct (cget (conns st) f); [|destruct (cget (conns st) s)];
    repeat match goal with H : context [teq a ?x] |- _ => destruct (teq a x); [contradiction|] end; exact Hq. }
  destruct (Hlab a q Hold) as (k & d & r & El & Wd & Hr & En).
  assert (Back : forall x, wired (l ++ [c]) x a -> wired l x a).
  { intros x H. apply HW in H. destruct H as [H|[[H1 H2]|[H1 H2]]]; [exact H| |]; exfalso; apply Hfa; [|now apply wired_app].
    eapply w_trans; [exact Wfs|]. now apply wired_app. }
  exists k, d, (r ++ [c]). split; [rewrite El; now rewrite <- app_assoc|]. split; [apply wired_app; exact Wd|]. split; [|exact En].
  intros e He. apply in_app_or in He. destruct He as [He|[<-|[]]]; [intro W; apply (Hr e He); now apply Back|exact Hfa].
Qed.

(** Same net exactly when wired. *)
Theorem same_port calls a b : no_merge calls -> touched calls a -> touched calls b ->
  (cget (conns (connect_all sub0 calls)) a = cget (conns (connect_all sub0 calls)) b <-> wired calls a b).
Proof.
  intros D Ha Hb. destruct (inv_run calls D) as (_ & Hnone & Hnet & _). set (st := connect_all sub0 calls) in *.
  destruct (cget (conns st) a) as [p|] eqn:Ea; [|apply Hnone in Ea; contradiction].
  destruct (cget (conns st) b) as [q|] eqn:Eb; [|apply Hnone in Eb; contradiction].
  rewrite <- (Hnet a b p q Ea Eb). split; congruence.
Qed.

Definition named (calls : list call) : Prop := forall c, In c calls -> c_label c <> ""%string.
Lemma net_name_on_net calls a : no_merge calls -> named calls -> touched calls a -> on_net calls a (net_name teq tname (connect_all sub0 calls) a).
Proof.
  intros D Hn Ha. destruct (inv_run calls D) as (_ & Hnone & _ & Hlab). set (st := connect_all sub0 calls) in *. unfold net_name.
  destruct (cget (conns st) a) as [p|] eqn:Ea; [|apply Hnone in Ea; contradiction].
  destruct (Hlab a p Ea) as (l & c & r & El & W & Hr & E). destruct (String.eqb_spec (p_name (port_at (ports st) p)) "") as [E0|_].
  - exfalso. apply (Hn c); [rewrite El; apply in_or_app; cbn; auto|]. congruence.
  - exists l, c, r. auto.
Qed.
Lemma net_name_untouched calls a : no_merge calls -> ~ touched calls a -> net_name teq tname (connect_all sub0 calls) a = tname a.
Proof. intros D Ha. destruct (inv_run calls D) as (_ & Hnone & _). apply Hnone in Ha. unfold net_name. now rewrite Ha. Qed.

Lemma on_net_fun calls a m n : on_net calls a m -> on_net calls a n -> m = n.
Proof.
  intros (l & c & r & El & W & Hr & ->) (l' & c' & r' & El' & W' & Hr' & ->). f_equal. rewrite El in El'.
  assert (forall (l l' : list call) c c' r r', l ++ c :: r = l' ++ c' :: r' -> wired calls (c_first c) a -> wired calls (c_first c') a ->
    (forall d, In d r -> ~ wired calls (c_first d) a) -> (forall d, In d r' -> ~ wired calls (c_first d) a) -> c = c') as H.
  { clear. induction l as [|x l IH]; intros [|x' l'] c c' r r' E W W' Hr Hr'; injection E as E1 E2.
    - auto.
    - subst. exfalso. apply (Hr c'); [apply in_or_app; cbn; auto|exact W'].
    - subst. exfalso. apply (Hr' c); [apply in_or_app; cbn; auto|exact W].
    - eapply (IH l' c c' r r'); eauto. }
  eapply H; eauto.
Qed.
Lemma on_net_wired calls a b n : wired calls a b -> on_net calls a n -> on_net calls b n.
Proof.
  intros W (l & c & r & El & Wc & Hr & E). exists l, c, r. split; [exact El|]. split; [eapply w_trans; eauto|]. split; [|exact E].
  intros d Hd Wd. apply (Hr d Hd). eapply w_trans; [exact Wd|now apply w_sym].
Qed.

Lemma touched_dec (calls : list call) t : touched calls t \/ ~ touched calls t.
Proof.
  induction calls as [|c l IH]; [right; intros (c & [] & _)|]. destruct IH as [(d & Hd & Ht)|N]; [left; exists d; split; [now right|exact Ht]|].
  destruct (teq t (c_first c)) as [E|E]; [left; exists c; split; [now left|auto]|].
  destruct (teq t (c_second c)) as [F|F]; [left; exists c; split; [now left|auto]|].
  right. intros (d & [<-|Hd] & Ht); [tauto|]. apply N. exists d. auto.
Qed.

(** The emitted netlist is exactly the requested one when terminal names are unique and non-empty and no explicit names are given. *)
Theorem netlist_exact calls a b : no_merge calls -> (forall c, In c calls -> snd c = ""%string) ->
  (forall t, tname t <> ""%string) -> (forall t t', tname t = tname t' -> t = t') ->
  (net_name teq tname (connect_all sub0 calls) a = net_name teq tname (connect_all sub0 calls) b <-> wired calls a b).
Proof.
  intros D He Hne Hinj. pose proof (touched_dec calls) as Hdec.
  assert (Lb : forall c, In c calls -> c_label c = tname (c_first c)).
  { intros c Hc. unfold c_label, net_label. rewrite (He c Hc). cbn. destruct (String.eqb_spec (tname (c_first c)) ""); [exfalso; eapply Hne; eauto|reflexivity]. }
  assert (Hn : named calls) by (intros c Hc; rewrite Lb by exact Hc; apply Hne).
  assert (Key : forall t, touched calls t -> exists u, wired calls u t /\ touched calls u /\ net_name teq tname (connect_all sub0 calls) t = tname u).
  { intros t Ht. destruct (net_name_on_net calls t D Hn Ht) as (l & c & r & El & W & Hr & E). exists (c_first c).
    assert (Hc : In c calls) by (rewrite El; apply in_or_app; cbn; auto). split; [exact W|]. split; [exists c; auto|]. rewrite E. now apply Lb. }
  split.
  - intro E. destruct (Hdec a) as [Ha|Ha], (Hdec b) as [Hb|Hb].
    + destruct (Key a Ha) as (u & Wu & _ & Eu), (Key b Hb) as (v & Wv & _ & Ev). rewrite Eu, Ev in E. apply Hinj in E. subst v.
      eapply w_trans; [apply w_sym; exact Wu|exact Wv].
    + destruct (Key a Ha) as (u & Wu & Hu & Eu). rewrite Eu, (net_name_untouched calls b D Hb) in E. apply Hinj in E. subst u. contradiction.
    + destruct (Key b Hb) as (u & Wu & Hu & Eu). rewrite Eu, (net_name_untouched calls a D Ha) in E. apply Hinj in E. subst u. contradiction.
    + rewrite !net_name_untouched in E by assumption. apply Hinj in E. subst. apply w_refl.
  - intro W. destruct (wired_touched _ _ _ W) as [->|[Ha Hb]]; [reflexivity|].
    eapply on_net_fun; [|apply net_name_on_net; eassumption]. eapply on_net_wired; [exact W|]. now apply net_name_on_net.
Qed.

(** Without the discipline: the second terminal changes net, everything else stays. *)
Theorem merge_moves st f s n p q t : cget (conns st) f = Some p -> cget (conns st) s = Some q ->
  cget (conns (connect st f s n)) s = Some p /\ (t <> s -> cget (conns (connect st f s n)) t = cget (conns st) t).
Proof.
  intros Hf Hs. rewrite !connect_conns, Hf, Hs. split; [destruct (teq s s); [reflexivity|contradiction]|].
  intro N. destruct (teq t s); [contradiction|reflexivity].
Qed.

(** Component terminals attached to one fixed terminal each: the emitted name of each is the name of the terminal it was attached to. *)
Definition star (calls : list call) : Prop :=
  (forall c d, In c calls -> In d calls -> c_second c = c_second d -> c_first c = c_first d) /\
  (forall c d, In c calls -> In d calls -> c_first c <> c_second d) /\ (forall c, In c calls -> snd c = ""%string /\ tname (c_first c) <> ""%string).

Lemma star_wired calls a b : (forall c d, In c calls -> In d calls -> c_first c <> c_second d) ->
  (forall c d, In c calls -> In d calls -> c_second c = c_second d -> c_first c = c_first d) ->
  let root x := match find (fun c => if teq (c_second c) x then true else false) calls with Some c => c_first c | None => x end in
  wired calls a b -> root a = root b.
Proof.
  intros H1 H2 root. induction 1 as [c Hc|x|x y _ IH|x y z _ IH1 _ IH2]; [|reflexivity|congruence|congruence].
  assert (R1 : root (c_first c) = c_first c).
  { unfold root. destruct (find _ calls) as [d|] eqn:E; [|reflexivity]. apply find_some in E. destruct E as [Hd E].
    destruct (teq (c_second d) (c_first c)) as [E'|]; [|discriminate]. exfalso. eapply H1; [exact Hc|exact Hd|congruence]. }
  rewrite R1. unfold root. destruct (find _ calls) as [d|] eqn:E.
  - apply find_some in E. destruct E as [Hd E]. destruct (teq (c_second d) (c_second c)) as [E'|]; [|discriminate].
    symmetry. now apply H2.
  - exfalso. apply (find_none _ _ E) in Hc. destruct (teq (c_second c) (c_second c)); [discriminate|contradiction].
Qed.

Lemma star_no_merge calls : star calls -> no_merge calls.
Proof.
  intros (H2 & H1 & H3).
  intros l d r E. right.
    assert (Hdin : In d calls) by (rewrite E; apply in_or_app; cbn; auto).
    assert (Hl : forall e, In e l -> In e calls) by (intros e He; rewrite E; apply in_or_app; auto).
    destruct (in_dec teq (c_second d) (map c_second l)) as [Hi|Hi].
    - right. apply in_map_iff in Hi. destruct Hi as (e & Ee & He). rewrite <- Ee, <- (H2 e d (Hl e He) Hdin Ee). now apply w_call.
    - left. intros (e & He & [K|K]); [exact (H1 e d (Hl e He) Hdin (eq_sym K))|]. apply Hi. rewrite K. now apply in_map.
Qed.

Theorem star_nets calls c : star calls -> In c calls ->
  net_name teq tname (connect_all sub0 calls) (c_second c) = tname (c_first c) /\ net_name teq tname (connect_all sub0 calls) (c_first c) = tname (c_first c).
Proof.
  intros (H2 & H1 & H3) Hc.
  assert (D : no_merge calls) by (apply star_no_merge; repeat split; auto; now apply H3).
  assert (Lb : forall d, In d calls -> c_label d = tname (c_first d)).
  { intros d Hd. unfold c_label, net_label. destruct (H3 d Hd) as [-> N]. cbn. destruct (String.eqb_spec (tname (c_first d)) ""); [contradiction|reflexivity]. }
  assert (Hn : named calls) by (intros d Hd; rewrite Lb by exact Hd; apply H3; exact Hd).
  assert (Key : forall t, wired calls (c_first c) t -> touched calls t -> net_name teq tname (connect_all sub0 calls) t = tname (c_first c)).
  { intros t W Ht. destruct (net_name_on_net calls t D Hn Ht) as (l & d & r & El & Wd & Hr & E). rewrite E.
    assert (Hd : In d calls) by (rewrite El; apply in_or_app; cbn; auto). rewrite Lb by exact Hd. f_equal.
    assert (W2 : wired calls (c_first d) (c_first c)) by (eapply w_trans; [exact Wd|now apply w_sym]).
    assert (F : forall e, In e calls -> find (fun k => if teq (c_second k) (c_first e) then true else false) calls = None).
    { intros e Hin. destruct (find _ calls) as [k|] eqn:Ek; [|reflexivity]. apply find_some in Ek. destruct Ek as [Hk Ek].
      destruct (teq (c_second k) (c_first e)) as [E'|]; [|discriminate]. exfalso. eapply H1; [exact Hin|exact Hk|congruence]. }
    pose proof (star_wired calls _ _ H1 H2 W2) as R. cbv beta zeta in R.
    rewrite !F in R by assumption. exact R. }
  split; apply Key.
  - now apply w_call.
  - exists c. auto.
  - apply w_refl.
  - exists c. auto.
Qed.
End Nets.
