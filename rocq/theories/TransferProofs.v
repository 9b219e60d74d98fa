(** The transfer functions of analog_system.py and batch_estimator.py are those of the system and of the estimator. *)
From Coq Require Import List Arith Lia Bool Reals Lra.
From Flocq Require Import Core.
From Coquelicot Require Import Complex.
From Verif Require Import Base LinAlg FirExtras AnalogSystem AnalogProofs Zpk IntegratorsProofs LinearOde FilterCoeff TransferFn CplxLin.
Import ListNotations.
Open Scope R_scope.
Open Scope C_scope.

(** ** Specification *)
Definition ce (M : rmat) (i j : nat) : C := RtoC (ent M i j).
Definition cent (M : cmat) (i j : nat) : C := ent M i j.
(** sinusoidal steady state with phasors: input u, additional sources g at the states, states x: i w x = A x + B u + g *)
Definition phasor (S : asys Rring) (w : R) (u g x : nat -> C) : Prop :=
  forall i, (i < sN S)%nat -> (0, w)%R * x i = cap (sN S) (ce (aA S)) x i + cap (sL S) (ce (aB S)) u i + g i.
Definition none (_ : nat) : C := RtoC 0.
(** the outputs C^T x + D u *)
Definition outp (S : asys Rring) (u x : nat -> C) (r : nat) : C := cap (sN S) (ce (aCT S)) x r + cap (sL S) (ce (aD S)) u r.
(** i w is not an eigenvalue of A *)
Definition off_poles (S : asys Rring) (w : R) : Prop := forall x, phasor S w none none x -> forall i, (i < sN S)%nat -> x i = RtoC 0.

(** a routine that inverts the invertible n x n matrices *)
Definition inverts (n : nat) (M X : cmat) : Prop :=
  rows X = n /\ cols X = n /\ forall y i, (i < n)%nat -> cap n (cent M) (cap n (cent X) y) i = y i.
Definition injective (n : nat) (M : cmat) : Prop :=
  rows M = n /\ cols M = n /\ forall x, (forall i, (i < n)%nat -> cap n (cent M) x i = RtoC 0) -> forall i, (i < n)%nat -> x i = RtoC 0.
Definition pinv_ok (pinv : cmat -> cmat) (n : nat) : Prop := forall M, injective n M -> inverts n M (pinv M).
Definition inv_ok (inv : cmat -> result cmat) (n : nat) : Prop := forall M, injective n M -> exists X, inv M = Ok X /\ inverts n M X.

(** ** Proofs *)
Lemma phasor_ext S w u u' g g' x x' : (forall i, (i < sL S)%nat -> u i = u' i) -> (forall i, (i < sN S)%nat -> g i = g' i) -> (forall i, (i < sN S)%nat -> x i = x' i) ->
  phasor S w u g x -> phasor S w u' g' x'.
Proof.
  intros Hu Hg Hx H i Hi. rewrite <- Hx, <- Hg by exact Hi. rewrite <- (cap_ext (sN S) _ x x' i Hx), <- (cap_ext (sL S) _ u u' i Hu). now apply H.
Qed.
Lemma phasor_sub S w u u' g g' x x' : phasor S w u g x -> phasor S w u' g' x' -> phasor S w (fun i => u i - u' i) (fun i => g i - g' i) (fun i => x i - x' i).
Proof.
  intros H H' i Hi. rewrite !cap_sub. transitivity ((0, w)%R * x i - (0, w)%R * x' i); [ring|]. rewrite H, H' by exact Hi. ring.
Qed.
Lemma phasor_unique S w u g x x' : off_poles S w -> phasor S w u g x -> phasor S w u g x' -> forall i, (i < sN S)%nat -> x i = x' i.
Proof.
  intros O H H' i Hi. enough (Z : x i - x' i = RtoC 0). { transitivity (x i - x' i + x' i); [ring|]. rewrite Z. ring. }
  apply (O (fun i => x i - x' i)); [|exact Hi]. eapply phasor_ext; [| | |exact (phasor_sub _ _ _ _ _ _ _ _ H H')]; intros; unfold none; try ring; reflexivity.
Qed.

Lemma dotm_c (a b : cmat) : cols a = rows b -> exists Y : cmat, dotm a b = Ok Y /\ rows Y = rows a /\ cols Y = cols b /\
  forall i j, cent Y i j = csum (cols a) (fun k => cent a i k * cent b k j).
Proof.
  intros E. unfold dotm. rewrite E, Nat.eqb_refl. eexists. split; [reflexivity|]. split; [reflexivity|]. split; [reflexivity|]. intros i j. unfold cent. cbn [ent]. apply csum_ksum.
Qed.
Lemma csum_cap n m (A B : nat -> nat -> C) x i : cap m (fun i j => csum n (fun k => A i k * B k j)) x i = cap n A (cap m B x) i.
Proof.
  unfold cap. transitivity (csum m (fun j => csum n (fun k => A i k * (B k j * x j)))).
  - apply csum_ext. intros j _. transitivity (x j * csum n (fun k => A i k * B k j)); [ring|]. rewrite <- csum_scale. apply csum_ext. intros; ring.
  - rewrite csum_swap. apply csum_ext. intros k _. now rewrite csum_scale.
Qed.
Lemma dotm_cap (a b Y : cmat) : (forall i j, cent Y i j = csum (cols a) (fun k => cent a i k * cent b k j)) -> forall m x i,
  cap m (cent Y) x i = cap (cols a) (cent a) (cap m (cent b) x) i.
Proof. intros H m x i. rewrite <- csum_cap. apply csum_ext. intros j _. now rewrite H. Qed.

Section P.
Variable pinv : cmat -> cmat.
Variable S : asys Rring.
Variable w : R.
Hypothesis V : valid S.

Lemma resolvent_ok : exists M, resolvent S w = Ok M /\ rows M = sN S /\ cols M = sN S /\
  forall x i, (i < sN S)%nat -> cap (sN S) (cent M) x i = (0, w)%R * x i - cap (sN S) (ce (aA S)) x i.
Proof.
  unfold resolvent, zip2. cbn [mapm eye2 emb rows cols]. rewrite (v_A S V). change (rows (aA S)) with (sN S). rewrite !Nat.eqb_refl. cbn [andb].
  eexists. split; [reflexivity|]. split; [reflexivity|]. split; [reflexivity|]. intros x i Hi. unfold cap, cent. cbn [ent mapm eye2 emb].
  rewrite (csum_ext _ _ (fun j => (if Nat.eqb j i then (0, w)%R * x j else RtoC 0) - ce (aA S) i j * x j)).
  - rewrite csum_sub. now rewrite csum_single.
  - intros j _. unfold ce. rewrite (Nat.eqb_sym i j). destruct (Nat.eqb j i); cbn [r0 r1 Cring]; [ring|]. ring.
Qed.

Hypothesis PI : pinv_ok pinv (sN S).
Hypothesis O : off_poles S w.

Lemma pinv_resolvent : exists M, resolvent S w = Ok M /\ rows (pinv M) = sN S /\ cols (pinv M) = sN S /\
  forall h i, (i < sN S)%nat -> (0, w)%R * cap (sN S) (cent (pinv M)) h i = cap (sN S) (ce (aA S)) (cap (sN S) (cent (pinv M)) h) i + h i.
Proof.
  destruct resolvent_ok as (M & E & R1 & R2 & R3). exists M. split; [exact E|].
  assert (I : injective (sN S) M).
  { split; [exact R1|]. split; [exact R2|]. intros x Hx i Hi. apply (O x); [|exact Hi]. clear i Hi. intros i Hi. specialize (Hx i Hi). rewrite R3 in Hx by exact Hi.
    unfold none. rewrite (cap_zero (sL S)) by reflexivity. transitivity ((0, w)%R * x i - cap (sN S) (ce (aA S)) x i + cap (sN S) (ce (aA S)) x i); [ring|]. rewrite Hx. ring. }
  destruct (PI M I) as (P1 & P2 & P3). split; [exact P1|]. split; [exact P2|]. intros h i Hi. specialize (P3 h i Hi). rewrite R3 in P3 by exact Hi.
  rewrite <- P3. ring.
Qed.

Lemma tfm_ok : exists G, tfm pinv S false w = Ok G /\ rows G = sNt S /\ cols G = sL S /\
  (forall u, exists x, phasor S w u none x) /\ forall u x, phasor S w u none x -> forall r, (r < sNt S)%nat -> cap (sL S) (cent G) u r = outp S u x r.
Proof.
  destruct pinv_resolvent as (M & E & P1 & P2 & P3). unfold tfm, atf. rewrite E. cbn [bind].
  destruct (dotm_c (pinv M) (emb (aB S))) as (X & EX & X1 & X2 & X3). { cbn [emb rows]. rewrite P2. symmetry. apply (v_B S V). }
  rewrite EX. cbn [bind]. destruct (dotm_c (emb (aCT S)) X) as (Y & EY & Y1 & Y2 & Y3). { cbn [emb cols]. rewrite X1, P1. apply (v_CT S V). }
  rewrite EY. cbn [bind]. unfold zip2. cbn [emb rows cols]. destruct (v_D S V) as [D1 D2]. rewrite D1, D2, Y1, Y2, X2. cbn [emb rows cols].
  change (rows (aCT S)) with (sNt S). change (cols (aB S)) with (sL S). rewrite !Nat.eqb_refl. cbn [andb].
  assert (Sol : forall u, phasor S w u none (cap (sN S) (cent (pinv M)) (cap (sL S) (ce (aB S)) u))).
  { intros u i Hi. rewrite P3 by exact Hi. unfold none. ring. }
  eexists. split; [reflexivity|]. split; [reflexivity|]. split; [reflexivity|]. split; [intros u; eexists; apply Sol|].
  intros u x Hx r Hr. unfold outp. rewrite (cap_ext (sN S) _ x _ r (phasor_unique S w u none x _ O Hx (Sol u))).
  transitivity (cap (sL S) (ce (aD S)) u r + cap (sL S) (cent Y) u r).
  - unfold cap. rewrite <- csum_add. apply csum_ext. intros j _. unfold cent at 1. cbn [ent]. unfold ce. cbn [emb ent]. fold (cent Y r j). ring.
  - rewrite (dotm_cap _ _ _ Y3). cbn [emb cols]. rewrite (v_CT S V), Cplus_comm. f_equal.
    apply cap_ext. intros j _. rewrite (dotm_cap _ _ _ X3), P2. reflexivity.
Qed.

Lemma tfm_general_ok : exists T, tfm pinv S true w = Ok T /\ rows T = sNt S /\ cols T = sN S /\
  (forall g, exists x, phasor S w none g x) /\ forall g x, phasor S w none g x -> forall r, (r < sNt S)%nat -> cap (sN S) (cent T) g r = cap (sN S) (ce (aCT S)) x r.
Proof.
  destruct pinv_resolvent as (M & E & P1 & P2 & P3). unfold tfm, general_atf. rewrite E. cbn [bind].
  destruct (dotm_c (emb (aCT S)) (pinv M)) as (Y & EY & Y1 & Y2 & Y3). { cbn [emb cols]. rewrite P1. apply (v_CT S V). }
  rewrite EY. exists Y. split; [reflexivity|]. rewrite Y1, Y2. split; [reflexivity|]. split; [exact P2|].
  assert (Sol : forall g, phasor S w none g (cap (sN S) (cent (pinv M)) g)).
  { intros g i Hi. rewrite P3 by exact Hi. rewrite (cap_zero (sL S)) by reflexivity. ring. }
  split; [intros g; eexists; apply Sol|]. intros g x Hx r Hr. rewrite (cap_ext (sN S) _ x _ r (phasor_unique S w none g x _ O Hx (Sol g))).
  rewrite (dotm_cap _ _ _ Y3). cbn [emb cols]. now rewrite (v_CT S V).
Qed.

Lemma ctf_ok g : aG S = Some g -> exists Y, control_matrix pinv S w = Ok Y /\ rows Y = sN S /\ cols Y = sM S /\
  forall s x, phasor S w none (cap (sM S) (ce g) s) x -> forall i, (i < sN S)%nat -> cap (sM S) (cent Y) s i = x i.
Proof.
  intros Eg. destruct pinv_resolvent as (M & E & P1 & P2 & P3). unfold control_matrix, ctf. rewrite E. cbn [bind]. rewrite Eg.
  assert (Vg := v_G S V). rewrite Eg in Vg. destruct (dotm_c (pinv M) (emb g)) as (Y & EY & Y1 & Y2 & Y3). { cbn [emb rows]. rewrite P2. now rewrite Vg. }
  rewrite EY. exists Y. split; [reflexivity|]. rewrite Y1, Y2. split; [exact P1|]. assert (EM : sM S = cols g) by (unfold sM; now rewrite Eg).
  split; [now rewrite EM|]. intros s x Hx i Hi. rewrite (dotm_cap _ _ _ Y3), P2. symmetry.
  apply (phasor_unique S w none (cap (sM S) (ce g) s) x _ O Hx); [|exact Hi]. intros k Hk. rewrite P3 by exact Hk. unfold none. rewrite (cap_zero (sL S)) by reflexivity. 
  change (cap (sM S) (cent (emb g)) s k) with (cap (sM S) (ce g) s k). ring.
Qed.

Variable eta2 : R.
Hypothesis He : (0 < eta2)%R.

Lemma gram_ok : exists G Mt, tfm pinv S false w = Ok G /\ gram pinv S eta2 w = Ok (G, ctr G, Mt) /\ rows G = sNt S /\ cols G = sL S /\ injective (sNt S) Mt /\
  forall x r, (r < sNt S)%nat -> cap (sNt S) (cent Mt) x r = RtoC eta2 * x r + cap (sL S) (cent G) (cap (sNt S) (adj (cent G)) x) r.
Proof.
  destruct tfm_ok as (G & EG & G1 & G2 & _). unfold gram. rewrite EG. cbn [bind].
  destruct (dotm_c G (ctr G)) as (Y & EY & Y1 & Y2 & Y3); [reflexivity|]. rewrite EY. cbn [bind]. unfold zip2. cbn [mapm eye2 rows cols]. rewrite Y1, Y2. cbn [ctr cols].
  rewrite G1, !Nat.eqb_refl. cbn [andb bind]. exists G. eexists. split; [reflexivity|]. split; [reflexivity|]. split; [exact G1|]. split; [exact G2|].
  match goal with |- injective _ ?M /\ _ => set (Mt := M) end.
  assert (H : forall x r, (r < sNt S)%nat -> cap (sNt S) (cent Mt) x r = RtoC eta2 * x r + cap (sL S) (cent G) (cap (sNt S) (adj (cent G)) x) r).
  { intros x r Hr. transitivity (cap (sNt S) (cent Y) x r + RtoC eta2 * x r).
    - rewrite <- (csum_single (sNt S) r (fun j => RtoC eta2 * x j) Hr). unfold cap. rewrite <- csum_add. apply csum_ext. intros j _. unfold cent at 1. unfold Mt. cbn [ent mapm eye2].
      fold (cent Y r j). rewrite (Nat.eqb_sym r j). destruct (Nat.eqb j r); cbn [r0 r1 Cring]; ring.
    - rewrite (dotm_cap _ _ _ Y3), G2. rewrite Cplus_comm. f_equal. }
  split; [|exact H]. split; [reflexivity|]. split; [reflexivity|]. intros x Hx.
  apply (posdef (sL S) (sNt S) (adj (cent G)) eta2 x He). intros r Hr. rewrite <- (Hx r Hr), H by exact Hr. f_equal. apply cap_adj_adj.
Qed.

(** the estimate for the observation y *)
Lemma gram_rls G Mt X : (forall x r, (r < sNt S)%nat -> cap (sNt S) (cent Mt) x r = RtoC eta2 * x r + cap (sL S) (cent G) (cap (sNt S) (adj (cent G)) x) r) ->
  inverts (sNt S) Mt X -> forall y, rls (sNt S) (sL S) (cent G) eta2 y (cap (sNt S) (adj (cent G)) (cap (sNt S) (cent X) y)).
Proof.
  intros H (X1 & X2 & X3) y. apply rls_push. intros r Hr. rewrite <- H by exact Hr. now apply X3.
Qed.

Hypothesis PT : pinv_ok pinv (sNt S).

Lemma ntf_ok : exists G X, tfm pinv S false w = Ok G /\ ntf pinv S eta2 w = Ok X /\ rows X = sL S /\ cols X = sNt S /\
  (forall y, exists v, rls (sNt S) (sL S) (cent G) eta2 y v) /\
  forall r v, (r < sNt S)%nat -> rls (sNt S) (sL S) (cent G) eta2 (unit r) v -> forall l, (l < sL S)%nat -> cent X l r = RtoC (Cmod (v l)).
Proof.
  destruct gram_ok as (G & Mt & EG & E & G1 & G2 & I & H). destruct (PT Mt I) as (X1 & X2 & X3). unfold ntf. rewrite E. cbn [bind].
  destruct (dotm_c (ctr G) (pinv Mt)) as (Y & EY & Y1 & Y2 & Y3). { cbn [ctr cols]. now rewrite X1, G1. }
  rewrite EY. cbn [bind]. exists G, (absm Y). split; [exact EG|]. split; [reflexivity|]. cbn [absm mapm rows cols]. rewrite Y1, Y2. cbn [ctr rows]. split; [exact G2|]. split; [exact X2|].
  assert (R := gram_rls G Mt (pinv Mt) H (conj X1 (conj X2 X3))). split; [intros y; eexists; apply R|].
  intros r v Hr Hv l Hl. rewrite (rls_unique _ _ _ _ _ _ _ He Hv (R (unit r)) l Hl). unfold cent at 1. cbn [absm mapm ent]. fold (cent Y l r). f_equal. f_equal.
  rewrite Y3. cbn [ctr cols]. rewrite G1. unfold cap at 1. apply csum_ext. intros k Hk. rewrite cap_unit by exact Hr. reflexivity.
Qed.

Lemma stf_ok : exists G X, tfm pinv S false w = Ok G /\ stf pinv S eta2 w = Ok X /\ length X = sL S /\
  (forall y, exists v, rls (sNt S) (sL S) (cent G) eta2 y v) /\
  forall l v, (l < sL S)%nat -> rls (sNt S) (sL S) (cent G) eta2 (fun r => cent G r l) v -> v l = RtoC (nth l X 0%R) /\ (0 <= nth l X 0 < 1)%R.
Proof.
  destruct gram_ok as (G & Mt & EG & E & G1 & G2 & I & H). destruct (PT Mt I) as (X1 & X2 & X3). unfold stf. rewrite E. cbn [bind].
  destruct (dotm_c (pinv Mt) G) as (Y & EY & Y1 & Y2 & Y3). { now rewrite X2, G1. }
  rewrite EY. cbn [bind]. exists G. eexists. split; [exact EG|]. split; [reflexivity|]. rewrite map_length, seq_length. split; [reflexivity|].
  assert (R := gram_rls G Mt (pinv Mt) H (conj X1 (conj X2 X3))). split; [intros y; eexists; apply R|].
  intros l v Hl Hv. erewrite nth_indep by (now rewrite map_length, seq_length). rewrite (map_nth _ (seq 0 (sL S)) 0%nat), seq_nth by exact Hl. cbn [Nat.add].
  destruct (rls_diag _ _ _ _ l v He Hl Hv) as (a & Ea & _ & _ & Ha). rewrite (csum_ksum _ (fun r => Cmult (ent (ctr G) l r) (ent Y r l))).
  assert (Q : csum (cols (ctr G)) (fun r => ent (ctr G) l r * ent Y r l) = v l).
  { rewrite (rls_unique _ _ _ _ _ _ _ He Hv (R (fun r => cent G r l)) l Hl). cbn [ctr cols]. rewrite G1. unfold cap at 1. apply csum_ext. intros k Hk. f_equal. fold (cent Y k l). rewrite Y3, X2. reflexivity. }
  rewrite Q, Ea, Cmod_R, Rabs_pos_eq by lra. split; [reflexivity|exact Ha].
Qed.
End P.
