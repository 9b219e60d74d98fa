From Coq Require Import List Arith Bool Reals ZArith Lia Lra Sorted Permutation.
From Flocq Require Import Core.
From Verif Require Import Base Peaks.
Import ListNotations.
Open Scope R_scope.

(** ** argmax *)
Definition first_max (f : nat -> R) (n c : nat) : Prop := (c < n)%nat /\ (forall i, (i < n)%nat -> f i <= f c) /\ (forall i, (i < c)%nat -> f i < f c).
Lemma argmax_from_spec l : forall p best, first_max (fun i => nth i p 0) (length p) best ->
  first_max (fun i => nth i (p ++ l) 0) (length (p ++ l)) (argmax_from best (nth best p 0) (length p) l).
Proof.
  induction l as [|x l IH]; intros p best (H1 & H2 & H3); cbn [argmax_from]; [now rewrite app_nil_r|].
  assert (E : p ++ x :: l = (p ++ [x]) ++ l) by now rewrite <- app_assoc.
  assert (N1 : forall i, (i < length p)%nat -> nth i (p ++ [x]) 0 = nth i p 0) by (intros; now apply app_nth1).
  assert (N2 : nth (length p) (p ++ [x]) 0 = x) by (rewrite app_nth2, Nat.sub_diag by lia; reflexivity).
  assert (L : length (p ++ [x]) = S (length p)) by (rewrite app_length; cbn; lia).
  rewrite E. rewrite <- L. destruct (Rlt_bool_spec (nth best p 0) x) as [Hx|Hx].
  - rewrite <- N2 at 2. apply IH. split; [lia|]. rewrite N2. split; intros i Hi.
    + destruct (Nat.eq_dec i (length p)) as [->|]; [rewrite N2; lra|]. rewrite N1 by lia. specialize (H2 i). cbn in H2. apply Rle_trans with (nth best p 0); [apply H2; lia|lra].
    + rewrite N1 by lia. apply Rle_lt_trans with (nth best p 0); [apply H2; lia|lra].
  - rewrite <- (N1 best H1). apply IH. split; [lia|]. rewrite (N1 best H1). split; intros i Hi.
    + destruct (Nat.eq_dec i (length p)) as [->|]; [rewrite N2; lra|]. rewrite N1 by lia. apply H2. lia.
    + rewrite N1 by lia. now apply H3.
Qed.
Lemma argmax_spec l : l <> [] -> exists c, argmax l = Ok c /\ first_max (fun i => nth i l 0) (length l) c.
Proof.
  destruct l as [|x l]; [congruence|]. intros _. exists (argmax_from 0 x 1 l). split; [reflexivity|].
  apply (argmax_from_spec l [x] 0). split; [cbn; lia|]. split; intros i Hi; [|lia]. cbn in Hi. replace i with 0%nat by lia. lra.
Qed.

(** ** Index lists *)
Lemma arange_in a b z : In z (arange a b) <-> (a <= z < b)%Z.
Proof.
  unfold arange. rewrite in_map_iff. split.
  - intros (k & <- & Hk). apply in_seq in Hk. lia.
  - intro H. exists (Z.to_nat (z - a)). rewrite in_seq. lia.
Qed.
Lemma clip_range size z : (0 < size)%nat -> (0 <= clip size z < Z.of_nat size)%Z.
Proof. intro H. unfold clip. lia. Qed.
(** a clipped window is an interval *)
Lemma window_in size a b z : (0 < size)%nat -> In z (map (clip size) (arange a b)) <->
  (a < b /\ clip size a <= z <= clip size (b - 1))%Z.
Proof.
  intro Hs. rewrite in_map_iff. split.
  - intros (y & <- & Hy). apply arange_in in Hy. unfold clip. lia.
  - intros [Hab Hz]. exists (Z.max a (Z.min z (b - 1))). rewrite arange_in. unfold clip in *. lia.
Qed.
Lemma zero_at_length idx : forall l, length (zero_at idx l) = length l.
Proof. unfold zero_at. induction idx as [|z idx IH]; intro l; cbn [fold_left]; [reflexivity|]. rewrite IH. apply upd_length. Qed.
Lemma zero_at_nth idx : forall l i, (forall z, In z idx -> (0 <= z)%Z) -> nth i (zero_at idx l) 0 = if existsb (Z.eqb (Z.of_nat i)) idx then 0 else nth i l 0.
Proof.
  unfold zero_at. induction idx as [|z idx IH]; intros l i Hz; cbn [fold_left existsb]; [reflexivity|]. rewrite IH by (intros; apply Hz; now right).
  destruct (existsb _ idx); [now rewrite orb_true_r|]. rewrite orb_false_r, nth_upd. specialize (Hz z (or_introl eq_refl)).
  destruct (Z.eqb_spec (Z.of_nat i) z) as [<-|Hne].
  - rewrite Nat2Z.id, Nat.eqb_refl. destruct (Nat.ltb_spec i (length l)) as [H|H]; [reflexivity|]. cbn. now apply nth_overflow.
  - destruct (Nat.eqb_spec (Z.to_nat z) i); [lia|reflexivity].
Qed.
(** ** unique *)
Lemma uinsert_in z l y : In y (uinsert z l) <-> y = z \/ In y l.
Proof.
  induction l as [|x l IH]; cbn [uinsert]; [cbn; intuition|]. destruct (Z.ltb_spec z x); [cbn; intuition|]. destruct (Z.eqb_spec z x) as [->|]; [cbn; intuition|].
  cbn [In]. rewrite IH. intuition.
Qed.
Lemma uinsert_sorted z l : StronglySorted Z.lt l -> StronglySorted Z.lt (uinsert z l).
Proof.
  induction l as [|x l IH]; intro H; cbn [uinsert]; [repeat constructor|]. apply StronglySorted_inv in H. destruct H as [H1 H2]. rewrite Forall_forall in H2.
  destruct (Z.ltb_spec z x); [|destruct (Z.eqb_spec z x) as [->|]].
  - constructor; [constructor; [exact H1|now rewrite Forall_forall]|]. rewrite Forall_forall. intros y [<-|Hy]; [lia|]. specialize (H2 y Hy). lia.
  - constructor; [exact H1|now rewrite Forall_forall].
  - constructor; [now apply IH|]. rewrite Forall_forall. intros y Hy. apply uinsert_in in Hy. destruct Hy as [->|Hy]; [lia|now apply H2].
Qed.
Lemma unique_spec l : StronglySorted Z.lt (unique l) /\ forall z, In z (unique l) <-> In z l.
Proof.
  unfold unique. induction l as [|x l [IH1 IH2]]; cbn [fold_right]; [split; [constructor|reflexivity]|]. split; [now apply uinsert_sorted|].
  intro z. rewrite uinsert_in, IH2. cbn. intuition.
Qed.

(** ** The loop *)
(** magnitude left once the windows [c - dist, c + mw) of the peaks [cs] are cleared (a window reaching past an end clears the end bin) *)
Definition cleared (size : nat) (mw dist : Z) (c : nat) (i : nat) : bool :=
  let c := Z.of_nat c in ((c - dist <? c + mw) && (clip size (c - dist) <=? Z.of_nat i) && (Z.of_nat i <=? clip size (c + mw - 1)))%Z%bool.
Definition left (l : list R) (mw dist : Z) (cs : list nat) (i : nat) : R := if existsb (fun c => cleared (length l) mw dist c i) cs then 0 else Rabs (nth i l 0).
(** the k-th peak is the first largest of what the peaks before it left *)
Definition peaks_of (l : list R) (mw dist : Z) (cs : list nat) : Prop := forall k, (k < length cs)%nat -> first_max (left l mw dist (firstn k cs)) (length l) (nth k cs 0%nat).
Definition window (size : nat) (mw : Z) (c : nat) (z : Z) : Prop := (Z.of_nat c - mw / 2 < Z.of_nat c + mw / 2 /\ clip size (Z.of_nat c - mw / 2) <= z <= clip size (Z.of_nat c + mw / 2 - 1))%Z.

Lemma cleared_mem size mw dist c i : (0 < size)%nat ->
  existsb (Z.eqb (Z.of_nat i)) (map (clip size) (arange (Z.of_nat c - dist) (Z.of_nat c + mw))) = cleared size mw dist c i.
Proof.
  intro Hs. apply eq_true_iff_eq. rewrite existsb_exists. unfold cleared. rewrite !andb_true_iff, Z.ltb_lt, !Z.leb_le. split.
  - intros (z & Hz & E). apply Z.eqb_eq in E. subst z. apply window_in in Hz; [tauto|exact Hs].
  - intros [[H1 H2] H3]. exists (Z.of_nat i). rewrite Z.eqb_refl, window_in by exact Hs. tauto.
Qed.
Lemma find_loop_spec l mw dist : l <> [] -> forall n cs rem idx, length rem = length l -> (forall i, (i < length l)%nat -> Rabs (nth i rem 0) = left l mw dist cs i) ->
  peaks_of l mw dist cs -> (forall z, In z idx <-> exists c, In c cs /\ window (length l) mw c z) ->
  exists cs' r, find_loop n mw dist (length l) rem idx = Ok r /\ length cs' = n /\ peaks_of l mw dist (cs ++ cs') /\
    (forall z, In z r <-> exists c, In c (cs ++ cs') /\ window (length l) mw c z).
Proof.
  intro Hne. assert (Hs : (0 < length l)%nat) by (destruct l; [congruence|cbn; lia]).
  induction n as [|n IH]; intros cs rem idx Hlen Hrem Hp Hidx; cbn [find_loop].
  - exists [], idx. rewrite app_nil_r. auto.
  - destruct (argmax_spec (map Rabs rem)) as (c & -> & Hc); [destruct rem; [cbn in Hlen; lia|discriminate]|]. cbn [bind].
    rewrite map_length, Hlen in Hc.
    assert (Hc' : first_max (left l mw dist cs) (length l) c).
    { destruct Hc as (C1 & C2 & C3).
      assert (G : forall i, (i < length l)%nat -> nth i (map Rabs rem) 0 = left l mw dist cs i) by (intros i Hi; rewrite (nth_indep _ 0 (Rabs 0)), map_nth by (rewrite map_length; lia); now apply Hrem).
      split; [exact C1|]. split; intros i Hi; rewrite <- !G by lia; [apply C2|apply C3]; exact Hi. }
    destruct (IH (cs ++ [c]) (zero_at (map (clip (length l)) (arange (Z.of_nat c - dist) (Z.of_nat c + mw))) rem) (idx ++ map (clip (length l)) (arange (Z.of_nat c - mw / 2) (Z.of_nat c + mw / 2)))) as (cs' & r & E & L & P & I).
    + now rewrite zero_at_length.
    + intros i Hi. rewrite zero_at_nth by (intros z Hz; apply in_map_iff in Hz; destruct Hz as (y & <- & _); apply clip_range; exact Hs).
      rewrite cleared_mem by exact Hs. unfold left. rewrite existsb_app. cbn [existsb]. rewrite orb_false_r. destruct (cleared _ _ _ _ _); [rewrite orb_true_r; apply Rabs_R0|]. rewrite orb_false_r. now apply Hrem.
    + intros k Hk. rewrite app_length in Hk. cbn in Hk. destruct (Nat.eq_dec k (length cs)) as [->|].
      * rewrite app_nth2, Nat.sub_diag by lia. cbn [nth]. rewrite firstn_app, Nat.sub_diag, firstn_all. cbn [firstn]. rewrite app_nil_r. exact Hc'.
      * rewrite app_nth1, firstn_app by lia. replace (k - length cs)%nat with 0%nat by lia. cbn [firstn]. rewrite app_nil_r. apply Hp. lia.
    + intro z. rewrite in_app_iff, Hidx. rewrite window_in by exact Hs. unfold window. split.
      * intros [(c' & H1 & H2)|H]; [exists c'; rewrite in_app_iff; tauto|exists c; rewrite in_app_iff; cbn; tauto].
      * intros (c' & H1 & H2). apply in_app_iff in H1. destruct H1 as [H1|[->|[]]]; [left; eauto|right; exact H2].
    + exists (c :: cs'), r. rewrite <- app_assoc in P, I. cbn [app length] in *. auto.
Qed.
Lemma find_n_spec l n mw dist : l <> [] -> let d := match dist with None => (mw / 2)%Z | Some d => d end in
  exists cs r, find_n_sinusoidals l n mw dist = Ok r /\ length cs = n /\ peaks_of l mw d cs /\ StronglySorted Z.lt r /\ (forall z, In z r <-> exists c, In c cs /\ window (length l) mw c z).
Proof.
  intros Hne d. unfold find_n_sinusoidals. fold d.
  destruct (find_loop_spec l mw d Hne n [] l [] eq_refl) as (cs & r & E & L & P & I).
  - intros i Hi. reflexivity.
  - intros k Hk. cbn in Hk. lia.
  - intro z. cbn. split; [intros []|intros (c & [] & _)].
  - cbn [app] in *. exists cs, (unique r). fold d in E. rewrite E. cbn [bind]. destruct (unique_spec r) as [U1 U2]. split; [reflexivity|]. split; [exact L|]. split; [exact P|]. split; [exact U1|].
    intro z. now rewrite U2.
Qed.
