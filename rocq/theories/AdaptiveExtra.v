(** Adaptive filters: batching, several references, lstsq, the IIR prediction. *)
From Coq Require Import List Lia Arith Bool ZArith Reals Lra Permutation.
From Coquelicot Require Import Complex.
From Verif Require Import Base LinAlg BatchProofs FirExtras Zpk Adaptive AdaptiveProofs.
Import ListNotations.
Open Scope nat_scope.

Section Any.
Context {F : sfield}.
Notation vec := (list F).
Notation mat := (list (list F)).

(** tap (m, k) of window [i]: sample [i + k] of channel [m], except that M = K swaps the two indices *)
Definition entry_spec (M K : nat) (sig : mat) (i m k : nat) : F :=
  if Nat.eqb K M then nth k (nth (i + m) sig []) (r0 F) else nth m (nth (i + k) sig []) (r0 F).

Lemma window_any M K (sig : mat) i m k : i + K <= length sig -> m < M -> k < K ->
  nth k (nth m (window M K sig i) []) (r0 F) = entry_spec M K sig i m k.
Proof.
  intros Hi Hm Hk. unfold entry_spec. destruct (Nat.eqb_spec K M) as [->|HN]; [now apply window_square|now apply window_entry].
Qed.
Lemma batch_any M K (sig : mat) : Forall (fun r => length r = M) sig -> K <= length sig ->
  exists ws, batch M K sig = Ok ws /\ length ws = length sig - K
    /\ forall i, i < length sig - K -> wfm M K (nth i ws []) /\ forall m k, m < M -> k < K -> nth k (nth m (nth i ws []) []) (r0 F) = entry_spec M K sig i m k.
Proof.
  intros HS HK. eexists. split; [unfold batch; rewrite (proj2 (Nat.ltb_ge _ _) HK); reflexivity|]. split; [now rewrite map_length, seq_length|].
  intros i Hi. rewrite nth_map_seq by exact Hi. split; [apply window_wf; [now split|lia]|]. intros m k Hm Hk. now apply window_any; [lia| |].
Qed.
Lemma batch_short M K (sig : mat) : length sig < K -> batch M K sig = Exn ValueError.
Proof. intros H. unfold batch. now rewrite (proj2 (Nat.ltb_lt _ _) H). Qed.
Lemma batch_exact M K (sig : mat) : length sig = K -> batch M K sig = Ok [].
Proof. intros H. unfold batch. rewrite (proj2 (Nat.ltb_ge _ _)) by lia. rewrite H, Nat.sub_diag. reflexivity. Qed.

Lemma entry_skipn M K d (sig : mat) i m k : entry_spec M K (skipn d sig) i m k = entry_spec M K sig (d + i) m k.
Proof. unfold entry_spec. rewrite !nth_skipn, !Nat.add_assoc. reflexivity. Qed.
Lemma batch_pairing M K (x y : mat) delay N : Forall (fun r => length r = M) x -> y <> [] -> Forall (fun r => length r = N) y ->
  (0 <= delay)%Z -> Z.to_nat delay + K <= length x ->
  let T := min (length x - Z.to_nat delay - K) N in
  exists ws ys, _batch M K x y delay = Ok (ws, ys) /\ length ws = T /\ wfm (length y) T ys
    /\ (forall i m k, i < T -> m < M -> k < K -> nth k (nth m (nth i ws []) []) (r0 F) = entry_spec M K x (Z.to_nat delay + i) m k)
    /\ (forall i l, i < T -> nth i (nth l ys []) (r0 F) = nth i (nth l y []) (r0 F)).
Proof.
  intros Hx Hy0 Hy HD HK T. unfold _batch. rewrite (proj2 (Z.ltb_ge _ _) HD).
  assert (HS : Forall (fun r => length r = M) (skipn (Z.to_nat delay) x)).
  { apply Forall_forall. intros r Hr. apply (proj1 (Forall_forall _ _) Hx). rewrite <- (firstn_skipn (Z.to_nat delay) x). apply in_or_app. now right. }
  destruct (batch_any M K (skipn (Z.to_nat delay) x) HS) as (ws & E & EL & HW); [rewrite skipn_length; lia|].
  rewrite E. cbn [bind]. rewrite skipn_length in EL, HW.
  assert (E0 : length (nth 0 y []) = N) by (destruct y as [|r y]; [now elim Hy0|]; now inversion Hy).
  rewrite E0, EL. fold T. do 2 eexists. split; [reflexivity|]. split; [rewrite firstn_length; unfold T; lia|]. split; [split|split].
  - now rewrite map_length.
  - apply Forall_forall. intros r Hr. apply in_map_iff in Hr. destruct Hr as (s & <- & Hs). rewrite firstn_length.
    rewrite (proj1 (Forall_forall _ _) Hy s Hs). unfold T. lia.
  - intros i m k Hi Hm Hk. rewrite nth_firstn by exact Hi. rewrite (proj2 (HW i ltac:(unfold T in Hi; lia)) m k Hm Hk). apply entry_skipn.
  - intros i l Hi. destruct (le_lt_dec (length y) l) as [Hl|Hl].
    + rewrite !nth_overflow with (l := y), nth_overflow with (l := map _ y) by (rewrite ?map_length; exact Hl). reflexivity.
    + rewrite nth_indep with (d' := firstn T []) by (now rewrite map_length). rewrite map_nth. now apply nth_firstn.
Qed.
Lemma batch_wf M K (x y : mat) delay ws ys : Forall (fun r => length r = M) x -> (0 <= delay)%Z -> Z.to_nat delay + K <= length x ->
  _batch M K x y delay = Ok (ws, ys) -> Forall (wfm M K) ws.
Proof.
  intros Hx HD HK E. unfold _batch in E. rewrite (proj2 (Z.ltb_ge _ _) HD) in E.
  assert (HS : Forall (fun r => length r = M) (skipn (Z.to_nat delay) x)).
  { apply Forall_forall. intros r Hr. apply (proj1 (Forall_forall _ _) Hx). rewrite <- (firstn_skipn (Z.to_nat delay) x). apply in_or_app. now right. }
  destruct (batch_any M K (skipn (Z.to_nat delay) x) HS) as (ws3 & E3 & L3 & H3); [rewrite skipn_length; lia|]. rewrite E3 in E. cbn [bind] in E.
  injection E as <- _. apply Forall_forall. intros w Hw.
  match type of Hw with In _ (firstn ?k _) => assert (Hw3 : In w ws3) by (rewrite <- (firstn_skipn k ws3); apply in_or_app; now left) end.
  apply (In_nth _ _ []) in Hw3. destruct Hw3 as (i & Hi & <-). apply H3. rewrite <- L3. exact Hi.
Qed.
Lemma _batch_bad M K (x y : mat) delay : (delay < 0)%Z \/ (0 < K /\ length x < Z.to_nat delay + K) -> _batch M K x y delay = Exn ValueError.
Proof.
  intros H. unfold _batch. destruct (Z.ltb_spec delay 0) as [?|Hd]; [reflexivity|]. destruct H as [H|H]; [lia|].
  rewrite batch_short; [reflexivity|]. rewrite skipn_length. lia.
Qed.

(** *** several references *)
Section Multi.
Variables M K L : nat.
Hypothesis HL : 2 <= L.

Lemma call_multi (st : @afst F) o x : a_off st = Off2 o -> length x <> L -> length x <> 1 -> call L st x = Exn ValueError.
Proof.
  intros Ho H1 H2. unfold call. rewrite Ho. rewrite (proj2 (Nat.eqb_neq L 1)) by lia. rewrite (proj2 (Nat.eqb_neq _ _) H1), (proj2 (Nat.eqb_neq _ _) H2). reflexivity.
Qed.
Lemma call_multi_square (st : @afst F) o x : a_off st = Off2 o -> length x = L ->
  exists c, call L st x = Ok c /\ forall l b, l < L -> b < L -> nth b (nth l c []) (r0 F) = radd F (tdot (nth l (a_h st) []) (nth b x [])) (sconj F (nth b o (r0 F))).
Proof.
  intros Ho H1. unfold call. rewrite Ho. rewrite (proj2 (Nat.eqb_neq L 1)) by lia. rewrite (proj2 (Nat.eqb_eq _ _) H1). eexists. split; [reflexivity|].
  intros l b Hl Hb. rewrite nth_map_seq by exact Hl. rewrite H1. now rewrite nth_map_seq by exact Hb.
Qed.
Lemma rls_multi perms delta lambda delay (st : @afst F) o x y N : a_off st = Off2 o -> perms <> [] -> Forall (fun p => p = None) perms ->
  y <> [] -> Forall (fun r => length r = N) y -> Forall (fun r => length r = M) x ->
  (0 <= delay)%Z -> 0 < min (length x - Z.to_nat delay - K) N -> rls M K L perms delta lambda delay st x y = Exn ValueError.
Proof.
  intros Ho Hp Hp2 Hy0 Hy Hx HD HT.
  destruct (batch_pairing M K x y delay N Hx Hy0 Hy HD ltac:(lia)) as (ws & ys & E & EL & HY & _). unfold rls. rewrite E. cbn [bind].
  destruct perms as [|p perms]; [now elim Hp|]. inversion Hp2; subst. cbn [rls_epochs]. rewrite EL.
  destruct ws as [|w ws]; [cbn in EL; lia|]. set (T := min (length x - Z.to_nat delay - K) N) in *. destruct T as [|T]; [lia|]. cbn [columns seq map rls_run].
  assert (G : forall V v, rls_step M K L lambda st V w v = Exn ValueError).
  { intros V v. unfold rls_step, resid, call. rewrite Ho. cbn [length]. rewrite (proj2 (Nat.eqb_neq L 1)) by lia. rewrite (proj2 (Nat.eqb_neq 1 L)) by lia. cbn [bind Nat.eqb].
    now rewrite (proj2 (Nat.leb_le 2 L) HL). }
  unfold columns. cbn [seq map rls_run]. rewrite G. reflexivity.
Qed.
Lemma gradient_multi (st : @afst F) o x y : a_off st = Off2 o -> length x <> L -> y <> [] ->
  Forall (fun r => length r = length x) y -> gradient M K L st x y = Exn ValueError.
Proof.
  intros Ho H1 Hy0 Hy. unfold gradient, resid. destruct (Nat.eq_dec (length x) 1) as [E1|N1].
  - unfold call. rewrite Ho. rewrite (proj2 (Nat.eqb_neq L 1)) by lia. rewrite (proj2 (Nat.eqb_neq _ _) H1), (proj2 (Nat.eqb_eq _ _) E1). cbn [bind].
    destruct y as [|r y]; [now elim Hy0|]. inversion Hy as [|? ? Hr _]; subst. rewrite E1 in Hr. destruct r as [|r0 [|]]; try discriminate.
    destruct L as [|L']; [lia|]. cbn [seq map map2]. rewrite E1. cbn [forallb length]. rewrite !map_length, seq_length.
    rewrite (proj2 (Nat.eqb_neq (S L') 1)) by lia. reflexivity.
  - rewrite (call_multi st o x Ho H1 N1). reflexivity.
Qed.
Lemma lms_multi perms lr momentum bs delay (st : @afst F) o x y N : a_off st = Off2 o -> perms <> [] -> Forall (fun p => p = None) perms -> 0 < bs ->
  y <> [] -> Forall (fun r => length r = N) y -> Forall (fun r => length r = M) x ->
  (0 <= delay)%Z -> 0 < min (length x - Z.to_nat delay - K) N -> min bs (min (length x - Z.to_nat delay - K) N) <> L ->
  lms M K L perms lr momentum bs delay st x y = Exn ValueError.
Proof.
  intros Ho Hp Hp2 Hbs Hy0 Hy Hx HD HT HB.
  destruct (batch_pairing M K x y delay N Hx Hy0 Hy HD ltac:(lia)) as (ws & ys & E & EL & HY & _). unfold lms. rewrite E. cbn [bind].
  destruct perms as [|p perms]; [now elim Hp|]. inversion Hp2; subst. cbn [lms_epochs]. rewrite (proj2 (Nat.eqb_neq bs 0)) by lia.
  set (T := min (length x - Z.to_nat delay - K) N) in *.
  assert (EF : length (firstn bs ws) = min bs T) by (rewrite firstn_length; congruence).
  assert (EG : gradient M K L st (firstn bs ws) (map (firstn bs) ys) = Exn ValueError).
  { apply (gradient_multi st o _ _ Ho); [rewrite EF; exact HB| |].
    - destruct HY as [HY1 _]. destruct ys; [|discriminate]. destruct y; [now elim Hy0|]. discriminate.
    - apply Forall_forall. intros r Hr. apply in_map_iff in Hr. destruct Hr as (s & <- & Hs). rewrite firstn_length, EF.
      rewrite (proj1 (Forall_forall _ _) (proj2 HY) s Hs). reflexivity. }
  destruct ws as [|w ws]; [cbn in EL; lia|]. cbn [length lms_batches]. unfold lms_step. rewrite EG. reflexivity.
Qed.
End Multi.

(** *** after lstsq *)
Lemma nth_map_d {A B} (f : A -> B) l i d d' : i < length l -> nth i (map f l) d' = f (nth i l d).
Proof. intros H. rewrite nth_indep with (d' := f d) by (now rewrite map_length). apply map_nth. Qed.
Lemma call_off1 L (st : @afst F) o x : a_off st = Off1 o ->
  exists c, call L st x = Ok c /\ length c = L /\ Forall (fun r => length r = length x) c /\
    forall l b, l < L -> b < length x -> nth b (nth l c []) (r0 F) = radd F (tdot (nth l (a_h st) []) (nth b x [])) (sconj F (nth l o (r0 F))).
Proof.
  intros Ho. unfold call. rewrite Ho. eexists. split; [reflexivity|]. split; [now rewrite map_length, seq_length|]. split.
  - apply Forall_forall. intros r Hr. apply in_map_iff in Hr. destruct Hr as (l & <- & _). now rewrite map_length, seq_length.
  - intros l b Hl Hb. rewrite nth_map_seq by exact Hl. now rewrite nth_map_seq by exact Hb.
Qed.
Lemma rls_off1 M K L perms delta lambda delay (st : @afst F) o x y N : 1 <= L -> a_off st = Off1 o -> perms <> [] -> Forall (fun p => p = None) perms ->
  y <> [] -> Forall (fun r => length r = N) y -> Forall (fun r => length r = M) x ->
  (0 <= delay)%Z -> 0 < min (length x - Z.to_nat delay - K) N -> rls M K L perms delta lambda delay st x y = Exn IndexError.
Proof.
  intros HL Ho Hp Hp2 Hy0 Hy Hx HD HT.
  destruct (batch_pairing M K x y delay N Hx Hy0 Hy HD ltac:(lia)) as (ws & ys & E & EL & HY & _). unfold rls. rewrite E. cbn [bind].
  destruct perms as [|p perms]; [now elim Hp|]. inversion Hp2; subst. cbn [rls_epochs]. rewrite EL.
  destruct ws as [|w ws]; [cbn in EL; lia|]. set (T := min (length x - Z.to_nat delay - K) N) in *. destruct T as [|T]; [lia|]. unfold columns. cbn [seq map rls_run].
  assert (G : forall V v, rls_step M K L lambda st V w v = Exn IndexError).
  { intros V v. unfold rls_step, resid, call. rewrite Ho. cbn [bind]. now rewrite (proj2 (Nat.eqb_neq L 0)) by lia. }
  rewrite G. reflexivity.
Qed.
Lemma lms_off1 M K L perms lr momentum bs delay (st : @afst F) o x y N : a_off st = Off1 o -> perms <> [] -> Forall (fun p => p = None) perms -> 0 < bs ->
  L = length y -> y <> [] -> Forall (fun r => length r = N) y -> Forall (fun r => length r = M) x ->
  (0 <= delay)%Z -> 0 < min (length x - Z.to_nat delay - K) N -> lms M K L perms lr momentum bs delay st x y = Exn IndexError.
Proof.
  intros Ho Hp Hp2 Hbs HLy Hy0 Hy Hx HD HT.
  destruct (batch_pairing M K x y delay N Hx Hy0 Hy HD ltac:(lia)) as (ws & ys & E & EL & HY & _). unfold lms. rewrite E. cbn [bind].
  destruct perms as [|p perms]; [now elim Hp|]. inversion Hp2; subst. cbn [lms_epochs]. rewrite (proj2 (Nat.eqb_neq bs 0)) by lia.
  set (T := min (length x - Z.to_nat delay - K) N) in *.
  assert (EG : exists g, gradient M K (length y) st (firstn bs ws) (map (firstn bs) ys) = Ok g).
  { unfold gradient, resid. destruct (call_off1 (length y) st o (firstn bs ws) Ho) as (c & EC & LC & HC & _). rewrite EC. cbn [bind].
    match goal with |- context [negb (forallb ?f ?l)] => assert (EB : forallb f l = true) end.
    - apply forallb_forall. intros r Hr. apply in_map_iff in Hr. destruct Hr as (r2 & <- & Hr). rewrite map_length. apply Nat.eqb_eq.
      apply (In_nth _ _ []) in Hr. destruct Hr as (i & Hi & <-). rewrite map2_length in Hi. rewrite (map2_nth _ _ _ _ [] [] []) by lia.
      assert (L1 : length (nth i c []) = length (firstn bs ws)) by (apply (proj1 (Forall_forall _ _) HC), nth_In; lia).
      assert (L2 : length (nth i (map (firstn bs) ys) []) = length (firstn bs ws)).
      { rewrite map_length in Hi. rewrite (nth_map_d (firstn bs) ys i []) by lia. rewrite !firstn_length, EL.
        rewrite (proj1 (Forall_forall _ _) (proj2 HY) (nth i ys [])); [reflexivity|]. apply nth_In. lia. }
      destruct (nth i (map (firstn bs) ys) []) as [|y0 [|y1 yr]]; [|now rewrite map_length|];
        unfold vsub; rewrite map2_length, L1, <- L2; apply Nat.min_id.
    - rewrite EB. cbn [negb]. eexists. reflexivity. }
  destruct EG as [[g0 g1] EG].
  destruct ws as [|w ws]; [cbn in EL; lia|]. cbn [length lms_batches]. unfold lms_step. rewrite EG. cbn [bind]. rewrite Ho. reflexivity.
Qed.
End Any.
