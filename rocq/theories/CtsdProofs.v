(** Importing an ABCD matrix: what reaches the analog system, and where the coefficient names collide. *)
From Coq Require Import List Lia Arith Bool ZArith Reals String Lra.
From Flocq Require Import Core.Raux.
From Verif Require Import Base LinAlg FirExtras AnalogSystem AnalogProofs Ctsd.
Import ListNotations.
Open Scope R_scope.

Definition kept (v : R) : bool := Rlt_bool min_val (Rabs v).

(** The assignments made while converting the matrix, in order, with the position each value comes from. *)
Definition state_write (m n : nat) : list (string * (nat * nat)) :=
  if Nat.eqb m (n + 1) then [(name1 "c" (n + 1), (m, n))]
  else if Nat.ltb (n + 1) m then [(name2 "d" (n + 1) (m + 1), (m, n))]
  else if Nat.ltb m n then [(name2 "e" (n + 1) (m + 1), (m, n))]
  else [].
Definition writes (N : nat) : list (string * (nat * nat)) :=
  flat_map (fun n => [(name1 "b" (n + 1), (n, N)); (name1 "a" (n + 1), (n, N + 1)%nat)]) (seq 0 (N + 1)) ++
  flat_map (fun m => flat_map (fun n => state_write m n) (seq 0 N)) (seq 0 (N + 1)).

Section W.
Variable ent : nat -> nat -> R.
Definition wput (d : dict) (w : string * (nat * nat)) : dict := put d (fst w) (ent (fst (snd w)) (snd (snd w))).

Lemma fold_flat {A} (f : A -> list (string * (nat * nat))) l (d : dict) (g : dict -> A -> dict) :
  (forall d a, g d a = fold_left wput (f a) d) -> fold_left g l d = fold_left wput (flat_map f l) d.
Proof.
  intro H. revert d. induction l as [|a l IH]; intro d; [reflexivity|]. cbn. rewrite fold_left_app, <- H. apply IH.
Qed.

Lemma abcd_dict_writes N : abcd_dict ent N = fold_left wput (writes N) [].
Proof.
  unfold abcd_dict, writes, state_entries, io_entries. rewrite fold_left_app.
  rewrite <- (fold_flat (fun n => [(name1 "b" (n + 1), (n, N)); (name1 "a" (n + 1), (n, N + 1)%nat)]) (seq 0 (N + 1)) []
    (fun d n => put (put d (name1 "b" (n + 1)) (ent n N)) (name1 "a" (n + 1)) (ent n (N + 1)%nat))) by reflexivity.
  apply fold_flat. intros d m. apply fold_flat. intros e n. unfold state_entry, state_write.
  destruct (Nat.eqb m (n + 1)); [reflexivity|]. destruct (Nat.ltb (n + 1) m); [reflexivity|]. destruct (Nat.ltb m n); reflexivity.
Qed.

Definition pick (o : option R) (p : nat * nat) : option R := if kept (ent (fst p) (snd p)) then Some (ent (fst p) (snd p)) else o.
Definition sources (N : nat) (k : string) : list (nat * nat) := map snd (filter (fun w => String.eqb k (fst w)) (writes N)).

Lemma dget_fold k ws : forall d, dget (fold_left wput ws d) k = fold_left pick (map snd (filter (fun w => String.eqb k (fst w)) ws)) (dget d k).
Proof.
  induction ws as [|[k' p] ws IH]; intro d; [reflexivity|]. cbn [fold_left filter fst]. rewrite IH. clear IH.
  unfold wput, put. cbn [fst snd]. destruct (String.eqb k k') eqn:E; cbn [map fold_left snd].
  - f_equal. unfold pick, kept. destruct (Rlt_bool _ _); [|reflexivity]. cbn. now rewrite E.
  - f_equal. destruct (Rlt_bool _ _); [|reflexivity]. cbn. now rewrite E.
Qed.
Lemma dget_sources N k : dget (abcd_dict ent N) k = fold_left pick (sources N k) None.
Proof. rewrite abcd_dict_writes, dget_fold. reflexivity. Qed.
Lemma get_one N k i j : sources N k = [(i, j)] -> dget (abcd_dict ent N) k = if kept (ent i j) then Some (ent i j) else None.
Proof. intro H. rewrite dget_sources, H. reflexivity. Qed.
Lemma get_none N k : sources N k = [] -> dget (abcd_dict ent N) k = None.
Proof. intro H. rewrite dget_sources, H. reflexivity. Qed.
End W.

(** *** The names are unambiguous up to order 10 *)
Definition src_eqb (a b : list (nat * nat)) : bool :=
  if list_eq_dec (fun p q : nat * nat => ltac:(decide equality; apply Nat.eq_dec)) a b then true else false.
Lemma src_eqb_ok a b : src_eqb a b = true -> a = b.
Proof. unfold src_eqb. destruct (list_eq_dec _ a b); [auto|discriminate]. Qed.

Definition names_ok (N : nat) : bool :=
  forallb (fun i =>
    src_eqb (sources N (name1 "b" (i + 1))) [(i, N)] &&
    src_eqb (sources N (name1 "a" (i + 1))) [(i, N + 1)%nat] &&
    src_eqb (sources N (name1 "c" i)) (match i with O => [] | S n => [(i, n)] end) &&
    src_eqb (sources N (name2 "d" (i + 1) (N + 1))) (if Nat.ltb (i + 1) N then [(N, i)] else []) &&
    forallb (fun j =>
      src_eqb (sources N (name2 "d" (j + 1) (i + 1))) (if Nat.ltb (j + 1) i then [(i, j)] else []) &&
      src_eqb (sources N (name2 "e" (j + 1) (i + 1))) (if Nat.ltb i j then [(i, j)] else [])) (seq 0 N)) (seq 0 N) &&
  src_eqb (sources N (name1 "c" N)) [(N, N - 1)%nat] && src_eqb (sources N (name1 "b" (N + 1))) [(N, N)].

Lemma names_ok_10 : forallb names_ok (seq 1 10) = true.
Proof. vm_compute. reflexivity. Qed.

Lemma names_ok_spec N : (1 <= N <= 10)%nat ->
  (forall i, (i < N)%nat ->
    sources N (name1 "b" (i + 1)) = [(i, N)] /\ sources N (name1 "a" (i + 1)) = [(i, N + 1)%nat] /\
    sources N (name1 "c" i) = match i with O => [] | S n => [(i, n)] end /\
    sources N (name2 "d" (i + 1) (N + 1)) = (if Nat.ltb (i + 1) N then [(N, i)] else []) /\
    forall j, (j < N)%nat ->
      sources N (name2 "d" (j + 1) (i + 1)) = (if Nat.ltb (j + 1) i then [(i, j)] else []) /\
      sources N (name2 "e" (j + 1) (i + 1)) = (if Nat.ltb i j then [(i, j)] else [])) /\
  sources N (name1 "c" N) = [(N, N - 1)%nat] /\ sources N (name1 "b" (N + 1)) = [(N, N)].
Proof.
  intro H. assert (E : names_ok N = true).
  { apply (proj1 (forallb_forall _ _) names_ok_10). apply in_seq. lia. }
  unfold names_ok in E. apply andb_prop in E. destruct E as [E E3]. apply andb_prop in E. destruct E as [E E2].
  split; [|split; apply src_eqb_ok; assumption].
  intros i Hi. pose proof (proj1 (forallb_forall _ _) E i) as F.
  assert (Ii : In i (seq 0 N)) by (apply in_seq; lia). specialize (F Ii). cbv beta in F.
  repeat (apply andb_prop in F; let F' := fresh "F" in destruct F as [F F']).
  repeat (split; [apply src_eqb_ok; assumption|]).
  intros j Hj. pose proof (proj1 (forallb_forall _ _) F0 j) as G.
  assert (Ij : In j (seq 0 N)) by (apply in_seq; lia). specialize (G Ij). cbv beta in G.
  apply andb_prop in G. destruct G as [G G']. split; apply src_eqb_ok; assumption.
Qed.

(** *** The imported system *)
(** values of magnitude at most 1e-8 are discarded *)
Definition keep (v : R) : R := if Rlt_dec (/ 100000000) (Rabs v) then v else 0.
Lemma keep_kept v : keep v = if kept v then v else 0.
Proof.
  unfold keep, kept, min_val. destruct (Rlt_dec _ _) as [H|H]; [rewrite Rlt_bool_true by exact H|rewrite Rlt_bool_false by lra]; reflexivity.
Qed.

Section N10.
Variables (ent0 : nat -> nat -> R) (N : nat).
Hypothesis HN : (1 <= N <= 10)%nat.
Let co := abcd_dict ent0 N.

Lemma coeff_one k i j v : sources N k = [(i, j)] -> coeff co k v = if kept (ent0 i j) then ent0 i j else v.
Proof. intro H. unfold coeff, co. rewrite (get_one _ _ _ _ _ H). destruct (kept _); reflexivity. Qed.

Lemma A_ent fs i j : (i < N)%nat -> (j < N)%nat -> ent (ctsd_A N co fs) i j = if Nat.eqb i j then 0 else keep (ent0 i j) * fs.
Proof.
  intros Hi Hj. destruct (names_ok_spec N HN) as [Hs _]. destruct (Hs i Hi) as (_ & _ & Hc & _ & Hde). destruct (Hde j Hj) as [Hd He].
  rewrite keep_kept. cbn [ctsd_A ent]. unfold has, coeff, co. match goal with |- @eq _ ?a ?b => change (@eq R a b) end.
  destruct (Nat.ltb (j + 1) i) eqn:L1.
  { apply Nat.ltb_lt in L1. destruct (Nat.ltb_spec i j) as [?|L2]; [lia|].
    rewrite (get_one _ _ _ _ _ Hd), (get_none _ _ _ He). replace (Nat.eqb i j) with false by (symmetry; apply Nat.eqb_neq; lia).
    destruct (kept _); [reflexivity|]. destruct i as [|i]; [lia|]. replace (Nat.eqb j i) with false by (symmetry; apply Nat.eqb_neq; lia).
    rewrite andb_false_r. ring. }
  apply Nat.ltb_ge in L1. rewrite (get_none _ _ _ Hd). destruct (Nat.ltb_spec i j) as [L2|L2].
  { rewrite (get_one _ _ _ _ _ He). replace (Nat.eqb i j) with false by (symmetry; apply Nat.eqb_neq; lia).
    destruct (kept _); [reflexivity|]. destruct i as [|i].
    - rewrite (get_none _ _ _ Hc). cbn. ring.
    - replace (Nat.eqb j i) with false by (symmetry; apply Nat.eqb_neq; lia). rewrite andb_false_r. ring. }
  rewrite (get_none _ _ _ He). destruct i as [|i].
  { rewrite (get_none _ _ _ Hc). cbn. replace j with O by lia. reflexivity. }
  rewrite (get_one _ _ _ _ _ Hc). destruct (Nat.eqb_spec (S i) j) as [E|E].
  { replace (Nat.eqb j i) with false by (symmetry; apply Nat.eqb_neq; lia). now rewrite andb_false_r. }
  assert (j = i) by lia. subst j. rewrite Nat.eqb_refl. destruct (kept _); cbn; ring.
Qed.

Lemma B_ent fs i : (i < N)%nat -> ent (ctsd_B N co fs) i 0 = keep (ent0 i N) * fs.
Proof.
  intro Hi. destruct (names_ok_spec N HN) as [Hs _]. destruct (Hs i Hi) as (Hb & _). cbn [ctsd_B ent].
  rewrite (coeff_one _ _ _ _ Hb), keep_kept. reflexivity.
Qed.
Lemma a_val i : (i < N)%nat -> coeff co (name1 "a" (i + 1)) 0 = keep (ent0 i (N + 1)%nat).
Proof. intro Hi. destruct (names_ok_spec N HN) as [Hs _]. destruct (Hs i Hi) as (_ & Ha & _). rewrite (coeff_one _ _ _ _ Ha), keep_kept. reflexivity. Qed.
Lemma out_last : coeff co (name1 "c" N) 1 = if Rlt_dec (/ 100000000) (Rabs (ent0 N (N - 1)%nat)) then ent0 N (N - 1)%nat else 1.
Proof.
  destruct (names_ok_spec N HN) as (_ & Hc & _). rewrite (coeff_one _ _ _ _ Hc). unfold kept, min_val.
  destruct (Rlt_dec _ _) as [H|H]; [rewrite Rlt_bool_true by exact H|rewrite Rlt_bool_false by lra]; reflexivity.
Qed.
Lemma out_ent j : (j < N - 1)%nat -> coeff co (name2 "d" (j + 1) (N + 1)) 0 = keep (ent0 N j).
Proof.
  intro Hj. destruct (names_ok_spec N HN) as [Hs _]. destruct (Hs j ltac:(lia)) as (_ & _ & _ & Hd & _).
  destruct (Nat.ltb_spec (j + 1) N); [|lia]. rewrite (coeff_one _ _ _ _ Hd), keep_kept. reflexivity.
Qed.
Lemma feed_ent : coeff co (name1 "b" (N + 1)) 0 = keep (ent0 N N).
Proof. destruct (names_ok_spec N HN) as (_ & _ & Hb). rewrite (coeff_one _ _ _ _ Hb), keep_kept. reflexivity. Qed.
End N10.

(** Every square order builds a system, whatever the coefficients. *)
Lemma dict2af_ok N co T dac (lc : bool) q : (1 <= N)%nat -> T <> 0 ->
  let M := if lc then N else 1%nat in
  exists G Gt Dt S, ctsd2gamma N co (1 / T) dac lc = Ok (G, Gt, Dt) /\ rows G = N /\ cols G = M /\ rows Gt = M /\ cols Gt = N /\ rows Dt = M /\ cols Dt = 1%nat /\
    ctsd_dict2af N co T dac lc q = Ok (S, M, repeat q M) /\ valid S /\
    aA S = ctsd_A N co (1 / T) /\ aB S = ctsd_B N co (1 / T) /\ aCT S = eye2 N N /\ aG S = Some G /\ aGt S = Some Gt /\ aD S = zeros N 1 /\ aBt S = Dt /\ aAt S = zeros M M.
Proof.
  intros HN HT M.
  assert (exists G Gt Dt, ctsd2gamma N co (1 / T) dac lc = Ok (G, Gt, Dt) /\ rows G = N /\ cols G = M /\ rows Gt = M /\ cols Gt = N /\ rows Dt = M /\ cols Dt = 1%nat) as (G & Gt & Dt & EG & H1 & H2 & H3 & H4 & H5 & H6).
  { unfold ctsd2gamma, M. destruct (Nat.eqb_spec N 0); [lia|]. destruct lc; do 3 eexists; (split; [reflexivity|]); repeat split. }
  destruct (as_init_total N 1 N M M (D2 (ctsd_A N co (1 / T))) (D2 (ctsd_B N co (1 / T))) (D2 (eye2 N N)) (Some (D2 G)) (Some (D2 Gt)) None (Some (D2 Dt)) None) as (S & ES & D1 & D2 & D3 & D4 & D5).
  { unfold fits, has_shape, col_shape, row_shape, opt_shape. cbn [rows cols eye2]. repeat split; auto; congruence. }
  destruct (as_init_ok _ _ _ _ _ _ _ _ _ ES) as (_ & V & E1 & E2 & E3 & E4 & E5 & E6 & E7 & E8).
  rewrite D1, D2, D3, D4, D5 in *. cbn [colof rowof mato matd] in *.
  exists G, Gt, Dt, S. do 7 (split; [assumption|]). split.
  { unfold ctsd_dict2af. rewrite Req_bool_false by exact HT. rewrite EG. cbn [bind]. rewrite ES. cbn [bind]. now rewrite H2, H3. }
  split; [exact V|]. split; [congruence|]. split; [exact E2|]. split; [exact E3|]. split; [exact E4|]. split; [exact E5|].
  split; [exact E6|]. split; [exact E7|]. exact E8.
Qed.

Theorem import_ok (abcd : nd2 Rring) T q dac (lc : bool) N :
  rows abcd = (N + 1)%nat -> (N + 2 <= cols abcd)%nat -> (1 <= N <= 10)%nat -> T <> 0 ->
  let M := if lc then N else 1%nat in
  exists S G Gt, ctsd_abcd2af abcd T q dac lc = Ok (S, M, repeat q M) /\
    sN S = N /\ sL S = 1%nat /\ sM S = M /\ sMt S = M /\ aG S = Some G /\ aGt S = Some Gt /\ aCT S = eye2 N N /\ aD S = zeros N 1 /\ aAt S = zeros M M /\
    (forall i j, (i < N)%nat -> (j < N)%nat -> ent (aA S) i j = if Nat.eqb i j then 0 else keep (ent abcd i j) / T) /\
    (forall i, (i < N)%nat -> ent (aB S) i 0 = keep (ent abcd i N) / T) /\
    (forall i m, (i < N)%nat -> (m < M)%nat -> ent G i m = if lc && negb (Nat.eqb i m) then 0 else keep (ent abcd i (N + 1)%nat) / T * dac) /\
    (forall m j, (m < M)%nat -> (j < N)%nat -> ent Gt m j =
      if lc then (if Nat.eqb m j then 1 else 0)
      else if Nat.eqb j (N - 1) then (if Rlt_dec (/ 100000000) (Rabs (ent abcd N j)) then ent abcd N j else 1) else keep (ent abcd N j)) /\
    (forall m, (m < M)%nat -> ent (aBt S) m 0 = if lc then 0 else keep (ent abcd N N)).
Proof.
  intros HR HC HN HT M.
  destruct (dict2af_ok N (abcd_dict (ent abcd) N) T dac lc q ltac:(lia) HT) as (G & Gt & Dt & S & EG & H1 & H2 & H3 & H4 & H5 & H6 & E & V & E1 & E2 & E3 & E4 & E5 & E6 & E7 & E8).
  exists S, G, Gt. split.
  { unfold ctsd_abcd2af. rewrite HR. replace (N + 1 - 1)%nat with N by lia.
    replace (Nat.eqb (N + 1) 0) with false by (symmetry; apply Nat.eqb_neq; lia). destruct (Nat.ltb_spec (cols abcd) (N + 2)); [lia|]. exact E. }
  unfold sN, sL, sM, sMt. rewrite E1, E2, E4, E5, E7. cbn [rows cols ctsd_A ctsd_B].
  do 4 (split; [solve [reflexivity | exact H2 | exact H3]|]). do 2 (split; [reflexivity|]). do 3 (split; [assumption|]).
  assert (Fs : forall v, v * (1 / T) = v / T) by (intro; field; exact HT).
  split. { intros i j Hi Hj. rewrite (A_ent (ent abcd) N HN (1 / T) i j Hi Hj). destruct (Nat.eqb i j); [reflexivity|]. apply Fs. }
  split. { intros i Hi. rewrite (B_ent (ent abcd) N HN (1 / T) i Hi). apply Fs. }
  unfold ctsd2gamma in EG. destruct (Nat.eqb_spec N 0); [lia|]. unfold M. destruct lc.
  - injection EG as <- <- <-. cbn [ent eye2 zeros]. split; [|split; [reflexivity|reflexivity]].
    intros i m Hi Hm. rewrite a_val by assumption. destruct (Nat.eqb i m); cbn; [|reflexivity]. now rewrite Fs.
  - injection EG as <- <- <-. cbn [ent]. split; [|split].
    + intros i m Hi Hm. rewrite a_val by assumption. cbn. now rewrite Fs.
    + intros m j Hm Hj. destruct (Nat.eqb_spec j (N - 1)) as [->|Hne]; [apply out_last; exact HN|]. apply out_ent; [exact HN|lia].
    + intros m Hm. apply feed_ent. exact HN.
Qed.

(** *** From order 11 on the names collide *)
Definition lone (N : nat) : nd2 Rring := mk2 (K := Rring) (N + 1) (N + 2) (fun i j => if Nat.eqb i 0 && Nat.eqb j 10 then 1 else 0).
Lemma kept_0 : kept 0 = false.
Proof. unfold kept, min_val. apply Rlt_bool_false. rewrite Rabs_R0. lra. Qed.
Lemma kept_1 : kept 1 = true.
Proof. unfold kept, min_val. apply Rlt_bool_true. rewrite Rabs_R1. lra. Qed.

Lemma lone_pick N l : forall o, fold_left (pick (ent (lone N))) l o = if existsb (fun p => Nat.eqb (fst p) 0 && Nat.eqb (snd p) 10) l then Some 1 else o.
Proof.
  induction l as [|p l IH]; intro o; [reflexivity|]. cbn [fold_left existsb]. rewrite IH. unfold pick. cbn [lone ent].
  destruct (Nat.eqb (fst p) 0 && Nat.eqb (snd p) 10); cbn [orb]; [rewrite kept_1|rewrite kept_0]; destruct (existsb _ l); reflexivity.
Qed.
Lemma lone_get N k : (11 <= N)%nat -> dget (abcd_dict (ent (lone N)) N) k = if String.eqb k "e111" then Some 1 else None.
Proof.
  intro HN. rewrite dget_sources, lone_pick. destruct (String.eqb_spec k "e111") as [->|Hk].
  - replace (existsb _ _) with true; [reflexivity|]. symmetry. apply existsb_exists. exists (0, 10)%nat. split; [|reflexivity].
    unfold sources. apply in_map_iff. exists ("e111"%string, (0, 10)%nat). split; [reflexivity|]. apply filter_In. split; [|reflexivity].
    unfold writes. apply in_or_app. right. apply in_flat_map. exists 0%nat. split; [apply in_seq; lia|]. apply in_flat_map. exists 10%nat.
    split; [apply in_seq; lia|]. left. reflexivity.
  - replace (existsb _ _) with false; [reflexivity|]. symmetry. apply not_true_is_false. intro H. apply existsb_exists in H.
    destruct H as ([i j] & Hin & Hp). cbn [fst snd] in Hp. apply andb_prop in Hp. destruct Hp as [H1 H2]. apply Nat.eqb_eq in H1, H2. subst i j.
    unfold sources in Hin. apply in_map_iff in Hin. destruct Hin as ([k' p] & Ep & Hin). cbn [snd] in Ep. subst p.
    apply filter_In in Hin. destruct Hin as [Hin Ek]. cbn [fst] in Ek. apply String.eqb_eq in Ek. subst k'.
    unfold writes in Hin. apply in_app_or in Hin. destruct Hin as [Hin|Hin]; apply in_flat_map in Hin; destruct Hin as (a & Ha & Hin).
    + destruct Hin as [E|[E|[]]]; injection E; intros; lia.
    + apply in_flat_map in Hin. destruct Hin as (b & Hb & Hin). unfold state_write in Hin.
      destruct (Nat.eqb_spec a (b + 1)); [destruct Hin as [E|[]]; injection E; intros; lia|].
      destruct (Nat.ltb_spec (b + 1) a); [destruct Hin as [E|[]]; injection E; intros; lia|].
      destruct (Nat.ltb_spec a b); [|destruct Hin]. destruct Hin as [E|[]]. assert (E' := f_equal snd E). cbn [snd] in E'.
      injection E' as -> ->. apply Hk. assert (E2 := f_equal fst E). cbn [fst] in E2. rewrite <- E2. reflexivity.
Qed.

(** The single entry at row 1, column 11 appears a second time at row 11, column 1. *)
Theorem import_collision N : (11 <= N)%nat ->
  exists abcd : nd2 Rring, rows abcd = (N + 1)%nat /\ cols abcd = (N + 2)%nat /\ (forall i j, (i, j) <> (0, 10)%nat -> ent abcd i j = 0) /\
    forall q dac, exists S, ctsd_abcd2af abcd 1 q dac false = Ok (S, 1%nat, [q]) /\ ent (aA S) 0 10 = 1 /\ ent (aA S) 10 0 = 1.
Proof.
  intro HN. exists (lone N). split; [reflexivity|]. split; [reflexivity|]. split.
  { intros i j H. cbn [lone ent]. destruct (Nat.eqb_spec i 0), (Nat.eqb_spec j 10); try reflexivity. subst. now contradict H. }
  intros q dac. destruct (dict2af_ok N (abcd_dict (ent (lone N)) N) 1 dac false q ltac:(lia) R1_neq_R0) as (G & Gt & Dt & S & EG & H1 & H2 & H3 & H4 & H5 & H6 & E & V & E1 & _).
  exists S. split.
  - unfold ctsd_abcd2af. cbn [lone rows cols]. replace (N + 1 - 1)%nat with N by lia.
    replace (Nat.eqb (N + 1) 0) with false by (symmetry; apply Nat.eqb_neq; lia). rewrite Nat.ltb_irrefl. exact E.
  - rewrite E1. cbn [ctsd_A ent]. unfold has, coeff. rewrite !lone_get by exact HN. split; cbn; field.
Qed.

Lemma import_errors (abcd : nd2 Rring) T q dac lc : (2 <= rows abcd)%nat ->
  ((cols abcd < rows abcd + 1)%nat -> ctsd_abcd2af abcd T q dac lc = Exn IndexError) /\
  ((rows abcd + 1 <= cols abcd)%nat -> T = 0 -> ctsd_abcd2af abcd T q dac lc = Exn ZeroDivisionError).
Proof.
  intro H. unfold ctsd_abcd2af. destruct (Nat.eqb_spec (rows abcd) 0); [lia|]. cbn [orb]. split.
  - intro Hc. destruct (Nat.ltb_spec (cols abcd) (rows abcd - 1 + 2)); [reflexivity|lia].
  - intros Hc ->. destruct (Nat.ltb_spec (cols abcd) (rows abcd - 1 + 2)); [lia|]. unfold ctsd_dict2af. now rewrite Req_bool_true.
Qed.
