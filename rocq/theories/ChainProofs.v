(** chain() is series composition; stack() is parallel composition. *)
From Coq Require Import List Arith Lia Bool.
From Verif Require Import Base LinAlg AnalogSystem AnalogProofs.
Import ListNotations.

Section P.
Context {K : cring}.
Add Ring Kring : (rth K).
Local Notation "0" := (r0 K).
Local Notation "1" := (r1 K).
Local Infix "+" := (radd K).
Local Infix "*" := (rmul K).

(** *** Specification: a system with its state and its controls *)
Notation node := (asys K * list K * list K)%type.
Definition nsys (p : node) : asys K := fst (fst p).
Definition nst (p : node) : list K := snd (fst p).
Definition nct (p : node) : list K := snd p.
Definition sized (p : node) : Prop := valid (nsys p) /\ length (nst p) = sN (nsys p) /\ length (nct p) = sM (nsys p).

(** drive the first system with [v], every further one with the output of its predecessor: all derivatives, last output *)
Fixpoint series (l : list node) (v : list K) : list K * list K :=
  match l with
  | [] => ([], v)
  | p :: r => let (ds, y) := series r (out (nsys p) (nst p) v) in (rhs (nsys p) (nst p) v (nct p) ++ ds, y)
  end.

Fixpoint compatible (k : nat) (l : list (asys K)) : Prop :=
  match l with [] => True | s :: r => sL s = k /\ compatible (sNt s) r end.

(** *** sums over blocks *)
Lemma ksum_split3 tot a b f : (a + b <= tot)%nat ->
  ksum tot f = ksum a f + ksum b (fun j => f (a + j)%nat) + ksum (tot - (a + b)) (fun j => f (a + b + j)%nat).
Proof.
  intros H. replace tot with (a + b + (tot - (a + b)))%nat at 1 by lia. now rewrite !ksum_app.
Qed.

Definition inb (a b j : nat) : bool := (a <=? j) && (j <? b).
Lemma inb_true a b j : (a <= j < b)%nat -> inb a b j = true.
Proof. intros [H1 H2]. unfold inb. apply andb_true_intro. split; [now apply Nat.leb_le|now apply Nat.ltb_lt]. Qed.
Lemma inb_false a b j : (j < a \/ b <= j)%nat -> inb a b j = false.
Proof.
  intros H. unfold inb. apply andb_false_iff. destruct H; [left; now apply Nat.leb_gt|right; now apply Nat.ltb_ge].
Qed.

Lemma ent_setblk M r0 r1 c0 c1 V i j :
  ent (setblk (K := K) M r0 r1 c0 c1 V) i j = if inb r0 r1 i && inb c0 c1 j then ent V (i - r0) (j - c0) else ent M i j.
Proof. reflexivity. Qed.

Lemma nth_map_seq (f : nat -> K) n i : (i < n)%nat -> nth i (map f (seq O n)) 0 = f i.
Proof.
  intros H. rewrite (nth_indep _ 0 (f O)) by (now rewrite map_length, seq_length). rewrite map_nth, seq_nth by assumption. reflexivity.
Qed.
Lemma map_seq_len (f : nat -> K) n : length (map f (seq O n)) = n.
Proof. now rewrite map_length, seq_length. Qed.

Record Inv (N L M Mt : nat) (X C u : list K) (st : cst K) (m : nat) (ds ox os v : list K) : Prop := mkInv {
  i_A : rows (cA st) = N /\ cols (cA st) = N;
  i_At : rows (cAt st) = Mt /\ cols (cAt st) = M;
  i_B : rows (cB st) = N /\ cols (cB st) = L;
  i_D : rows (cD st) = length v /\ cols (cD st) = L;
  i_CT : rows (cCT st) = length v /\ cols (cCT st) = N;
  i_G : rows (cG st) = N /\ cols (cG st) = M;
  i_Gt : rows (cGt st) = Mt /\ cols (cGt st) = N;
  i_n : cn st = length ds; i_m : cm st = m; i_mt : cmt st = length ox; i_mt' : cmt st = length os;
  i_d : forall i, (i < length ds)%nat -> lin (cA st) X i + lin (cB st) u i + lin (cG st) C i = nth i ds 0;
  i_x : forall i, (i < length ox)%nat -> lin (cGt st) X i = nth i ox 0;
  i_s : forall i, (i < length os)%nat -> lin (cAt st) C i = nth i os 0;
  i_zG : forall i j, (length ds <= i)%nat -> ent (cG st) i j = 0;
  i_zGt : forall i j, (length ox <= i)%nat -> ent (cGt st) i j = 0;
  i_zAt : forall i j, (length os <= i)%nat -> ent (cAt st) i j = 0;
  i_v : forall i, (i < length v)%nat -> ksum (length ds) (fun k => ent (cCT st) i k * nth k X 0) + lin (cD st) u i = nth i v 0
}.

Lemma lin_ext m m' x i : cols m = cols m' -> (forall j, (j < cols m)%nat -> ent m i j = ent m' i j) -> lin (K := K) m x i = lin m' x i.
Proof. intros H1 H2. unfold lin. rewrite <- H1. apply ksum_ext. intros j Hj. now rewrite H2. Qed.

(** a matrix row that is [V]'s row on the columns [a, a + b) and zero elsewhere *)
Lemma lin_blk m V x y i i' a b :
  (a + b <= cols m)%nat -> cols V = b ->
  (forall j, (j < b)%nat -> nth (a + j) x 0 = nth j y 0) ->
  (forall j, ent m i j = if inb a (a + b) j then ent V i' (j - a) else 0) ->
  lin (K := K) m x i = lin V y i'.
Proof.
  intros Ha Hb Hx He. unfold lin. rewrite (ksum_split3 _ a b) by assumption.
  rewrite (ksum_zero a), (ksum_zero (cols m - (a + b))).
  - rewrite Hb. rewrite (ksum_ext b _ (fun k => ent V i' k * nth k y 0)); [ring|].
    intros j Hj. rewrite He, inb_true by lia. rewrite Hx by assumption. now replace (a + j - a)%nat with j by lia.
  - intros j Hj. rewrite He, inb_false by lia. ring.
  - intros j Hj. rewrite He, inb_false by lia. ring.
Qed.

Lemma app_nth_l (a b : list K) i : (i < length a)%nat -> nth i (a ++ b) 0 = nth i a 0.
Proof. intros. now apply app_nth1. Qed.
Lemma app_nth_r (a b : list K) i : (length a <= i)%nat -> nth i (a ++ b) 0 = nth (i - length a) b 0.
Proof. intros. now apply app_nth2. Qed.

Lemma rhs_length s (x u c : list K) : length (rhs s x u c) = sN s.
Proof. apply map_seq_len. Qed.
Lemma out_length s (x u : list K) : length (out s x u) = sNt s.
Proof. apply map_seq_len. Qed.
Lemma obs_x_length s (x : list K) : length (obs_x s x) = sMt s.
Proof. apply map_seq_len. Qed.
Lemma obs_s_length s (x : list K) : length (obs_s s x) = sMt s.
Proof. apply map_seq_len. Qed.

Lemma dotm_ok a b : cols a = rows b ->
  dotm (K := K) a b = Ok (mk2 (rows a) (cols b) (fun i j => ksum (cols a) (fun k => ent a i k * ent b k j))).
Proof. intros H. unfold dotm. now rewrite H, Nat.eqb_refl. Qed.

(** sum over [k] of (row of [V] times matrix [m]) is [V] applied to the vector of those sums *)
Lemma ksum_mm (V m : nat -> nat -> K) r n i (g : nat -> K) :
  ksum n (fun k => ksum r (fun q => V i q * m q k) * g k) = ksum r (fun q => V i q * ksum n (fun k => m q k * g k)).
Proof.
  rewrite (ksum_ext n _ (fun k => ksum r (fun q => V i q * m q k * g k))).
  - rewrite ksum_swap. apply ksum_ext. intros q _. rewrite <- ksum_scale. apply ksum_ext. intros; ring.
  - intros k _. rewrite (ksum_ext r (fun q => V i q * m q k * g k) (fun q => g k * (V i q * m q k))) by (intros; ring).
    rewrite ksum_scale. ring.
Qed.

Lemma chain_step_inv N L M Mt X C u st m ds ox os v s x c :
  Inv N L M Mt X C u st m ds ox os v -> valid s -> sL s = length v ->
  (length ds + sN s <= N)%nat -> (m + sM s <= M)%nat -> (length ox + sMt s <= Mt)%nat ->
  length x = sN s -> length c = sM s ->
  (forall k, (k < sN s)%nat -> nth (length ds + k) X 0 = nth k x 0) ->
  (forall k, (k < sM s)%nat -> nth (m + k) C 0 = nth k c 0) ->
  (forall i k, (length ds + sN s <= k)%nat -> ent (cCT st) i k = 0) ->
  exists st', chain_step N L st s = Ok st' /\
    Inv N L M Mt X C u st' (m + sM s) (ds ++ rhs s x v c) (ox ++ obs_x s x) (os ++ obs_s s c) (out s x v) /\
    (forall i k, (length ds + sN s <= k)%nat -> ent (cCT st') i k = 0).
Proof.
  intros I Vs HL HN HM HMt Lx Lc HX HC HZ.
  assert (Los : length ox = length os) by (rewrite <- (i_mt _ _ _ _ _ _ _ _ _ _ _ _ _ I), (i_mt' _ _ _ _ _ _ _ _ _ _ _ _ _ I); reflexivity).
  destruct I as [[iA1 iA2] [iAt1 iAt2] [iB1 iB2] [iD1 iD2] [iC1 iC2] [iG1 iG2] [iGt1 iGt2] En Em Emt Emt' Hd Hx Hs ZG ZGt ZAt Hv].
  destruct Vs as [VA VB VC VG VGt [VD1 VD2] [VBt1 VBt2] [VAt1 VAt2]].
  assert (HBL : cols (aB s) = length v) by (exact HL).
  unfold chain_step. rewrite En, Em, Emt.
  rewrite dotm_ok by congruence. cbn [bind]. rewrite dotm_ok by congruence. cbn [bind].
  rewrite dotm_ok by congruence. cbn [bind]. rewrite dotm_ok by congruence. cbn [bind].
  eexists. split; [reflexivity|].
  (* the value seen by the new system *)
  assert (Hsig : forall i, (i < sN s)%nat ->
    ksum (length ds) (fun k => ksum (cols (aB s)) (fun q => ent (aB s) i q * ent (cCT st) q k) * nth k X 0) +
    ksum L (fun k => ksum (cols (aB s)) (fun q => ent (aB s) i q * ent (cD st) q k) * nth k u 0) = lin (aB s) v i).
  { intros i Hi. rewrite !ksum_mm, <- ksum_add. unfold lin. apply ksum_ext. intros q Hq.
    rewrite <- Hv by lia. unfold lin. rewrite iD2. ring. }
  assert (Hout : forall i,
    ksum (length ds) (fun k => ksum (cols (aD s)) (fun q => ent (aD s) i q * ent (cCT st) q k) * nth k X 0) +
    ksum L (fun k => ksum (cols (aD s)) (fun q => ent (aD s) i q * ent (cD st) q k) * nth k u 0) = lin (aD s) v i).
  { intros i. rewrite !ksum_mm, <- ksum_add. unfold lin. apply ksum_ext. intros q Hq.
    rewrite <- Hv by lia. unfold lin. rewrite iD2. ring. }
  split.
  - constructor; cbn [cA cAt cB cD cCT cG cGt cn cm cmt rows cols setblk].
    + auto.
    + auto.
    + auto.
    + rewrite out_length. split; [exact VD1|exact iD2].
    + rewrite out_length. split; [exact VD1|exact iC2].
    + destruct (aG s); cbn; auto.
    + destruct (aGt s); cbn; auto.
    + rewrite app_length, rhs_length. reflexivity.
    + reflexivity.
    + rewrite app_length, obs_x_length. reflexivity.
    + rewrite app_length, obs_s_length, Los. reflexivity.
    + rewrite app_length, rhs_length. intros i Hi. destruct (Nat.lt_ge_cases i (length ds)) as [Lt|Ge].
      * rewrite app_nth_l by assumption. rewrite <- Hd by assumption. f_equal; [f_equal|].
        -- apply lin_ext; [cbn; congruence|]. intros j Hj. rewrite !ent_setblk, !(inb_false (length ds)) by lia. reflexivity.
        -- apply lin_ext; [reflexivity|]. intros j Hj. rewrite ent_setblk, (inb_false (length ds)) by lia. reflexivity.
        -- apply lin_ext; [destruct (aG s); reflexivity|]. intros j Hj. destruct (aG s); [|reflexivity].
           cbn [setblk_opt]. rewrite ent_setblk, (inb_false (length ds)) by lia. reflexivity.
      * rewrite app_nth_r by assumption. unfold rhs. rewrite nth_map_seq by lia. set (i' := (i - length ds)%nat).
        assert (Hi' : (i' < sN s)%nat) by (unfold i'; lia). rewrite <- Hsig by assumption.
        match goal with |- lin ?a X i + lin ?b u i + lin ?g C i = _ =>
          assert (E1 : lin a X i = ksum (length ds) (fun k => ksum (cols (aB s)) (fun q => ent (aB s) i' q * ent (cCT st) q k) * nth k X 0) + lin (aA s) x i');
          [|assert (E2 : lin b u i = ksum L (fun k => ksum (cols (aB s)) (fun q => ent (aB s) i' q * ent (cD st) q k) * nth k u 0));
           [|assert (E3 : lin g C i = lino (aG s) c i')]] end.
        -- unfold lin at 1. cbn [cols setblk]. rewrite iA2. rewrite (ksum_split3 N (length ds) (sN s)) by assumption.
           rewrite (ksum_zero (N - _)).
           2:{ intros j Hj. rewrite !ent_setblk, (inb_true (length ds) _ i), (inb_false (length ds)), (inb_true O N) by lia.
               cbn [andb ent]. rewrite (ksum_zero (cols (aB s))); [ring|]. intros q Hq. rewrite HZ by lia. ring. }
           rewrite (ksum_ext (length ds) _ (fun k => ksum (cols (aB s)) (fun q => ent (aB s) i' q * ent (cCT st) q k) * nth k X 0)).
           2:{ intros j Hj. rewrite !ent_setblk, (inb_true (length ds) _ i), (inb_false (length ds) _ j), (inb_true O N) by lia.
               cbn [andb ent]. now rewrite Nat.sub_0_r. }
           unfold lin. rewrite VA. rewrite (ksum_ext (sN s) _ (fun k => ent (aA s) i' k * nth k x 0)); [ring|].
           intros j Hj. rewrite !ent_setblk, !(inb_true (length ds)) by lia. cbn [andb ent]. rewrite HX by assumption.
           now replace (length ds + j - length ds)%nat with j by lia.
        -- unfold lin. cbn [cols setblk]. rewrite iB2. apply ksum_ext. intros j Hj.
           rewrite !ent_setblk, (inb_true (length ds)), (inb_true O) by lia. cbn [andb ent]. now rewrite Nat.sub_0_r.
        -- assert (HsM : sM s = match aG s with Some g => cols g | None => O end) by reflexivity.
           destruct (aG s) as [g|]; cbn [setblk_opt lino].
           ++ apply (lin_blk _ g C c i i' m (sM s)); [cbn; lia|auto|exact HC|].
              intros j. rewrite ent_setblk, (inb_true (length ds)) by lia. cbn [andb]. rewrite ZG by lia. reflexivity.
           ++ unfold lin. apply ksum_zero. intros j _. rewrite ZG by lia. ring.
        -- rewrite E1, E2, E3. ring.
    + rewrite app_length, obs_x_length. intros i Hi. destruct (Nat.lt_ge_cases i (length ox)) as [Lt|Ge].
      * rewrite app_nth_l by assumption. rewrite <- Hx by assumption.
        apply lin_ext; [destruct (aGt s); reflexivity|]. intros j Hj. destruct (aGt s); [|reflexivity].
        cbn [setblk_opt]. rewrite ent_setblk, (inb_false (length ox)) by lia. reflexivity.
      * rewrite app_nth_r by assumption. unfold obs_x. rewrite nth_map_seq by lia.
        assert (HsM : sMt s = match aGt s with Some g => rows g | None => O end) by reflexivity.
        destruct (aGt s) as [g|]; cbn [setblk_opt lino]; [|lia].
        apply (lin_blk _ g X x i _ (length ds) (sN s)); [cbn; lia|auto|exact HX|].
        intros j. rewrite ent_setblk, (inb_true (length ox)) by lia. cbn [andb]. rewrite ZGt by lia. reflexivity.
    + rewrite app_length, obs_s_length. intros i Hi. destruct (Nat.lt_ge_cases i (length os)) as [Lt|Ge].
      * rewrite app_nth_l by assumption. rewrite <- Hs by assumption.
        apply lin_ext; [reflexivity|]. intros j Hj. rewrite ent_setblk, (inb_false (length ox)) by lia. reflexivity.
      * rewrite app_nth_r by assumption. unfold obs_s. rewrite nth_map_seq by lia.
        apply (lin_blk _ (aAt s) C c i _ m (sM s)); [cbn; lia|auto|exact HC|].
        intros j. rewrite ent_setblk, (inb_true (length ox)) by lia. cbn [andb]. rewrite ZAt by lia. rewrite Los. reflexivity.
    + rewrite app_length, rhs_length. intros i j Hi. destruct (aG s); cbn [setblk_opt]; [|apply ZG; lia].
      rewrite ent_setblk, (inb_false (length ds)) by lia. apply ZG. lia.
    + rewrite app_length, obs_x_length. intros i j Hi. destruct (aGt s); cbn [setblk_opt]; [|apply ZGt; lia].
      rewrite ent_setblk, (inb_false (length ox)) by lia. apply ZGt. lia.
    + rewrite app_length, obs_s_length. intros i j Hi.
      rewrite ent_setblk, (inb_false (length ox)) by lia. apply ZAt. lia.
    + rewrite out_length, app_length, rhs_length. intros i Hi. unfold out. rewrite nth_map_seq by assumption.
      rewrite <- Hout. rewrite ksum_app.
      rewrite (ksum_ext (length ds) _ (fun k => ksum (cols (aD s)) (fun q => ent (aD s) i q * ent (cCT st) q k) * nth k X 0)).
      2:{ intros j Hj. rewrite ent_setblk, (inb_false (length ds)) by lia. rewrite andb_false_r. reflexivity. }
      rewrite (ksum_ext (sN s) _ (fun k => ent (aCT s) i k * nth k x 0)).
      2:{ intros j Hj. rewrite ent_setblk, (inb_true O), (inb_true (length ds)) by (cbn; lia). cbn [andb].
          rewrite HX by assumption. rewrite Nat.sub_0_r. now replace (length ds + j - length ds)%nat with j by lia. }
      unfold lin. cbn [cols ent]. rewrite VC, iD2. ring.
  - cbn [cCT]. intros i k Hk. rewrite ent_setblk, (inb_false (length ds)) by lia. rewrite andb_false_r. cbn [ent].
    apply ksum_zero. intros q _. rewrite HZ by assumption. ring.
Qed.

Lemma concat_len (f : node -> list K) (g : asys K -> nat) l :
  Forall (fun p => length (f p) = g (nsys p)) l -> length (concat (map f l)) = total g (map nsys l).
Proof. induction 1 as [|p l H _ IH]; [reflexivity|]. unfold total in *. cbn. now rewrite app_length, H, IH. Qed.

Lemma total_cons (f : asys K -> nat) s l : total f (s :: l) = (f s + total f l)%nat.
Proof. reflexivity. Qed.

Lemma chain_loop_inv N L M Mt X C u l : forall st m ds ox os v Xp Cp,
  Inv N L M Mt X C u st m ds ox os v -> Forall sized l -> compatible (length v) (map nsys l) ->
  X = Xp ++ concat (map nst l) -> length Xp = length ds -> C = Cp ++ concat (map nct l) -> length Cp = m ->
  (length ds + total sN (map nsys l) <= N)%nat -> (m + total sM (map nsys l) <= M)%nat ->
  (length ox + total sMt (map nsys l) <= Mt)%nat ->
  match l with [] => True | p :: _ => forall i k, (length ds + sN (nsys p) <= k)%nat -> ent (cCT st) i k = 0 end ->
  exists st', chain_loop N L st (map nsys l) = Ok st' /\
    Inv N L M Mt X C u st' (m + total sM (map nsys l)) (ds ++ fst (series l v)) (ox ++ concat (map (fun p => obs_x (nsys p) (nst p)) l))
      (os ++ concat (map (fun p => obs_s (nsys p) (nct p)) l)) (snd (series l v)).
Proof.
  induction l as [|[[s x] c] l IH]; intros st m ds ox os v Xp Cp I HS HC EX LX EC LC HN HM HMt HZ.
  - exists st. cbn. rewrite !app_nil_r, Nat.add_0_r. auto.
  - inversion HS as [|p l' [Vs [Lx Lc]] HS']; subst p l'. cbn [nsys nst nct fst snd] in Vs, Lx, Lc.
    cbn [map compatible nsys nst nct fst snd concat] in *. destruct HC as [HL HC]. rewrite !total_cons in HN, HM, HMt.
    destruct (chain_step_inv _ _ _ _ _ _ _ _ _ _ _ _ _ s x c I Vs HL) as (st' & E & I' & Z'); try lia; auto.
    + intros k Hk. rewrite EX. rewrite app_nth_r by lia. rewrite LX. replace (length ds + k - length ds)%nat with k by lia. apply app_nth_l. lia.
    + intros k Hk. rewrite EC. rewrite app_nth_r by lia. rewrite LC. replace (m + k - m)%nat with k by lia. apply app_nth_l. lia.
    + destruct (IH st' (m + sM s)%nat (ds ++ rhs s x v c) (ox ++ obs_x s x) (os ++ obs_s s c) (out s x v) (Xp ++ x) (Cp ++ c)) as (st'' & E'' & I'').
      * exact I'.
      * exact HS'.
      * now rewrite out_length.
      * now rewrite <- app_assoc.
      * now rewrite !app_length, rhs_length, LX, Lx.
      * now rewrite <- app_assoc.
      * now rewrite !app_length, LC, Lc.
      * rewrite app_length, rhs_length. lia.
      * lia.
      * rewrite app_length, obs_x_length. lia.
      * destruct l; [trivial|]. intros i k Hk. apply Z'. rewrite app_length, rhs_length in Hk. lia.
      * exists st''. split; [cbn [chain_loop]; rewrite E; exact E''|].
        cbn [series nsys nst nct fst snd]. destruct (series l (out s x v)) as [ds' y] eqn:ES. cbn [fst snd] in *.
        rewrite total_cons. rewrite <- !app_assoc in I''. now rewrite Nat.add_assoc.
Qed.

Lemma series_length l v : length (fst (series l v)) = total sN (map nsys l).
Proof.
  revert v; induction l as [|[[s x] c] l IH]; intros v; [reflexivity|]. cbn [series map nsys nst nct fst snd].
  specialize (IH (out s x v)). destruct (series l (out s x v)). cbn [fst] in *. now rewrite total_cons, app_length, rhs_length, IH.
Qed.

Lemma map_seq_nth (f : nat -> K) l : (forall i, (i < length l)%nat -> f i = nth i l 0) -> map f (seq O (length l)) = l.
Proof. intros H. rewrite <- (map_nth_seq l 0) at 2. apply map_ext_in. intros i Hi. apply H. apply in_seq in Hi. lia. Qed.

Lemma chain_series p l u :
  Forall sized (p :: l) -> compatible (sNt (nsys p)) (map nsys (p :: l)) -> length u = sL (nsys p) ->
  let X := concat (map nst (p :: l)) in let C := concat (map nct (p :: l)) in
  exists S, chain (map nsys (p :: l)) = Ok S /\ valid S /\ aG S <> None /\ aGt S <> None /\
    sN S = total sN (map nsys (p :: l)) /\ sM S = total sM (map nsys (p :: l)) /\ sMt S = total sMt (map nsys (p :: l)) /\
    sL S = sL (nsys p) /\
    rhs S X u C = fst (series (p :: l) u) /\ out S X u = snd (series (p :: l) u) /\
    obs_x S X = concat (map (fun p => obs_x (nsys p) (nst p)) (p :: l)) /\
    obs_s S C = concat (map (fun p => obs_s (nsys p) (nct p)) (p :: l)) /\
    (forall i j, ent (aBt S) i j = 0).
Proof.
  intros HS HC Lu X C. set (Y := p :: l) in *. set (nodes := map nsys Y) in *.
  assert (LX : length X = total sN nodes).
  { apply concat_len. eapply Forall_impl; [|exact HS]. intros q (_ & H & _); exact H. }
  assert (LC : length C = total sM nodes).
  { apply concat_len. eapply Forall_impl; [|exact HS]. intros q (_ & _ & H); exact H. }
  assert (Vp : valid (nsys p)) by (inversion HS as [|? ? [V _] _]; exact V).
  assert (HL : sL (nsys p) = sNt (nsys p)) by (destruct HC as [H _]; exact H).
  unfold chain. change nodes with (nsys p :: map nsys l) at 1. cbv iota beta.
  set (N := total sN nodes). set (M := total sM nodes). set (Mt := total sMt nodes). set (L := sL (nsys p)).
  set (CT := setblk (zeros _ N) _ _ _ _ _).
  set (st0 := mkCst _ _ _ _ _ _ _ _ _ _).
  assert (I0 : Inv N L M Mt X C u st0 O [] [] [] u).
  { constructor; cbn [st0 cA cAt cB cD cCT cG cGt cn cm cmt rows cols zeros eye2 CT setblk length ent]; auto; try (intros; lia).
    - split; [|reflexivity]. rewrite Lu. symmetry. exact HL.
    - intros i Hi. cbn [ksum]. unfold lin. cbn [cols ent eye2].
      rewrite (ksum_ext _ _ (fun j => if Nat.eqb j i then nth j u 0 else 0)).
      + rewrite ksum_single by (unfold L; lia). ring.
      + intros j _. rewrite (Nat.eqb_sym i j). destruct (Nat.eqb j i); ring. }
  destruct (chain_loop_inv N L M Mt X C u Y st0 O [] [] [] u [] [] I0 HS) as (st & E & I); auto.
  - rewrite Lu. change (sL (nsys p)) with L. fold nodes. unfold L. now rewrite HL.
  - cbn [length]. intros i k Hk. cbn [st0 cCT]. unfold CT. rewrite ent_setblk, (inb_false O (cols (aCT (nsys p))) k), andb_false_r; [reflexivity|].
    right. rewrite (v_CT _ Vp). lia.
  - fold nodes in E. rewrite E. cbn [bind]. fold nodes in I. cbn [app] in I.
    set (ds := fst (series Y u)) in *. set (y := snd (series Y u)) in *.
    set (ox := concat (map (fun p => obs_x (nsys p) (nst p)) Y)) in *. set (os := concat (map (fun p => obs_s (nsys p) (nct p)) Y)) in *.
    assert (Lds : length ds = N) by (apply series_length).
    assert (Lox : length ox = Mt).
    { apply concat_len. apply Forall_forall. intros q _. apply obs_x_length. }
    assert (Los : length os = Mt).
    { apply concat_len. apply Forall_forall. intros q _. apply obs_s_length. }
    destruct I as [[iA1 iA2] [iAt1 iAt2] [iB1 iB2] [iD1 iD2] [iC1 iC2] [iG1 iG2] [iGt1 iGt2] En Em Emt Emt' Hd Hx Hs ZG ZGt ZAt Hv].
    destruct (as_init_total N L (length y) M Mt (D2 (cA st)) (D2 (cB st)) (D2 (cCT st)) (Some (D2 (cG st))) (Some (D2 (cGt st)))
        (Some (D2 (cD st))) (Some (D2 (zeros Mt L))) (Some (D2 (cAt st)))) as (S & ES & SN & SL & SNt & SM & SMt).
    { repeat split; auto. }
    exists S. split; [exact ES|]. destruct (as_init_ok _ _ _ _ _ _ _ _ _ ES) as (_ & VS & EA & EB & EC & EG & EGt & ED & EBt & EAt).
    injection EA as EA. cbn [colof rowof mato matd] in *.
    split; [exact VS|]. split; [rewrite EG; discriminate|]. split; [rewrite EGt; discriminate|].
    split; [exact SN|]. split; [exact SM|]. split; [exact SMt|]. split; [exact SL|].
    split; [|split; [|split; [|split]]].
    + unfold rhs. rewrite SN, <- EA, EB, EG. cbn [lino]. rewrite <- Lds. apply map_seq_nth. exact Hd.
    + unfold out. rewrite SNt, EC, ED. apply map_seq_nth. intros i Hi. rewrite <- Hv by exact Hi. rewrite Lds. unfold lin at 1. now rewrite iC2.
    + unfold obs_x. rewrite SMt, EGt. rewrite <- Lox. cbn [lino]. apply map_seq_nth. exact Hx.
    + unfold obs_s. rewrite SMt, EAt. rewrite <- Los. apply map_seq_nth. exact Hs.
    + intros i j. rewrite EBt. reflexivity.
Qed.

(** *** chain rejects everything else *)
Lemma chain_step_bad N L st s : cols (aB s) <> rows (cCT st) -> chain_step (K := K) N L st s = Exn ValueError.
Proof. intros H. unfold chain_step, dotm at 1. destruct (Nat.eqb_spec (cols (aB s)) (rows (cCT st))); [contradiction|reflexivity]. Qed.

Lemma chain_loop_bad N L l : forall st,
  Forall valid l -> rows (cCT st) = rows (cD st) -> ~ compatible (rows (cCT st)) l -> chain_loop N L st l = Exn ValueError.
Proof.
  induction l as [|s l IH]; intros st HV HR HC; [exfalso; apply HC; exact Logic.I|].
  inversion HV as [|? ? Vs HV']; subst. cbn [compatible chain_loop] in *.
  destruct (Nat.eq_dec (sL s) (rows (cCT st))) as [E|E].
  - assert (HB : cols (aB s) = rows (cCT st)) by exact E. destruct (v_D _ Vs) as [VD1 VD2].
    unfold chain_step. rewrite dotm_ok by congruence. cbn [bind]. rewrite dotm_ok by congruence. cbn [bind].
    rewrite dotm_ok by congruence. cbn [bind]. rewrite dotm_ok by congruence. cbn [bind].
    apply IH; [exact HV'|reflexivity|]. cbn [cCT setblk rows]. intros H. apply HC. split; [exact E|]. now rewrite <- VD1.
  - rewrite chain_step_bad by exact E. reflexivity.
Qed.

Lemma chain_bad s l : Forall valid (s :: l) -> ~ compatible (sNt s) (s :: l) -> chain (s :: l) = Exn ValueError.
Proof.
  intros HV HC. unfold chain. rewrite chain_loop_bad; [reflexivity|exact HV|reflexivity|exact HC].
Qed.

End P.
