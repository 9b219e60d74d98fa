(** stack() is parallel composition. *)
From Coq Require Import List Arith Lia Bool.
From Verif Require Import Base LinAlg AnalogSystem AnalogProofs ChainProofs.
Import ListNotations.

Section P.
Context {K : cring}.
Add Ring Kring : (rth K).
Local Notation "0" := (r0 K).
Local Infix "+" := (radd K).
Local Infix "*" := (rmul K).

(** a system with its state, its controls and its own input *)
Notation node := (asys K * list K * list K)%type.
Notation pnode := (node * list K)%type.
Definition pn (q : pnode) : node := fst q.
Definition psys (q : pnode) : asys K := nsys (fst q).
Definition pin (q : pnode) : list K := snd q.
Definition psized (q : pnode) : Prop := sized (fst q) /\ length (snd q) = sL (psys q).

Definition bd (R Cc : nat) (m : nd2 K) (g done : list K) : Prop :=
  rows m = R /\ cols m = Cc /\ (forall i, (i < length done)%nat -> lin m g i = nth i done 0) /\
  (forall i j, (length done <= i)%nat -> ent m i j = 0).

Lemma bd_zeros R Cc g : bd R Cc (zeros R Cc) g [].
Proof. repeat split; intros; cbn in *; lia. Qed.

Lemma bd_step R Cc m g done V y c b r :
  bd R Cc m g done -> cols V = b -> (c + b <= Cc)%nat -> (forall j, (j < b)%nat -> nth (c + j) g 0 = nth j y 0) -> rows V = r ->
  bd R Cc (setblk m (length done) (length done + r) c (c + b) V) g (done ++ map (lin V y) (seq O r)).
Proof.
  intros (HR & HC & Hd & Hz) Hb Hc Hg Hr. repeat split; try assumption.
  - rewrite app_length, map_seq_len. intros i Hi. destruct (Nat.lt_ge_cases i (length done)) as [Lt|Ge].
    + rewrite app_nth_l by assumption. rewrite <- Hd by assumption. apply lin_ext; [reflexivity|].
      intros j _. rewrite ent_setblk, (inb_false (length done)) by lia. reflexivity.
    + rewrite app_nth_r by assumption. rewrite nth_map_seq by lia.
      apply (lin_blk _ V g y i _ c b); [cbn; lia|assumption|assumption|].
      intros j. rewrite ent_setblk, (inb_true (length done)) by lia. cbn [andb]. now rewrite Hz by assumption.
  - rewrite app_length, map_seq_len. intros i j Hi. rewrite ent_setblk, (inb_false (length done)) by lia. apply Hz. lia.
Qed.

Lemma bd_step_opt R Cc m g done V y c b r :
  bd R Cc m g done -> match V with Some V => cols V = b /\ rows V = r | None => b = O end -> (c + b <= Cc)%nat ->
  (forall j, (j < b)%nat -> nth (c + j) g 0 = nth j y 0) ->
  bd R Cc (setblk_opt m (length done) (length done + r) c (c + b) V) g (done ++ map (lino V y) (seq O r)).
Proof.
  intros H HV Hc Hg. destruct V as [V|].
  - destruct HV. now apply bd_step.
  - cbn [setblk_opt]. destruct H as (HR & HC & Hd & Hz). repeat split; try assumption.
    + rewrite app_length, map_seq_len. intros i Hi. destruct (Nat.lt_ge_cases i (length done)) as [Lt|Ge].
      * rewrite app_nth_l by assumption. now apply Hd.
      * rewrite app_nth_r by assumption. rewrite nth_map_seq by lia. cbn. unfold lin. apply ksum_zero. intros k _. rewrite Hz by assumption. ring.
    + rewrite app_length, map_seq_len. intros i j Hi. apply Hz. lia.
Qed.

Definition eA (q : pnode) := map (lin (aA (psys q)) (nst (pn q))) (seq O (sN (psys q))).
Definition eB (q : pnode) := map (lin (aB (psys q)) (pin q)) (seq O (sN (psys q))).
Definition eG (q : pnode) := map (lino (aG (psys q)) (nct (pn q))) (seq O (sN (psys q))).
Definition eC (q : pnode) := map (lin (aCT (psys q)) (nst (pn q))) (seq O (sNt (psys q))).
Definition eD (q : pnode) := map (lin (aD (psys q)) (pin q)) (seq O (sNt (psys q))).
Definition eX (q : pnode) := obs_x (psys q) (nst (pn q)).
Definition eS (q : pnode) := obs_s (psys q) (nct (pn q)).

Record SInv (N L Nt M Mt : nat) (X C U : list K) (st : sst K) (n m mt l nt : nat) (dA dB dG dC dD dX dS : list K) : Prop := mkSInv {
  s_A : bd N N (tA st) X dA; s_B : bd N L (tB st) U dB; s_G : bd N M (tG st) C dG;
  s_C : bd Nt N (tCT st) X dC; s_D : bd Nt L (tD st) U dD; s_X : bd Mt N (tGt st) X dX; s_S : bd Mt M (tAt st) C dS;
  s_n : tn st = n; s_m : tm st = m; s_mt : tmt st = mt; s_l : tl_ st = l; s_nt : tnt st = nt;
  s_lA : length dA = n; s_lB : length dB = n; s_lG : length dG = n; s_lC : length dC = nt; s_lD : length dD = nt;
  s_lX : length dX = mt; s_lS : length dS = mt
}.

Lemma stack_loop_inv N L Nt M Mt X C U q : forall st n m mt l nt dA dB dG dC dD dX dS Xp Cp Up,
  SInv N L Nt M Mt X C U st n m mt l nt dA dB dG dC dD dX dS -> Forall psized q ->
  X = Xp ++ concat (map (fun q => nst (pn q)) q) -> length Xp = n ->
  C = Cp ++ concat (map (fun q => nct (pn q)) q) -> length Cp = m ->
  U = Up ++ concat (map pin q) -> length Up = l ->
  (n + total sN (map psys q) <= N)%nat -> (m + total sM (map psys q) <= M)%nat -> (l + total sL (map psys q) <= L)%nat ->
  exists n' m' mt' l' nt', SInv N L Nt M Mt X C U (fold_left stack_step (map psys q) st) n' m' mt' l' nt'
    (dA ++ concat (map eA q)) (dB ++ concat (map eB q)) (dG ++ concat (map eG q)) (dC ++ concat (map eC q))
    (dD ++ concat (map eD q)) (dX ++ concat (map eX q)) (dS ++ concat (map eS q)).
Proof.
  induction q as [|[[[s x] c] u] q IH]; intros st n m mt l nt dA dB dG dC dD dX dS Xp Cp Up I HF EX LX EC LC EU LU HN HM HL.
  - do 5 eexists. cbn. rewrite !app_nil_r. exact I.
  - inversion HF as [|? ? [[Vs [Lx Lc]] Lu] HF']; subst. unfold psys in *. cbn [map concat pn pin psys nsys nst nct fst snd] in *.
    rewrite !total_cons in *.
    destruct I as [iA iB iG iC iD iX iS En Em Emt El Ent lA lB lG lC lD lX lS].
    destruct Vs as [VA VB VC VG VGt [VD1 VD2] [VBt1 VBt2] [VAt1 VAt2]].
    match goal with |- context [fold_left _ _ (stack_step st s)] => idtac | _ => cbn [fold_left] end.
    destruct (IH (stack_step st s) (length Xp + sN s)%nat (length Cp + sM s)%nat (mt + sMt s)%nat (length Up + sL s)%nat (nt + sNt s)%nat
       (dA ++ eA (s, x, c, u)) (dB ++ eB (s, x, c, u)) (dG ++ eG (s, x, c, u)) (dC ++ eC (s, x, c, u)) (dD ++ eD (s, x, c, u))
       (dX ++ eX (s, x, c, u)) (dS ++ eS (s, x, c, u)) (Xp ++ x) (Cp ++ c) (Up ++ u)) as (n' & m' & mt' & l' & nt' & I').
    + assert (HX : forall j, (j < sN s)%nat -> nth (length Xp + j) (Xp ++ x ++ concat (map (fun q => nst (pn q)) q)) 0 = nth j x 0).
      { intros j Hj. rewrite app_nth_r by lia. replace (length Xp + j - length Xp)%nat with j by lia. apply app_nth_l. lia. }
      assert (HC : forall j, (j < sM s)%nat -> nth (length Cp + j) (Cp ++ c ++ concat (map (fun q => nct (pn q)) q)) 0 = nth j c 0).
      { intros j Hj. rewrite app_nth_r by lia. replace (length Cp + j - length Cp)%nat with j by lia. apply app_nth_l. lia. }
      assert (HU : forall j, (j < sL s)%nat -> nth (length Up + j) (Up ++ u ++ concat (map pin q)) 0 = nth j u 0).
      { intros j Hj. rewrite app_nth_r by lia. replace (length Up + j - length Up)%nat with j by lia. apply app_nth_l. lia. }
      unfold eA, eB, eG, eC, eD, eX, eS, stack_step, psys. cbn [pn pin nsys nst nct fst snd].
      rewrite En, Em, Emt, El, Ent.
      constructor; cbn [tA tB tG tCT tD tGt tAt tn tm tmt tl_ tnt]; try reflexivity;
        try (rewrite app_length, ?obs_x_length, ?obs_s_length, ?map_seq_len; lia).
      * rewrite <- lA at 1 2. apply bd_step; [exact iA|exact VA|lia|exact HX|reflexivity].
      * rewrite <- lB at 1 2. apply bd_step; [exact iB|reflexivity|lia|exact HU|exact VB].
      * rewrite <- lG at 1 2. apply bd_step_opt; [exact iG| |lia|exact HC]. unfold sM. destruct (aG s); auto.
      * rewrite <- lC at 1 2. apply bd_step; [exact iC|exact VC|lia|exact HX|reflexivity].
      * rewrite <- lD at 1 2. apply bd_step; [exact iD|exact VD2|lia|exact HU|exact VD1].
      * rewrite <- lX at 1 2. unfold obs_x. destruct (aGt s) as [g|] eqn:Eg.
        -- apply bd_step_opt; [exact iX| |lia|exact HX]. split; [exact VGt|]. unfold sMt. rewrite Eg. reflexivity.
        -- cbn [setblk_opt]. unfold sMt. rewrite Eg. cbn [seq map]. rewrite app_nil_r. exact iX.
      * rewrite <- lS at 1 2. apply bd_step; [exact iS|exact VAt2|lia|exact HC|exact VAt1].
    + exact HF'.
    + now rewrite <- app_assoc.
    + rewrite app_length. lia.
    + now rewrite <- app_assoc.
    + rewrite app_length. lia.
    + now rewrite <- app_assoc.
    + rewrite app_length. lia.
    + lia.
    + lia.
    + lia.
    + exists n', m', mt', l', nt'. rewrite <- !app_assoc in I'. exact I'.
Qed.

Lemma vadd_app (a b c d : list K) : length a = length c -> vadd (a ++ b) (c ++ d) = vadd a c ++ vadd b d.
Proof. unfold vadd. revert c; induction a; intros [|y c] H; simpl in *; try discriminate; auto. f_equal. auto. Qed.

Lemma concat_vadd {A} (f g : A -> list K) l : (forall a, length (f a) = length (g a)) ->
  vadd (concat (map f l)) (concat (map g l)) = concat (map (fun a => vadd (f a) (g a)) l).
Proof. intros H. induction l; [reflexivity|]. cbn. rewrite vadd_app by apply H. now rewrite IHl. Qed.

Lemma pconcat_len {A} (f : pnode -> list A) (g : asys K -> nat) l :
  Forall (fun p => length (f p) = g (psys p)) l -> length (concat (map f l)) = total g (map psys l).
Proof. induction 1 as [|p l H _ IH]; [reflexivity|]. unfold total in *. cbn. now rewrite app_length, H, IH. Qed.

Lemma bd_map R Cc m g done : bd R Cc m g done -> length done = R -> map (lin m g) (seq O R) = done.
Proof. intros (_ & _ & H & _) E. rewrite <- E. apply map_seq_nth. exact H. Qed.

Lemma stack_parallel q l : let l := q :: l in
  Forall psized l ->
  let X := concat (map (fun q => nst (pn q)) l) in let C := concat (map (fun q => nct (pn q)) l) in let U := concat (map pin l) in
  exists S, stack (map psys l) = Ok S /\ valid S /\ aG S <> None /\ aGt S <> None /\
    sN S = total sN (map psys l) /\ sM S = total sM (map psys l) /\ sMt S = total sMt (map psys l) /\
    sL S = total sL (map psys l) /\ sNt S = total sNt (map psys l) /\
    rhs S X U C = concat (map (fun q => rhs (psys q) (nst (pn q)) (pin q) (nct (pn q))) l) /\
    out S X U = concat (map (fun q => out (psys q) (nst (pn q)) (pin q)) l) /\
    obs_x S X = concat (map (fun q => obs_x (psys q) (nst (pn q))) l) /\
    obs_s S C = concat (map (fun q => obs_s (psys q) (nct (pn q))) l) /\
    (forall i j, ent (aBt S) i j = 0).
Proof.
  intros Y HF X C U. set (nodes := map psys Y).
  unfold stack. change nodes with (psys q :: map psys l) at 1. cbv iota beta.
  set (N := total sN nodes). set (M := total sM nodes). set (Mt := total sMt nodes). set (L := total sL nodes). set (Nt := total sNt nodes).
  set (st0 := mkSst _ _ _ _ _ _ _ _ _ _ _ _).
  assert (I0 : SInv N L Nt M Mt X C U st0 O O O O O [] [] [] [] [] [] []).
  { constructor; try reflexivity; apply bd_zeros. }
  destruct (stack_loop_inv N L Nt M Mt X C U Y st0 O O O O O [] [] [] [] [] [] [] [] [] [] I0 HF) as (n' & m' & mt' & l' & nt' & I); auto.
  fold nodes in I. cbn [app] in I. set (st := fold_left stack_step nodes st0) in *.
  destruct I as [iA iB iG iC iD iX iS En Em Emt El Ent lA lB lG lC lD lX lS].
  assert (LA : length (concat (map eA Y)) = N) by (apply pconcat_len, Forall_forall; intros; apply map_seq_len).
  assert (LB : length (concat (map eB Y)) = N) by (apply pconcat_len, Forall_forall; intros; apply map_seq_len).
  assert (LG : length (concat (map eG Y)) = N) by (apply pconcat_len, Forall_forall; intros; apply map_seq_len).
  assert (LC : length (concat (map eC Y)) = Nt) by (apply pconcat_len, Forall_forall; intros; apply map_seq_len).
  assert (LD : length (concat (map eD Y)) = Nt) by (apply pconcat_len, Forall_forall; intros; apply map_seq_len).
  assert (LXX : length (concat (map eX Y)) = Mt) by (apply pconcat_len, Forall_forall; intros; apply map_seq_len).
  assert (LS : length (concat (map eS Y)) = Mt) by (apply pconcat_len, Forall_forall; intros; apply map_seq_len).
  destruct (as_init_total N L Nt M Mt (D2 (tA st)) (D2 (tB st)) (D2 (tCT st)) (Some (D2 (tG st))) (Some (D2 (tGt st)))
        (Some (D2 (tD st))) (Some (D2 (zeros Mt L))) (Some (D2 (tAt st)))) as (S & ES & SN & SL & SNt & SM & SMt).
  { destruct iA as (? & ? & _), iB as (? & ? & _), iG as (? & ? & _), iC as (? & ? & _), iD as (? & ? & _), iX as (? & ? & _), iS as (? & ? & _).
    repeat split; auto. }
  exists S. split; [exact ES|]. destruct (as_init_ok _ _ _ _ _ _ _ _ _ ES) as (_ & VS & EA & EB & EC & EG & EGt & ED & EBt & EAt).
  injection EA as EA. cbn [colof rowof mato matd] in *.
  split; [exact VS|]. split; [rewrite EG; discriminate|]. split; [rewrite EGt; discriminate|].
  split; [exact SN|]. split; [exact SM|]. split; [exact SMt|]. split; [exact SL|]. split; [exact SNt|].
  split; [|split; [|split; [|split]]].
  - unfold rhs at 1. rewrite SN, <- EA, EB, EG. cbn [lino]. rewrite <- !vadd_map.
    rewrite (bd_map _ _ _ _ _ iA LA), (bd_map _ _ _ _ _ iB LB), (bd_map _ _ _ _ _ iG LG).
    rewrite (concat_vadd eA eB) by (intros; unfold eA, eB; now rewrite !map_seq_len).
    rewrite concat_vadd by (intros; unfold eA, eB, eG; rewrite vadd_length, !map_seq_len; apply Nat.min_id).
    f_equal. apply map_ext. intros a. unfold eA, eB, eG, rhs. now rewrite !vadd_map.
  - unfold out at 1. rewrite SNt, EC, ED. rewrite <- vadd_map.
    rewrite (bd_map _ _ _ _ _ iC LC), (bd_map _ _ _ _ _ iD LD). rewrite concat_vadd by (intros; unfold eC, eD; now rewrite !map_seq_len).
    f_equal. apply map_ext. intros a. unfold eC, eD, out. now rewrite !vadd_map.
  - unfold obs_x at 1. rewrite SMt, EGt. cbn [lino]. exact (bd_map _ _ _ _ _ iX LXX).
  - unfold obs_s at 1. rewrite SMt, EAt. exact (bd_map _ _ _ _ _ iS LS).
  - intros i j. rewrite EBt. reflexivity.
Qed.

End P.
