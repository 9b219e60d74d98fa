(** Properties C37-C42, C65: analog systems and their compositions. *)
From Coq Require Import List Arith Lia Bool Reals Lra ZArith Permutation.
From Coquelicot Require Import Complex.
From Verif Require Import Base LinAlg AnalogSystem AnalogProofs ChainProofs StackProofs TfProofs Zpk ZpkProofs ZpkExtra.
Import ListNotations.

(** C37: the constructor accepts exactly the consistent shapes... *)
Theorem C37_accepts : forall (K : cring) (A B CT : ndarr K) G Gt D Bt At,
  (exists s, as_init A B CT G Gt D Bt At = Ok s) <-> (exists N L Nt M Mt, fits N L Nt M Mt A B CT G Gt D Bt At).
Proof.
  intros. split.
  - intros [s H]. destruct (as_init_ok _ _ _ _ _ _ _ _ _ H) as (F & _). eauto 10.
  - intros (N & L & Nt & M & Mt & F). destruct (as_init_total _ _ _ _ _ _ _ _ _ _ _ _ _ F) as (s & E & _). eauto.
Qed.
Print Assumptions C37_accepts.

(** ... stores the arguments (absent ones as zero matrices) ... *)
Theorem C37_stores : forall (K : cring) (A B CT : ndarr K) G Gt D Bt At s, as_init A B CT G Gt D Bt At = Ok s ->
  fits (sN s) (sL s) (sNt s) (sM s) (sMt s) A B CT G Gt D Bt At /\
  A = D2 (aA s) /\ (forall b, B = D2 b -> aB s = b) /\ (forall v i, B = D1 v -> ent (aB s) i 0 = nth i v (r0 K)) /\
  (forall c, CT = D2 c -> aCT s = c) /\ (forall v j, CT = D1 v -> ent (aCT s) 0 j = nth j v (r0 K)) /\
  (forall g, G = Some (D2 g) -> aG s = Some g) /\ (G = None -> aG s = None) /\
  (forall g, Gt = Some (D2 g) -> aGt s = Some g) /\ (Gt = None -> aGt s = None) /\
  (forall d, D = Some (D2 d) -> aD s = d) /\ (D = None -> forall i j, ent (aD s) i j = r0 K) /\
  (forall d, Bt = Some (D2 d) -> aBt s = d) /\ (Bt = None -> forall i j, ent (aBt s) i j = r0 K) /\
  (forall d, At = Some (D2 d) -> aAt s = d) /\ (At = None -> forall i j, ent (aAt s) i j = r0 K).
Proof.
  intros K A B CT G Gt D Bt At s H. destruct (as_init_ok _ _ _ _ _ _ _ _ _ H) as (F & _ & EA & EB & EC & EG & EGt & ED & EBt & EAt).
  split; [exact F|]. split; [exact EA|].
  rewrite EB, EC, EG, EGt, ED, EBt, EAt.
  repeat match goal with |- _ /\ _ => split end; intros; subst; cbn; try reflexivity; try congruence.
Qed.
Print Assumptions C37_stores.

(** ... and then the derivative is A x + B u + Gamma c for all vectors of matching sizes, a linear map; without Gamma it raises. *)
Theorem C37_derivative : forall (K : cring) (A B CT : ndarr K) G Gt D Bt At s, as_init A B CT G Gt D Bt At = Ok s ->
  forall x u c, length x = sN s -> length u = sL s -> length c = sM s ->
  (G = None -> derivative s x u c = Exn TypeError) /\
  (G <> None -> exists dx, derivative s x u c = Ok dx /\ length dx = sN s /\
     (forall i, (i < sN s)%nat -> nth i dx (r0 K) =
        radd K (radd K (ksum (sN s) (fun j => rmul K (ent (aA s) i j) (nth j x (r0 K)))) (ksum (sL s) (fun j => rmul K (ent (aB s) i j) (nth j u (r0 K)))))
               (match aG s with Some g => ksum (sM s) (fun j => rmul K (ent g i j) (nth j c (r0 K))) | None => r0 K end)) /\
     forall a x' u' c' dx', length x' = sN s -> length u' = sL s -> length c' = sM s -> derivative s x' u' c' = Ok dx' ->
       derivative s (vadd (vscale a x) x') (vadd (vscale a u) u') (vadd (vscale a c) c') = Ok (vadd (vscale a dx) dx')).
Proof.
  intros K A B CT G Gt D Bt At s H x u c Hx Hu Hc. destruct (as_init_ok _ _ _ _ _ _ _ _ _ H) as (F & V & _ & _ & _ & EG & _). split.
  - intros ->. apply derivative_none; auto.
  - intros HG. assert (HG' : aG s <> None).
    { rewrite EG. destruct G as [[v|m]|]; [|discriminate|congruence]. destruct F as (_ & _ & _ & [] & _). }
    exists (rhs s x u c). split; [now apply derivative_rhs|]. split; [apply rhs_length|]. split.
    + intros i Hi. unfold rhs. rewrite (nth_map_seq _ _ _ Hi). unfold lin, lino. rewrite (v_A _ V). unfold sL, sM.
      destruct (aG s) as [g|]; reflexivity.
    + intros a x' u' c' dx' Hx' Hu' Hc' Hd. rewrite derivative_rhs in Hd by auto. apply Ok_inj in Hd. subst dx'.
      rewrite derivative_rhs; auto.
      * f_equal. apply rhs_linear; congruence.
      * rewrite vadd_length, vscale_length; lia.
      * rewrite vadd_length, vscale_length; lia.
      * rewrite vadd_length, vscale_length; lia.
Qed.
Print Assumptions C37_derivative.
Example C37_ex : let m r c v := @mk2 Zring r c (fun _ _ => v : Zring) in
  fits 2 1 1 1 1 (D2 (m 2 2 3%Z)%nat) (@D1 Zring [1%Z; 2%Z]) (D2 (m 1 2 1%Z)%nat) (Some (D2 (m 2 1 5%Z)%nat)) (Some (D2 (m 1 2 1%Z)%nat)) None None None.
Proof. unfold fits. cbn. repeat match goal with |- _ /\ _ => split end; reflexivity || exact I. Qed.

(** C38 *)
Theorem C38_state_only : forall (K : cring) (s : asys K) x, valid s -> aGt s <> None -> length x = sN s ->
  control_observation s x None None = Ok (obs_x s x).
Proof. intros. now apply control_observation_x. Qed.
Print Assumptions C38_state_only.
Theorem C38_full : forall (K : cring) (s : asys K) x u c, valid s -> aGt s <> None -> length x = sN s -> length u = sL s -> length c = sM s ->
  control_observation s x (Some u) (Some c) = Ok (vadd (vadd (obs_x s x) (obs_u s u)) (obs_s s c)).
Proof. intros. now apply control_observation_xus. Qed.
Print Assumptions C38_full.
Theorem C38_input_without_control_raises : forall (K : cring) (s : asys K) x u, valid s -> (0 < sMt s)%nat -> (0 < sM s)%nat ->
  length x = sN s -> length u = sL s -> control_observation s x (Some u) None = Exn TypeError.
Proof.
  intros K s x u V HMt HM Hx Hu. assert (HG : aGt s <> None) by (unfold sMt in HMt; destruct (aGt s); [discriminate|lia]).
  unfold control_observation. pose proof (control_observation_x s x V HG Hx) as E. cbn [control_observation] in E. rewrite E. cbn [bind].
  destruct (v_Bt _ V) as [R1 C1]. rewrite dotv_ok by congruence. reflexivity.
Qed.
Print Assumptions C38_input_without_control_raises.
(** C38: so the two-term observation announced for [s=None] is never the result. *)
Theorem C38_partial_arguments_refuted : exists (s : asys Zring) x u, valid s /\ aGt s <> None /\ length x = sN s /\ length u = sL s /\
  control_observation s x (Some u) None <> Ok (vadd (obs_x s x) (obs_u s u)).
Proof.
  pose (m := fun r c v => @mk2 Zring r c (fun _ _ => v : Zring)).
  exists (mkAS (m 1 1 0%Z)%nat (m 1 1 1%Z)%nat (m 1 1 1%Z)%nat (Some (m 1 1 1%Z)%nat) (Some (m 1 1 1%Z)%nat) (m 1 1 0%Z)%nat (m 1 1 1%Z)%nat (m 1 1 0%Z)%nat), [2%Z : Zring], [3%Z : Zring].
  split; [constructor; cbn; auto|]. split; [discriminate|]. split; [reflexivity|]. split; [reflexivity|]. cbn. discriminate.
Qed.
Print Assumptions C38_partial_arguments_refuted.
Example C38_ex : let m r c v := @mk2 Zring r c (fun _ _ => v : Zring) in
  let s := mkAS (m 1 1 0%Z)%nat (m 1 1 1%Z)%nat (m 1 1 1%Z)%nat (Some (m 1 1 1%Z)%nat) (Some (m 1 1 1%Z)%nat) (m 1 1 0%Z)%nat (m 1 1 1%Z)%nat (m 1 1 7%Z)%nat in
  valid s /\ (0 < sMt s)%nat /\ (0 < sM s)%nat /\ control_observation s [2%Z : Zring] (Some [3%Z : Zring]) (Some [1%Z : Zring]) = Ok [12%Z : Zring].
Proof. cbn. split; [constructor; cbn; auto|]. repeat split; lia. Qed.

(** C39 *)
Theorem C39_chain_is_series : forall (K : cring) (p : asys K * list K * list K) l u,
  Forall sized (p :: l) -> compatible (sNt (nsys p)) (map nsys (p :: l)) -> length u = sL (nsys p) ->
  exists S, chain (map nsys (p :: l)) = Ok S /\
    sN S = list_sum (map sN (map nsys (p :: l))) /\ sM S = list_sum (map sM (map nsys (p :: l))) /\ sL S = sL (nsys p) /\
    (let X := concat (map nst (p :: l)) in let C := concat (map nct (p :: l)) in
     derivative S X u C = Ok (fst (series (p :: l) u)) /\ out S X u = snd (series (p :: l) u) /\
     control_observation S X (Some u) (Some C) =
       Ok (vadd (concat (map (fun p => obs_x (nsys p) (nst p)) (p :: l))) (concat (map (fun p => obs_s (nsys p) (nct p)) (p :: l))))).
Proof.
  intros K p l u HS HC Hu. destruct (chain_series p l u HS HC Hu) as (S & E & V & HG & HGt & EN & EM & EMt & EL & R & O & OX & OS & Z).
  exists S. split; [exact E|]. split; [exact EN|]. split; [exact EM|]. split; [exact EL|]. cbn zeta.
  assert (LX : length (concat (map nst (p :: l))) = sN S) by (rewrite EN; apply concat_len; eapply Forall_impl; [|exact HS]; intros q (_ & H & _); exact H).
  assert (LC : length (concat (map nct (p :: l))) = sM S) by (rewrite EM; apply concat_len; eapply Forall_impl; [|exact HS]; intros q (_ & _ & H); exact H).
  split; [rewrite derivative_rhs by (auto; congruence); now rewrite R|]. split; [exact O|].
  rewrite control_observation_xus by (auto; congruence). rewrite OX, OS. f_equal. f_equal.
  rewrite (obs_u_zero S u Z), <- OX. apply vadd_0_r. unfold obs_x. apply map_seq_len.
Qed.
Print Assumptions C39_chain_is_series.
Theorem C39_mismatch_raises : forall (K : cring) (s : asys K) l, Forall valid (s :: l) -> ~ compatible (sNt s) (s :: l) -> chain (s :: l) = Exn ValueError.
Proof. intros K s l. apply chain_bad. Qed.
Print Assumptions C39_mismatch_raises.
(** C39: in particular a first system with unequal numbers of inputs and outputs is refused, even on its own. *)
Theorem C39_nonsquare_first_refuted : exists s : asys Zring, valid s /\ sL s = 2%nat /\ sNt s = 1%nat /\ chain [s] = Exn ValueError.
Proof.
  pose (m := fun r c v => @mk2 Zring r c (fun _ _ => v : Zring)).
  exists (mkAS (m 1 1 0%Z)%nat (m 1 2 1%Z)%nat (m 1 1 1%Z)%nat None None (m 1 2 0%Z)%nat (m 0 2 1%Z)%nat (m 0 0 0%Z)%nat).
  assert (V : valid (mkAS (m 1 1 0%Z)%nat (m 1 2 1%Z)%nat (m 1 1 1%Z)%nat None None (m 1 2 0%Z)%nat (m 0 2 1%Z)%nat (m 0 0 0%Z)%nat)) by (constructor; cbn; auto).
  split; [exact V|]. split; [reflexivity|]. split; [reflexivity|]. apply chain_bad; [now repeat constructor|]. cbn. intros [H _]. discriminate H.
Qed.
Print Assumptions C39_nonsquare_first_refuted.
Example C39_ex : let m r c v := @mk2 Zring r c (fun _ _ => v : Zring) in
  let s := mkAS (m 1 1 2%Z)%nat (m 1 1 1%Z)%nat (m 1 1 1%Z)%nat (Some (m 1 1 4%Z)%nat) (Some (m 1 1 1%Z)%nat) (m 1 1 3%Z)%nat (m 1 1 0%Z)%nat (m 1 1 0%Z)%nat in
  let p := (s, [1%Z : Zring], [1%Z : Zring]) in
  Forall sized [p; p] /\ compatible (sNt (nsys p)) (map nsys [p; p]) /\ series [p; p] [10%Z : Zring] = ([16%Z; 37%Z], [94%Z] : list Zring).
Proof.
  cbn. split; [|repeat split; reflexivity]. constructor; [|constructor; [|constructor]]; (split; [constructor; cbn; auto|split; reflexivity]).
Qed.

(** C40 *)
Lemma vadd_concat {K : cring} {T} (f g : T -> list K) (l : list T) : (forall q, In q l -> length (f q) = length (g q)) ->
  vadd (concat (map f l)) (concat (map g l)) = concat (map (fun q => vadd (f q) (g q)) l).
Proof.
  intros H. induction l as [|q l IH]; [reflexivity|]. cbn. rewrite <- IH by (intros; apply H; now right).
  assert (G : forall a b c d : list K, length a = length b -> vadd (a ++ c) (b ++ d) = vadd a b ++ vadd c d).
  { induction a as [|x a IHa]; intros [|y b] c d E; try discriminate; [reflexivity|]. cbn. f_equal. apply IHa. now injection E. }
  apply G. apply H. now left.
Qed.
Theorem C40_stack_is_parallel : forall (K : cring) (q : asys K * list K * list K * list K) l0, let l := q :: l0 in
  Forall psized l ->
  let X := concat (map (fun q => nst (pn q)) l) in let C := concat (map (fun q => nct (pn q)) l) in let U := concat (map pin l) in
  exists S, stack (map psys l) = Ok S /\
    derivative S X U C = Ok (concat (map (fun q => rhs (psys q) (nst (pn q)) (pin q) (nct (pn q))) l)) /\
    out S X U = concat (map (fun q => out (psys q) (nst (pn q)) (pin q)) l) /\
    control_observation S X (Some U) (Some C) = Ok (concat (map (fun q => vadd (obs_x (psys q) (nst (pn q))) (obs_s (psys q) (nct (pn q)))) l)).
Proof.
  intros K q l0 l HS X C U. destruct (stack_parallel q l0 HS) as (S & E & V & HG & HGt & EN & EM & EMt & EL & ENt & R & O & OX & OS & Z).
  fold l X C U in E, R, O, OX, OS. exists S. split; [exact E|].
  assert (G : forall (f : asys K * list K * list K * list K -> list K) (g : asys K -> nat), (forall q, psized q -> length (f q) = g (psys q)) -> length (concat (map f l)) = total g (map psys l)).
  { intros f g Hf. clear -HS Hf. induction HS as [|a r Ha HS IH]; [reflexivity|]. cbn [map concat]. rewrite app_length, total_cons, IH, (Hf _ Ha). reflexivity. }
  assert (LX : length X = sN S) by (rewrite EN; apply G; intros a ((_ & H & _) & _); exact H).
  assert (LC : length C = sM S) by (rewrite EM; apply G; intros a ((_ & _ & H) & _); exact H).
  assert (LU : length U = sL S) by (rewrite EL; apply G; intros a (_ & H); exact H).
  split; [rewrite derivative_rhs by auto; now rewrite R|]. split; [exact O|].
  rewrite control_observation_xus by auto. f_equal.
  rewrite (obs_u_zero S U Z), vadd_0_r by (unfold obs_x; apply map_seq_len). rewrite OX, OS. apply vadd_concat. intros a _. unfold obs_x, obs_s. now rewrite !map_seq_len.
Qed.
Print Assumptions C40_stack_is_parallel.

(** C40: so it is the list of the components' own observations exactly when every B_tilde u vanishes. *)
Theorem C40_observation_iff : forall (K : cring) (q : asys K * list K * list K * list K) l0, let l := q :: l0 in
  Forall psized l -> Forall (fun q => aGt (psys q) <> None) l ->
  let X := concat (map (fun q => nst (pn q)) l) in let C := concat (map (fun q => nct (pn q)) l) in let U := concat (map pin l) in
  exists S ys, stack (map psys l) = Ok S /\ Forall2 (fun q y => control_observation (psys q) (nst (pn q)) (Some (pin q)) (Some (nct (pn q))) = Ok y) l ys /\
    (control_observation S X (Some U) (Some C) = Ok (concat ys) <-> Forall (fun q => obs_u (psys q) (pin q) = vzero (sMt (psys q))) l).
Proof.
  intros K q l0 l HS HG X C U. destruct (C40_stack_is_parallel K q l0 HS) as (S & E & _ & _ & Ho). fold l X C U in E, Ho.
  exists S, (map (fun q => vadd (vadd (obs_x (psys q) (nst (pn q))) (obs_u (psys q) (pin q))) (obs_s (psys q) (nct (pn q)))) l).
  split; [exact E|]. split.
  - clear - HS HG. induction HS as [|a r ((V & Lx & Lc) & Lu) HS IH]; [constructor|]. inversion HG; subst. constructor; [|now apply IH].
    apply control_observation_xus; assumption.
  - rewrite Ho. clear - K. split.
    + intros H. apply Ok_inj in H. induction l as [|a r IH]; constructor.
      * cbn [map concat] in H. apply app_inj_len in H as [H _]; [|rewrite !vadd_length; unfold obs_x, obs_s, obs_u; rewrite !map_seq_len; lia].
        symmetry in H. apply vadd_mid_zero in H; unfold obs_x, obs_s, obs_u in *; rewrite ?map_seq_len in *; auto.
      * apply IH. cbn [map concat] in H. apply app_inj_len in H as [_ H]; [exact H|]. rewrite !vadd_length; unfold obs_x, obs_s, obs_u; rewrite !map_seq_len; lia.
    + intros H. f_equal. f_equal. apply map_ext_in. intros a Ha. rewrite Forall_forall in H. rewrite (H a Ha). rewrite vadd_0_r; [reflexivity|]. apply map_seq_len.
Qed.
Print Assumptions C40_observation_iff.
Example C40_ex : let m r c v := @mk2 Zring r c (fun _ _ => v : Zring) in
  let s := mkAS (m 1 1 2%Z)%nat (m 1 1 1%Z)%nat (m 1 1 1%Z)%nat (Some (m 1 1 4%Z)%nat) (Some (m 1 1 1%Z)%nat) (m 1 1 3%Z)%nat (m 1 1 5%Z)%nat (m 1 1 0%Z)%nat in
  let q := (s, [1%Z : Zring], [1%Z : Zring], [2%Z : Zring]) in Forall psized [q; q] /\ Forall (fun q => aGt (psys q) <> None) [q; q] /\ obs_u (psys q) (pin q) = [10%Z : Zring].
Proof.
  cbn. split; [|split; [repeat constructor; discriminate|reflexivity]].
  constructor; [|constructor; [|constructor]]; (split; [split; [constructor; cbn; auto|split; reflexivity]|reflexivity]).
Qed.

(** C41 *)
Lemma Cdiv_unique (d q u : C) : d <> RtoC 0 -> u = (d * q)%C -> q = (u / d)%C.
Proof. intros H ->. field. exact H. Qed.
Theorem C41_accepts : forall (K : cring) (b a : list K), (exists r, tf2abcd b a = Ok r) <-> length b = S (length a) /\ a <> [].
Proof. intros K b a. apply tf2abcd_accepts. Qed.
Print Assumptions C41_accepts.
Theorem C41_shapes : forall (K : cring) (b a : list K) A B CT D, tf2abcd b a = Ok (A, B, CT, D) ->
  rows A = length a /\ cols A = length a /\ rows B = length a /\ cols B = 1%nat /\ rows CT = 1%nat /\ cols CT = length a /\
  rows D = 1%nat /\ cols D = 1%nat.
Proof. intros K b a A B CT D. apply tf2abcd_shapes. Qed.
Print Assumptions C41_shapes.
(** C41: the steady states at complex frequency s are exactly the multiples of one, with input a(s) and output b(s). *)
Theorem C41_steady_states : forall (K : cring) (b a : list K) A B CT D, tf2abcd b a = Ok (A, B, CT, D) ->
  forall s x u y, length x = length a ->
  (steady A B CT D s x u y <->
   exists q, (forall i, (i < length a)%nat -> nth i x (r0 K) = rmul K (kpow s i) q) /\ u = rmul K (horner (r1 K :: a) s) q /\ y = rmul K (horner b s) q).
Proof. intros K b a A B CT D. apply tf2abcd_steady. Qed.
Print Assumptions C41_steady_states.
(** C41: over the complex numbers: the gain is b(s)/a(s) wherever a(s) is not zero. *)
Theorem C41_transfer_function : forall (b a : list Cring) A B CT D, tf2abcd b a = Ok (A, B, CT, D) ->
  forall s : C, horner (K := Cring) ((RtoC 1 : Cring) :: a) s <> RtoC 0 ->
  forall u : C, exists x y, length x = length a /\ steady (K := Cring) A B CT D s x u y /\ (y = horner (K := Cring) b s / horner (K := Cring) (RtoC 1 :: a) s * u)%C /\
    forall x' y', length x' = length a -> steady (K := Cring) A B CT D s x' u y' -> x' = x /\ y' = y.
Proof.
  intros b a A B CT D E s Hs u. set (den := horner (K := Cring) (RtoC 1 :: a) s) in *.
  pose proof (tf2abcd_steady (K := Cring) b a A B CT D E) as T.
  exists (map (fun i => (kpow (K := Cring) s i * (u / den))%C : Cring) (seq 0 (length a))), (horner (K := Cring) b s * (u / den))%C.
  assert (Hst : steady (K := Cring) A B CT D s (map (fun i => (kpow (K := Cring) s i * (u / den))%C : Cring) (seq 0 (length a))) u (horner (K := Cring) b s * (u / den))%C).
  { apply T; [now rewrite map_length, seq_length|]. exists (u / den)%C. split.
    - intros i Hi. now rewrite (nth_map_seq (K := Cring)).
    - split; [|reflexivity]. change (u = den * (u / den))%C. field. exact Hs. }
  split; [now rewrite map_length, seq_length|]. split; [exact Hst|]. split; [change ((horner (K := Cring) b s * (u / den))%C = (horner (K := Cring) b s / den * u)%C); field; exact Hs|].
  intros x' y' Lx H. apply T in H; [|exact Lx]. destruct H as (q & H1 & H2 & H3).
  assert (Eq : q = (u / den)%C) by exact (Cdiv_unique den q u Hs H2).
  subst q. split; [|exact H3]. apply (list_ext _ _ (RtoC 0)); [now rewrite map_length, seq_length|]. intros i Hi.
  rewrite (nth_map_seq (K := Cring)) by (rewrite <- Lx; exact Hi). apply H1. rewrite <- Lx. exact Hi.
Qed.
Print Assumptions C41_transfer_function.
Example C41_ex : exists r, tf2abcd ([RtoC 1; RtoC 2; RtoC 3] : list Cring) ([RtoC 4; RtoC 5] : list Cring) = Ok r /\ horner (K := Cring) [RtoC 1; RtoC 4; RtoC 5] (RtoC 0) <> RtoC 0.
Proof.
  eexists. split; [reflexivity|]. change ((((RtoC 0 * RtoC 0 + RtoC 1) * RtoC 0 + RtoC 4) * RtoC 0 + RtoC 5)%C <> RtoC 0).
  replace (((RtoC 0 * RtoC 0 + RtoC 1) * RtoC 0 + RtoC 4) * RtoC 0 + RtoC 5)%C with (RtoC 5) by ring. intros H. apply RtoC_inj in H. lra.
Qed.

(** C42: whatever is accepted realises |k| prod (s - z) / prod (s - p): away from the poles every input has a steady state, and all of
    them have this gain. *)
Theorem C42_realises : forall argsort (z p : list C) k A B CT D, argsort_ok argsort -> separated p -> separated z -> no_tiny_imag z ->
  zpk2abcd argsort z p k = Ok (A, B, CT, D) ->
  rows A = length p /\ cols A = length p /\ rows B = length p /\ cols B = 1%nat /\ rows CT = 1%nat /\ cols CT = length p /\ rows D = 1%nat /\ cols D = 1%nat /\
  (forall (s : C) (x : list C) (u y : C), length x = length p -> steady (K := Cring) A B CT D s x u y ->
    (cprod s p * y = RtoC (Rabs k) * cprod s z * u)%C) /\
  (forall s : C, cprod s p <> RtoC 0 -> forall u : C, exists x y, length x = length p /\ steady (K := Cring) A B CT D s x u y).
Proof.
  intros argsort z p k A B CT D HA Hp Hz HT E.
  destruct (zpk_realises argsort z p k A B CT D HA Hp Hz HT E) as (H1 & H2 & H3 & H4 & H5 & H6 & H7 & H8 & H9).
  split; [exact H1|]. split; [exact H2|]. split; [exact H3|]. split; [exact H4|]. split; [exact H5|]. split; [exact H6|]. split; [exact H7|]. split; [exact H8|].
  split; [exact H9|]. exact (zpk_steady_exists argsort z p k A B CT D HA Hp Hz HT E).
Qed.
Print Assumptions C42_realises.
Theorem C42_accepts_real : forall argsort (z p : list C) k, argsort_ok argsort -> (forall a, In a p -> snd a = 0%R) -> (forall a, In a z -> snd a = 0%R) ->
  apart p -> NoDup p -> (length z <= length p)%nat -> p <> [] -> exists r, zpk2abcd argsort z p k = Ok r.
Proof. exact zpk_accepts_real. Qed.
Print Assumptions C42_accepts_real.
(** C42: a pair of equal (or nearly equal) real poles divides by zero. *)
Theorem C42_close_real_poles : forall argsort (p1 p2 : C) k (z : list C), argsort_ok argsort -> snd p1 = 0%R -> snd p2 = 0%R -> allclose_c p1 p2 = true -> allclose_c p2 p1 = true ->
  (forall a, In a z -> snd a = 0%R) -> (length z <= 1)%nat -> zpk2abcd argsort z [p1; p2] k = Exn ArithmeticError.
Proof. exact zpk_close_poles. Qed.
Print Assumptions C42_close_real_poles.

Open Scope R_scope.
Lemma apart_ex : apart [RtoC (-1); RtoC (-2)].
Proof.
  assert (G : forall a b : R, a <> b -> Rabs b <= 2 -> 1 <= Rabs (a - b) -> allclose_c (RtoC a) (RtoC b) = false).
  { intros a b _ H1 H2. unfold allclose_c. apply Raux.Rle_bool_false. rewrite <- RtoC_minus, !Cmod_R. lra. }
  intros a b [<-|[<-|[]]] [<-|[<-|[]]] H; try reflexivity; exfalso; rewrite G in H; try discriminate; try lra; unfold Rabs; destruct (Rcase_abs _); lra.
Qed.
Example C42_ex : exists A B CT D, argsort_ok isort /\ separated [RtoC (-1); RtoC (-2)] /\ separated [RtoC 3] /\ no_tiny_imag [RtoC 3] /\
  zpk2abcd isort [RtoC 3] [RtoC (-1); RtoC (-2)] 5 = Ok (A, B, CT, D) /\ cprod (RtoC 0) [RtoC (-1); RtoC (-2)] <> RtoC 0.
Proof.
  destruct (C42_accepts_real isort [RtoC 3] [RtoC (-1); RtoC (-2)] 5 isort_ok) as ([[[A B] CT] D] & E).
  - intros a [<-|[<-|[]]]; reflexivity.
  - intros a [<-|[]]; reflexivity.
  - exact apart_ex.
  - repeat constructor; cbn; [|tauto]. intros [H|[]]. apply RtoC_inj in H. lra.
  - cbn. lia.
  - discriminate.
  - exists A, B, CT, D. split; [exact isort_ok|]. split; [|split; [|split; [|split; [exact E|]]]].
    + intros a b Ha Hb. assert (Hr : Cconj b = b) by (apply Cconj_real; destruct Hb as [<-|[<-|[]]]; reflexivity). rewrite Hr. now apply apart_ex.
    + intros a b [<-|[]] [<-|[]] _. symmetry. now apply Cconj_real.
    + intros a [<-|[]]. left. reflexivity.
    + unfold cprod. cbn [fold_right]. replace ((RtoC 0 - RtoC (-1)) * ((RtoC 0 - RtoC (-2)) * RtoC 1))%C with (RtoC 2).
      * intros H. apply RtoC_inj in H. lra.
      * rewrite <- !RtoC_minus, <- !RtoC_mult. f_equal. lra.
Qed.
Example C42_conjugate_ex : separated [((-1), 1); ((-1), (-1))].
Proof.
  assert (G : forall x y : R, x <> y -> Rabs x = 1 -> Rabs y = 1 -> allclose_c ((-1), x) ((-1), y) = false).
  { intros x y H1 H2 H3. unfold allclose_c. apply Raux.Rle_bool_false. 
    assert (E : Cmod ((-1, x) - (-1, y))%C = Rabs (x - y)).
    { unfold Cmod. cbn. replace (-1 + - -1) with 0 by lra. rewrite <- sqrt_Rsqr_abs. f_equal. unfold Rsqr. ring. }
    assert (E2 : Cmod (-1, y) <= 2).
    { unfold Cmod. cbn [fst snd]. replace 2 with (sqrt (2 * 2)) by (apply sqrt_square; lra). apply sqrt_le_1_alt.
      assert (y ^ 2 = 1) by (rewrite <- Rsqr_pow2, Rsqr_abs, H3; unfold Rsqr; lra). lra. }
    rewrite E. assert (2 = Rabs (x - y)) by (revert H1 H2 H3; unfold Rabs; repeat destruct (Rcase_abs _); lra). lra. }
  intros a b [<-|[<-|[]]] [<-|[<-|[]]] H; unfold Cconj in *; cbn [fst snd] in *.
  - rewrite G in H; try discriminate; try lra; unfold Rabs; destruct (Rcase_abs _); lra.
  - f_equal. lra.
  - f_equal.
  - rewrite G in H; try discriminate; try lra; unfold Rabs; destruct (Rcase_abs _); lra.
Qed.
Example C42_equal_ex : allclose_c (RtoC (-1)) (RtoC (-1)) = true.
Proof. unfold allclose_c. apply Raux.Rle_bool_true. rewrite <- RtoC_minus, !Cmod_R. replace (-1 - -1) with 0 by lra. rewrite Rabs_R0. pose proof (Rabs_pos (-1)). lra. Qed.

(** C42: the sign of the gain is lost. *)
Theorem C42_gain_sign_refuted : exists (z p : list C) k A B CT D s x u y, k < 0 /\ zpk2abcd isort z p k = Ok (A, B, CT, D) /\ length x = length p /\
  steady (K := Cring) A B CT D s x u y /\ (cprod s p * y <> RtoC k * cprod s z * u)%C.
Proof.
  assert (Hs : separated [RtoC (-1)]) by (intros a b [<-|[]] [<-|[]] _; symmetry; now apply Cconj_real).
  assert (Hn : separated []) by (intros a b []). assert (Ht : no_tiny_imag []) by (intros a []).
  destruct (C42_accepts_real isort [] [RtoC (-1)] (-1) isort_ok) as ([[[A B] CT] D] & E).
  - intros a [<-|[]]; reflexivity.
  - intros a [].
  - intros a b [<-|[]] [<-|[]] _. reflexivity.
  - repeat constructor. intros [].
  - cbn. lia.
  - discriminate.
  - destruct (C42_realises isort [] [RtoC (-1)] (-1) A B CT D isort_ok Hs Hn Ht E) as (_ & _ & _ & _ & _ & _ & _ & _ & H1 & H2).
    destruct (H2 (RtoC 0)) with (u := RtoC 1) as (x & y & Lx & Hst).
    + unfold cprod. cbn [fold_right]. rewrite <- RtoC_minus, <- RtoC_mult. intros H. apply RtoC_inj in H. lra.
    + exists [], [RtoC (-1)], (-1), A, B, CT, D, (RtoC 0), x, (RtoC 1), y. split; [lra|]. split; [exact E|]. split; [exact Lx|]. split; [exact Hst|].
      rewrite (H1 _ _ _ _ Lx Hst). unfold cprod. cbn [fold_right]. rewrite <- !RtoC_mult. intros H. apply RtoC_inj in H.
      rewrite Rabs_left in H by lra. lra.
Qed.
Print Assumptions C42_gain_sign_refuted.

(** C65 *)
Theorem C65_sos : forall rows_ A B CT D, sos2abcd rows_ = Ok (A, B, CT, D) ->
  rows A = (2 * length rows_)%nat /\
  (forall (s : C) (x : list C) (u y : C), length x = (2 * length rows_)%nat -> steady (K := Cring) A B CT D s x u y ->
    (fold_right (fun r acc => sos_den r s * acc) (RtoC 1) rows_ * y = fold_right (fun r acc => sos_num r s * acc) (RtoC 1) rows_ * u)%C) /\
  (forall s : C, (forall r, In r rows_ -> sos_den r s <> RtoC 0) ->
    forall u : C, exists x y, length x = (2 * length rows_)%nat /\ steady (K := Cring) A B CT D s x u y).
Proof.
  intros rows_ A B CT D E. destruct (sos_realises rows_ A B CT D E) as [H1 H2]. split; [exact H1|]. split; [exact H2|]. exact (sos_steady_exists rows_ A B CT D E).
Qed.
Print Assumptions C65_sos.
Theorem C65_accepts : forall rows_, (exists r, sos2abcd rows_ = Ok r) <-> rows_ <> [] /\ forall r, In r rows_ -> sos_a0 r <> 0.
Proof. exact sos_accepts. Qed.
Print Assumptions C65_accepts.
Example C65_ex : (exists r, sos2abcd [(1, 2, 3, 2, 5, 6); (0, 0, 1, 1, 1, 1)] = Ok r) /\ sos_den (1, 2, 3, 2, 5, 6) (RtoC 0) <> RtoC 0.
Proof.
  split.
  - apply sos_accepts. split; [discriminate|]. intros r [<-|[<-|[]]]; cbn; lra.
  - unfold sos_den, quad. replace (RtoC 2 * (RtoC 0 * RtoC 0) + RtoC 5 * RtoC 0 + RtoC 6)%C with (RtoC 6) by ring. intros H. apply RtoC_inj in H. lra.
Qed.
