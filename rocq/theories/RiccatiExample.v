(** Scalar systems, with exact routines for them. *)
From Coq Require Import List Arith Lia Bool Reals Lra.
From Flocq Require Import Core.
From Coquelicot Require Import Complex.
From Verif Require Import Base LinAlg FirExtras AnalogSystem AnalogProofs Signals DigitalControl Simulator Integrators IntegratorsProofs LinearOde Zpk CplxLin FilterCoeff FilterCoeffProofs FilterOde FilterExample Riccati RiccatiAlg RiccatiProofs RiccatiFilter RiccatiDecay.
Import ListNotations.
Open Scope R_scope.

Lemma csum1 f : csum 1 f = f O.
Proof. cbn. ring. Qed.
Lemma inv1_exact : exact_rinv inv1.
Proof.
  intros M X H. split; [now apply inv1_sound|]. apply bind_Ok in H as (x & H1 & H). apply scalar_Ok in H1 as (HR & HC & ->). destruct (Req_bool_spec (ent M O O) 0); [discriminate|]. apply Ok_inj in H. subst X.
  split; [cbn; congruence|]. split; [cbn; congruence|]. cbn [s11 rows cols]. intros i j Hi Hj. rewrite (idx1 i Hi), (idx1 j Hj), rsum1. cbn. field. assumption.
Qed.
Definition c11 (x : C) : cmat := mk2 (K := Cring) 1 1 (fun _ _ => x).
Definition czero (x : C) : bool := Req_bool (fst x) 0 && Req_bool (snd x) 0.
Lemma czero_false x : czero x = false -> x <> RtoC 0.
Proof. intros H E. subst x. unfold czero in H. cbn in H. rewrite Req_bool_true in H by reflexivity. discriminate. Qed.
Definition cinv1 (M : cmat) : result cmat := if Nat.eqb (rows M) 1 && Nat.eqb (cols M) 1 && negb (czero (ent M O O)) then Ok (c11 (Cinv (ent M O O))) else Exn ValueError.
Lemma cinv1_inv M X : cinv1 M = Ok X -> is_cinverse M X.
Proof.
  unfold cinv1. destruct (Nat.eqb_spec (rows M) 1) as [HR|]; [|discriminate]. destruct (Nat.eqb_spec (cols M) 1) as [HC|]; [|discriminate]. destruct (czero _) eqn:E; [discriminate|]. cbn. intros H. apply Ok_inj in H. subst X.
  apply czero_false in E. split; [congruence|]. split; [cbn; congruence|]. split; [cbn; congruence|]. rewrite HR. split; intros i j Hi Hj; rewrite (idx1 i Hi), (idx1 j Hj); unfold cmul; rewrite csum1; cbn; [apply Cinv_r|apply Cinv_l]; exact E.
Qed.
Lemma cinv1_exact : exact_cinv cinv1.
Proof. intros M X _. apply cinv1_inv. Qed.

(** [[a, -g], [-q, -a]] has the eigenvectors (g, a - l) with l^2 = a^2 + g q; [sg] tells which square root comes first *)
Definition root (x : R) : C := if Rle_bool 0 x then (sqrt x, 0) else (0, sqrt (- x)).
Lemma root_sq x : (root x * root x)%C = RtoC x.
Proof.
  unfold root. destruct (Rle_bool_spec 0 x) as [H|H]; unfold Cmult, RtoC; cbn [fst snd]; f_equal; try ring.
  - rewrite Rmult_0_r, Rminus_0_r. now apply sqrt_sqrt.
  - rewrite Rmult_0_l, sqrt_sqrt by lra. ring.
Qed.
Definition diag2 (sg : R) (Z : cmat) : result (cmat * cmat) :=
  let a := fst (ent Z O O) in let g := - fst (ent Z O 1%nat) in let q := - fst (ent Z 1%nat O) in
  if Nat.eqb (rows Z) 2 && Req_bool (snd (ent Z O O)) 0 && Req_bool (snd (ent Z O 1%nat)) 0 && Req_bool (snd (ent Z 1%nat O)) 0 && Req_bool (snd (ent Z 1%nat 1%nat)) 0
    && Req_bool (fst (ent Z 1%nat 1%nat)) (- a) && negb (Req_bool g 0) && Req_bool (sg * sg) 1
  then let l j := (RtoC (if Nat.eqb j 0 then sg else - sg) * root (a * a + g * q))%C in
       Ok (mk2 (K := Cring) 2 2 (fun i j => if Nat.eqb i 0 then RtoC g else (RtoC a - l j)%C), mk2 (K := Cring) 2 2 (fun i j => if Nat.eqb i j then l j else RtoC 0))
  else Exn GenericException.
Lemma c_eq (x : C) (r : R) : snd x = 0 -> fst x = r -> x = RtoC r.
Proof. destruct x; cbn. now intros -> ->. Qed.
Lemma diag2_exact sg : exact_diag (diag2 sg).
Proof.
  intros Z P D. unfold diag2. set (a := fst (ent Z O O)). set (g := - fst (ent Z O 1%nat)). set (q := - fst (ent Z 1%nat O)).
  destruct (Nat.eqb_spec (rows Z) 2) as [HR|]; [|discriminate]. destruct (Req_bool_spec (snd (ent Z O O)) 0) as [E1|]; [|discriminate]. destruct (Req_bool_spec (snd (ent Z O 1%nat)) 0) as [E2|]; [|discriminate].
  destruct (Req_bool_spec (snd (ent Z 1%nat O)) 0) as [E3|]; [|discriminate]. destruct (Req_bool_spec (snd (ent Z 1%nat 1%nat)) 0) as [E4|]; [|discriminate].
  destruct (Req_bool_spec (fst (ent Z 1%nat 1%nat)) (- a)) as [E5|]; [|discriminate]. destruct (Req_bool_spec g 0) as [|G]; [discriminate|]. destruct (Req_bool_spec (sg * sg) 1) as [Hs|]; [|discriminate].
  cbn [andb negb]. intros H. apply Ok_inj in H. injection H as <- <-. split; [now rewrite HR|]. split; [now rewrite HR|]. rewrite HR. intros i j Hi Hj.
  assert (F00 : ent Z O O = RtoC a) by now apply c_eq. assert (F01 : ent Z O 1%nat = RtoC (- g)) by (apply c_eq; [assumption|unfold g; ring]).
  assert (F10 : ent Z 1%nat O = RtoC (- q)) by (apply c_eq; [assumption|unfold q; ring]). assert (F11 : ent Z 1%nat 1%nat = RtoC (- a)) by now apply c_eq.
  cbn [rows cols ent csum]. rewrite Nat.eqb_refl. set (l := (RtoC (if Nat.eqb j 0 then sg else - sg) * root (a * a + g * q))%C).
  assert (L : (l * l)%C = RtoC (a * a + g * q)).
  { unfold l. replace (_ * _)%C with (RtoC (if Nat.eqb j 0 then sg else - sg) * RtoC (if Nat.eqb j 0 then sg else - sg) * (root (a * a + g * q) * root (a * a + g * q)))%C by ring. rewrite root_sq, <- !RtoC_mult. f_equal.
    destruct (Nat.eqb j 0); [rewrite Hs|replace (- sg * - sg) with (sg * sg) by ring; rewrite Hs]; ring. }
  clearbody l. destruct i as [|[|i]]; [| |lia]; cbn [Nat.eqb].
  - rewrite Nat.eqb_refl, F00, F01, RtoC_opp. ring.
  - rewrite Nat.eqb_refl, F10, F11, !RtoC_opp. replace ((RtoC a - l) * l)%C with (RtoC a * l - l * l)%C by ring. rewrite L, RtoC_plus, !RtoC_mult. ring.
Qed.

Definition mat11 (M : rmat) : Prop := rows M = 1%nat /\ cols M = 1%nat.
Lemma ham1g (A B Q Rm : rmat) : mat11 A -> mat11 B -> mat11 Q -> mat11 Rm -> ent Rm O O <> 0 -> exists Z, hamiltonian inv1 A B Q Rm = Ok Z /\ rows Z = 2%nat /\
  ent Z O O = ent A O O /\ ent Z O 1%nat = - (ent B O O * / ent Rm O O * ent B O O) /\ ent Z 1%nat O = - ent Q O O /\ ent Z 1%nat 1%nat = - ent A O O.
Proof.
  intros [RA CA] [RB CB] [RQ CQ] [RR CR] Hr. unfold hamiltonian, inv1, scalar. rewrite RR, CR. cbn [Nat.eqb andb bind]. rewrite Req_bool_false by exact Hr. cbn [bind]. unfold dotm. cbn [s11 rows cols tr]. rewrite RB, CB. cbn [Nat.eqb bind rows cols tr]. rewrite ?RB, ?CB. cbn [Nat.eqb bind]. unfold blocks.
  cbn [rows cols tr oppm mapm]. rewrite RA, CA, RQ, CQ. cbn [Nat.eqb andb]. eexists. split; [reflexivity|]. cbn [rows cols ent Nat.ltb Nat.leb Nat.sub Nat.add oppm mapm s11 tr].
  split; [reflexivity|]. split; [reflexivity|]. split; [|split; reflexivity]. cbn. f_equal. ring.
Qed.
Lemma ham1 a b q r : r <> 0 -> exists Z, hamiltonian inv1 (s11 a) (s11 b) (s11 q) (s11 r) = Ok Z /\ rows Z = 2%nat /\
  ent Z O O = a /\ ent Z O 1%nat = - (b * / r * b) /\ ent Z 1%nat O = - q /\ ent Z 1%nat 1%nat = - a.
Proof. intros Hr. exact (ham1g (s11 a) (s11 b) (s11 q) (s11 r) (conj eq_refl eq_refl) (conj eq_refl eq_refl) (conj eq_refl eq_refl) (conj eq_refl eq_refl) Hr). Qed.

Lemma sym1 (V : rmat) : rows V = 1%nat -> cols V = 1%nat -> exists X, sym V = Ok X /\ rows X = 1%nat /\ cols X = 1%nat /\ ent X O O = ent V O O.
Proof.
  intros HR HC. unfold sym, addm, zip2. cbn [tr rows cols]. rewrite HR, HC. cbn [Nat.eqb andb bind]. eexists. split; [reflexivity|]. split; [reflexivity|]. split; [reflexivity|].
  cbn [scalem mapm ent tr]. toR. field.
Qed.
Lemma fst_lin a sg g (z : C) : fst ((RtoC a - RtoC sg * z) * RtoC (/ g))%C = (a - sg * fst z) / g.
Proof. destruct z as [x y]. unfold Cmult, Cminus, Cplus, Copp, RtoC. cbn [fst snd]. unfold Rdiv. ring. Qed.
Lemma care2g sg (A B Q Rm : rmat) : mat11 A -> mat11 B -> mat11 Q -> mat11 Rm -> ent Rm O O <> 0 -> ent B O O <> 0 -> sg * sg = 1 ->
  let a := ent A O O in let b := ent B O O in let q := ent Q O O in let r := ent Rm O O in exists X, analytical_care inv1 (diag2 sg) cinv1 A B Q Rm = Ok X /\ rows X = 1%nat /\ cols X = 1%nat /\
  ent X O O = (a - sg * fst (root (a * a + b * / r * b * q))) / (b * / r * b).
Proof.
  intros HA HB HQ HR Hr Hb Hs a b q r. destruct (ham1g A B Q Rm HA HB HQ HR Hr) as (Z & HZ & RZ & E00 & E01 & E10 & E11). fold a b q r in E00, E01, E10, E11, Hr, Hb. clearbody a b q r. unfold analytical_care. rewrite HZ. cbn [bind].
  unfold diag2. cbn [cof rows ent RtoC fst snd]. rewrite RZ, E00, E01, E10, E11. rewrite !Ropp_involutive. cbn [Nat.eqb andb]. rewrite !Req_bool_true by reflexivity. rewrite (Req_bool_true (sg * sg)) by exact Hs.
  assert (G : b * / r * b <> 0) by (apply Rmult_integral_contrapositive_currified; [apply Rmult_integral_contrapositive_currified; [exact Hb|now apply Rinv_neq_0_compat]|exact Hb]).
  rewrite (Req_bool_false (b * / r * b)) by exact G. cbn [andb negb bind]. set (g := b * / r * b) in *.
  destruct HA as [RA CA]. rewrite RA, CA. unfold graph_of, cinv1. cbn [slice rows cols ent Nat.sub Nat.add Nat.eqb andb s11]. unfold czero. cbn [RtoC fst snd]. rewrite (Req_bool_false g) by exact G. cbn [andb negb bind]. unfold dotm. cbn [slice rows cols Nat.sub Nat.eqb c11 bind].
  destruct (sym1 (rpart (mk2 (K := Cring) 1 1 (fun i j => ksum (K := Cring) 1 (fun k => Cmult (RtoC a - RtoC sg * root (a * a + g * q))%C (Cinv (RtoC g))))))) as (X & HX & RX & CX & EX); [reflexivity|reflexivity|].
  exists X. split; [exact HX|]. split; [exact RX|]. split; [exact CX|]. rewrite EX. cbn [rpart ent]. rewrite csum_ksum, csum1. rewrite <- RtoC_inv by exact G. apply fst_lin.
Qed.

Lemma care2 sg a b q r : r <> 0 -> b <> 0 -> sg * sg = 1 -> exists X, analytical_care inv1 (diag2 sg) cinv1 (s11 a) (s11 b) (s11 q) (s11 r) = Ok X /\ rows X = 1%nat /\ cols X = 1%nat /\
  ent X O O = (a - sg * fst (root (a * a + b * / r * b * q))) / (b * / r * b).
Proof. exact (care2g sg (s11 a) (s11 b) (s11 q) (s11 r) (conj eq_refl eq_refl) (conj eq_refl eq_refl) (conj eq_refl eq_refl) (conj eq_refl eq_refl)). Qed.

Lemma root_pos x : 0 <= x -> fst (root x) = sqrt x.
Proof. intros H. unfold root. now rewrite Rle_bool_true. Qed.
Lemma root_neg x : x < 0 -> fst (root x) = 0.
Proof. intros H. unfold root. now rewrite Rle_bool_false. Qed.
Lemma sym_s11 x : symmetric_mat (s11 x).
Proof. split; reflexivity. Qed.
Lemma stable1 n M : n = 1%nat -> (stable n M <-> M O O < 0).
Proof.
  intros ->. split; intros H.
  - apply (H (RtoC (M O O)) (fun _ => RtoC 1)).
    + intros i Hi. rewrite (idx1 i Hi), csum1. ring.
    + exists O. split; [lia|]. intros E. apply RtoC_inj in E. lra.
  - intros l v E (i & Hi & Hv). rewrite (idx1 i Hi) in Hv. specialize (E O ltac:(lia)). rewrite csum1 in E.
    assert (L : l = RtoC (M O O)); [|now rewrite L].
    assert (E2 : (l * v O * / v O)%C = (RtoC (M O O) * v O * / v O)%C) by now rewrite E. rewrite <- !Cmult_assoc, Cinv_r, !Cmult_1_r in E2 by exact Hv. exact E2.
Qed.
Lemma diag_stable1 n M : n = 1%nat -> M O O < 0 -> diag_stable n M.
Proof.
  intros -> H. exists (fun _ _ => RtoC 1), (fun _ _ => RtoC 1), (fun _ => RtoC (M O O)). split; [|split].
  - split; intros i j Hi Hj; rewrite (idx1 i Hi), (idx1 j Hj); unfold cmul; rewrite csum1; cbn; ring.
  - intros k _. exact H.
  - intros k j Hk Hj. rewrite (idx1 j Hj), csum1. ring.
Qed.
(** the only case [care1] knows: x^2 = 1 *)
Lemma care1_stab A B Q Rm X : care1 A B Q Rm = Ok X -> stabilising A B Q Rm X.
Proof.
  intros H. split; [now apply care1_sound|]. apply bind_Ok in H as (a & H1 & H). apply bind_Ok in H as (b & H2 & H). apply bind_Ok in H as (q & H3 & H). apply bind_Ok in H as (r & H4 & H).
  apply scalar_Ok in H1 as (R1 & C1 & ->). apply scalar_Ok in H2 as (R2 & C2 & ->). apply scalar_Ok in H3 as (R3 & C3 & ->). apply scalar_Ok in H4 as (R4 & C4 & ->).
  destruct (Req_bool_spec (ent A O O) 0) as [e|]; [|discriminate]. destruct (Req_bool_spec (ent B O O) 1) as [e0|]; [|discriminate].
  destruct (Req_bool_spec (ent Q O O) 1) as [e1|]; [|discriminate]. destruct (Req_bool_spec (ent Rm O O) 1) as [e2|]; [|discriminate].
  cbn in H. apply Ok_inj in H. subst X. exists (s11 1).
  assert (IR : is_inverse Rm (s11 1)).
  { split; [now rewrite C4|]. split; [now rewrite R4|]. rewrite R4, C4. intros i j Hi Hj. rewrite (idx1 i Hi), (idx1 j Hj), rsum1, e2. cbn. ring. }
  assert (CL : forall Y : nat -> nat -> R, closed_loop A B (s11 1) Y O O = - Y O O).
  { intros Y. unfold closed_loop. rewrite R1, C2, !rsum1, e, e0. cbn [s11 ent]. ring. }
  split; [exact IR|]. split.
  { split; [now rewrite R4|]. split; [now rewrite C4|]. cbn [s11 rows cols]. intros i j Hi Hj. rewrite (idx1 i Hi), (idx1 j Hj), rsum1, e2. cbn. ring. }
  split; [apply stable1; [exact R1|]; rewrite CL; cbn; lra|]. split; [apply stable1; [exact R1|]; rewrite CL; cbn; lra|]. split; [apply diag_stable1; [exact R1|]; rewrite CL; cbn; lra|].
  intros Y (RY & CY & SY & EY) SY2 i j Hi Hj. rewrite R1 in Hi, Hj. rewrite (idx1 i Hi), (idx1 j Hj). apply stable1 in SY2; [|exact R1]. rewrite CL in SY2.
  specialize (EY _ IR O O ltac:(lia) ltac:(lia)). rewrite R1, C2, !rsum1, e, e0, e1 in EY. cbn [s11 ent] in *. toR.
  assert (F : (ent Y O O - 1) * (ent Y O O + 1) = 0) by (toR; lra). apply Rmult_integral in F. toR. destruct F; lra.
Qed.
