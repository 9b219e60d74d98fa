(** Facts about ChainOfIntegrators, LeapFrog and their synthesis. *)
From Coq Require Import List Arith Lia Bool Reals Lra.
From Flocq Require Import Core.
From Verif Require Import Base LinAlg FirExtras AnalogSystem AnalogProofs Signals DigitalControl DigitalControlProofs Fom Integrators.
Import ListNotations.
Open Scope R_scope.

(** *** Real sums *)
Definition rsum (n : nat) (f : nat -> R) : R := fold_right Rplus 0 (map f (seq 0 n)).
Lemma fold_app_R l1 l2 : fold_right Rplus 0 (l1 ++ l2) = fold_right Rplus 0 l1 + fold_right Rplus 0 l2.
Proof. induction l1; simpl; lra. Qed.
Lemma rsum_S n f : rsum (S n) f = rsum n f + f n.
Proof. unfold rsum. rewrite seq_S, map_app, fold_app_R. simpl. lra. Qed.
Lemma rsum_0 f : rsum 0 f = 0.
Proof. reflexivity. Qed.
Lemma ksum_rsum n f : ksum (K := Rring) n f = rsum n f.
Proof. induction n; [reflexivity|]. cbn [ksum]. rewrite IHn, rsum_S. reflexivity. Qed.
Lemma rsum_ext n f g : (forall i, (i < n)%nat -> f i = g i) -> rsum n f = rsum n g.
Proof. induction n; intros H; [reflexivity|]. rewrite !rsum_S, IHn, H; auto. Qed.
Lemma rsum_add n f g : rsum n (fun i => f i + g i) = rsum n f + rsum n g.
Proof. induction n; [rewrite !rsum_0; lra|]. rewrite !rsum_S, IHn. lra. Qed.
Lemma rsum_zero n f : (forall i, (i < n)%nat -> f i = 0) -> rsum n f = 0.
Proof. induction n; intros H; [reflexivity|]. rewrite rsum_S, IHn, H; auto; lra. Qed.
Lemma rsum_single n j f : (j < n)%nat -> rsum n (fun i => if Nat.eqb i j then f i else 0) = f j.
Proof.
  induction n; intros H; [lia|]. rewrite rsum_S. destruct (Nat.eqb_spec n j) as [->|Hn].
  - rewrite rsum_zero; [lra|]. intros i Hi. destruct (Nat.eqb_spec i j); [lia|reflexivity].
  - rewrite IHn by lia. lra.
Qed.
Lemma rsum_nonneg n f : (forall i, (i < n)%nat -> 0 <= f i) -> 0 <= rsum n f.
Proof. induction n; intros H; [rewrite rsum_0; lra|]. rewrite rsum_S. specialize (IHn (fun i Hi => H i (Nat.lt_lt_succ_r _ _ Hi))). specialize (H n (Nat.lt_succ_diag_r n)). lra. Qed.
Lemma rsum_pos n f j : (forall i, (i < n)%nat -> 0 <= f i) -> (j < n)%nat -> 0 < f j -> 0 < rsum n f.
Proof.
  induction n; intros H Hj Hf; [lia|]. rewrite rsum_S.
  assert (H0 : 0 <= rsum n f) by (apply rsum_nonneg; auto). assert (H1 := H n (Nat.lt_succ_diag_r n)).
  destruct (Nat.eq_dec j n) as [->|]; [lra|]. assert (0 < rsum n f) by (apply IHn; auto; lia). lra.
Qed.

(** entry [i] of matrix times vector, as a real sum *)
Lemma lin_rsum (m : nd2 Rring) x i : lin m x i = rsum (cols m) (fun k => ent m i k * nth k x 0).
Proof. unfold lin. now rewrite ksum_rsum. Qed.
Lemma rownorm_rsum (m : nd2 Rring) i : rownorm m i = sqrt (rsum (cols m) (fun k => ent m i k * ent m i k)).
Proof. unfold rownorm. now rewrite ksum_rsum. Qed.

(** *** Specification vocabulary *)
(** the control input matrix meant by the argument [kappa]: an N x 1 column stands for a diagonal *)
Definition gain (k : nd2 Rring) (n m : nat) : R :=
  if Nat.eqb (cols k) 1 then (if Nat.eqb n m then ent k n 0%nat else 0) else ent k n m.
(** number of control signals *)
Definition ncontrols (k : nd2 Rring) : nat := if Nat.eqb (cols k) 1 then rows k else cols k.
Definition colnorm (N : nat) (g : nat -> nat -> R) (m : nat) : R := sqrt (rsum N (fun n => g n m * g n m)).

Lemma colnorm_pos N g m n : (n < N)%nat -> g n m <> 0 -> 0 < colnorm N g m.
Proof.
  intros Hn Hg. apply sqrt_lt_R0. apply rsum_pos with n; auto; [intros; nra|]. nra.
Qed.

(** *** The constructors *)
Lemma gamma_of_ok (k : nd2 Rring) : exists G, gamma_of (D2 k) = Ok G /\ rows G = rows k /\ cols G = ncontrols k /\
  (forall n m, (n < rows k)%nat -> ent G n m = gain k n m).
Proof.
  unfold gamma_of, ncontrols, gain. cbn [shape1 bind]. destruct (Nat.eqb (cols k) 1).
  - eexists. split; [reflexivity|]. unfold diag0. cbn [rows cols ent]. rewrite map_length, seq_length.
    split; [reflexivity|]. split; [reflexivity|]. intros n m Hn. destruct (Nat.eqb n m); [|reflexivity].
    rewrite nth_indep with (d' := ent k 0%nat 0%nat) by (rewrite map_length, seq_length; exact Hn).
    rewrite (map_nth (fun i => ent k i 0%nat) (seq 0 (rows k)) 0%nat n).
    rewrite seq_nth by exact Hn. reflexivity.
  - exists k. auto.
Qed.

Definition gt_of (G : nd2 Rring) : nd2 Rring := mk2 (K := Rring) (cols G) (rows G) (fun i j => - ent G j i / colnorm (rows G) (ent G) i).

Lemma gamma_tilde_ok (G : nd2 Rring) : (forall m, (m < cols G)%nat -> exists n, (n < rows G)%nat /\ ent G n m <> 0) ->
  exists Gt, gamma_tilde G = Ok Gt /\ rows Gt = cols G /\ cols Gt = rows G /\
  (forall m n, ent Gt m n = - ent G n m / colnorm (rows G) (ent G) m).
Proof.
  intros H. unfold gamma_tilde. cbn [cols rows].
  assert (HN : forall i, rownorm (mk2 (K := Rring) (cols G) (rows G) (fun i j => - ent G j i)) i = colnorm (rows G) (ent G) i).
  { intros i. rewrite rownorm_rsum. unfold colnorm. f_equal. apply rsum_ext. intros k Hk. cbn [ent]. 
    change (- ent G k i * - ent G k i = ent G k i * ent G k i). ring. }
  match goal with |- context [existsb ?f ?l] => assert (E : existsb f l = false) end.
  { apply not_true_iff_false. intros E. apply existsb_exists in E as (i & Hi & E). apply in_seq in Hi.
    destruct (H i ltac:(lia)) as (n & Hn & Hg). rewrite HN in E.
    assert (P := colnorm_pos (rows G) (ent G) i n Hn Hg).
    destruct (Req_bool_spec (colnorm (rows G) (ent G) i) 0); [lra|discriminate]. }
  rewrite E, andb_false_r. eexists. split; [reflexivity|]. cbn [rows cols ent]. split; [reflexivity|]. split; [reflexivity|].
  intros m n. now rewrite HN.
Qed.

Lemma finish_ok A beta (k : nd2 Rring) : rows A = length beta -> cols A = length beta -> (1 <= length beta)%nat ->
  rows k = length beta -> (forall m, (m < ncontrols k)%nat -> exists n, (n < length beta)%nat /\ gain k n m <> 0) ->
  exists S G Gt, finish_init A beta (D2 k) = Ok S /\ valid S /\ aA S = A /\
    aB S = mk2 (K := Rring) (length beta) 1 (fun i _ => if Nat.eqb i 0 then nth 0 beta 0 else 0) /\
    aCT S = eye2 (length beta) (length beta) /\
    aG S = Some G /\ aGt S = Some Gt /\ aD S = zeros (length beta) 1 /\ aBt S = zeros (ncontrols k) 1 /\ aAt S = zeros (ncontrols k) (ncontrols k) /\
    rows G = length beta /\ cols G = ncontrols k /\ rows Gt = ncontrols k /\ cols Gt = length beta /\
    (forall n m, (n < length beta)%nat -> ent G n m = gain k n m) /\
    (forall m n, (n < length beta)%nat -> ent Gt m n = - gain k n m / colnorm (length beta) (gain k) m).
Proof.
  intros RA CA HN Rk Hk. destruct beta as [|b beta]; [cbn in HN; lia|]. set (N := length (b :: beta)) in *.
  destruct (gamma_of_ok k) as (G & EG & RG & CG & HG).
  destruct (gamma_tilde_ok G) as (Gt & EGt & RGt & CGt & HGt).
  { intros m Hm. rewrite CG in Hm. destruct (Hk m Hm) as (n & Hn & Hg). exists n. rewrite RG, Rk. split; [exact Hn|].
    rewrite HG by lia. exact Hg. }
  set (B := mk2 (K := Rring) N 1 (fun i _ => if Nat.eqb i 0 then b else 0)).
  destruct (as_init_total N 1 N (ncontrols k) (ncontrols k) (D2 A) (D2 B) (D2 (eye2 N N)) (Some (D2 G)) (Some (D2 Gt)) None None None) as (S & ES & D1 & D2 & D3 & D4 & D5).
  { unfold fits, has_shape, col_shape, row_shape, opt_shape. cbn [rows cols eye2]. repeat split; auto; congruence. }
  destruct (as_init_ok _ _ _ _ _ _ _ _ _ ES) as (_ & V & E1 & E2 & E3 & E4 & E5 & E6 & E7 & E8).
  rewrite D1, D2, D3, D4, D5 in *. cbn [colof rowof mato matd] in *.
  exists S, G, Gt. split.
  { unfold finish_init. cbn [first_input bind]. rewrite EG. cbn [bind]. rewrite EGt. cbn [bind]. exact ES. }
  split; [exact V|]. split; [congruence|]. split; [exact E2|]. split; [exact E3|]. split; [exact E4|]. split; [exact E5|].
  split; [exact E6|]. split; [exact E7|]. split; [exact E8|]. split; [congruence|]. split; [congruence|]. split; [congruence|].
  split; [congruence|]. split; [intros; apply HG; lia|].
  intros m n Hn. rewrite HGt, HG by lia. rewrite RG, Rk.
  replace (colnorm N (ent G) m) with (colnorm N (gain k) m); [reflexivity|].
  unfold colnorm. f_equal. apply rsum_ext. intros i Hi. now rewrite HG by lia.
Qed.

(** *** Derivative and control observation of a finished system *)
Definition in_drive (beta : list R) (u : R) (x : list R) (n : nat) : R := nth n beta 0 * (if Nat.eqb n 0 then u else nth (n - 1) x 0).

Lemma finish_dynamics A beta (k : nd2 Rring) : rows A = length beta -> cols A = length beta -> (1 <= length beta)%nat ->
  rows k = length beta -> (forall m, (m < ncontrols k)%nat -> exists n, (n < length beta)%nat /\ gain k n m <> 0) ->
  exists S, finish_init A beta (D2 k) = Ok S /\ valid S /\ aA S = A /\ sN S = length beta /\ sL S = 1%nat /\ sM S = ncontrols k /\
    sMt S = ncontrols k /\ aG S <> None /\ aGt S <> None /\
    (forall (x : list R) (u : R) (s : list R), length x = length beta -> length s = ncontrols k ->
      derivative S x [u] s = Ok (map (fun n => rsum (length beta) (fun j => ent A n j * nth j x 0) + (if Nat.eqb n 0 then nth 0 beta 0 * u else 0)
                                  + rsum (ncontrols k) (fun m => gain k n m * nth m s 0)) (seq 0 (length beta)))) /\
    (forall x : list R, length x = length beta -> signal_observation S x = Ok x) /\
    (forall (x : list R) (u : R) (s : list R), length x = length beta -> length s = ncontrols k ->
      control_observation S x (Some [u]) (Some s) = Ok (map (fun m => - rsum (length beta) (fun n => gain k n m * nth n x 0) / colnorm (length beta) (gain k) m) (seq 0 (ncontrols k)))).
Proof.
  intros RA CA HN Rk Hk.
  destruct (finish_ok A beta k RA CA HN Rk Hk) as (S & G & Gt & E & V & EA & EB & EC & EG & EGt & ED & EBt & EAt & RG & CG & RGt & CGt & HG & HGt).
  assert (DN : sN S = length beta) by (unfold sN; now rewrite EA).
  assert (DL : sL S = 1%nat) by (unfold sL; now rewrite EB).
  assert (DM : sM S = ncontrols k) by (unfold sM; now rewrite EG).
  assert (DMt : sMt S = ncontrols k) by (unfold sMt; now rewrite EGt).
  assert (NG : aG S <> None) by (rewrite EG; discriminate). assert (NGt : aGt S <> None) by (rewrite EGt; discriminate).
  exists S. split; [exact E|]. split; [exact V|]. split; [exact EA|]. split; [exact DN|]. split; [exact DL|]. split; [exact DM|].
  split; [exact DMt|]. split; [exact NG|]. split; [exact NGt|]. split; [|split].
  - intros x u s Hx Hs. rewrite derivative_rhs; [|exact V|exact NG|rewrite DN; exact Hx|now rewrite DL|rewrite DM; exact Hs]. unfold rhs. rewrite DN. f_equal.
    apply map_ext_in. intros n Hn. apply in_seq in Hn. rewrite EG, EA, EB. cbn [lino]. rewrite !lin_rsum, CA, CG. cbn [cols ent].
    change (radd Rring) with Rplus. f_equal; [apply (f_equal (Rplus _))|].
    + rewrite rsum_S, rsum_0. cbn [nth]. destruct (Nat.eqb n 0); change (r0 Rring) with 0; cbn [nth]; ring.
    + apply rsum_ext. intros m Hm. now rewrite HG by lia.
  - intros x Hx. rewrite signal_observation_ok; [|exact V|rewrite DN; exact Hx]. unfold sNt. rewrite EC. cbn [eye2 rows]. f_equal.
    apply list_ext with (d := 0); [now rewrite map_length, seq_length|]. intros n Hn. rewrite map_length, seq_length in Hn.
    rewrite nth_indep with (d' := lin (eye2 (K := Rring) (length beta) (length beta)) x 0%nat) by (rewrite map_length, seq_length; exact Hn).
    rewrite (map_nth (lin (eye2 (K := Rring) (length beta) (length beta)) x)). rewrite seq_nth by exact Hn. rewrite lin_rsum. cbn [eye2 cols ent]. rewrite Nat.add_0_l.
    rewrite (rsum_ext _ _ (fun i => if Nat.eqb i n then nth i x 0 else 0)).
    + now apply rsum_single.
    + intros i Hi. rewrite (Nat.eqb_sym n i). destruct (Nat.eqb i n); change (r0 Rring) with 0; change (r1 Rring) with 1; cbv [car Rring]; ring.
  - intros x u s Hx Hs. etransitivity; [apply (control_observation_xus S x [u] s); [exact V|exact NGt|rewrite DN; exact Hx|now rewrite DL|rewrite DM; exact Hs]|].
    rewrite obs_u_zero by (intros; rewrite EBt; reflexivity).
    assert (EO : obs_s S s = vzero (sMt S)).
    { unfold obs_s. rewrite EAt. unfold lin. cbn [zeros cols ent]. apply list_ext with (d := r0 Rring); [unfold vzero; now rewrite map_length, seq_length, repeat_length|].
      intros i Hi. rewrite map_length, seq_length in Hi. unfold vzero. rewrite nth_repeat.
      match goal with |- nth i (map ?f _) _ = _ => rewrite nth_indep with (d' := f 0%nat) by (rewrite map_length, seq_length; exact Hi); rewrite (map_nth f _ 0%nat) end.
      apply ksum_zero. intros j Hj. change (0 * nth j s 0 = 0). cbv [car Rring]; ring. }
    rewrite EO. assert (L : length (obs_x S x) = sMt S) by (unfold obs_x; now rewrite map_length, seq_length).
    assert (LZ : vadd (obs_x S x) (vzero (sMt S)) = obs_x S x) by now apply vadd_0_r. rewrite !LZ. f_equal. unfold obs_x. rewrite DMt, EGt. apply map_ext_in. intros m Hm. apply in_seq in Hm.
    cbn [lino]. rewrite lin_rsum, CGt.
    rewrite (rsum_ext _ _ (fun n => - (gain k n m * nth n x 0) / colnorm (length beta) (gain k) m)).
    + generalize (length beta) at 1 3 as N0. induction N0 as [|N0 IH]; [rewrite !rsum_0; unfold Rdiv; ring|]. rewrite !rsum_S, IH. unfold Rdiv. ring.
    + intros n Hn. rewrite HGt by exact Hn. change (rmul Rring) with Rmult. unfold Rdiv. cbv [car Rring]. ring.
Qed.

(** *** Tridiagonal system matrices *)
Lemma bidx_in d i : (i < d)%nat -> bidx d i = i.
Proof. unfold bidx. intros. destruct (Nat.eqb_spec d 1); lia. Qed.
Lemma bdim_eq d : bdim d d = Ok d.
Proof. unfold bdim. now rewrite Nat.eqb_refl. Qed.
Lemma bcast_square a b n : rows a = n -> cols a = n -> rows b = n -> cols b = n ->
  exists c, bcast_add a b = Ok c /\ rows c = n /\ cols c = n /\
  (forall i j, (i < n)%nat -> (j < n)%nat -> ent c i j = ent a i j + ent b i j).
Proof.
  intros R1 C1 R2 C2. unfold bcast_add. rewrite R1, R2, C1, C2, bdim_eq. cbn [bind]. eexists. split; [reflexivity|].
  cbn [rows cols ent]. split; [reflexivity|]. split; [reflexivity|]. intros i j Hi Hj. now rewrite !bidx_in by assumption.
Qed.

(** row [n] of the tridiagonal matrix applied to [x] *)
Lemma tri_row N (rho beta alpha x : list R) n (e : nat -> nat -> R) : length beta = N -> (n < N)%nat -> length x = N ->
  (length alpha = N - 1)%nat ->
  (forall j, (j < N)%nat -> e n j = (if Nat.eqb n j then nth n rho 0 else 0) + (if Nat.eqb n (S j) then nth j (tl beta) 0 else 0)
                                    + (if Nat.eqb (S n) j then nth n alpha 0 else 0)) ->
  rsum N (fun j => e n j * nth j x 0) =
  nth n rho 0 * nth n x 0 + (if Nat.eqb n 0 then 0 else nth n beta 0 * nth (n - 1) x 0) + nth n alpha 0 * nth (S n) x 0.
Proof.
  intros Lb Hn Lx La He.
  rewrite (rsum_ext N _ (fun j => (if Nat.eqb j n then nth n rho 0 * nth j x 0 else 0)
                                  + (if Nat.eqb j (n - 1) then (if Nat.eqb n 0 then 0 else nth n beta 0 * nth j x 0) else 0)
                                  + (if Nat.eqb j (S n) then nth n alpha 0 * nth j x 0 else 0))).
  2:{ intros j Hj. rewrite He by exact Hj. rewrite (Nat.eqb_sym n j), (Nat.eqb_sym (S n) j).
      assert (E : (if Nat.eqb n (S j) then nth j (tl beta) 0 else 0) * nth j x 0 = (if Nat.eqb j (n - 1) then (if Nat.eqb n 0 then 0 else nth n beta 0 * nth j x 0) else 0)).
      { destruct n as [|n]; cbn [Nat.eqb].
        - destruct (Nat.eqb j (0 - 1)); ring.
        - replace (S n - 1)%nat with n by lia. rewrite (Nat.eqb_sym n j). destruct (Nat.eqb_spec j n) as [->|]; [|ring].
          f_equal. destruct beta; [cbn in Lb; lia|reflexivity]. }
      rewrite <- E. destruct (Nat.eqb j n), (Nat.eqb j (S n)); ring. }
  rewrite !rsum_add. rewrite rsum_single by exact Hn. rewrite rsum_single by lia.
  replace (if Nat.eqb n 0 then 0 else nth n beta 0 * nth (n - 1) x 0) with (if n =? 0 then 0 else nth n beta 0 * nth (n - 1) x 0) by reflexivity.
  f_equal. destruct (Nat.eq_dec (S n) N) as [E|E].
  - rewrite rsum_zero. 2:{ intros j Hj. destruct (Nat.eqb_spec j (S n)); [lia|reflexivity]. }
    rewrite (nth_overflow x) by lia. ring.
  - rewrite rsum_single by lia. reflexivity.
Qed.

Lemma coi_A_ok beta rho : length rho = length beta -> (1 <= length beta)%nat ->
  exists A, bcast_add (diag0 rho) (diagm1 (tl beta)) = Ok A /\ rows A = length beta /\ cols A = length beta /\
  forall i j, (i < length beta)%nat -> (j < length beta)%nat ->
    ent A i j = (if Nat.eqb i j then nth i rho 0 else 0) + (if Nat.eqb i (S j) then nth j (tl beta) 0 else 0).
Proof.
  intros L1 HN. assert (S (length (tl beta)) = length beta) by (destruct beta; cbn in *; lia).
  apply bcast_square; cbn [diag0 diagm1 rows cols]; lia.
Qed.
Lemma lf_A_ok beta alpha rho : length rho = length beta -> (1 <= length beta)%nat -> (length alpha = length beta - 1)%nat ->
  exists A, bind (bcast_add (diagp1 alpha) (diagm1 (tl beta))) (fun A1 => bcast_add A1 (diag0 rho)) = Ok A /\ rows A = length beta /\ cols A = length beta /\
  forall i j, (i < length beta)%nat -> (j < length beta)%nat ->
    ent A i j = (if Nat.eqb i j then nth i rho 0 else 0) + (if Nat.eqb i (S j) then nth j (tl beta) 0 else 0) + (if Nat.eqb (S i) j then nth i alpha 0 else 0).
Proof.
  intros L1 HN L2. assert (S (length (tl beta)) = length beta) by (destruct beta; cbn in *; lia).
  destruct (bcast_square (diagp1 alpha) (diagm1 (tl beta)) (length beta)) as (A1 & E1 & R1 & C1 & H1); [cbn [diagp1 diagm1 rows cols]; lia ..|].
  destruct (bcast_square A1 (diag0 rho) (length beta)) as (A & E & RA & CA & HA); [cbn [diag0 rows cols]; lia ..|].
  exists A. rewrite E1. cbn [bind]. split; [exact E|]. split; [exact RA|]. split; [exact CA|].
  intros i j Hi Hj. rewrite HA, H1 by assumption. cbn [diag0 diagm1 diagp1 ent]. cbv [car Rring]. destruct (S i =? j), (i =? S j), (i =? j); lra.
Qed.

(** what a well formed system does, the statement of the theorems about both constructors *)
Definition integrator_system (S : asys Rring) (beta alpha rho : list R) (k : nd2 Rring) : Prop :=
  let N := length beta in let M := ncontrols k in
  sN S = N /\ sL S = 1%nat /\ sM S = M /\ sMt S = M /\
  (forall (x : list R) (u : R) (s : list R), length x = N -> length s = M ->
     derivative S x [u] s =
     Ok (map (fun n => nth n rho 0 * nth n x 0 + nth n beta 0 * (if Nat.eqb n 0 then u else nth (n - 1) x 0) + nth n alpha 0 * nth (n + 1) x 0
                       + rsum M (fun m => gain k n m * nth m s 0)) (seq 0 N))) /\
  (forall x : list R, length x = N -> signal_observation S x = Ok x) /\
  (forall (x : list R) (u : R) (s : list R), length x = N -> length s = M ->
     control_observation S x (Some [u]) (Some s) =
     Ok (map (fun m => - rsum N (fun n => gain k n m * nth n x 0) / colnorm N (gain k) m) (seq 0 M))).

(** every control reaches some state *)
Definition controls_act (N : nat) (k : nd2 Rring) : Prop := forall m, (m < ncontrols k)%nat -> exists n, (n < N)%nat /\ gain k n m <> 0.

Lemma finish_system (A : nd2 Rring) beta alpha rho (k : nd2 Rring) : (1 <= length beta)%nat -> (length alpha = length beta - 1)%nat ->
  rows A = length beta -> cols A = length beta ->
  (forall i j, (i < length beta)%nat -> (j < length beta)%nat ->
    ent A i j = (if Nat.eqb i j then nth i rho 0 else 0) + (if Nat.eqb i (S j) then nth j (tl beta) 0 else 0) + (if Nat.eqb (S i) j then nth i alpha 0 else 0)) ->
  rows k = length beta -> controls_act (length beta) k ->
  exists S, finish_init A beta (D2 k) = Ok S /\ valid S /\ aA S = A /\ integrator_system S beta alpha rho k.
Proof.
  intros HN La RA CA HA Rk Hk.
  destruct (finish_dynamics A beta k RA CA HN Rk Hk) as (S & E & V & EA & DN & DL & DM & DMt & _ & _ & HD & HO & HC).
  exists S. split; [exact E|]. split; [exact V|]. split; [exact EA|]. unfold integrator_system. split; [exact DN|]. split; [exact DL|].
  split; [exact DM|]. split; [exact DMt|]. split; [|split; [exact HO|exact HC]].
  intros x u s Hx Hs. rewrite HD by assumption. f_equal. apply map_ext_in. intros n Hn. apply in_seq in Hn.
  assert (TR := fun H => tri_row (length beta) rho beta alpha x n (ent A) eq_refl (proj2 Hn) Hx La H).
  specialize (TR (fun j Hj => HA n j (proj2 Hn) Hj)).
  etransitivity; [apply f_equal2; [apply f_equal2; [exact TR|reflexivity]|reflexivity]|].
  rewrite Nat.add_1_r. cbv [car Rring]. destruct n as [|n]; cbn [Nat.eqb]; ring.
Qed.

Lemma coi_init_ok beta rho k : (1 <= length beta)%nat -> length rho = length beta -> rows k = length beta -> controls_act (length beta) k ->
  exists S, coi_init beta rho (D2 k) = Ok S /\ valid S /\ integrator_system S beta (repeat 0 (length beta - 1)) rho k.
Proof.
  intros HN Lr Rk Hk. destruct (coi_A_ok beta rho Lr HN) as (A & EA & RA & CA & HA).
  destruct (finish_system A beta (repeat 0 (length beta - 1)) rho k) as (S & E & V & _ & H); auto; try (now rewrite repeat_length).
  { intros i j Hi Hj. rewrite HA by assumption.
    rewrite nth_repeat. destruct (Nat.eqb (S i) j); cbv [car Rring]; lra. }
  exists S. split; [|auto]. unfold coi_init. rewrite Lr, Nat.eqb_refl. cbn [bind]. rewrite EA. exact E.
Qed.

Lemma lf_init_ok beta alpha rho k : (1 <= length beta)%nat -> length rho = length beta -> (length alpha = length beta - 1)%nat -> rows k = length beta -> controls_act (length beta) k ->
  exists S, lf_init beta alpha rho (D2 k) = Ok S /\ valid S /\ integrator_system S beta alpha rho k.
Proof.
  intros HN Lr La Rk Hk. destruct (lf_A_ok beta alpha rho Lr HN La) as (A & EA & RA & CA & HA).
  destruct (finish_system A beta alpha rho k) as (S & E & V & _ & H); auto.
  exists S. split; [|auto]. unfold lf_init.
  destruct (bcast_add (diagp1 alpha) (diagm1 (tl beta))) as [A1|]; [|discriminate]. cbn [bind] in EA |- *. rewrite EA. exact E.
Qed.
