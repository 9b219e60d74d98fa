(** Protocol of the NUV estimator: refusals, and the end of the source. *)
From Coq Require Import List Arith Lia Bool Reals Lra ZArith.
From Flocq Require Import Core.
From Verif Require Import Base LinAlg FirExtras AnalogSystem AnalogProofs Signals DigitalControl Integrators IntegratorsProofs Simulator Stability LinearOde LinearExist PreSim Zpk FilterCoeff
  FilterCoeffProofs FilterOde FilterRun Estimators Optimal NuvAlg NuvCost NuvArrival Nuv NuvProofs NuvPass NuvRun NuvBatch NuvCoeff NuvCont NuvCarry NuvTop.
Import ListNotations.
Open Scope R_scope.

(** *** Specification *)
(** the number of complete batches in [len] samples *)
Definition full_batches (over K1 K2 len : nat) : nat := if Nat.ltb (over * len) (K1 + K2) then O else Datatypes.S ((over * len - (K1 + K2)) / K1).
Definition never_yields {A St} (next : St -> result A * St) (st : St) : Prop := forall n r, In r (fst (calls next n st)) -> exists e, r = Exn e.

(** how many of the calls return a value *)
Fixpoint yields {A} (l : list (result A)) : nat := match l with [] => O | Ok _ :: l => Datatypes.S (yields l) | Exn _ :: l => yields l end.

(** *** Proofs *)
Lemma never_inv {A St} (next : St -> result A * St) (I : St -> Prop) : (forall st, I st -> (exists e, fst (next st) = Exn e) /\ I (snd (next st))) -> forall st, I st -> never_yields next st.
Proof.
  intros H st HI n. revert st HI. induction n; intros st HI r Hr; [contradiction|]. cbn [calls] in Hr. destruct (H st HI) as [[e He] HI']. destruct (next st) as [r0 st']. cbn [fst snd] in *.
  specialize (IHn st' HI'). destruct (calls next n st') as [l s2]. cbn [fst] in *. destruct Hr as [<-|Hr]; [exists e; exact He|now apply IHn].
Qed.
Lemma init_K1 ivp expm S d cov b gamma K1 K2 iters Ts over : (K1 < 1)%Z -> nuv_init ivp expm S d cov b gamma K1 K2 iters Ts over = Exn GenericException.
Proof. intros H. unfold nuv_init. destruct (Z.ltb_spec K1 1); [reflexivity|lia]. Qed.
Lemma init_K2 ivp expm S d cov b gamma K1 K2 iters Ts over : (K2 < 0)%Z -> nuv_init ivp expm S d cov b gamma K1 K2 iters Ts over = Exn GenericException.
Proof. intros H. unfold nuv_init. destruct (Z.ltb_spec K1 1); [reflexivity|]. destruct (Z.ltb_spec K2 0); [reflexivity|lia]. Qed.
Lemma init_over ivp expm S d cov b gamma K1 K2 iters Ts : (1 <= K1)%Z -> (0 <= K2)%Z -> nuv_init ivp expm S d cov b gamma K1 K2 iters Ts 0 = Exn ZeroDivisionError.
Proof. intros H H'. unfold nuv_init. destruct (Z.ltb_spec K1 1); [lia|]. destruct (Z.ltb_spec K2 0); [lia|]. reflexivity. Qed.
Lemma no_iterator inv c st : n_src st = None -> forall n, fst (calls (n_next inv c) n st) = repeat (Exn GenericException) n.
Proof.
  intros H n. induction n; [reflexivity|]. cbn [calls]. assert (E : n_next inv c st = (Exn GenericException, st)) by (unfold n_next; cbn [n_next_fuel]; now rewrite H). rewrite E.
  destruct (calls (n_next inv c) n st). cbn [fst repeat] in *. now rewrite IHn.
Qed.

(** *** What a filling keeps *)
Lemma copies_keep c : forall k full st s r st', n_copies c k full st s = (r, st') -> n_ptr st' = n_ptr st /\ n_src st' = n_src st /\ n_m0 st' = n_m0 st /\ length (n_buf st') = length (n_buf st).
Proof.
  induction k; intros full st s r st'; cbn [n_copies]; [intros E; inversion E; auto|]. destruct (n_input c st s) as [[f1 st1]|] eqn:E1; [|intros E; inversion E; auto].
  intros E. apply IHk in E as (A1 & A2 & A3 & A4). rewrite A1, A2, A3, A4. unfold n_input in E1. destruct (Nat.eqb (n_cnt st) (nK3 c)); [discriminate|]. destruct (if Nat.eqb (sM (nS c)) 0 then _ else _); [|discriminate]. cbn [bind] in E1. apply Ok_inj in E1. inversion E1; subst. cbn. rewrite upd_length. auto.
Qed.
Lemma fill_keep c : forall fuel st src r st', n_src st <> None -> n_fill c fuel st src = (r, st') -> n_ptr st' = n_ptr st /\ n_src st' <> None /\ n_m0 st' = n_m0 st /\ length (n_buf st') = length (n_buf st).
Proof.
  induction fuel; intros st src r st' HS; cbn [n_fill]; [intros E; inversion E; subst; auto|]. destruct (src_next src) as [x src'].
  assert (Go : forall stop s, (match n_copies c (n_over c) false (mkN (Some src') (n_ptr st) stop (n_buf st) (n_cnt st) (n_m0 st) (n_V0 st) (n_s1 st) (n_s2 st) (n_est st)) s with (Exn e, st0) => (Exn e, st0) | (Ok full, st0) => if full then (Ok tt, st0) else n_fill c fuel st0 src' end) = (r, st') ->
     n_ptr st' = n_ptr st /\ n_src st' <> None /\ n_m0 st' = n_m0 st /\ length (n_buf st') = length (n_buf st)).
  { intros stop s. destruct (n_copies _ _ _ _ _) as [rf st1] eqn:Ec. apply copies_keep in Ec as (A1 & A2 & A3 & A4). cbn [n_ptr n_src n_m0 n_buf] in *.
    destruct rf as [full|]; [destruct full|]; intros E; try (inversion E; subst; rewrite A2; split; [auto|split; [discriminate|auto]]).
    apply IHfuel in E as (B1 & B2 & B3 & B4); [|rewrite A2; discriminate]. split; [congruence|]. split; [exact B2|split; congruence]. }
  assert (Ex : forall e, (Exn e, mkN (Some src') (n_ptr st) (n_stop st) (n_buf st) (n_cnt st) (n_m0 st) (n_V0 st) (n_s1 st) (n_s2 st) (n_est st)) = (r, st') -> n_ptr st' = n_ptr st /\ n_src st' <> None /\ n_m0 st' = n_m0 st /\ length (n_buf st') = length (n_buf st)) by (intros e E; inversion E; subst; cbn; split; [auto|split; [discriminate|auto]]).
  destruct x as [v|e]; [apply Go|]. destruct e; try (apply Ex); apply Go.
Qed.

(** *** Rectangular output matrices *)
Section Rect.
Variables (inv : rmat -> result rmat) (c : nuv).
Hypothesis HR : sNt (nS c) <> sN (nS c).
Lemma backward_fails g r : length (g_m g) = sN (nS c) -> exists e, backward c (g :: r) = Exn e.
Proof.
  intros L. cbn [backward]. destruct (backward c r) as [xs|e]; [|exists e; reflexivity]. cbn [bind]. destruct (match xs with [] => _ | _ :: _ => _ end) as [z|e]; [|exists e; reflexivity]. cbn [bind].
  destruct (dotv (tr (aCT (nS c))) (g_m g)) as [cm|e] eqn:E; [|exists e; reflexivity]. exfalso. apply HR. apply dotv_Ok in E as (E & _). cbn [tr cols] in E. unfold sNt. congruence.
Qed.
Lemma pass_fails m V buf s1 s2 : length m = sN (nS c) -> buf <> [] -> s1 <> [] -> s2 <> [] -> exists e, one_pass inv c m V buf s1 s2 = Exn e.
Proof.
  intros L Hb H1 H2. destruct buf as [|b buf]; [contradiction|]. destruct s1 as [|a1 s1]; [contradiction|]. destruct s2 as [|a2 s2]; [contradiction|].
  unfold one_pass. cbn [observations]. destruct (observation inv c a1 a2) as [[y Yc]|e]; [|exists e; reflexivity]. cbn [bind]. destruct (observations inv c s1 s2 buf) as [l|e]; [|exists e; reflexivity]. cbn [bind forward].
  destruct (gains inv c Yc V) as [[G F]|e]; [|exists e; reflexivity]. cbn [bind].
  assert (X : forall l0, exists e, bind (backward c (mkNode G F m V y :: l0)) (fun xs => Ok (mkNode G F m V y :: l0, xs)) = Exn e) by (intros l0; destruct (backward_fails (mkNode G F m V y) l0 L) as [e ->]; exists e; reflexivity).
  destruct l as [|o l]; [cbn [bind]; apply X|].
  destruct (next_mean c G F m V y b) as [m1|e]; [|exists e; reflexivity]. cbn [bind]. destruct (next_cov c F V) as [V1|e]; [|exists e; reflexivity]. cbn [bind].
  destruct (forward inv c (o :: l) m1 V1) as [l'|e]; [|exists e; reflexivity]. cbn [bind]. apply X.
Qed.
Lemma batch_fails st : length (n_m0 st) = sN (nS c) -> n_buf st <> [] -> exists e, compute_batch inv c st = Exn e.
Proof.
  intros L Hb. unfold compute_batch. destruct (Nat.ltb (n_cnt st) (nK3 c)); [eexists; reflexivity|].
  assert (X : exists e, iterate inv c (n_iter c) (n_m0 st) (n_V0 st) (n_buf st) (n_s1 st :: repeat (repeat 1 (sNt (nS c))) (nK3 c - 1)) (n_s2 st :: repeat (repeat 1 (sNt (nS c))) (nK3 c - 1)) = Exn e).
  { destruct (pass_fails (n_m0 st) (n_V0 st) (n_buf st) (n_s1 st :: repeat (repeat 1 (sNt (nS c))) (nK3 c - 1)) (n_s2 st :: repeat (repeat 1 (sNt (nS c))) (nK3 c - 1)) L Hb ltac:(discriminate) ltac:(discriminate)) as [e E]. exists e. destruct (n_iter c); cbn [iterate]; rewrite E; reflexivity. }
  destruct X as [e ->]. exists e. reflexivity.
Qed.
Lemma rect_never st : n_src st <> None -> n_ptr st = nK1 c -> length (n_m0 st) = sN (nS c) -> n_buf st <> [] -> never_yields (n_next inv c) st.
Proof.
  intros H1 H2 H3 H4. apply (never_inv (n_next inv c) (fun st => n_src st <> None /\ n_ptr st = nK1 c /\ length (n_m0 st) = sN (nS c) /\ n_buf st <> [])); [|auto]. clear st H1 H2 H3 H4. intros st (H1 & H2 & H3 & H4).
  unfold n_next. cbn [n_next_fuel]. destruct (n_src st) as [src|] eqn:Es; [|contradiction]. rewrite H2, Nat.ltb_irrefl.
  destruct (n_stop st); [cbn; rewrite Es; split; [eexists; reflexivity|auto]|]. destruct (n_fill c (Datatypes.S (nK3 c)) st src) as [r st'] eqn:Ef. apply fill_keep in Ef as (A1 & A2 & A3 & A4); [|rewrite Es; discriminate].
  assert (A5 : n_buf st' <> []). { intros Q. rewrite Q in A4. destruct (n_buf st); [contradiction|discriminate]. }
  destruct r as [u|e]; [|cbn; split; [eexists; reflexivity|split; [exact A2|split; [congruence|split; [congruence|exact A5]]]]].
  destruct (batch_fails st') as [e E]; [congruence|exact A5|]. rewrite E. cbn. split; [eexists; reflexivity|split; [exact A2|split; [congruence|split; [congruence|exact A5]]]].
Qed.
End Rect.

(** *** A window that is no multiple of the oversampling *)
Section Over.
Variables (inv : rmat -> result rmat) (c : nuv).
Hypothesis HO : (1 <= n_over c)%nat.
Local Notation o := (n_over c).
Lemma copies_count : forall k full st s, let '(r, st') := n_copies c k full st s in
  ((exists e, r = Exn e) /\ (n_cnt st' = n_cnt st \/ n_cnt st' = nK3 c)) \/ (n_cnt st' = (n_cnt st + k)%nat /\ ((n_cnt st <= nK3 c)%nat -> (n_cnt st' <= nK3 c)%nat) /\ (r = Ok (match k with O => full | _ => Nat.ltb (nK3 c - 1) (n_cnt st') end))).
Proof.
  assert (In : forall st s, match n_input c st s with Ok (f, st') => n_cnt st' = Datatypes.S (n_cnt st) /\ f = Nat.ltb (nK3 c - 1) (n_cnt st') /\ (if Nat.eqb (sM (nS c)) 0 then Ok [] else row (sM (nS c)) (pm1 (K := Rring) s)) <> Exn ValueError /\ n_cnt st <> nK3 c
             | Exn e => n_cnt st = nK3 c \/ exists e, (if Nat.eqb (sM (nS c)) 0 then Ok [] else row (sM (nS c)) (pm1 (K := Rring) s)) = Exn e end).
  { intros st s. unfold n_input. destruct (Nat.eqb_spec (n_cnt st) (nK3 c)) as [E|E]; [left; exact E|]. destruct (if Nat.eqb (sM (nS c)) 0 then _ else _) eqn:R; cbn [bind]; [|right; eexists; reflexivity].
    split; [reflexivity|]. split; [reflexivity|]. split; [discriminate|exact E]. }
  assert (G : forall k full st s, (exists v, (if Nat.eqb (sM (nS c)) 0 then Ok [] else row (sM (nS c)) (pm1 (K := Rring) s)) = Ok v) -> let '(r, st') := n_copies c k full st s in
     ((exists e, r = Exn e) /\ n_cnt st' = nK3 c) \/ (n_cnt st' = (n_cnt st + k)%nat /\ ((n_cnt st <= nK3 c)%nat -> (n_cnt st' <= nK3 c)%nat) /\ (r = Ok (match k with O => full | _ => Nat.ltb (nK3 c - 1) (n_cnt st') end)))).
  { induction k; intros full st s [v Hv]; cbn [n_copies]; [right; split; [lia|split; [auto|reflexivity]]|]. specialize (In st s). destruct (n_input c st s) as [[f st1]|e].
    - destruct In as (A1 & A2 & _ & A3). specialize (IHk f st1 s (ex_intro _ v Hv)). destruct (n_copies c k f st1 s) as [r st2]. destruct IHk as [[X1 X2]|[X1 [X3 X2]]]; [left; auto|right]. split; [lia|]. split; [intros; apply X3; lia|]. rewrite X2. destruct k; [|reflexivity]. rewrite A2. do 2 f_equal. lia.
    - left. split; [eexists; reflexivity|]. destruct In as [E|[e' E]]; [exact E|congruence]. }
  intros k full st s. destruct (if Nat.eqb (sM (nS c)) 0 then Ok [] else row (sM (nS c)) (pm1 (K := Rring) s)) as [v|e] eqn:R.
  - specialize (G k full st s (ex_intro _ v R)). destruct (n_copies c k full st s) as [r st']. destruct G as [[X1 X2]|X]; [left; auto|right; exact X].
  - destruct k; cbn [n_copies]; [right; split; [lia|split; [auto|reflexivity]]|]. assert (E : exists e, n_input c st s = Exn e).
    { unfold n_input. destruct (Nat.eqb (n_cnt st) (nK3 c)); [eexists; reflexivity|]. rewrite R. eexists; reflexivity. }
    destruct E as [e' ->]. left. split; [eexists; reflexivity|left; reflexivity].
Qed.
Definition misaligned (n : nat) : Prop := (n <= nK3 c /\ (nK3 c - n) mod o <> 0)%nat \/ n = nK3 c.
Lemma fill_over : forall fuel st src, misaligned (n_cnt st) -> let '(r, st') := n_fill c fuel st src in (exists e, r = Exn e) /\ misaligned (n_cnt st').
Proof.
  induction fuel; intros st src Al; cbn [n_fill]; [split; [eexists; reflexivity|exact Al]|]. destruct (src_next src) as [x src'].
  assert (Go : forall stop s, let '(r, st') := (match n_copies c (n_over c) false (mkN (Some src') (n_ptr st) stop (n_buf st) (n_cnt st) (n_m0 st) (n_V0 st) (n_s1 st) (n_s2 st) (n_est st)) s with (Exn e, st0) => (Exn e, st0) | (Ok full, st0) => if full then (Ok tt, st0) else n_fill c fuel st0 src' end) in
     (exists e, r = Exn e) /\ misaligned (n_cnt st')).
  { intros stop s. set (st1 := mkN _ _ _ _ _ _ _ _ _ _). assert (X := copies_count (n_over c) false st1 s).
    assert (Full : n_cnt st = nK3 c -> exists e, n_copies c (n_over c) false st1 s = (Exn e, st1)).
    { intros E. destruct (n_over c); [lia|]. cbn [n_copies]. unfold n_input. cbn [st1 n_cnt]. rewrite E, Nat.eqb_refl. eexists; reflexivity. }
    destruct (n_copies c (n_over c) false st1 s) as [r st2]. cbn [st1 n_cnt] in X. destruct X as [[[e ->] X2]|(X1 & X3 & ->)].
    - split; [eexists; reflexivity|]. destruct X2 as [->| ->]; [exact Al|now right].
    - destruct Al as [[Al2 Al1]|Al]; [|destruct (Full Al) as [e E]; discriminate]. specialize (X3 Al2).
      assert (M2 : ((nK3 c - n_cnt st2) mod o <> 0)%nat). { replace (nK3 c - n_cnt st)%nat with (nK3 c - n_cnt st2 + 1 * o)%nat in Al1 by lia. rewrite Nat.mod_add in Al1 by lia. exact Al1. }
      assert (Lt : (n_cnt st2 < nK3 c)%nat). { assert (n_cnt st2 <> nK3 c) by (intros Q; rewrite Q, Nat.sub_diag, Nat.mod_0_l in M2 by lia; lia). lia. }
      assert (Q : (match o with O => false | _ => Nat.ltb (nK3 c - 1) (n_cnt st2) end) = Nat.ltb (nK3 c - 1) (n_cnt st2)) by (destruct o; [lia|reflexivity]). rewrite Q. destruct (Nat.ltb_spec (nK3 c - 1) (n_cnt st2)); [lia|]. apply IHfuel. left. split; [lia|exact M2]. }
  destruct x as [v|e]; [apply Go|]. destruct e; try (apply Go); (split; [eexists; reflexivity|exact Al]).
Qed.
Lemma over_never st : n_src st <> None -> n_ptr st = nK1 c -> misaligned (n_cnt st) -> never_yields (n_next inv c) st.
Proof.
  intros H1 H2 H3. apply (never_inv (n_next inv c) (fun st => n_src st <> None /\ n_ptr st = nK1 c /\ misaligned (n_cnt st))); [|auto]. clear st H1 H2 H3. intros st (H1 & H2 & H3).
  unfold n_next. cbn [n_next_fuel]. destruct (n_src st) as [src|] eqn:Es; [|contradiction]. rewrite H2, Nat.ltb_irrefl.
  destruct (n_stop st); [cbn; rewrite Es; split; [eexists; reflexivity|auto]|]. assert (F := fill_over (Datatypes.S (nK3 c)) st src H3). destruct (n_fill c (Datatypes.S (nK3 c)) st src) as [r st'] eqn:Ef. apply fill_keep in Ef as (A1 & A2 & _); [|rewrite Es; discriminate].
  destruct F as [[e ->] F]. cbn. split; [eexists; reflexivity|]. split; [exact A2|]. split; [congruence|exact F].
Qed.
Lemma fill_aligned : (nK3 c mod o = 0)%nat -> forall fuel st src, (n_cnt st mod o = 0 /\ n_cnt st <= nK3 c)%nat -> let '(r, st') := n_fill c fuel st src in (n_cnt st' mod o = 0 /\ n_cnt st' <= nK3 c)%nat /\ ((exists u, r = Ok u) -> n_cnt st' = nK3 c).
Proof.
  intros H3. induction fuel; intros st src Al; cbn [n_fill]; [split; [exact Al|intros [u Q]; discriminate]|]. destruct (src_next src) as [x src'].
  assert (Go : forall stop s, let '(r, st') := (match n_copies c (n_over c) false (mkN (Some src') (n_ptr st) stop (n_buf st) (n_cnt st) (n_m0 st) (n_V0 st) (n_s1 st) (n_s2 st) (n_est st)) s with (Exn e, st0) => (Exn e, st0) | (Ok full, st0) => if full then (Ok tt, st0) else n_fill c fuel st0 src' end) in
     (n_cnt st' mod o = 0 /\ n_cnt st' <= nK3 c)%nat /\ ((exists u, r = Ok u) -> n_cnt st' = nK3 c)).
  { intros stop s. set (st1 := mkN _ _ _ _ _ _ _ _ _ _). assert (X := copies_count (n_over c) false st1 s).
    destruct (n_copies c (n_over c) false st1 s) as [r st2]. cbn [st1 n_cnt] in X. destruct X as [[[e ->] X2]|(X1 & X3 & ->)].
    - split; [|intros [u Q]; discriminate]. destruct X2 as [->| ->]; [exact Al|lia].
    - destruct Al as [Al1 Al2]. specialize (X3 Al2).
      assert (M2 : (n_cnt st2 mod o = 0)%nat). { rewrite X1. replace (n_cnt st + o)%nat with (n_cnt st + 1 * o)%nat by lia. rewrite Nat.mod_add by lia. exact Al1. }
      assert (Q : (match o with O => false | _ => Nat.ltb (nK3 c - 1) (n_cnt st2) end) = Nat.ltb (nK3 c - 1) (n_cnt st2)) by (destruct o; [lia|reflexivity]). rewrite Q. destruct (Nat.ltb_spec (nK3 c - 1) (n_cnt st2)).
      + split; [lia|]. intros _. lia.
      + apply IHfuel. lia. }
  destruct x as [v|e]; [apply Go|]. destruct e; try (apply Go); (split; [exact Al|intros [u Q]; discriminate]).
Qed.
Definition over_inv (k : nat) (st : nst) : Prop := n_src st <> None /\
  ((n_ptr st = nK1 c /\ (n_cnt st mod o = 0 /\ n_cnt st <= nK3 c)%nat /\ k = nK1 c) \/ ((n_ptr st < nK1 c)%nat /\ n_cnt st = nK2 c /\ k = (nK1 c - n_ptr st)%nat) \/ (n_ptr st = nK1 c /\ misaligned (n_cnt st) /\ k = O)).
Lemma over_step : (1 <= nK1 c)%nat -> (nK3 c mod o = 0)%nat -> (nK1 c mod o <> 0)%nat -> forall k st, over_inv k st -> match n_next inv c st with (Ok _, st') => exists k', k = Datatypes.S k' /\ over_inv k' st' | (Exn _, st') => over_inv k st' end.
Proof.
  intros P1 H3 H1 k st (Hs & H). unfold n_next. cbn [n_next_fuel]. destruct (n_src st) as [src|] eqn:Es; [|contradiction].
  assert (Yd : forall st, n_src st <> None -> (n_ptr st < nK1 c)%nat -> n_cnt st = nK2 c -> over_inv (nK1 c - Datatypes.S (n_ptr st)) (mkN (n_src st) (Datatypes.S (n_ptr st)) (n_stop st) (n_buf st) (n_cnt st) (n_m0 st) (n_V0 st) (n_s1 st) (n_s2 st) (n_est st))).
  { intros s A1 A2 A3. split; [exact A1|]. cbn [n_ptr n_cnt]. destruct (Nat.eq_dec (Datatypes.S (n_ptr s)) (nK1 c)) as [E|E]; [right; right|right; left; split; [lia|auto]]. split; [exact E|]. split; [|lia]. left. rewrite A3. unfold nK3. split; [lia|]. now replace (nK1 c + nK2 c - nK2 c)%nat with (nK1 c) by lia. }
  destruct H as [(Hp & Al & ->)|[(Hp & Hc & ->)|(Hp & Al & ->)]].
  - rewrite Hp, Nat.ltb_irrefl. destruct (n_stop st); [split; [rewrite Es; discriminate|left; auto]|]. assert (F := fill_aligned H3 (Datatypes.S (nK3 c)) st src Al). destruct (n_fill c (Datatypes.S (nK3 c)) st src) as [r st'] eqn:Ef. apply fill_keep in Ef as (A1 & A2 & _); [|rewrite Es; discriminate]. destruct F as [F1 F2].
    destruct r as [u|e]; [|split; [exact A2|left; split; [congruence|auto]]]. specialize (F2 (ex_intro _ u eq_refl)). destruct (compute_batch inv c st') as [st2|e] eqn:Eb; [|split; [exact A2|left; split; [congruence|auto]]].
    unfold compute_batch in Eb. destruct (Nat.ltb (n_cnt st') (nK3 c)); [discriminate|]. destruct (iterate _ _ _ _ _ _ _ _) as [[[[l xs] s1] s2]|]; [|discriminate]. cbn [bind] in Eb. destruct (mapM _ _) as [est|]; [|discriminate]. cbn [bind] in Eb. destruct (nth_error l (nK1 c - 1)) as [g|]; [|discriminate]. apply Ok_inj in Eb. subst st2. cbn [n_src n_ptr n_stop n_buf n_cnt n_m0 n_V0 n_s1 n_s2 n_est].
    destruct (n_src st') as [src2|] eqn:Es2; [|contradiction]. rewrite A1, Hp, Nat.sub_diag. destruct (Nat.ltb_spec 0 (nK1 c)); [|lia].
    exists (nK1 c - 1)%nat. split; [lia|]. refine (Yd (mkN (Some src2) 0 (n_stop st') (roll (nK1 c) (n_buf st')) (n_cnt st' - nK1 c) (g_m g) (gV g) (nth (nK1 c - 1) s1 []) (nth (nK1 c - 1) s2 []) est) _ _ _); cbn [n_src n_ptr n_cnt]; [discriminate|lia|rewrite F2; unfold nK3; lia].
  - destruct (Nat.ltb_spec (n_ptr st) (nK1 c)); [|lia]. exists (nK1 c - Datatypes.S (n_ptr st))%nat. split; [lia|]. rewrite <- Es. apply Yd; [rewrite Es; discriminate|lia|exact Hc].
  - rewrite Hp, Nat.ltb_irrefl. destruct (n_stop st); [split; [rewrite Es; discriminate|right; right; auto]|]. assert (F := fill_over (Datatypes.S (nK3 c)) st src Al). destruct (n_fill c (Datatypes.S (nK3 c)) st src) as [r st'] eqn:Ef. apply fill_keep in Ef as (A1 & A2 & _); [|rewrite Es; discriminate].
    destruct F as [[e ->] F]. split; [exact A2|right; right; split; [congruence|auto]].
Qed.
End Over.
Lemma yields_inv {A St} (next : St -> result A * St) (I : nat -> St -> Prop) : (forall k st, I k st -> match next st with (Ok _, st') => exists k', k = Datatypes.S k' /\ I k' st' | (Exn _, st') => I k st' end) -> forall n k st, I k st -> (yields (fst (calls next n st)) <= k)%nat.
Proof.
  intros H. induction n; intros k st HI; [cbn; lia|]. cbn [calls]. specialize (H k st HI). destruct (next st) as [r st']. destruct r as [a|e].
  - destruct H as (k' & -> & HI'). specialize (IHn k' st' HI'). destruct (calls next n st') as [l s2]. cbn [fst yields] in *. lia.
  - specialize (IHn k st' H). destruct (calls next n st') as [l s2]. cbn [fst yields] in *. lia.
Qed.

(** *** From the constructor *)
Lemma rect_top S d ivp expm inv cov b gamma K1 K2 iters Ts over c st0 : sNt S <> sN S -> nuv_init ivp expm S d cov b gamma K1 K2 iters Ts over = Ok (c, st0) ->
  forall src, never_yields (n_next inv c) (set_iterator st0 src).
Proof.
  intros HR HI src. destruct (init_inv _ _ _ _ _ _ _ _ _ _ _ _ _ _ HI) as (P1 & P2 & P3 & ES & Ec & Eb & Eg & E1 & E2 & Ei & Eo & _ & HC & E0). subst S. apply rect_never; [exact HR|discriminate|rewrite E0; reflexivity|rewrite E0; apply repeat_length|].
  rewrite E0. cbn. unfold nK3. destruct (nK1 c) eqn:Q; [lia|discriminate].
Qed.
Lemma over_top S d ivp expm inv cov b gamma K1 K2 iters Ts over c st0 : nuv_init ivp expm S d cov b gamma K1 K2 iters Ts over = Ok (c, st0) -> (nK3 c mod over <> 0)%nat ->
  forall src, never_yields (n_next inv c) (set_iterator st0 src).
Proof.
  intros HI HM src. destruct (init_inv _ _ _ _ _ _ _ _ _ _ _ _ _ _ HI) as (P1 & P2 & P3 & ES & Ec & Eb & Eg & E1 & E2 & Ei & Eo & _ & HC & E0). subst over. apply over_never; [exact P3|discriminate|rewrite E0; reflexivity|]. left. rewrite E0. cbn [set_iterator n_cnt]. rewrite Nat.sub_0_r. split; [lia|exact HM].
Qed.
Lemma over_first S d ivp expm inv cov b gamma K1 K2 iters Ts over c st0 : nuv_init ivp expm S d cov b gamma K1 K2 iters Ts over = Ok (c, st0) -> (nK1 c mod over <> 0)%nat ->
  forall src n, (yields (fst (calls (n_next inv c) n (set_iterator st0 src))) <= nK1 c)%nat.
Proof.
  intros HI HM src n. destruct (Nat.eq_dec (nK3 c mod over) 0) as [H3|H3].
  - destruct (init_inv _ _ _ _ _ _ _ _ _ _ _ _ _ _ HI) as (P1 & P2 & P3 & ES & Ec & Eb & Eg & E1 & E2 & Ei & Eo & _ & HC & E0). subst over. apply (yields_inv _ (over_inv c) (over_step inv c P3 ltac:(lia) H3 HM)).
    rewrite E0. split; [discriminate|]. left. cbn. split; [reflexivity|]. split; [|reflexivity]. rewrite Nat.mod_0_l by lia. lia.
  - assert (H := over_top _ _ _ _ inv _ _ _ _ _ _ _ _ _ _ HI H3 src n). remember (fst (calls (n_next inv c) n (set_iterator st0 src))) as l. clear -H. assert (E : yields l = O); [|lia]. induction l as [|r l IH]; [reflexivity|]. destruct (H r (or_introl eq_refl)) as [e ->]. cbn [yields]. apply IH. intros r Hr. apply H. now right.
Qed.
Lemma end_top S d ivp expm inv cov b gamma K1 K2 iters Ts over c st0 :
  nuv_sound S d ivp expm -> exact_inv (sNt S) inv -> fits S d -> symmetric_outputs S ->
  nuv_init ivp expm S d cov b gamma K1 K2 iters Ts over = Ok (c, st0) -> 0 <= nTs c <= ck_T (d_clk d) -> (iters <> O -> gamma <> 0) ->
  forall xs e, Forall (fun x => length x = sM S) xs -> (nK1 c mod over = 0)%nat -> (nK2 c mod over = 0)%nat ->
  (end_exn e <> RuntimeError -> forall n, exists est, length est = (full_batches over (nK1 c) (nK2 c) (length xs) * nK1 c)%nat /\
     outcomes inv c st0 xs e (length est + Datatypes.S n) = map Ok est ++ Exn (end_exn e) :: repeat (Exn (end_exn (after e))) n) /\
  (e = SrcObj RuntimeError -> forall n, exists est, length est = (Datatypes.S (full_batches over (nK1 c) (nK2 c) (length xs)) * nK1 c)%nat /\
     outcomes inv c st0 xs e (length est + n) = map Ok est ++ repeat (Exn StopIteration) n).
Proof.
  intros NS EI FI HS HI HT Hg xs e HF D1 D2.
  destruct (init_inv _ _ _ _ _ _ _ _ _ _ _ _ _ _ HI) as (P1 & P2 & P3 & ES & Ec & Eb & Eg & E1 & E2 & Ei & Eo & _ & HC & E0). subst S cov b gamma iters over.
  assert (Z := top_sizes c d ivp expm NS FI HC HT). assert (K1p : (1 <= nK1 c)%nat) by (rewrite E1; lia).
  split; intros He n.
  - destruct (run_end inv c EI Z HS K1p Hg P3 xs HF e D1 D2 _ He (start_at c xs e K1p st0 E0) n) as (est & L & R). exists est. split; [exact L|]. rewrite L. exact R.
  - destruct (run_runtime inv c EI Z HS K1p Hg P3 xs HF e D1 D2 _ He (start_at c xs e K1p st0 E0) n) as (est & L & R). exists est. split; [exact L|]. rewrite L. exact R.
Qed.
