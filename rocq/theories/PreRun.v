(** Runs of PreComputedControlSignalsSimulator: exactness, agreement with FullSimulator, superposition. *)
From Coq Require Import List Arith Lia Bool Reals Lra.
From Flocq Require Import Core.
From Coquelicot Require Import Complex.
From Verif Require Import Base LinAlg FirExtras AnalogSystem AnalogProofs Signals DigitalControl DigitalControlProofs ControlKinds
  Integrators IntegratorsProofs Simulator Stability LinearOde PreSim.
Import ListNotations.
Open Scope R_scope.

(** [k] calls of [next], each control signal copied when handed out *)
Fixpoint pre_run (S : asys Rring) (inputs : list insig) (p : pre) (k : nat) (s : sim) : result (list (list R) * sim) :=
  match k with
  | O => Ok ([], s)
  | Datatypes.S k => bind (pre_run S inputs p k s) (fun '(cs, s) => bind (pre_next S inputs p s) (fun '(c, s) => Ok (cs ++ [rd_arr (s_h s) c], s)))
  end.

(** every piecewise constant input keeps during a period the value it has at its end *)
Definition held (inputs : list insig) (T : R) : Prop :=
  forall f k t, In (IPw f) inputs -> INR k * T < t < INR (Datatypes.S k) * T -> f t = f (INR (Datatypes.S k) * T).

Lemma held_sig inputs T k l t : held inputs T -> In l (indices is_pw inputs) -> 0 < t < T ->
  sig_nth inputs l (t + INR k * T) = sig_nth inputs l (INR k * T + T).
Proof.
  intros H Hl Ht. apply in_indices in Hl. destruct Hl as [H1 H2]. unfold sig_nth. fold nosig. assert (Hin := nth_In inputs nosig H1).
  destruct (nth l inputs nosig) as [| f |]; try discriminate. cbn [sig_eval]. assert (E := S_INR k).
  replace (INR k * T + T) with (INR (Datatypes.S k) * T) by (rewrite E; ring). apply H; [exact Hin|]. rewrite E. nra.
Qed.

Section Run.
Variable ivp : (R -> list R -> result (list R)) -> R -> R -> list R -> result (list R).
Variable expm : nd2 Rring -> R -> nd2 Rring.
Variable atf : asys Rring -> R -> nat -> nat -> C.

Lemma pre_run_exact S d h inputs (x0 : list R) : fitting S d -> wf d h -> usable d -> 0 <= ck_T (d_clk d) -> suitable S inputs -> length x0 = sN S ->
  held inputs (ck_T (d_clk d)) -> exact_routines ivp expm atf S d inputs ->
  exists p, pre_init ivp expm atf S d h inputs (Some x0) = Ok (p, mkSim 0 x0 d h) /\
  forall k, exists cs s s' hh y, pre_run S inputs p k (mkSim 0 x0 d h) = Ok (cs, s) /\ s_t s = INR k * ck_T (d_clk d) /\ s_d s = d /\ wf d (s_h s) /\ length (s_x s) = sN S /\
    observe_update S (inputs_at S (map sig_eval inputs) (s_t s)) s = Ok hh /\
    pre_next S inputs p s = Ok (d_s d, s') /\ s' = mkSim (s_t s + ck_T (d_clk d)) (y (ck_T (d_clk d))) d hh /\
    solves_pw (physics S inputs s hh) (ck_T (d_clk d)) (s_x s) y /\ length (y (ck_T (d_clk d))) = sN S /\ wf d hh.
Proof.
  intros F W U HT Su L0 Hh Ex. destruct (pre_init_ok ivp expm atf S d h inputs x0 F W (proj1 U) (su_acc _ _ Su) L0 Ex) as (p & ctrl & pwc & EI & Hcomp).
  exists p. split; [exact EI|].
  assert (Comp : computed expm atf S d inputs p) by (exists ctrl, pwc; exact Hcomp).
  assert (Step : forall k s, s_t s = INR k * ck_T (d_clk d) -> s_d s = d -> wf d (s_h s) -> length (s_x s) = sN S ->
    exists s' hh y, observe_update S (inputs_at S (map sig_eval inputs) (s_t s)) s = Ok hh /\
    pre_next S inputs p s = Ok (d_s d, s') /\ s' = mkSim (s_t s + ck_T (d_clk d)) (y (ck_T (d_clk d))) d hh /\
    solves_pw (physics S inputs s hh) (ck_T (d_clk d)) (s_x s) y /\ length (y (ck_T (d_clk d))) = sN S /\ wf d hh).
  { intros k s Et Ed Ws Lx. destruct (pre_step ivp expm atf S d inputs p s F U Su Ex HT Comp Ed Ws Lx) as (hh & y & EO & Wh & Hy & Ly & _ & EN).
    - intros l t Hl Ht. rewrite Et. now apply held_sig.
    - rewrite Rplus_0_r in EO. eexists _, hh, y. split; [exact EO|]. split; [exact EN|]. auto. }
  assert (Main : forall k, exists cs s, pre_run S inputs p k (mkSim 0 x0 d h) = Ok (cs, s) /\ s_t s = INR k * ck_T (d_clk d) /\ s_d s = d /\ wf d (s_h s) /\ length (s_x s) = sN S).
  { induction k as [|k (cs & s & E & Et & Ed & Ws & Lx)].
    - exists [], (mkSim 0 x0 d h). cbn [pre_run INR s_t s_d s_h s_x]. split; [reflexivity|]. split; [ring|]. auto.
    - destruct (Step k s Et Ed Ws Lx) as (s' & hh & y & _ & EN & Es' & _ & Ly & Wh).
      eexists _, s'. split; [cbn [pre_run]; rewrite E; cbn [bind]; rewrite EN; cbn [bind]; reflexivity|].
      subst s'. cbn [s_t s_d s_h s_x]. rewrite Et, S_INR. split; [ring|]. auto. }
  intros k. destruct (Main k) as (cs & s & E & Et & Ed & Ws & Lx). destruct (Step k s Et Ed Ws Lx) as (s' & hh & y & H1 & H2 & H3 & H4 & H5 & H6).
  exists cs, s, s', hh, y. auto 15.
Qed.
End Run.

(** *** Agreement with FullSimulator *)
Lemma full_rhs_physics S inputs s h t (x : list R) : fitting S (s_d s) -> wf (s_d s) h -> usable (s_d s) -> inputs <> [] -> length inputs = sL S -> 0 <= t -> length x = sN S ->
  full_rhs S (map sig_eval inputs) s h t x = physics S inputs s h t x.
Proof.
  intros F W U Hne HL Ht Lx. unfold full_rhs, physics. destruct inputs as [|i0 is0]; [congruence|]. cbn [map].
  rewrite usable_contribution by auto. cbn [bind].
  rewrite <- (map_cons (fun i => sig_eval i (t + s_t s))).
  set (c := map (fun m => wave (s_d s) m t * rd h (d_dec (s_d s)) m) (seq 0 (d_M (s_d s)))).
  assert (Lc : length c = sM S) by (unfold c; rewrite map_length, seq_length; apply F).
  assert (E : sig_eval i0 (t + s_t s) :: map (fun f => f (t + s_t s)) (map sig_eval is0) = map (fun i => sig_eval i (t + s_t s)) (i0 :: is0)) by (cbn [map]; now rewrite map_map).
  rewrite E. apply (derivative_rhs (K := Rring)); auto; try apply F. now rewrite map_length.
Qed.

Lemma solves_ext (f g : R -> list R -> result (list R)) T (y0 : list R) y : (forall t x, 0 < t < T -> length x = length y0 -> f t x = g t x) -> solves_pw f T y0 y -> solves_pw g T y0 y.
Proof.
  intros H (H1 & H2 & H3 & ex & H4). split; [exact H1|]. split; [exact H2|]. split; [exact H3|]. exists ex. intros t Ht Hi.
  destruct (H4 t Ht Hi) as (v & E & R). exists v. rewrite <- H by (auto; apply H2; lra). auto.
Qed.

Lemma physics_unique S inputs s h (y1 y2 : R -> list R) T : fitting S (s_d s) -> wf (s_d s) h -> usable (s_d s) -> (inputs = [] \/ length inputs = sL S) -> length (s_x s) = sN S ->
  0 <= T -> solves_pw (physics S inputs s h) T (s_x s) y1 -> solves_pw (physics S inputs s h) T (s_x s) y2 -> forall t, 0 <= t <= T -> y1 t = y2 t.
Proof.
  intros F W U HL Lx HT H1 H2 t Ht.
  assert (Hf : forall t x, 0 < t < T -> length x = sN S -> physics S inputs s h t x = Ok (map (fun n => rsum (sN S) (fun k => ent (aA S) n k * nth k x 0) + drive S inputs s h n t) (seq 0 (sN S)))).
  { intros t0 x Ht0 Hx. apply physics_ok; auto. lra. }
  assert (S1 := sol_of_solves _ _ _ _ _ _ _ Hf Lx H1). assert (S2 := sol_of_solves _ _ _ _ _ _ _ Hf Lx H2).
  apply list_ext with (d := 0).
  - destruct H1 as (_ & L1 & _), H2 as (_ & L2 & _). rewrite L1, L2 by exact Ht. reflexivity.
  - intros n Hn. destruct H1 as (I1 & L1 & _), H2 as (I2 & _). rewrite L1, Lx in Hn by exact Ht.
    apply (unique _ _ _ _ _ _ S1 S2); auto. intros n0 Hn0. now rewrite I1, I2.
Qed.

Definition answers (ivp : (R -> list R -> result (list R)) -> R -> R -> list R -> result (list R)) (S : asys Rring) (fs : list (R -> R)) (s : sim) : Prop :=
  forall h, observe_update S (inputs_at S fs (0 + s_t s)) s = Ok h ->
  endpoint (full_rhs S fs s h) (ck_T (d_clk (s_d s))) (s_x s) (ivp (full_rhs S fs s h) 0 (ck_T (d_clk (s_d s))) (s_x s)).

Lemma same_as_full ivp ivp' expm atf S d h inputs (x0 : list R) : fitting S d -> wf d h -> usable d -> 0 <= ck_T (d_clk d) -> suitable S inputs -> inputs <> [] -> length x0 = sN S ->
  held inputs (ck_T (d_clk d)) -> exact_routines ivp expm atf S d inputs ->
  (forall k s, full_run ivp' S (map sig_eval inputs) k (mkSim 0 x0 d h) = Ok s -> answers ivp' S (map sig_eval inputs) s) ->
  exists p, pre_init ivp expm atf S d h inputs (Some x0) = Ok (p, mkSim 0 x0 d h) /\
  forall k, exists cs s, pre_run S inputs p k (mkSim 0 x0 d h) = Ok (cs, s) /\ full_run ivp' S (map sig_eval inputs) k (mkSim 0 x0 d h) = Ok s.
Proof.
  intros F W U HT Su Hne L0 Hh Ex Ans. destruct (pre_run_exact ivp expm atf S d h inputs x0 F W U HT Su L0 Hh Ex) as (p & EI & Run).
  exists p. split; [exact EI|].
  assert (HL : length inputs = sL S) by (destruct (ac_len _ _ (su_acc _ _ Su)); [contradiction|assumption]).
  induction k as [|k (cs & s & Ep & Ef)]; [exists [], (mkSim 0 x0 d h); auto|].
  destruct (Run k) as (cs' & s1 & s' & hh & y & Ep' & Et & Ed & Ws & Lx & EO & EN & Es' & Hy & Ly & Wh).
  rewrite Ep in Ep'. apply Ok_inj in Ep'. injection Ep' as <- <-.
  destruct (Ans k s Ef hh) as (y' & Hy' & Ey'); [now rewrite Rplus_0_l|]. rewrite Ed in Hy', Ey'.
  assert (Hphys : solves_pw (physics S inputs s hh) (ck_T (d_clk d)) (s_x s) y').
  { eapply solves_ext; [|exact Hy']. intros t x Ht Hx. apply full_rhs_physics; rewrite ?Ed; auto; [lra|congruence]. }
  assert (E : y' (ck_T (d_clk d)) = y (ck_T (d_clk d))).
  { apply (physics_unique S inputs s hh y' y (ck_T (d_clk d))); rewrite ?Ed; auto. lra. }
  eexists _, s'. split.
  - cbn [pre_run]. rewrite Ep. cbn [bind]. rewrite EN. cbn [bind]. reflexivity.
  - cbn [full_run]. rewrite Ef. cbn [bind]. unfold full_next. rewrite Rplus_0_l, EO. cbn [bind]. rewrite Ed, Ey', E. cbn [bind]. now rewrite Es'.
Qed.

(** *** Superposition, whatever the precomputed matrices are *)
Definition ap (m : nd2 Rring) (x : list R) : list R := map (fun i => rsum (cols m) (fun k => ent m i k * nth k x 0)) (seq 0 (rows m)).
Definition iter_ap (m : nd2 Rring) (k : nat) (x : list R) : list R := Nat.iter k (ap m) x.
Definition vplus (a b : list R) : list R := vadd (K := Rring) a b.

Lemma ap_length m x : length (ap m x) = rows m.
Proof. unfold ap. now rewrite map_length, seq_length. Qed.
Lemma ap_nth m x i : (i < rows m)%nat -> nth i (ap m x) 0 = rsum (cols m) (fun k => ent m i k * nth k x 0).
Proof. intros H. unfold ap. now rewrite nth_seq_R. Qed.

(** x[k+1] = Phi x[k] + e[k] *)
Lemma unroll (m : nd2 Rring) N (x e : nat -> list R) : rows m = N -> cols m = N -> (forall k, length (x k) = N) -> (forall k, length (e k) = N) ->
  (forall k n, (n < N)%nat -> nth n (x (Datatypes.S k)) 0 = nth n (ap m (x k)) 0 + nth n (e k) 0) ->
  forall k n, (n < N)%nat -> nth n (x k) 0 = nth n (iter_ap m k (x O)) 0 + rsum k (fun i => nth n (iter_ap m (k - 1 - i) (e i)) 0).
Proof.
  intros HR HC Lx Le Hs k. induction k as [|k IH]; intros n Hn; [rewrite rsum_0; cbn; ring|].
  rewrite Hs, ap_nth, HC by (rewrite ?HR; exact Hn). rewrite rsum_S. replace (Datatypes.S k - 1 - k)%nat with O by lia. change (iter_ap m 0 (e k)) with (e k).
  rewrite (rsum_ext N _ (fun j => ent m n j * nth j (iter_ap m k (x O)) 0 + rsum k (fun i => ent m n j * nth j (iter_ap m (k - 1 - i) (e i)) 0))).
  2:{ intros j Hj. rewrite (IH j Hj), rsum_scale. ring. }
  rewrite rsum_add, rsum_swap. change (iter_ap m (Datatypes.S k) (x O)) with (ap m (iter_ap m k (x O))).
  rewrite ap_nth, HC, Rplus_assoc by (rewrite HR; exact Hn). f_equal. f_equal.
  apply rsum_ext. intros i Hi. replace (Datatypes.S k - 1 - i)%nat with (Datatypes.S (k - 1 - i)) by lia.
  change (iter_ap m (Datatypes.S (k - 1 - i)) (e i)) with (ap m (iter_ap m (k - 1 - i) (e i))). now rewrite ap_nth, HC by (rewrite HR; exact Hn).
Qed.

Definition volts (c : list R) : list R := map (fun v => 2 * v - 1) c.
Definition injected (p : pre) (inputs : list insig) (T : R) (c : list R) (i : nat) : list R :=
  vplus (ap (p_ctrl p) (volts c)) (ap (p_pw p) (map (fun l => sig_nth inputs l (INR (Datatypes.S i) * T)) (p_pwi p))).

Lemma vplus_nth (a b : list R) n : length a = length b -> nth n (vplus a b) 0 = nth n a 0 + nth n b 0.
Proof.
  intros H. unfold vplus, vadd. destruct (Nat.lt_ge_cases n (length a)) as [L|L].
  - rewrite (map2_nth _ _ _ _ 0 0) by lia. reflexivity.
  - rewrite (nth_overflow a), (nth_overflow b) by lia. rewrite nth_overflow; [lra|]. etransitivity; [apply Nat.eq_le_incl, map2_length|]. pose proof (Nat.le_min_l (length a) (length b)) as M. exact (Nat.le_trans _ _ _ M L).
Qed.

Lemma superposition S d h inputs p (x0 : list R) : fitting S d -> wf d h -> at_once d -> shaped S p -> p_freq p = [] -> (inputs = [] \/ length inputs = sL S) -> length x0 = sN S ->
  forall k, exists cs s, pre_run S inputs p k (mkSim 0 x0 d h) = Ok (cs, s) /\ length cs = k /\ length (s_x s) = sN S /\
    forall n, (n < sN S)%nat -> nth n (s_x s) 0 = nth n (iter_ap (p_Phi p) k x0) 0 +
      rsum k (fun i => nth n (iter_ap (p_Phi p) (k - 1 - i) (injected p inputs (ck_T (d_clk d)) (nth i cs []) i)) 0).
Proof.
  intros F W U Sh Hfr HL L0. assert (Hfr0 : length (p_freq p) = O) by now rewrite Hfr. set (T := ck_T (d_clk d)). set (s0 := mkSim 0 x0 d h).
  set (X := fun k => match pre_run S inputs p k s0 with Ok (_, s) => s | Exn _ => s0 end).
  set (c := fun i => rd_arr (s_h (X (Datatypes.S i))) (d_s d)).
  assert (Main : forall k, pre_run S inputs p k s0 = Ok (map c (seq 0 k), X k) /\ s_t (X k) = INR k * T /\ s_d (X k) = d /\ wf d (s_h (X k)) /\ length (s_x (X k)) = sN S /\
    pre_next S inputs p (X k) = Ok (d_s d, X (Datatypes.S k)) /\ length (c k) = sM S /\
    forall n, (n < sN S)%nat -> nth n (s_x (X (Datatypes.S k))) 0 = nth n (ap (p_Phi p) (s_x (X k))) 0 + nth n (injected p inputs T (c k) k) 0).
  { assert (Step : forall k, pre_run S inputs p k s0 = Ok (map c (seq 0 k), X k) -> s_t (X k) = INR k * T -> s_d (X k) = d -> wf d (s_h (X k)) -> length (s_x (X k)) = sN S ->
      pre_run S inputs p (Datatypes.S k) s0 = Ok (map c (seq 0 (Datatypes.S k)), X (Datatypes.S k)) /\ pre_next S inputs p (X k) = Ok (d_s d, X (Datatypes.S k)) /\
      s_t (X (Datatypes.S k)) = INR (Datatypes.S k) * T /\ s_d (X (Datatypes.S k)) = d /\ wf d (s_h (X (Datatypes.S k))) /\ length (s_x (X (Datatypes.S k))) = sN S /\ length (c k) = sM S /\
      forall n, (n < sN S)%nat -> nth n (s_x (X (Datatypes.S k))) 0 = nth n (ap (p_Phi p) (s_x (X k))) 0 + nth n (injected p inputs T (c k) k) 0).
    { intros k E Et Ed Ws Lx.
      destruct (observe_ok S d (X k) (inputs_at S (map sig_eval inputs) (s_t (X k) + 0)) F Ed Ws U Lx) as (hh & EO & Wh & _).
      { unfold inputs_at. destruct inputs as [|i0 is0]; [apply repeat_length|]. cbn [map length]. rewrite !map_length. destruct HL as [Y|Y]; [discriminate|exact Y]. }
      assert (EN := pre_next_value S inputs p (X k) hh Sh (or_introl Hfr0)). rewrite Ed in EN. specialize (EN Wh (f_M _ _ F) Lx EO). fold T in EN.
      set (s' := mkSim _ _ _ _) in EN.
      assert (ER : pre_run S inputs p (Datatypes.S k) s0 = Ok (map c (seq 0 k) ++ [rd_arr (s_h s') (d_s d)], s')) by (cbn [pre_run]; rewrite E; cbn [bind]; rewrite EN; reflexivity).
      assert (EX : X (Datatypes.S k) = s') by (unfold X; rewrite ER; reflexivity).
      assert (Ec : c k = rd_arr hh (d_s d)) by (unfold c; rewrite EX; reflexivity).
      assert (Lc : length (c k) = sM S) by (rewrite Ec, <- (f_M _ _ F); apply Wh).
      split. { rewrite ER, seq_S, map_app. cbn [map Nat.add]. rewrite Ec, EX. reflexivity. }
      rewrite EX. split; [exact EN|]. subst s'. cbn [s_t s_d s_h s_x]. split; [rewrite Et, S_INR; ring|]. split; [reflexivity|]. split; [exact Wh|].
      split; [now rewrite map_length, seq_length|]. split; [exact Lc|].
      intros n Hn. rewrite nth_seq_R by exact Hn. unfold step_value. destruct Sh as [[R1 C1] [R2 C2] [R3 C3]].
      rewrite ap_nth, C1 by (rewrite R1; exact Hn). unfold injected. rewrite vplus_nth by (rewrite !ap_length; congruence).
      rewrite !ap_nth by (rewrite ?R2, ?R3; exact Hn). rewrite C2, C3.
      assert (Z : forall t i, sine_at p t i = 0) by (intros; unfold sine_at; rewrite Hfr; reflexivity).
      rewrite Z, (rsum_zero (sN S) (fun k0 => ent (p_Phi p) n k0 * sine_at p _ k0)) by (intros; rewrite Z; ring).
      rewrite (rsum_ext (length (p_pwi p)) _ (fun j => ent (p_pw p) n j * nth j (map (fun l => sig_nth inputs l (INR (Datatypes.S k) * T)) (p_pwi p)) 0)).
      2:{ intros j Hj. rewrite nth_map_R with (d := O) by exact Hj. rewrite Et, S_INR. do 2 f_equal. ring. }
      rewrite (rsum_ext (sM S) _ (fun m => ent (p_ctrl p) n m * nth m (volts (c k)) 0)).
      2:{ intros m Hm. unfold volts. rewrite nth_map_R with (d := 0) by lia. rewrite Ec. reflexivity. }
      ring. }
    assert (Inv : forall k, pre_run S inputs p k s0 = Ok (map c (seq 0 k), X k) /\ s_t (X k) = INR k * T /\ s_d (X k) = d /\ wf d (s_h (X k)) /\ length (s_x (X k)) = sN S).
    { induction k as [|k (E & Et & Ed & Ws & Lx)].
      - assert (X0 : X O = s0) by reflexivity. rewrite X0. cbn [pre_run INR seq map s0 s_t s_d s_h s_x]. split; [reflexivity|]. split; [ring|]. auto.
      - destruct (Step k E Et Ed Ws Lx) as (H1 & _ & H2 & H3 & H4 & H5 & _). auto. }
    intros k. destruct (Inv k) as (E & Et & Ed & Ws & Lx). destruct (Step k E Et Ed Ws Lx) as (_ & H1 & _ & _ & _ & _ & H2 & H3). auto 10. }
  intros k. exists (map c (seq 0 k)), (X k). destruct (Main k) as (E & _ & _ & _ & Lx & _). split; [exact E|]. split; [now rewrite map_length, seq_length|]. split; [exact Lx|].
  intros n Hn. assert (Un := unroll (p_Phi p) (sN S) (fun k => s_x (X k)) (fun k => injected p inputs T (c k) k)).
  destruct Sh as [[R1 C1] [R2 C2] [R3 C3]]. cbv beta in Un. rewrite Un; auto.
  - f_equal. apply rsum_ext. intros i Hi. do 3 f_equal. rewrite nth_indep with (d' := c O) by (rewrite map_length, seq_length; exact Hi). now rewrite (map_nth c), seq_nth.
  - intros j. apply (Main j).
  - intros j. unfold injected, vplus, vadd. rewrite map2_length, !ap_length. lia.
  - intros j n0 Hn0. apply (Main j). exact Hn0.
Qed.
