(** Simulators (C35, C62, C66): theorems. *)
From Coq Require Import List Arith Lia Bool Reals Lra.
From Coquelicot Require Import Complex.
From Verif Require Import Base LinAlg FirExtras AnalogSystem AnalogProofs Signals DigitalControl DigitalControlProofs ControlKinds
  Integrators IntegratorsProofs Simulator Stability LinearOde PreSim PreRun SimWitness.
Import ListNotations.
Open Scope R_scope.

(** *** C35: PreComputedControlSignalsSimulator *)
(** With exact numerical routines, undelayed control waveforms, and inputs that are held up to the end of each period or sinusoids of one frequency
    (seen through C = I, D = 0), every step ends where the differential equation of analog system and digital control ends. *)
Theorem C35_exact : forall ivp expm atf (S : asys Rring) d h inputs (x0 : list R),
  fitting S d -> wf d h -> usable d -> 0 <= ck_T (d_clk d) -> suitable S inputs -> length x0 = sN S ->
  held inputs (ck_T (d_clk d)) -> exact_routines ivp expm atf S d inputs ->
  exists p, pre_init ivp expm atf S d h inputs (Some x0) = Ok (p, mkSim 0 x0 d h) /\
  forall k, exists cs s s' hh y, pre_run S inputs p k (mkSim 0 x0 d h) = Ok (cs, s) /\ s_t s = INR k * ck_T (d_clk d) /\ s_d s = d /\ wf d (s_h s) /\ length (s_x s) = sN S /\
    observe_update S (inputs_at S (map sig_eval inputs) (s_t s)) s = Ok hh /\
    pre_next S inputs p s = Ok (d_s d, s') /\ s' = mkSim (s_t s + ck_T (d_clk d)) (y (ck_T (d_clk d))) d hh /\
    solves_pw (physics S inputs s hh) (ck_T (d_clk d)) (s_x s) y /\ length (y (ck_T (d_clk d))) = sN S /\ wf d hh.
Proof. exact pre_run_exact. Qed.
Print Assumptions C35_exact.

(** the differential equation has no other solution *)
Theorem C35_solution_unique : forall (S : asys Rring) inputs s h (y1 y2 : R -> list R) T,
  fitting S (s_d s) -> wf (s_d s) h -> usable (s_d s) -> (inputs = [] \/ length inputs = sL S) -> length (s_x s) = sN S -> 0 <= T ->
  solves_pw (physics S inputs s h) T (s_x s) y1 -> solves_pw (physics S inputs s h) T (s_x s) y2 -> forall t, 0 <= t <= T -> y1 t = y2 t.
Proof. exact physics_unique. Qed.
Print Assumptions C35_solution_unique.

(** a sinusoid into an integrator with feedback *)
Example C35_exact_example : let S := wsys 1 1 (fun _ _ => 1) ident (fun _ => -1) in let inputs := [ISin 1 (1 / 2) 0 0] in
  fitting S (wdc 0) /\ wf (wdc 0) wheap /\ usable (wdc 0) /\ 0 <= ck_T (d_clk (wdc 0)) /\ suitable S inputs /\ held inputs (ck_T (d_clk (wdc 0))) /\
  exact_routines midpoint wexpm watf S (wdc 0) inputs.
Proof.
  split; [apply wsys_fit|]. split; [apply wdc_wf; lra|]. split; [apply wdc_usable|]. split; [cbn; lra|]. split; [|split].
  - split.
    + split; [auto|intros i [<-|[]]; reflexivity|auto].
    + intros _. split; [reflexivity|]. split; [reflexivity|]. split; [reflexivity|]. split; [now left|]. intros i j [<-|[]] [<-|[]]. reflexivity.
  - intros f k t [H|[]]. discriminate.
  - apply wit_exact; [lra|]. intros i [<-|[]]. lra.
Qed.

(** same states, times and control arrays as FullSimulator *)
Theorem C35_same_as_full : forall ivp ivp' expm atf (S : asys Rring) d h inputs (x0 : list R),
  fitting S d -> wf d h -> usable d -> 0 <= ck_T (d_clk d) -> suitable S inputs -> inputs <> [] -> length x0 = sN S ->
  held inputs (ck_T (d_clk d)) -> exact_routines ivp expm atf S d inputs ->
  (forall k s, full_run ivp' S (map sig_eval inputs) k (mkSim 0 x0 d h) = Ok s -> answers ivp' S (map sig_eval inputs) s) ->
  exists p, pre_init ivp expm atf S d h inputs (Some x0) = Ok (p, mkSim 0 x0 d h) /\
  forall k, exists cs s, pre_run S inputs p k (mkSim 0 x0 d h) = Ok (cs, s) /\ full_run ivp' S (map sig_eval inputs) k (mkSim 0 x0 d h) = Ok s.
Proof. exact same_as_full. Qed.
Print Assumptions C35_same_as_full.
Example C35_same_as_full_example : let S := wsys 1 1 (fun _ _ => 1) ident (fun _ => -1) in let inputs := [IPw (fun _ => 1 / 2)] in
  fitting S (wdc 0) /\ wf (wdc 0) wheap /\ usable (wdc 0) /\ 0 <= ck_T (d_clk (wdc 0)) /\ suitable S inputs /\ held inputs (ck_T (d_clk (wdc 0))) /\
  exact_routines midpoint wexpm watf S (wdc 0) inputs /\
  forall k s, full_run midpoint S (map sig_eval inputs) k (mkSim 0 [0] (wdc 0) wheap) = Ok s -> answers midpoint S (map sig_eval inputs) s.
Proof.
  intros S inputs. assert (F : fitting S (wdc 0)) by apply wsys_fit.
  split; [exact F|]. split; [apply wdc_wf; lra|]. split; [apply wdc_usable|]. split; [cbn; lra|]. split; [|split; [|split]].
  - split; [split; [auto|intros i [<-|[]]; exact I|intros X; now elim X]|intros X; now elim X].
  - intros f k t [H|[]] Ht. injection H as <-. reflexivity.
  - apply wit_exact; [lra|]. intros i [<-|[]]. exact I.
  - assert (Rhs : forall s hh, s_d s = wdc 0 -> wf (wdc 0) hh -> length (s_x s) = 1%nat -> exists v : list R, length v = 1%nat /\
      forall t x, 0 < t < 1 -> length x = 1%nat -> full_rhs S (map sig_eval inputs) s hh t x = Ok v).
    { intros s hh Ed W Lx. exists [1 / 2 - rd hh 1 0]. split; [reflexivity|]. intros t x Ht Hx.
      rewrite full_rhs_physics; rewrite ?Ed; auto; [|apply wdc_usable|discriminate|lra].
      rewrite physics_ok; rewrite ?Ed; auto; [|apply wdc_usable|lra].
      f_equal. cbn [S sN wsys aA zeros rows seq map]. f_equal. unfold drive. rewrite Ed. change (sM S) with 1%nat. change (length inputs) with 1%nat. rewrite !rsum_S, !rsum_0.
      cbn [S wsys aA aB aG gent zeros ent inputs sig_nth nth sig_eval wdc d_dec Rring r0]. unfold wave. cbn [wdc d_resp nth w_eval]. rewrite Raux.Rle_bool_true by lra. lra. }
    assert (Obs : forall s, s_d s = wdc 0 -> wf (wdc 0) (s_h s) -> length (s_x s) = 1%nat -> exists hh, observe_update S (inputs_at S (map sig_eval inputs) (0 + s_t s)) s = Ok hh /\ wf (wdc 0) hh).
    { intros s Ed W Lx. destruct (observe_ok S (wdc 0) s (inputs_at S (map sig_eval inputs) (0 + s_t s)) F Ed W (wdc_at_once 0) Lx eq_refl) as (hh & E & Wh & _). eauto. }
    assert (Inv : forall k s, full_run midpoint S (map sig_eval inputs) k (mkSim 0 [0] (wdc 0) wheap) = Ok s -> s_d s = wdc 0 /\ wf (wdc 0) (s_h s) /\ length (s_x s) = 1%nat).
    { induction k as [|k IH]; intros s H; [apply Ok_inj in H; subst s; split; [reflexivity|]; split; [apply wdc_wf; lra|reflexivity]|].
      cbn [full_run] in H. apply bind_ok in H as (s1 & E1 & H). destruct (IH s1 E1) as (Ed & W & Lx). apply bind_ok in H as ([c s2] & E2 & H). apply Ok_inj in H. subst s2.
      destruct (Obs s1 Ed W Lx) as (hh & EO & Wh). unfold full_next in E2. rewrite EO in E2. cbn [bind] in E2. destruct (Rhs s1 hh Ed Wh Lx) as (v & Lv & Hv).
      rewrite Ed in E2. change (ck_T (d_clk (wdc 0))) with 1 in E2. unfold midpoint in E2. rewrite Hv in E2 by (auto; lra). cbn [bind] in E2. apply Ok_inj in E2. injection E2 as _ <-.
      cbn [s_d s_h s_x]. split; [reflexivity|]. split; [exact Wh|]. rewrite vplus_length; [exact Lx|]. rewrite map_length. congruence. }
    intros k s H. destruct (Inv k s H) as (Ed & W & Lx). intros hh EO. destruct (Obs s Ed W Lx) as (hh' & EO' & Wh). rewrite EO in EO'. apply Ok_inj in EO'. subst hh'.
    destruct (Rhs s hh Ed Wh Lx) as (v & Lv & Hv). rewrite Ed. change (ck_T (d_clk (wdc 0))) with 1. apply const_endpoint with (v := v); [lra|congruence|]. intros t x Ht Hx. apply Hv; [exact Ht|congruence].
Qed.

(** Whatever the numerical routines return: the state is a fixed linear function of initial state, recorded control signals and inputs at the ends of the steps. *)
Theorem C35_superposition : forall ivp expm atf (S : asys Rring) d h inputs (x0 : list R) p s0,
  pre_init ivp expm atf S d h inputs (Some x0) = Ok (p, s0) -> rows (expm (aA S) (ck_T (d_clk d))) = sN S -> cols (expm (aA S) (ck_T (d_clk d))) = sN S ->
  fitting S d -> wf d h -> at_once d -> sins inputs = [] ->
  p_Phi p = expm (aA S) (ck_T (d_clk d)) /\ p_pwi p = indices is_pw inputs /\
  (forall m, (m < sM S)%nat -> exists c, ivp (control_rhs S d m) 0 (ck_T (d_clk d)) (zeroN (sN S)) = Ok c /\ forall n, (n < sN S)%nat -> ent (p_ctrl p) n m = nth n c 0) /\
  (forall j, (j < length (p_pwi p))%nat -> exists c, ivp (input_rhs S (nth j (p_pwi p) O)) 0 (ck_T (d_clk d)) (zeroN (sN S)) = Ok c /\ forall n, (n < sN S)%nat -> ent (p_pw p) n j = nth n c 0) /\
  forall k, exists cs s, pre_run S inputs p k s0 = Ok (cs, s) /\ length cs = k /\ length (s_x s) = sN S /\
    forall n, (n < sN S)%nat -> nth n (s_x s) 0 = nth n (iter_ap (p_Phi p) k x0) 0 +
      rsum k (fun i => nth n (iter_ap (p_Phi p) (k - 1 - i) (injected p inputs (ck_T (d_clk d)) (nth i cs []) i)) 0).
Proof.
  intros ivp expm atf S d h inputs x0 p s0 EI HR HC F W U Hs.
  destruct (pre_init_shape _ _ _ _ _ _ _ _ _ _ EI HR HC) as (Sh & -> & L0 & HL & H1 & H2 & H3 & H4 & H5).
  do 4 (split; [assumption|]). apply superposition; auto.
Qed.
Print Assumptions C35_superposition.
Example C35_superposition_example : let S := wsys 1 1 (fun _ _ => 1) ident (fun _ => -1) in
  (exists p, pre_init midpoint wexpm watf S (wdc 0) wheap [IPw zoh_input] (Some [0]) = Ok (p, mkSim 0 [0] (wdc 0) wheap)) /\ fitting S (wdc 0) /\ wf (wdc 0) wheap /\ at_once (wdc 0).
Proof.
  split; [|split; [apply wsys_fit|split; [apply wdc_wf; lra|apply wdc_at_once]]].
  destruct (wit_first 1 1 (fun _ _ => 1) ident (fun _ => -1) 0 [IPw zoh_input] [0]) as (p & _ & _ & E & _); auto; try lra; [intros i [<-|[]]; exact I| |eauto].
  split; [auto|intros i [<-|[]]; exact I|intros X; now elim X].
Qed.

(** An input that changes at the end of the step, such as a zero-order hold, acts one step early. *)
Theorem C35_hold_refuted : exists ivp expm atf (S : asys Rring) d h u x0,
  fitting S d /\ wf d h /\ usable d /\ suitable S [IPw u] /\ exact_routines ivp expm atf S d [IPw u] /\ length x0 = sN S /\
  (exists data, forall t, zoh_eval data (ck_T (d_clk d)) t = Ok (u t)) /\ misses ivp expm atf S d h [IPw u] x0.
Proof.
  exists midpoint, wexpm, watf, (wsys 1 1 (fun _ _ => 1) ident (fun _ => 0)), (wdc 0), wheap, zoh_input, [0].
  split; [apply wsys_fit|]. split; [apply wdc_wf; lra|]. split; [apply wdc_usable|].
  split. { split; [split; [auto|intros i [<-|[]]; exact I|intros X; now elim X]|intros X; now elim X]. }
  split. { apply wit_exact; [lra|]. intros i [<-|[]]. exact I. }
  split; [reflexivity|]. split; [|exact miss_hold].
  exists (ZArr [0; 1]). intros t. unfold zoh_input, zoh_eval. cbn [wdc d_clk wclk ck_T]. rewrite Raux.Req_bool_false by lra. reflexivity.
Qed.
Print Assumptions C35_hold_refuted.

(** A delayed control is simulated as if it were not. *)
Theorem C35_delay_refuted : exists ivp expm atf (S : asys Rring) d h inputs x0,
  fitting S d /\ wf d h /\ at_once d /\ 0 < d_tdelay d < ck_T (d_clk d) /\ suitable S inputs /\ held inputs (ck_T (d_clk d)) /\ exact_routines ivp expm atf S d inputs /\ length x0 = sN S /\
  misses ivp expm atf S d h inputs x0.
Proof.
  exists midpoint, wexpm, watf, (wsys 1 1 (fun _ _ => 1) ident (fun _ => 1)), (wdc (1 / 2)), wheap, [silent], [0].
  split; [apply wsys_fit|]. split; [apply wdc_wf; lra|]. split; [apply wdc_at_once|]. split; [cbn; lra|].
  split. { split; [split; [auto|intros i [<-|[]]; exact I|intros X; now elim X]|intros X; now elim X]. }
  split. { intros f k t [H|[]] _. injection H as <-. reflexivity. }
  split. { apply wit_exact; [lra|]. intros i [<-|[]]. exact I. }
  split; [reflexivity|]. exact miss_delay.
Qed.
Print Assumptions C35_delay_refuted.

(** With a sinusoidal input the state follows the outputs C x, not x. *)
Theorem C35_output_refuted : exists ivp expm atf (S : asys Rring) d h inputs x0,
  fitting S d /\ wf d h /\ usable d /\ acceptable S inputs /\ length (sins inputs) = 1%nat /\ sNt S = sN S /\ held inputs (ck_T (d_clk d)) /\ exact_routines ivp expm atf S d inputs /\ length x0 = sN S /\
  misses ivp expm atf S d h inputs x0.
Proof.
  exists midpoint, wexpm, watf, (wsys 1 1 (fun _ _ => 1) (fun _ _ => 2) (fun _ => 0)), (wdc 0), wheap, [ISin 1 (1 / 2) 0 0], [0].
  split; [apply wsys_fit|]. split; [apply wdc_wf; lra|]. split; [apply wdc_usable|].
  split. { split; [auto|intros i [<-|[]]; reflexivity|auto]. }
  split; [reflexivity|]. split; [reflexivity|]. split. { intros f k t [H|[]]. discriminate. }
  split. { apply wit_exact; [lra|]. intros i [<-|[]]. lra. }
  split; [reflexivity|]. exact miss_output.
Qed.
Print Assumptions C35_output_refuted.

(** *** C62: several sinusoids *)
Theorem C62_raises : forall ivp expm atf (S : asys Rring) d h inputs x0 p s0,
  pre_init ivp expm atf S d h inputs x0 = Ok (p, s0) -> cols (expm (aA S) (ck_T (d_clk d))) = sN S ->
  (2 <= length (sins inputs))%nat -> length (sins inputs) <> sN S ->
  forall s hh, length (s_x s) = sN S -> observe_update S (inputs_at S (map sig_eval inputs) (s_t s + 0)) s = Ok hh -> pre_next S inputs p s = Exn ValueError.
Proof. exact pre_raises. Qed.
Print Assumptions C62_raises.
Example C62_raises_example : let S := wsys 3 2 (fun _ _ => 1) ident (fun _ => 1) in
  exists p s0 hh, pre_init midpoint wexpm watf S (wdc 0) wheap two_sines (Some [0; 0; 0]) = Ok (p, s0) /\ cols (wexpm (aA S) (ck_T (d_clk (wdc 0)))) = sN S /\
    (2 <= length (sins two_sines))%nat /\ length (sins two_sines) <> sN S /\ length (s_x s0) = sN S /\ observe_update S (inputs_at S (map sig_eval two_sines) (s_t s0 + 0)) s0 = Ok hh.
Proof.
  intros S. assert (F : fitting S (wdc 0)) by apply wsys_fit. assert (W : wf (wdc 0) wheap) by (apply wdc_wf; lra).
  destruct (pre_init_ok midpoint wexpm watf S (wdc 0) wheap two_sines [0; 0; 0] F W (wdc_at_once 0)) as (p & ctrl & pwc & E & _); [| reflexivity | |].
  - split; [auto|intros i [<-|[<-|[]]]; reflexivity|auto].
  - apply wit_exact; [lra|]. intros i [<-|[<-|[]]]; lra.
  - destruct (observe_ok S (wdc 0) (mkSim 0 [0; 0; 0] (wdc 0) wheap) (inputs_at S (map sig_eval two_sines) (0 + 0)) F eq_refl W (wdc_at_once 0) eq_refl eq_refl) as (hh & EO & _).
    exists p, (mkSim 0 [0; 0; 0] (wdc 0) wheap), hh. split; [exact E|]. split; [reflexivity|]. split; [cbn; lia|]. split; [cbn; lia|]. split; [reflexivity|exact EO].
Qed.

(** As many sinusoids as states: row i of the response to every input oscillates at the frequency of sinusoid i. *)
Definition response (atf : asys Rring -> R -> nat -> nat -> C) (S : asys Rring) (inputs : list insig) (frequency : nat -> nat -> R) (t : R) (i : nat) : R :=
  rsum (length (indices is_sin inputs)) (fun j => let l := nth j (indices is_sin inputs) O in
    match nth l inputs nosig with
    | ISin a f ph _ => Cmod (transfer atf S (ang_freq f) (if Nat.eqb (sNt S) 1 then O else i) l) * a *
        sin (frequency i j * t + (angle (transfer atf S (ang_freq f) (if Nat.eqb (sNt S) 1 then O else i) l) + ph))
    | _ => 0
    end).
Definition frequency_of (inputs : list insig) (j : nat) : R := ang_freq (freq_of (nth j (sins inputs) nosig)).

Theorem C62_row_frequency : forall ivp expm atf (S : asys Rring) d h inputs (x0 : list R), fitting S d -> wf d h -> at_once d -> acceptable S inputs -> length x0 = sN S ->
  exact_routines ivp expm atf S d inputs -> length (sins inputs) = sN S -> inputs <> [] ->
  exists p, pre_init ivp expm atf S d h inputs (Some x0) = Ok (p, mkSim 0 x0 d h) /\
  forall s hh, s_d s = d -> wf d hh -> length (s_x s) = sN S -> observe_update S (inputs_at S (map sig_eval inputs) (s_t s + 0)) s = Ok hh ->
  exists s', pre_next S inputs p s = Ok (d_s d, s') /\ forall n, (n < sN S)%nat ->
    let z t i := response atf S inputs (fun i _ => frequency_of inputs i) t i in
    nth n (s_x s') 0 = rsum (sN S) (fun k => ent (p_Phi p) n k * nth k (s_x s) 0) +
      (z (s_t s + ck_T (d_clk d)) n - rsum (sN S) (fun k => ent (p_Phi p) n k * z (s_t s) k)) +
      rsum (length (p_pwi p)) (fun j => ent (p_pw p) n j * sig_nth inputs (nth j (p_pwi p) O) (s_t s + ck_T (d_clk d))) +
      rsum (sM S) (fun m => ent (p_ctrl p) n m * (2 * rd hh (d_s d) m - 1)).
Proof.
  intros ivp expm atf S d h inputs x0 F W U Acc L0 Ex HN Hne.
  destruct (pre_init_ok ivp expm atf S d h inputs x0 F W U Acc L0 Ex) as (p & ctrl & pwc & EI & Sh & EPhi & Epwi & Efr & _ & _ & _ & _ & Hsin).
  exists p. split; [exact EI|]. intros s hh Ed Wh Lx EO.
  assert (LF : length (p_freq p) = sN S) by now rewrite Efr, map_length.
  assert (EN := pre_next_value S inputs p s hh Sh (or_intror (or_intror LF))). rewrite Ed in EN. specialize (EN Wh (f_M _ _ F) Lx EO).
  eexists. split; [exact EN|]. intros n Hn z. cbn [s_x]. rewrite nth_seq_R by exact Hn. unfold step_value.
  assert (LI : length (indices is_sin inputs) = sN S) by (rewrite <- HN; unfold sins; now rewrite <- (indices_map is_sin inputs), map_length).
  assert (Z : forall t i, (i < sN S)%nat -> sine_at p t i = z t i).
  { intros t i Hi. unfold sine_at, z, response. rewrite LF, LI. apply rsum_ext. intros j Hj.
    assert (Hin : In (nth j (indices is_sin inputs) O) (indices is_sin inputs)) by (apply nth_In; lia).
    apply in_indices in Hin. destruct Hin as [_ Hin]. fold nosig in Hin. destruct (nth (nth j (indices is_sin inputs) O) inputs nosig) as [a f ph o| |] eqn:E; try discriminate.
    destruct (Hsin i j a f ph o Hi ltac:(lia) E) as [-> ->]. f_equal. f_equal. f_equal. f_equal. unfold frequency_of.
    assert (Q : forall i, (i < sN S)%nat -> nth i (p_freq p) 0 = ang_freq (freq_of (nth i (sins inputs) nosig))).
    { intros i1 Hi1. rewrite Efr. rewrite nth_map_R with (d := nosig) by lia. reflexivity. }
    destruct (Nat.eqb_spec (sN S) 1) as [E1|]; [assert (i = O) as -> by lia|]; apply Q; lia. }
  rewrite Z by exact Hn. rewrite (rsum_ext _ (fun k => ent (p_Phi p) n k * sine_at p (s_t s) k) (fun k => ent (p_Phi p) n k * z (s_t s) k)); [reflexivity|].
  intros k Hk. now rewrite Z.
Qed.
Print Assumptions C62_row_frequency.

(** Two sinusoids of different frequencies are not superposed. *)
Theorem C62_superposition_refuted : exists ivp expm atf (S : asys Rring) d h inputs x0,
  fitting S d /\ wf d h /\ usable d /\ acceptable S inputs /\ length (sins inputs) = sN S /\ sNt S = sN S /\
  (forall i k, (i < sN S)%nat -> (k < sN S)%nat -> ent (aCT S) i k = if Nat.eqb i k then 1 else 0) /\ (forall i l, (i < sN S)%nat -> (l < sL S)%nat -> ent (aD S) i l = 0) /\
  exact_routines ivp expm atf S d inputs /\ length x0 = sN S /\ misses ivp expm atf S d h inputs x0.
Proof.
  exists midpoint, wexpm, watf, (wsys 2 2 tri ident (fun _ => 0)), (wdc 0), wheap, two_sines, [0; 0].
  split; [apply wsys_fit|]. split; [apply wdc_wf; lra|]. split; [apply wdc_usable|].
  split. { split; [auto|intros i [<-|[<-|[]]]; reflexivity|auto]. }
  do 4 (split; [reflexivity|]). split. { apply wit_exact; [lra|]. intros i [<-|[<-|[]]]; lra. }
  split; [reflexivity|]. exact miss_two.
Qed.
Print Assumptions C62_superposition_refuted.
Example C62_row_frequency_example : let S := wsys 2 2 tri ident (fun _ => 0) in fitting S (wdc 0) /\ wf (wdc 0) wheap /\ at_once (wdc 0) /\ acceptable S two_sines /\
  exact_routines midpoint wexpm watf S (wdc 0) two_sines /\ length (sins two_sines) = sN S.
Proof.
  split; [apply wsys_fit|]. split; [apply wdc_wf; lra|]. split; [apply wdc_at_once|].
  split. { split; [auto|intros i [<-|[<-|[]]]; reflexivity|auto]. }
  split; [|reflexivity]. apply wit_exact; [lra|]. intros i [<-|[<-|[]]]; lra.
Qed.

(** *** C66: FullSimulator without input signals *)
Theorem C66_euler : forall ivp (S : asys Rring) s hh, fitting S (s_d s) -> usable (s_d s) -> steps_only (s_d s) -> length (s_x s) = sN S -> 0 <= ck_T (d_clk (s_d s)) -> wf (s_d s) hh ->
  observe_update S (repeat 0 (sL S)) s = Ok hh -> endpoint (full_rhs S [] s hh) (ck_T (d_clk (s_d s))) (s_x s) (ivp (full_rhs S [] s hh) 0 (ck_T (d_clk (s_d s))) (s_x s)) ->
  exists x, full_next ivp S [] s = Ok (d_s (s_d s), mkSim (s_t s + ck_T (d_clk (s_d s))) x (s_d s) hh) /\ length x = sN S /\
  forall n, (n < sN S)%nat -> nth n x 0 = nth n (s_x s) 0 + ck_T (d_clk (s_d s)) * (rsum (sN S) (fun k => ent (aA S) n k * nth k (s_x s) 0) +
    rsum (sM S) (fun m => gent S n m * (step_amp (nth m (d_resp (s_d s)) (WStep 0 0)) * rd hh (d_dec (s_d s)) m))).
Proof. exact euler. Qed.
Print Assumptions C66_euler.
Theorem C66_exact_refuted : exists ivp (S : asys Rring) s hh s', fitting S (s_d s) /\ usable (s_d s) /\ steps_only (s_d s) /\ length (s_x s) = sN S /\
  observe_update S (repeat 0 (sL S)) s = Ok hh /\ endpoint (full_rhs S [] s hh) (ck_T (d_clk (s_d s))) (s_x s) (ivp (full_rhs S [] s hh) 0 (ck_T (d_clk (s_d s))) (s_x s)) /\
  full_next ivp S [] s = Ok (d_s (s_d s), s') /\
  (exists y, solves_pw (physics S [] s hh) (ck_T (d_clk (s_d s))) (s_x s) y) /\
  (forall y, solves_pw (physics S [] s hh) (ck_T (d_clk (s_d s))) (s_x s) y -> y (ck_T (d_clk (s_d s))) <> s_x s').
Proof.
  destruct miss_euler as (hh & x' & EO & EP & EN & Hex & Hall).
  exists midpoint, decay, (mkSim 0 [1] (wdc 0) wheap), hh, (mkSim 1 x' (wdc 0) hh).
  split; [apply decay_fit|]. split; [apply wdc_usable|]. split; [apply wdc_steps|]. split; [reflexivity|]. auto.
Qed.
Print Assumptions C66_exact_refuted.
