(** Properties of the adaptive filters (digital_estimator/adaptive_filter.py): C56 - C58, C67 - C70. *)
From Coq Require Import List Lia Arith Bool ZArith Reals Lra Permutation.
From Coquelicot Require Import Complex.
From Verif Require Import Base LinAlg BatchProofs FirExtras Zpk Adaptive AdaptiveProofs AdaptiveExtra RlsRun LmsProofs LstsqIir.
Import ListNotations.
Open Scope R_scope.

(** *** C56: recursive least squares *)
(** One real reference: [rls] succeeds, returns the mean squared error, and leaves the one filter that minimises the exponentially
    weighted squared error over the samples in the order processed, regularised towards the initial filter. *)
Theorem C56_rls_minimises : forall M K perms delta lambda delay h hm o om x y, 0 < delta -> 0 < lambda -> (0 <= delay)%Z ->
  wfm (K := Rring) M K h -> Forall (fun r => length r = M) x -> (0 < nsamples K delay x y)%nat -> valid_perms (nsamples K delay x y) perms ->
  exists h' o' V, rls (F := Rfield) M K 1 perms delta lambda delay (mkAF (F := Rfield) [h] hm (Off2 [o]) om None) x [y]
      = Ok (mkAF (F := Rfield) [h'] hm (Off2 [o']) om (Some V),
            [rsum (nsamples K delay x y) (fun t => (nth t y 0 - fir_out M K h' o' (tap M K x (Z.to_nat delay + t))) ^ 2) / INR (nsamples K delay x y)])
    /\ wfm (K := Rring) M K h'
    /\ unique_min M K (ls_cost M K delta lambda h o (map (obs M K delay x y) (order perms (seq 0 (nsamples K delay x y))))) h' o'.
Proof. exact rls_fresh. Qed.
Print Assumptions C56_rls_minimises.

(** A second call continues from the first: its delta has no effect. *)
Theorem C56_rls_continues : forall M K perms perms2 delta delta2 lambda delay delay2 h hm o om x y x2 y2, 0 < delta -> 0 < lambda -> (0 <= delay)%Z -> (0 <= delay2)%Z ->
  wfm (K := Rring) M K h -> Forall (fun r => length r = M) x -> Forall (fun r => length r = M) x2 ->
  (0 < nsamples K delay x y)%nat -> valid_perms (nsamples K delay x y) perms ->
  (0 < nsamples K delay2 x2 y2)%nat -> valid_perms (nsamples K delay2 x2 y2) perms2 ->
  exists st l h' o' V l', rls (F := Rfield) M K 1 perms delta lambda delay (mkAF (F := Rfield) [h] hm (Off2 [o]) om None) x [y] = Ok (st, l)
    /\ rls (F := Rfield) M K 1 perms2 delta2 lambda delay2 st x2 [y2] = Ok (mkAF (F := Rfield) [h'] hm (Off2 [o']) om (Some V), l')
    /\ unique_min M K (ls_cost M K delta lambda h o (map (obs M K delay x y) (order perms (seq 0 (nsamples K delay x y)))
                                                     ++ map (obs M K delay2 x2 y2) (order perms2 (seq 0 (nsamples K delay2 x2 y2))))) h' o'.
Proof. exact rls_again. Qed.
Print Assumptions C56_rls_continues.

Example C56_hypotheses_met : let x := [[1]; [2]; [3]; [5]] in let y := [1; 7; 9] in
  wfm (K := Rring) 1 2 [[0; 0]] /\ Forall (fun r : list R => length r = 1%nat) x /\ nsamples 2 0 x y = 2%nat /\ valid_perms 2 [None; Some [1%nat; 0%nat]].
Proof.
  repeat split; auto.
  - repeat (apply Forall_cons || apply Forall_nil); auto.
  - repeat (apply Forall_cons || apply Forall_nil); auto.
  - intros p [H|[H|[]]]; [discriminate|]. injection H as <-. apply perm_swap.
Qed.
Example C56_order : order [None; Some [1%nat; 0%nat]; Some [1%nat; 0%nat]] [0%nat; 1%nat] = [0; 1; 1; 0; 0; 1]%nat.
Proof. reflexivity. Qed.
Example C56_cost : ls_cost 1 1 2 (1 / 2) [[0]] 0 [((fun _ _ => 3), 5)] [[1]] 1 = 2 * (1 / 2) * 2 + 1.
Proof. unfold ls_cost, fir_dist2, fir_out. cbn. lra. Qed.

(** *** C57: batching *)
Theorem C57_windows : forall (F : sfield) M K (sig : list (list F)), Forall (fun r => length r = M) sig -> (K <= length sig)%nat ->
  exists ws, batch M K sig = Ok ws /\ length ws = (length sig - K)%nat
    /\ forall i, (i < length sig - K)%nat -> wfm M K (nth i ws []) /\
         forall m k, (m < M)%nat -> (k < K)%nat ->
           nth k (nth m (nth i ws []) []) (r0 F) = if Nat.eqb K M then nth k (nth (i + m) sig []) (r0 F) else nth m (nth (i + k) sig []) (r0 F).
Proof. exact @batch_any. Qed.
Print Assumptions C57_windows.
Theorem C57_short : forall (F : sfield) M K (sig : list (list F)), (length sig < K)%nat -> batch M K sig = Exn ValueError.
Proof. exact @batch_short. Qed.
Print Assumptions C57_short.
(** exactly one complete window: nothing is returned *)
Theorem C57_one_window_dropped : forall (F : sfield) M K (sig : list (list F)), length sig = K -> batch M K sig = Ok [].
Proof. exact @batch_exact. Qed.
Print Assumptions C57_one_window_dropped.
(** As many channels as taps: window rows are time samples instead of channels. *)
Theorem C57_square_refuted : exists (sig : list (list R)) ws, Forall (fun r => length r = 2%nat) sig /\ batch (F := Rfield) 2 2 sig = Ok ws
  /\ nth 1 (nth 0 (nth 0 ws []) []) 0 <> nth 0 (nth 1 sig []) 0.
Proof.
  exists [[1; 2]; [3; 4]; [5; 6]], [[[1; 2]; [3; 4]]]. split; [repeat (apply Forall_cons || apply Forall_nil); auto|]. split; [reflexivity|]. cbn. lra.
Qed.
Print Assumptions C57_square_refuted.
Theorem C57_pairing : forall (F : sfield) M K (x y : list (list F)) delay N, Forall (fun r => length r = M) x -> y <> [] -> Forall (fun r => length r = N) y ->
  (0 <= delay)%Z -> (Z.to_nat delay + K <= length x)%nat ->
  let T := min (length x - Z.to_nat delay - K) N in
  exists ws ys, _batch M K x y delay = Ok (ws, ys) /\ length ws = T /\ wfm (length y) T ys
    /\ (forall i m k, (i < T)%nat -> (m < M)%nat -> (k < K)%nat -> nth k (nth m (nth i ws []) []) (r0 F)
          = if Nat.eqb K M then nth k (nth (Z.to_nat delay + i + m) x []) (r0 F) else nth m (nth (Z.to_nat delay + i + k) x []) (r0 F))
    /\ (forall i l, (i < T)%nat -> nth i (nth l ys []) (r0 F) = nth i (nth l y []) (r0 F)).
Proof. exact @batch_pairing. Qed.
Print Assumptions C57_pairing.
Theorem C57_bad_delay : forall (F : sfield) M K (x y : list (list F)) delay,
  (delay < 0)%Z \/ ((0 < K)%nat /\ (length x < Z.to_nat delay + K)%nat) -> _batch M K x y delay = Exn ValueError.
Proof. exact @_batch_bad. Qed.
Print Assumptions C57_bad_delay.
Example C57_hypotheses_met : Forall (fun r : list R => length r = 1%nat) [[1]; [2]; [3]] /\ (2 <= length [[1]; [2]; [3]])%nat
  /\ batch (F := Rfield) 1 2 [[1]; [2]; [3]] = Ok [[[1; 2]]].
Proof. split; [repeat (apply Forall_cons || apply Forall_nil); auto|]. split; [cbn; lia|reflexivity]. Qed.

(** *** C58: gradient and LMS *)
Theorem C58_gradient : forall M K h hm o om vv (xs : list (list (list R))) (ys : list R) T, wfm (K := Rring) M K h -> Forall (wfm (K := Rring) M K) xs ->
  length xs = T -> length ys = T -> (0 < T)%nat ->
  loss (F := Rfield) 1 (mkAF (F := Rfield) [h] hm (Off2 [o]) om vv) xs [ys] = Ok [mse M K T (datum xs ys) h o] /\
  exists gh go, gradient (F := Rfield) M K 1 (mkAF (F := Rfield) [h] hm (Off2 [o]) om vv) xs [ys] = Ok ([gh], [go]) /\ wfm (K := Rring) M K gh /\
    forall dh dd, wfm (K := Rring) M K dh ->
      derivable_pt_lim (fun s => mse M K T (datum xs ys) (shift_by s h dh) (o + s * dd)) 0 (2 * (inner M K gh dh + go * dd)).
Proof. exact gradient_derivative. Qed.
Print Assumptions C58_gradient.
(** Full batches, no momentum, learning rate up to two over the mean squared norm of the extended windows: the loss never increases over
    any number of epochs, and decreases unless the filter was optimal already. *)
Theorem C58_descent : forall M K perms lr bs delay h hm o om vv (x : list (list R)) (y : list R), let T := nsamples K delay x y in let s := obs M K delay x y in
  wfm (K := Rring) M K h -> wfm (K := Rring) M K hm -> Forall (fun r => length r = M) x -> (0 <= delay)%Z -> (0 < T)%nat -> (T <= bs)%nat -> valid_perms T perms ->
  0 <= lr -> lr * mean_energy M K T s <= 2 ->
  exists h' hm' o' om', lms (F := Rfield) M K 1 perms lr 0 bs delay (mkAF (F := Rfield) [h] [hm] (Off2 [o]) [om] vv) x [y]
      = Ok (mkAF (F := Rfield) [h'] [hm'] (Off2 [o']) [om'] vv, [mse M K T s h' o'])
    /\ wfm (K := Rring) M K h' /\ mse M K T s h' o' <= mse M K T s h o
    /\ (perms <> [] -> 0 < lr -> lr * mean_energy M K T s < 2 ->
        mse M K T s h' o' < mse M K T s h o \/ forall h2 o2, wfm (K := Rring) M K h2 -> mse M K T s h o <= mse M K T s h2 o2).
Proof. exact lms_full. Qed.
Print Assumptions C58_descent.
Example C58_energy : mean_energy 1 1 2 (obs 1 1 0 [[1]; [2]; [3]] [0; 1; 1]) = 7 / 2.
Proof. unfold mean_energy, obs, tap. cbn. lra. Qed.
Example C58_mse : mse 1 1 2 (obs 1 1 0 [[1]; [2]; [3]] [0; 1; 1]) [[1]] 1 = (4 + 4) / 2.
Proof. unfold mse, fir_out, obs, tap. cbn. lra. Qed.

(** *** C67: batch least squares *)
Theorem C67_lstsq_minimises : forall M K (solve : list (list R) -> list R -> list R) delay st (x y : list (list R)) N, let T := min (length x - Z.to_nat delay - K) N in
  y <> [] -> Forall (fun r => length r = N) y -> Forall (fun r => length r = M) x -> (0 <= delay)%Z -> (0 < T)%nat ->
  (forall ws ys, _batch (F := Rfield) M K x y delay = Ok (ws, ys) -> forall l, (l < length y)%nat ->
     is_lsq (M * K + 1) (map (fun w => concat w ++ [1]) ws) (nth l ys []) (solve (map (fun w => concat w ++ [1]) ws) (nth l ys []))) ->
  exists hs os, lstsq (F := Rfield) M K solve delay st x y = Ok (mkAF (F := Rfield) hs (a_hm st) (Off1 os) (a_offm st) (a_V st))
    /\ length hs = length y /\ length os = length y
    /\ forall l, (l < length y)%nat -> wfm (K := Rring) M K (nth l hs []) /\
         forall h' o', wfm (K := Rring) M K h' ->
           mse M K T (obs M K delay x (nth l y [])) (nth l hs []) (nth l os 0) <= mse M K T (obs M K delay x (nth l y [])) h' o'.
Proof. exact lstsq_R. Qed.
Print Assumptions C67_lstsq_minimises.
Example C67_hypotheses_met : exists (solve : list (list R) -> list R -> list R),
  forall ws ys, _batch (F := Rfield) 1 1 [[1]; [2]; [3]] [[3; 5]] 0 = Ok (ws, ys) -> forall l, (l < 1)%nat ->
    is_lsq (1 * 1 + 1) (map (fun w => concat w ++ [1]) ws) (nth l ys []) (solve (map (fun w => concat w ++ [1]) ws) (nth l ys [])).
Proof.
  exists (fun _ _ => [2; 1]). intros ws ys E l Hl. assert (l = O) by lia. subst l.
  assert (E' : Ok ([[[1]]; [[2]]], [[3; 5]]) = Ok (ws, ys)) by exact E. injection E' as <- <-.
  split; [reflexivity|]. intros s' _. apply Rle_trans with 0; [right; cbn; lra|].
  assert (G : forall n f, 0 <= rsum n (fun t => f t ^ 2)) by (induction n; intros f; cbn [rsum]; [lra|]; specialize (IHn f); pose proof (pow2_ge_0 (f n)); lra).
  apply G.
Qed.
(** With complex data an exactly solvable problem is fitted to the complex conjugate of the reference. *)
Theorem C67_lstsq_conjugate : forall M K (solve : list (list C) -> list C -> list C) delay st (x y : list (list C)) N, let T := min (length x - Z.to_nat delay - K) N in
  y <> [] -> Forall (fun r => length r = N) y -> Forall (fun r => length r = M) x -> (0 <= delay)%Z -> (0 < T)%nat ->
  forall ws ys, _batch (F := Cfield) M K x y delay = Ok (ws, ys) ->
  let A := map (fun w => map Cconj (concat w ++ [RtoC 1])) ws in
  (forall b, In b ys -> length (solve A b) = (M * K + 1)%nat /\ mv (K := Cring) A (solve A b) = b) ->
  exists st', lstsq (F := Cfield) M K solve delay st x y = Ok st' /\ call (F := Cfield) (length y) st' ws = Ok (map (map Cconj) ys).
Proof. exact lstsq_C. Qed.
Print Assumptions C67_lstsq_conjugate.
Theorem C67_complex_fit_refuted : exists (solve : list (list C) -> list C -> list C) (x y : list (list C)) ws ys st l,
  _batch (F := Cfield) 1 1 x y 0 = Ok (ws, ys) /\ (forall A b, In b ys -> A = map (fun w => map Cconj (concat w ++ [RtoC 1])) ws -> mv (K := Cring) A (solve A b) = b)
  /\ lstsq (F := Cfield) 1 1 solve 0 (af_init (F := Cfield) 1 1 1) x y = Ok st /\ loss (F := Cfield) 1 st ws ys = Ok [l] /\ l <> RtoC 0.
Proof.
  exists (fun _ _ => [RtoC 0; Ci]), [[RtoC 0]; [RtoC 0]], [[Ci]], [[[RtoC 0]]], [[Ci]].
  do 2 eexists. split; [reflexivity|]. split.
  - intros A b [<-|[]] ->. cbn. f_equal. apply injective_projections; cbn; ring.
  - split; [reflexivity|]. split; [reflexivity|]. cbn. intros H. apply (f_equal fst) in H. cbn in H.
    match type of H with ?a = _ => assert (E : a = 4) by (cbn; field) end. lra.
Qed.
Print Assumptions C67_complex_fit_refuted.

(** *** C68: several references *)
Theorem C68_call_raises : forall (F : sfield) L, (2 <= L)%nat -> forall (st : @afst F) o x, a_off st = Off2 o -> length x <> L -> length x <> 1%nat ->
  call L st x = Exn ValueError.
Proof. exact @call_multi. Qed.
Print Assumptions C68_call_raises.
(** as many windows as references: the offset of reference number [b] is added to window number [b] *)
Theorem C68_call_square : forall (F : sfield) L, (2 <= L)%nat -> forall (st : @afst F) o x, a_off st = Off2 o -> length x = L ->
  exists c, call L st x = Ok c /\ forall l b, (l < L)%nat -> (b < L)%nat ->
    nth b (nth l c []) (r0 F) = radd F (tdot (nth l (a_h st) []) (nth b x [])) (sconj F (nth b o (r0 F))).
Proof. exact @call_multi_square. Qed.
Print Assumptions C68_call_square.
Theorem C68_rls_raises : forall (F : sfield) M K L, (2 <= L)%nat -> forall perms delta lambda delay (st : @afst F) o x y N,
  a_off st = Off2 o -> perms <> [] -> Forall (fun p => p = None) perms -> y <> [] -> Forall (fun r => length r = N) y -> Forall (fun r => length r = M) x ->
  (0 <= delay)%Z -> (0 < min (length x - Z.to_nat delay - K) N)%nat -> rls M K L perms delta lambda delay st x y = Exn ValueError.
Proof. exact @rls_multi. Qed.
Print Assumptions C68_rls_raises.
Theorem C68_lms_raises : forall (F : sfield) M K L, (2 <= L)%nat -> forall perms lr momentum bs delay (st : @afst F) o x y N,
  a_off st = Off2 o -> perms <> [] -> Forall (fun p => p = None) perms -> (0 < bs)%nat ->
  y <> [] -> Forall (fun r => length r = N) y -> Forall (fun r => length r = M) x ->
  (0 <= delay)%Z -> (0 < min (length x - Z.to_nat delay - K) N)%nat -> min bs (min (length x - Z.to_nat delay - K) N) <> L ->
  lms M K L perms lr momentum bs delay st x y = Exn ValueError.
Proof. exact @lms_multi. Qed.
Print Assumptions C68_lms_raises.
Example C68_fresh_filter : a_off (af_init (F := Rfield) 1 1 2) = Off2 [0; 0]
  /\ predict (F := Rfield) 1 1 2 (af_init 1 1 2) [[1]; [2]; [3]; [4]] = Exn ValueError.
Proof. split; reflexivity. Qed.
(** with offsets 0 and 1 and zero taps, reference 0 of window 1 is predicted as 1 *)
Theorem C68_offset_refuted : exists (st : @afst Rfield) x c, a_off st = Off2 [0; 1] /\ call 2 st x = Ok c /\ nth 1 (nth 0 c []) 0 <> 0
  /\ forall l b, tdot (nth l (a_h st) []) (nth b x []) = 0.
Proof.
  exists (mkAF (F := Rfield) [[[0]]; [[0]]] [] (Off2 [0; 1]) [] None), [[[5]]; [[7]]].
  eexists. split; [reflexivity|]. split; [reflexivity|]. split; [cbn; lra|].
  intros [|[|l]] [|[|b]]; cbn; try ring; try (destruct l; cbn; ring); destruct b; cbn; try ring.
  all: match goal with l : nat |- _ => destruct l; cbn; ring end.
Qed.
Print Assumptions C68_offset_refuted.

(** *** C69: after lstsq *)
Theorem C69_call : forall (F : sfield) L (st : @afst F) o x, a_off st = Off1 o ->
  exists c, call L st x = Ok c /\ length c = L /\ Forall (fun r => length r = length x) c /\
    forall l b, (l < L)%nat -> (b < length x)%nat -> nth b (nth l c []) (r0 F) = radd F (tdot (nth l (a_h st) []) (nth b x [])) (sconj F (nth l o (r0 F))).
Proof. exact @call_off1. Qed.
Print Assumptions C69_call.
Theorem C69_rls_raises : forall (F : sfield) M K L perms delta lambda delay (st : @afst F) o x y N, (1 <= L)%nat -> a_off st = Off1 o ->
  perms <> [] -> Forall (fun p => p = None) perms -> y <> [] -> Forall (fun r => length r = N) y -> Forall (fun r => length r = M) x ->
  (0 <= delay)%Z -> (0 < min (length x - Z.to_nat delay - K) N)%nat -> rls M K L perms delta lambda delay st x y = Exn IndexError.
Proof. exact @rls_off1. Qed.
Print Assumptions C69_rls_raises.
Theorem C69_lms_raises : forall (F : sfield) M K L perms lr momentum bs delay (st : @afst F) o x y N, a_off st = Off1 o ->
  perms <> [] -> Forall (fun p => p = None) perms -> (0 < bs)%nat ->
  L = length y -> y <> [] -> Forall (fun r => length r = N) y -> Forall (fun r => length r = M) x ->
  (0 <= delay)%Z -> (0 < min (length x - Z.to_nat delay - K) N)%nat -> lms M K L perms lr momentum bs delay st x y = Exn IndexError.
Proof. exact @lms_off1. Qed.
Print Assumptions C69_lms_raises.
(** the whole sequence: construct, fit, ask for the offset *)
Theorem C69_get_offset : forall (F : sfield) M K L solve delay (st st' : @afst F) x y, lstsq M K solve delay st x y = Ok st' ->
  get_offset st' = Exn IndexError /\ get_offset (af_init (F := F) M K L) = Ok (repeat (r0 F) L).
Proof.
  intros F M K L solve delay st st' x y H. split; [|reflexivity]. unfold lstsq in H.
  destruct (_batch M K x y delay) as [[ws ys]|]; [|discriminate]. cbn [bind] in H. destruct (Nat.eqb (length ws) 0); [discriminate|]. injection H as <-. reflexivity.
Qed.
Print Assumptions C69_get_offset.
Example C69_hypotheses_met : exists st', lstsq (F := Rfield) 1 1 (fun _ _ => [2; 1]) 0 (af_init 1 1 1) [[1]; [2]; [3]] [[3; 5]] = Ok st' /\ a_off st' = Off1 [1]
  /\ lms (F := Rfield) 1 1 1 [None] 1 0 2 0 st' [[1]; [2]; [3]] [[3; 5]] = Exn IndexError.
Proof. eexists. split; [reflexivity|]. split; reflexivity. Qed.

(** *** C70: IIR prediction *)
Theorem C70_iir_recursion : forall (F : sfield) M K (st : @afst F) (h : list (list F)) (den : list F) o x, (0 < K)%nat -> a_h st = [h ++ [den]] ->
  a_off st = Off2 [o] \/ a_off st = Off1 [o] ->
  wfm M K h -> length den = K -> Forall (fun r => length r = M) x -> (K <= length x)%nat ->
  exists out, iir_predict M K st x = Ok out /\ length out = (length x - K)%nat /\
    forall i, (i < length x - K)%nat -> nth i out (r0 F) =
      radd F (iir_fir M K h o x i) (ksum K (fun k => rmul F (nth k den (r0 F)) (if (i + k <? K)%nat then r0 F else nth (i + k - K) out (r0 F)))).
Proof. exact @iir_predict_spec. Qed.
Print Assumptions C70_iir_recursion.
Example C70_instance : let Zf := mkSF Zring (fun z => z) Z.div in
  iir_predict (F := Zf) 1 2 (mkAF (F := Zf) [[[0; 1]] ++ [[3; 2]]]%Z [] (Off2 [0%Z]) [] None) [[0]; [1]; [0]; [0]; [0]]%Z = Ok [1; 2; 7]%Z.
Proof. reflexivity. Qed.
