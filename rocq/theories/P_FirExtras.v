(** Property theorems C31-C34: fixed point FIR filter, coefficient count, exported tables, convolution shaping.
    Vocabulary (FirExtrasProofs.v): [rowsum l h buf] = sum over the taps k of < row l of h_k , buf_k >;
    [window xs K3 M t] = the K3 controls 2 x - 1 at times t-K3 .. t-1, zero before the start;
    [overflow n c K1 K2 hz xs offset t]: some component of integer table times window, plus offset, exceeds 2^(n-1). *)
From Coq Require Import List Lia Arith Bool ZArith Reals Lra.
From Flocq Require Import Core.
From Verif Require Import Base LinAlg Estimators BatchProofs BatchRun FirProofs FixedPoint FixedPointProofs FirExtras FirExtrasProofs
  P_Estimators.
Import ListNotations.
Open Scope R_scope.

(** Results of the first [N] calls of a fixed point filter. *)
Definition fixed_results (f : fxp) (c : @coef Rring) K1 K2 ds hz offset limit src N : list (result (list R)) :=
  fst (calls (f_next_fixed f (K1 + K2) (cM c) (cL c) ds hz offset limit) N (f_init (K1 + K2) (cM c) src)).

(** C31: the constructor raises exactly when some coefficient exceeds the range. *)
Theorem C31_constructor_raises_iff : forall n mx f (c : @coef Rring) K1 K2, (1 <= n)%Z -> 0 < mx -> fxp_init n mx = Ok f ->
  ((exists x, In x (coeffs (fir_h c K1 K2)) /\ mx < Rabs x) -> fir_h_fixed f c K1 K2 = Exn ArithmeticError) /\
  ((forall x, In x (coeffs (fir_h c K1 K2)) -> Rabs x <= mx) -> exists hz, fir_h_fixed f c K1 K2 = Ok hz).
Proof. exact fixed_ctor. Qed.
Print Assumptions C31_constructor_raises_iff.

(** C31: call [k] of the fixed point filter: ArithmeticError exactly on accumulator overflow, otherwise the scaled integer
    accumulator; the offset is added in LSB units. *)
Theorem C31_fixed_point_result : forall n mx f (c : @coef Rring) K1 K2 ds hz xs offset limit e N k,
  (1 <= n)%Z -> 0 < mx -> fxp_init n mx = Ok f -> coef_wf c -> (1 <= ds <= K1 + K2)%nat -> fir_h_fixed f c K1 K2 = Ok hz ->
  Forall (fun x => length x = cM c) xs -> Forall (Forall (fun v => v = 0 \/ v = 1)) xs -> length offset = cL c ->
  e = SrcObj StopIteration \/ e = SrcGen RuntimeError \/ e = SrcObj RuntimeError -> (k < N)%nat ->
  ((k + 1) * ds <= length xs)%nat -> (limit = 0 \/ Z.of_nat ((k + 1) * ds) <= limit)%Z ->
  let r := nth_error (fixed_results f c K1 K2 ds hz offset limit (@mkSrc Rring xs e) N) k in
  let acc l := rowsum l (map (map (map IZR)) hz) (window xs (K1 + K2) (cM c) ((k + 1) * ds)) + nth l offset 0 in
  ((exists l, (l < cL c)%nat /\ IZR (2 ^ (n - 1)) < Rabs (acc l)) -> r = Some (Exn ArithmeticError)) /\
  ((forall l, (l < cL c)%nat -> Rabs (acc l) <= IZR (2 ^ (n - 1))) ->
     r = Some (Ok (map (fun l => acc l * mx / IZR (2 ^ (n - 1))) (seq 0 (cL c))))).
Proof.
  intros n mx f c K1 K2 ds hz xs offset limit e N k Hn Hm Hf Hwf Hds Hhz Hxs Hbin Ho He Hk H1 H2. cbv zeta.
  destruct (fixed_run n mx f Hn Hm Hf c Hwf K1 K2 ds Hds hz Hhz xs Hxs Hbin offset limit e N k Ho He Hk H1 H2) as [A B].
  split; [exact A|]. intros H. apply B. intros (l & Hl & Hov). exact (Rlt_not_le _ _ Hov (H l Hl)).
Qed.
Print Assumptions C31_fixed_point_result.

(** C31: error against the floating point filter, zero offset. *)
Theorem C31_error_bound : forall n mx f (c : @coef Rring) K1 K2 ds hz xs limit e N k,
  (1 <= n)%Z -> 0 < mx -> fxp_init n mx = Ok f -> coef_wf c -> (1 <= cM c)%nat -> (1 <= ds <= K1 + K2)%nat ->
  fir_h_fixed f c K1 K2 = Ok hz ->
  Forall (fun x => length x = cM c) xs -> Forall (Forall (fun v => v = 0 \/ v = 1)) xs ->
  e = SrcObj StopIteration \/ e = SrcGen RuntimeError \/ e = SrcObj RuntimeError -> (k < N)%nat ->
  ((k + 1) * ds <= length xs)%nat -> (limit = 0 \/ Z.of_nat ((k + 1) * ds) <= limit)%Z ->
  exists y, nth_error (fir_results c K1 K2 ds (repeat 0 (cL c)) limit (@mkSrc Rring xs e) N) k = Some (Ok y) /\ length y = cL c /\
  (nth_error (fixed_results f c K1 K2 ds hz (repeat 0 (cL c)) limit (@mkSrc Rring xs e) N) k = Some (Exn ArithmeticError) \/
   exists w, nth_error (fixed_results f c K1 K2 ds hz (repeat 0 (cL c)) limit (@mkSrc Rring xs e) N) k = Some (Ok w) /\
     length w = cL c /\
     forall l, (l < cL c)%nat -> Rabs (nth l w 0 - nth l y 0) < INR ((K1 + K2) * cM c) * (mx / IZR (2 ^ (n - 1)))) /\
  ((forall l, (l < cL c)%nat -> abs_rowsum l (fir_h c K1 K2) <= mx) ->
   nth_error (fixed_results f c K1 K2 ds hz (repeat 0 (cL c)) limit (@mkSrc Rring xs e) N) k <> Some (Exn ArithmeticError)).
Proof. exact fixed_vs_float. Qed.
Print Assumptions C31_error_bound.

(** A concrete filter: n = 4, max = 1, h = [[0.7]] (K1 = 0, K2 = 1), two samples. *)
Definition ex31 : @coef Rring := @mkCoef Rring [[0]] [[0]] [[0]] [[7 / 10]] [[1]] 1 1 1.
Example C31_ex : exists f hz, fxp_init 4 1 = Ok f /\ coef_wf ex31 /\ fir_h_fixed f ex31 0 1 = Ok hz /\ hz = [[[5%Z]]] /\
  (forall l, (l < 1)%nat -> abs_rowsum l (fir_h ex31 0 1) <= 1).
Proof.
  destruct (init_ok 4 1 ltac:(lia) ltac:(lra)) as [f Hf]. exists f.
  assert (E : fir_h ex31 0 1 = [[[7 / 10]]]).
  { vm_compute. do 3 f_equal. all: try (now rewrite Rmult_1_l, Rplus_0_r). }
  destruct (f2x_spec 4 1 f ltac:(lia) ltac:(lra) Hf (7 / 10)) as [_ H].
  destruct H as (k & Hk & Ht & _); [rewrite Rabs_pos_eq; lra|].
  assert (k = 5%Z).
  { destruct Ht as [Ht _]. specialize (Ht ltac:(change (IZR (2 ^ (4 - 1))) with 8; lra)). change (IZR (2 ^ (4 - 1))) with 8 in Ht.
    assert (4 < k < 6)%Z; [|lia]. split; apply lt_IZR; lra. }
  subst k. exists [[[5%Z]]]. split; [assumption|]. split; [repeat split; repeat constructor|].
  split; [|split; [reflexivity|]].
  - unfold fir_h_fixed. rewrite E. cbn [mapM bind]. rewrite Hk. reflexivity.
  - intros [|l] Hl; [|lia]. rewrite E. unfold abs_rowsum. cbn [map fold_right nth]. rewrite Rabs_pos_eq; lra.
Qed.

(** C32 *)
Theorem C32_counts_positive : forall h,
  number_of_filter_coefficients h = length (filter (fun x => Rlt_bool 0 x) (coeffs h)) /\
  (number_of_filter_coefficients h = length (filter (fun x => negb (Req_bool x 0)) (coeffs h)) <-> Forall (fun x => 0 <= x) (coeffs h)).
Proof.
  intros h. split; [reflexivity|]. rewrite <- filter_none, <- filter_split. unfold number_of_filter_coefficients.
  fold (coeffs h). lia.
Qed.
Print Assumptions C32_counts_positive.
Theorem C32_counts_nonzero_refuted : exists h,
  number_of_filter_coefficients h <> length (filter (fun x => negb (Req_bool x 0)) (coeffs h)).
Proof.
  exists [[[1; - 1]]]. intros H. apply C32_counts_positive in H. inversion H as [|? ? _ H2]. inversion H2. lra.
Qed.
Print Assumptions C32_counts_nonzero_refuted.

(** C33 *)
Theorem C33_export_parses_back : forall (A : Type) (h : nat -> nat -> nat -> A) L M K3, (1 <= L)%nat -> (1 <= M)%nat -> (1 <= K3)%nat ->
  parse_table (emit_table h L M K3) = Some (map (fun l => map (fun m => map (fun k => h l k m) (seq 0 K3)) (seq 0 M)) (seq 0 L), []).
Proof. intros A h L M K3 HL HM HK. rewrite <- (app_nil_r (emit_table h L M K3)). now apply parse_emit. Qed.
Print Assumptions C33_export_parses_back.
Example C33_ex : parse_table (emit_table (fun l k m => (100 * l + 10 * k + m)%nat) 2 2 3)
  = Some ([[[0;10;20];[1;11;21]];[[100;110;120];[101;111;121]]]%nat, []).
Proof. reflexivity. Qed.

(** C34: [pmul] is the polynomial product ([peval_pmul]: evaluation is multiplicative). *)
Theorem C34_convolve : forall (K : cring) K3 (filt col : list K), length col = K3 -> (1 <= K3)%nat ->
  (filt = [] -> convolve_col K3 filt col = Exn ValueError) /\
  (forall g, filt = [g] -> convolve_col K3 filt col = Ok (map (rmul K g) col)) /\
  (Nat.even K3 = true -> (1 <= length filt)%nat -> exists h, convolve_col K3 filt col = Ok h /\ length h = K3 /\
      forall k, (k < K3)%nat -> nth k h (r0 K) = nth (k + (length filt - 1) / 2) (pmul col filt) (r0 K)) /\
  (Nat.even K3 = false -> (2 <= length filt)%nat -> convolve_col K3 filt col = Exn ValueError).
Proof. exact @convolve_col_spec. Qed.
Print Assumptions C34_convolve.
Theorem C34_pmul_is_polynomial_product : forall (K : cring) (a v : list K) x, peval (pmul a v) x = rmul K (peval a x) (peval v x).
Proof. exact @peval_pmul. Qed.
Print Assumptions C34_pmul_is_polynomial_product.
Example C34_ex : convolve_col (K := Zring) 4 [1;1;1]%Z [1;2;3;4]%Z = Ok [3;6;9;7]%Z
  /\ convolve_col (K := Zring) 3 [1;1]%Z [1;2;3]%Z = Exn ValueError.
Proof. split; reflexivity. Qed.
