(** Verilog-AMS analog expressions: + - * with the usual precedence, unary signs, accesses and idt, as a recursive descent parser that returns the waveform. *)
From Coq Require Import List Arith Bool ZArith Reals Lra Lia String.
From Flocq Require Import Core.
From Verif Require Import Base Netlist VerilogAms.
Import ListNotations.
Open Scope R_scope.

Section Lang.
(** V(node) or V(node, ref), and the time integral *)
Variable v : string -> option string -> R -> R.
Variable idt : (R -> R) -> R -> R.

Fixpoint expr (n : nat) (l : list vtok) {struct n} : option ((R -> R) * list vtok) :=
  match n with O => None | S n => match term n l with None => None | Some (a, l) => expr_rest n a l end end
with expr_rest (n : nat) (a : R -> R) (l : list vtok) {struct n} : option ((R -> R) * list vtok) :=
  match n with O => None | S n =>
    match l with
    | VPlus :: l => match term n l with None => None | Some (b, l) => expr_rest n (fun t => a t + b t) l end
    | VMinus :: l => match term n l with None => None | Some (b, l) => expr_rest n (fun t => a t - b t) l end
    | _ => Some (a, l)
    end end
with term (n : nat) (l : list vtok) {struct n} : option ((R -> R) * list vtok) :=
  match n with O => None | S n => match factor n l with None => None | Some (a, l) => term_rest n a l end end
with term_rest (n : nat) (a : R -> R) (l : list vtok) {struct n} : option ((R -> R) * list vtok) :=
  match n with O => None | S n =>
    match l with
    | VTimes :: l => match factor n l with None => None | Some (b, l) => term_rest n (fun t => a t * b t) l end
    | _ => Some (a, l)
    end end
with factor (n : nat) (l : list vtok) {struct n} : option ((R -> R) * list vtok) :=
  match n with O => None | S n =>
    match l with
    | VNum x :: l => Some (fun _ => x, l)
    | VAcc s r :: l => Some (v s r, l)
    | VPlus :: l => factor n l
    | VMinus :: l => match factor n l with None => None | Some (a, l) => Some (fun t => - a t, l) end
    | VLp :: l => match expr n l with Some (a, VRp :: l) => Some (a, l) | _ => None end
    | VIdt :: VLp :: l => match expr n l with Some (a, VRp :: l) => Some (idt a, l) | _ => None end
    | _ => None
    end end.
(** the token list is an expression with waveform w, however much fuel the parser gets *)
Definition denotes (l : list vtok) (w : R -> R) : Prop := exists n0, forall n, (n0 <= n)%nat -> expr n l = Some (w, []).

(** *** with enough fuel *)
Definition ev (f : nat -> option ((R -> R) * list vtok)) (r : (R -> R) * list vtok) : Prop := exists n0, forall n, (n0 <= n)%nat -> f n = Some r.
Lemma ev_expr l a l' r : ev (fun n => term n l) (a, l') -> ev (fun n => expr_rest n a l') r -> ev (fun n => expr n l) r.
Proof. intros [n1 H1] [n2 H2]. exists (S (n1 + n2)). intros [|n] Hn; [lia|]. cbn [expr]. rewrite H1 by lia. apply H2. lia. Qed.
Lemma ev_term l a l' r : ev (fun n => factor n l) (a, l') -> ev (fun n => term_rest n a l') r -> ev (fun n => term n l) r.
Proof. intros [n1 H1] [n2 H2]. exists (S (n1 + n2)). intros [|n] Hn; [lia|]. cbn [term]. rewrite H1 by lia. apply H2. lia. Qed.
Lemma ev_plus a l b l' r : ev (fun n => term n l) (b, l') -> ev (fun n => expr_rest n (fun t => a t + b t) l') r -> ev (fun n => expr_rest n a (VPlus :: l)) r.
Proof. intros [n1 H1] [n2 H2]. exists (S (n1 + n2)). intros [|n] Hn; [lia|]. cbn [expr_rest]. rewrite H1 by lia. apply H2. lia. Qed.
Lemma ev_minus a l b l' r : ev (fun n => term n l) (b, l') -> ev (fun n => expr_rest n (fun t => a t - b t) l') r -> ev (fun n => expr_rest n a (VMinus :: l)) r.
Proof. intros [n1 H1] [n2 H2]. exists (S (n1 + n2)). intros [|n] Hn; [lia|]. cbn [expr_rest]. rewrite H1 by lia. apply H2. lia. Qed.
Lemma ev_times a l b l' r : ev (fun n => factor n l) (b, l') -> ev (fun n => term_rest n (fun t => a t * b t) l') r -> ev (fun n => term_rest n a (VTimes :: l)) r.
Proof. intros [n1 H1] [n2 H2]. exists (S (n1 + n2)). intros [|n] Hn; [lia|]. cbn [term_rest]. rewrite H1 by lia. apply H2. lia. Qed.
Lemma ev_num x l : ev (fun n => factor n (VNum x :: l)) (fun _ => x, l).
Proof. exists 1%nat. intros [|n] Hn; [lia|]. reflexivity. Qed.
Lemma ev_acc s r l : ev (fun n => factor n (VAcc s r :: l)) (v s r, l).
Proof. exists 1%nat. intros [|n] Hn; [lia|]. reflexivity. Qed.
Lemma ev_neg l a l' : ev (fun n => factor n l) (a, l') -> ev (fun n => factor n (VMinus :: l)) (fun t => - a t, l').
Proof. intros [n1 H1]. exists (S n1). intros [|n] Hn; [lia|]. cbn [factor]. now rewrite H1 by lia. Qed.
Lemma ev_pos l r : ev (fun n => factor n l) r -> ev (fun n => factor n (VPlus :: l)) r.
Proof. intros [n1 H1]. exists (S n1). intros [|n] Hn; [lia|]. cbn [factor]. now rewrite H1 by lia. Qed.
Lemma ev_paren l a l' : ev (fun n => expr n l) (a, VRp :: l') -> ev (fun n => factor n (VLp :: l)) (a, l').
Proof. intros [n1 H1]. exists (S n1). intros [|n] Hn; [lia|]. cbn [factor]. now rewrite H1 by lia. Qed.
Lemma ev_idt l a l' : ev (fun n => expr n l) (a, VRp :: l') -> ev (fun n => factor n (VIdt :: VLp :: l)) (idt a, l').
Proof. intros [n1 H1]. exists (S n1). intros [|n] Hn; [lia|]. cbn [factor]. now rewrite H1 by lia. Qed.
(** an expression, a product end where no operator follows *)
Definition stops (l : list vtok) : Prop := match l with VPlus :: _ | VMinus :: _ | VTimes :: _ => False | _ => True end.
Definition no_times (l : list vtok) : Prop := match l with VTimes :: _ => False | _ => True end.
Lemma ev_expr_end a l : stops l -> ev (fun n => expr_rest n a l) (a, l).
Proof. intros H. exists 1%nat. intros [|n] Hn; [lia|]. destruct l as [|[]]; cbn in *; tauto || reflexivity. Qed.
Lemma ev_term_end a l : no_times l -> ev (fun n => term_rest n a l) (a, l).
Proof. intros H. exists 1%nat. intros [|n] Hn; [lia|]. destruct l as [|[]]; cbn in *; tauto || reflexivity. Qed.

Lemma ev_print x l : exists w, ev (fun n => factor n (print x ++ l)) (w, l) /\ forall t, w t = x.
Proof.
  unfold print. destruct (Rlt_bool x 0); cbn [app].
  - eexists. split; [apply ev_neg, ev_num|]. intros. cbv beta. ring.
  - eexists. split; [apply ev_num|]. reflexivity.
Qed.
Lemma sign_abs x : match sign x with VMinus => - Rabs x | _ => Rabs x end = x.
Proof. unfold sign. destruct (Rlt_bool_spec x 0); [rewrite Rabs_left by assumption; ring|now rewrite Rabs_pos_eq]. Qed.
Lemma sign_cases x : (sign x = VMinus /\ x = - Rabs x) \/ (sign x = VPlus /\ x = Rabs x).
Proof. assert (H := sign_abs x). unfold sign in *. destruct (Rlt_bool x 0); [left|right]; split; trivial; now symmetry. Qed.

(** V(in_i, vgnd) and its offset, in parentheses *)
Lemma ev_body i o l : exists w, ev (fun n => factor n ([VLp; VAcc (append "in_" (dec i)) (Some "vgnd"%string)] ++ (if Req_bool o 0 then [] else [sign o; VNum (Rabs o)]) ++ [VRp] ++ l)) (w, l) /\
  forall t, w t = v (append "in_" (dec i)) (Some "vgnd"%string) t + o.
Proof.
  cbn [app]. destruct (Req_bool_spec o 0) as [->|N]; cbn [app].
  - eexists. split; [apply ev_paren; eapply ev_expr; [eapply ev_term; [apply ev_acc|apply ev_term_end; exact I]|apply ev_expr_end; exact I]|]. intros. cbv beta. ring.
  - destruct (sign_cases o) as [[-> E]|[-> E]].
    + eexists. split; [apply ev_paren; eapply ev_expr; [eapply ev_term; [apply ev_acc|apply ev_term_end; exact I]|]|].
      * eapply ev_minus; [eapply ev_term; [apply ev_num|apply ev_term_end; exact I]|apply ev_expr_end; exact I].
      * intros. cbv beta. lra.
    + eexists. split; [apply ev_paren; eapply ev_expr; [eapply ev_term; [apply ev_acc|apply ev_term_end; exact I]|]|].
      * eapply ev_plus; [eapply ev_term; [apply ev_num|apply ev_term_end; exact I]|apply ev_expr_end; exact I].
      * intros. cbv beta. lra.
Qed.
(** the value of the sum of inputs i, i + 1, ... *)
Fixpoint weighted (i : nat) (l : list (R * R)) (t : R) : R :=
  match l with [] => 0 | (g, o) :: l => g * (v (append "in_" (dec i)) (Some "vgnd"%string) t + o) + weighted (S i) l t end.
Lemma terms_no_times l' : stops l' -> forall l i, no_times (summer_terms i l ++ l').
Proof.
  intros H. induction l as [|[g o] l IH]; intros i; cbn [summer_terms app]; [destruct l' as [|[]]; cbn in *; tauto|]. unfold summer_term. destruct (Req_bool g 0); [apply IH|].
  cbn [app]. unfold sign. destruct (Rlt_bool g 0); exact I.
Qed.
(** unsigned product of a term *)
Lemma ev_product g o i l : no_times l -> exists w, ev (fun n => term n (VNum (Rabs g) :: VTimes :: [VLp; VAcc (append "in_" (dec i)) (Some "vgnd"%string)] ++ (if Req_bool o 0 then [] else [sign o; VNum (Rabs o)]) ++ [VRp] ++ l)) (w, l) /\
  forall t, w t = Rabs g * (v (append "in_" (dec i)) (Some "vgnd"%string) t + o).
Proof.
  intros H. destruct (ev_body i o l) as (w & Ew & Vw). eexists. split; [eapply ev_term; [apply ev_num|]; eapply ev_times; [exact Ew|]; apply ev_term_end; exact H|]. intros t. cbv beta. now rewrite Vw.
Qed.
Lemma term_app g o i l : g <> 0 -> (summer_term i g o ++ l)%list = sign g :: VNum (Rabs g) :: VTimes :: [VLp; VAcc (append "in_" (dec i)) (Some "vgnd"%string)] ++ (if Req_bool o 0 then [] else [sign o; VNum (Rabs o)]) ++ [VRp] ++ l.
Proof. intros N. unfold summer_term. rewrite Req_bool_false by exact N. cbn [app]. now rewrite <- app_assoc. Qed.
Lemma ev_more l' : stops l' -> forall l i a, exists w, ev (fun n => expr_rest n a (summer_terms i l ++ l')) (w, l') /\ forall t, w t = a t + weighted i l t.
Proof.
  intros H. induction l as [|[g o] l IH]; intros i a; cbn [summer_terms app weighted].
  - exists a. split; [now apply ev_expr_end|]. intros. ring.
  - destruct (Req_dec g 0) as [->|N].
    + unfold summer_term. rewrite Req_bool_true by reflexivity. cbn [app]. destruct (IH (S i) a) as (w & Ew & Vw). exists w. split; [exact Ew|]. intros t. rewrite Vw. ring.
    + rewrite <- app_assoc, term_app by exact N. destruct (ev_product g o i (summer_terms (S i) l ++ l') (terms_no_times l' H l (S i))) as (b & Eb & Vb).
      destruct (sign_cases g) as [[-> E]|[-> E]].
      * destruct (IH (S i) (fun t => a t - b t)) as (w & Ew & Vw). exists w. split; [eapply ev_minus; [exact Eb|exact Ew]|]. intros t. rewrite Vw, Vb. rewrite E at 2. ring.
      * destruct (IH (S i) (fun t => a t + b t)) as (w & Ew & Vw). exists w. split; [eapply ev_plus; [exact Eb|exact Ew]|]. intros t. rewrite Vw, Vb. rewrite E at 2. ring.
Qed.
Lemma ev_sum l' : stops l' -> forall l i, (exists g o, In (g, o) l /\ g <> 0) -> exists w, ev (fun n => expr n (summer_terms i l ++ l')) (w, l') /\ forall t, w t = weighted i l t.
Proof.
  intros H. induction l as [|[g o] l IH]; intros i (g' & o' & Hin & Hg); [destruct Hin|]. cbn [summer_terms weighted].
  destruct (Req_dec g 0) as [->|N].
  - unfold summer_term. rewrite Req_bool_true by reflexivity. cbn [app]. destruct (IH (S i)) as (w & Ew & Vw).
    { destruct Hin as [E|Hin]; [injection E as <- <-; now destruct Hg|]. now exists g', o'. }
    exists w. split; [exact Ew|]. intros t. rewrite Vw. ring.
  - rewrite <- app_assoc, term_app by exact N. assert (NT := terms_no_times l' H l (S i)). destruct (ev_body i o (summer_terms (S i) l ++ l')) as (b & Eb & Vb).
    destruct (sign_cases g) as [[-> E]|[-> E]].
    + destruct (ev_more l' H l (S i) (fun t => - Rabs g * b t)) as (w & Ew & Vw). exists w. split.
      * eapply ev_expr; [|exact Ew]. eapply ev_term; [apply ev_neg, ev_num|]. eapply ev_times; [exact Eb|]. apply ev_term_end. exact NT.
      * intros t. rewrite Vw, Vb. rewrite E at 2. ring.
    + destruct (ev_more l' H l (S i) (fun t => Rabs g * b t)) as (w & Ew & Vw). exists w. split.
      * eapply ev_expr; [|exact Ew]. eapply ev_term; [apply ev_pos, ev_num|]. eapply ev_times; [exact Eb|]. apply ev_term_end. exact NT.
      * intros t. rewrite Vw, Vb. rewrite E at 2. ring.
Qed.
Lemma summer_denotes s : (exists g o, In (g, o) (combine (in_gain s) (in_offset s)) /\ g <> 0) ->
  exists w, denotes (summer_vams s) w /\ forall t, w t = out_gain s * weighted 0 (combine (in_gain s) (in_offset s)) t + out_offset s.
Proof.
  intros H. unfold summer_vams. destruct (ev_sum (VRp :: VPlus :: print (out_offset s) ++ []) I _ 0%nat H) as (w & Ew & Vw).
  destruct (ev_print (out_gain s) ([VTimes; VLp] ++ summer_terms 0 (combine (in_gain s) (in_offset s)) ++ [VRp; VPlus] ++ print (out_offset s))) as (g & Eg & Vg).
  destruct (ev_print (out_offset s) []) as (o & Eo & Vo). exists (fun t => g t * w t + o t). split; [|intros t; cbv beta; now rewrite Vg, Vw, Vo].
  assert (Q : ev (fun n => expr n (print (out_gain s) ++ [VTimes; VLp] ++ summer_terms 0 (combine (in_gain s) (in_offset s)) ++ [VRp; VPlus] ++ print (out_offset s))) (fun t => g t * w t + o t, [])).
  { eapply ev_expr.
    - eapply ev_term; [exact Eg|]. cbn [app]. eapply ev_times; [apply ev_paren; rewrite app_nil_r in Ew; exact Ew|]. apply ev_term_end. exact I.
    - eapply ev_plus; [|apply ev_expr_end; exact I]. eapply ev_term; [rewrite app_nil_r in Eo; exact Eo|]. apply ev_term_end. exact I. }
  exact Q.
Qed.
(** all gains zero: the parentheses are empty *)
Lemma terms_empty l i : (forall g o, In (g, o) l -> g = 0) -> summer_terms i l = [].
Proof.
  revert i. induction l as [|[g o] l IH]; intros i H; [reflexivity|]. cbn [summer_terms]. rewrite IH by (intros; eapply H; right; eassumption).
  rewrite (H g o (or_introl eq_refl)). unfold summer_term. now rewrite Req_bool_true by reflexivity.
Qed.
Lemma expr_rp n l : expr n (VRp :: l) = None.
Proof. do 3 (destruct n as [|n]; [reflexivity|]). reflexivity. Qed.
Lemma print_factor n x l r : factor n (print x ++ l) = Some r -> snd r = l.
Proof.
  unfold print. destruct (Rlt_bool x 0); cbn [app]; destruct n as [|n]; try discriminate; cbn [factor].
  - destruct n as [|n]; [discriminate|]. cbn [factor]. intros E. injection E as <-. reflexivity.
  - intros E. injection E as <-. reflexivity.
Qed.
Lemma summer_empty s n : (forall g o, In (g, o) (combine (in_gain s) (in_offset s)) -> g = 0) -> expr n (summer_vams s) = None.
Proof.
  intros H. unfold summer_vams. rewrite terms_empty by exact H. cbn [app]. destruct n as [|n]; [reflexivity|]. cbn [expr].
  replace (term n (print (out_gain s) ++ VTimes :: VLp :: VRp :: VPlus :: print (out_offset s))) with (@None ((R -> R) * list vtok)); [reflexivity|]. symmetry.
  destruct n as [|n]; [reflexivity|]. cbn [term]. destruct (factor n _) as [[a l]|] eqn:E; [|reflexivity]. apply print_factor in E. cbn in E. subst l.
  destruct n as [|n]; [reflexivity|]. cbn [term_rest]. destruct n as [|n]; [reflexivity|]. cbn [factor]. now rewrite expr_rp.
Qed.
(** the integrator *)
Lemma integrator_denotes offset gain : exists g w, denotes (integrator_vams offset gain) (fun t => g t * idt w t) /\ (forall t, g t = gain) /\ forall t, w t = v "in"%string None t + Rabs offset.
Proof.
  unfold integrator_vams. set (rest := (if Req_bool offset 0 then [] else sign offset :: print offset) ++ [VRp]).
  destruct (ev_print gain (VTimes :: VIdt :: VLp :: VAcc "in" None :: rest)) as (g & Eg & Vg).
  assert (B : exists w, ev (fun n => expr n (VAcc "in" None :: rest)) (w, [VRp]) /\ forall t, w t = v "in"%string None t + Rabs offset).
  { unfold rest, sign. destruct (Req_bool_spec offset 0) as [->|N]; cbn [app].
    - eexists. split; [eapply ev_expr; [eapply ev_term; [apply ev_acc|apply ev_term_end; exact I]|apply ev_expr_end; exact I]|]. intros. rewrite Rabs_R0. ring.
    - destruct (ev_print offset [VRp]) as (o & Eo & Vo). destruct (Rlt_bool_spec offset 0) as [Q|Q].
      + eexists. split; [eapply ev_expr; [eapply ev_term; [apply ev_acc|apply ev_term_end; exact I]|]|].
        * eapply ev_minus; [eapply ev_term; [exact Eo|apply ev_term_end; exact I]|apply ev_expr_end; exact I].
        * intros. cbv beta. rewrite Vo, Rabs_left by exact Q. ring.
      + eexists. split; [eapply ev_expr; [eapply ev_term; [apply ev_acc|apply ev_term_end; exact I]|]|].
        * eapply ev_plus; [eapply ev_term; [exact Eo|apply ev_term_end; exact I]|apply ev_expr_end; exact I].
        * intros. cbv beta. rewrite Vo, Rabs_pos_eq by exact Q. ring. }
  destruct B as (w & Ew & Vw). exists g, w. split; [|split; assumption].
  assert (Z : ev (fun n => expr n (print gain ++ VTimes :: VIdt :: VLp :: VAcc "in" None :: rest)) (fun t => g t * idt w t, [])).
  { eapply ev_expr; [|apply ev_expr_end; exact I]. eapply ev_term; [exact Eg|]. eapply ev_times; [apply ev_idt; exact Ew|]. apply ev_term_end. exact I. }
  exact Z.
Qed.
Lemma ic_denotes ic : exists w, denotes (integrator_ic ic) w /\ forall t, w t = ic.
Proof.
  unfold integrator_ic. assert (Z : exists w, ev (fun n => expr n [sign ic; VNum (Rabs ic)]) (w, []) /\ forall t, w t = ic); [|exact Z]. destruct (sign_cases ic) as [[-> E]|[-> E]].
  - eexists. split; [eapply ev_expr; [eapply ev_term; [apply ev_neg, ev_num|apply ev_term_end; exact I]|apply ev_expr_end; exact I]|]. intros. cbv beta. lra.
  - eexists. split; [eapply ev_expr; [eapply ev_term; [apply ev_pos, ev_num|apply ev_term_end; exact I]|apply ev_expr_end; exact I]|]. intros. cbv beta. lra.
Qed.
End Lang.
