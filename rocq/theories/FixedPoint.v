(** Model of [FixedPoint] (/repo/src/cbadc/utilities.py:633-726) with exact real arithmetic, and with IEEE binary64
    arithmetic (second half of the file). *)
From Coq Require Import ZArith Reals Lia Lra List.
From Flocq Require Import Core IEEE754.BinarySingleNaN.
From Verif Require Import Base.

(** *** Exact arithmetic *)

Record fxp := mkFxp { fx_bits : Z; fx_max : R; fx_int_max : Z; fx_scale : R; fx_min : R }.

(** utilities.py:677-694 [fixed_to_float], on the fields it reads. *)
Definition fixed_to_float_raw (int_max : Z) (scale : R) (k : Z) : result R :=
  if (int_max <? Z.abs k)%Z then Exn ArithmeticError else Ok (IZR k / scale)%R.
Definition fixed_to_float (f : fxp) (k : Z) : result R := fixed_to_float_raw (fx_int_max f) (fx_scale f) k.

(** utilities.py:659-675 [float_to_fixed]; [int] truncates towards zero. *)
Definition float_to_fixed (f : fxp) (v : R) : result Z :=
  if Rlt_bool (fx_max f) (Rabs v) then Exn ArithmeticError else Ok (Ztrunc (v * fx_scale f)).

(** utilities.py:646-651 [__init__]: a negative shift count is a ValueError, [max = 0] a ZeroDivisionError. *)
Definition fxp_init (bits : Z) (max : R) : result fxp :=
  if (bits <? 1)%Z then Exn ValueError
  else if Req_bool max 0 then Exn ZeroDivisionError
  else
    let int_max := Z.shiftl 1 (bits - 1) in
    let scale := (IZR int_max / max)%R in
    bind (fixed_to_float_raw int_max scale 1) (fun mn => Ok (mkFxp bits max int_max scale mn)).

(** *** IEEE binary64 *)
Definition prec64 : Z := 53.
Definition emax64 : Z := 1024.
Lemma Hprec64 : (0 < prec64)%Z. Proof. reflexivity. Qed.
Lemma Hmax64 : (prec64 < emax64)%Z. Proof. reflexivity. Qed.
Definition b64 := binary_float prec64 emax64.
Definition b64_of_Z (k : Z) : b64 := binary_normalize prec64 emax64 Hprec64 Hmax64 mode_NE k 0 false.
Definition b64_div (x y : b64) : b64 := @Bdiv prec64 emax64 Hprec64 Hmax64 mode_NE x y.
Definition b64_mul (x y : b64) : b64 := @Bmult prec64 emax64 Hprec64 Hmax64 mode_NE x y.

Record fxp64 := mkFxp64 { fx64_max : b64; fx64_int_max : Z; fx64_scale : b64 }.

(** [a > b] on doubles (false on nan). *)
Definition b64_gt (a b : b64) : bool := match Bcompare a b with Some Gt => true | _ => false end.

(** utilities.py:646-651.  [int / float] converts the integer to the nearest double (OverflowError when it does not fit)
    and divides; the smallest value (field [__min], a plain attribute) is dropped. *)
Definition fxp64_init (bits : Z) (max : b64) : result fxp64 :=
  if (bits <? 1)%Z then Exn ValueError
  else
    let int_max := Z.shiftl 1 (bits - 1) in
    let m := b64_of_Z int_max in
    if negb (is_finite m) then Exn OverflowError
    else match max with
         | B754_zero _ => Exn ZeroDivisionError
         | _ => Ok (mkFxp64 max int_max (b64_div m max))
         end.

(** utilities.py:659-675; [int] of an infinity is an OverflowError, of nan a ValueError. *)
Definition float_to_fixed64 (f : fxp64) (v : b64) : result Z :=
  if b64_gt (Babs v) (fx64_max f) then Exn ArithmeticError
  else match b64_mul v (fx64_scale f) with
       | B754_nan => Exn ValueError
       | B754_infinity _ => Exn OverflowError
       | x => Ok (Btrunc x)
       end.

(** utilities.py:677-694 *)
Definition fixed_to_float64 (f : fxp64) (k : Z) : result b64 :=
  if (fx64_int_max f <? Z.abs k)%Z then Exn ArithmeticError
  else
    let m := b64_of_Z k in
    if negb (is_finite m) then Exn OverflowError
    else match fx64_scale f with
         | B754_zero _ => Exn ZeroDivisionError
         | s => Ok (b64_div m s)
         end.
