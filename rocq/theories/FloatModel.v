(** * C++ [double] arithmetic used by the time conversions
    IEEE-754 binary64 with round to nearest even, as implemented by the
    (axiom-free) binary floating-point formalisation of Flocq. *)
From Verif Require Import Base.
From Coq Require Import Reals.
From Flocq Require Import Core.Core IEEE754.BinarySingleNaN.
Open Scope Z_scope.

Definition dbl := binary_float 53 1024.
Definition prec53 : FLX.Prec_gt_0 53 := eq_refl.
Definition prec53_emax : Prec_lt_emax 53 1024 := eq_refl.
#[global] Existing Instance prec53.
#[global] Existing Instance prec53_emax.

(** Conversion [(double)z] of an integer. *)
Definition dbl_of_Z (z : Z) : dbl := binary_normalize 53 1024 _ _ mode_NE z 0 false.
(** The [double] product. *)
Definition dmul (x y : dbl) : dbl := Bmult mode_NE x y.
(** The literal [1e-9]: the nearest binary64 number, 0x1.12e0be826d695p-30. *)
Definition d1em9 : dbl := binary_normalize 53 1024 _ _ mode_NE 4835703278458517 (-82) false.
(** The literal [1e9] (exactly representable). *)
Definition d1e9 : dbl := dbl_of_Z 1000000000.

(** Range of [int64_t] / [long int] on the supported (LP64) platforms. *)
Definition int64b (z : Z) : bool := (-9223372036854775808 <=? z) && (z <=? 9223372036854775807).
(** A signed 64-bit result; overflow is undefined behaviour. *)
Definition i64 (z : Z) : outcome Z := if int64b z then Ret z else Undef.
(** Conversion [(long int)x] of a double: truncation towards zero, undefined
    when the value does not fit. *)
Definition long_of_dbl (x : dbl) : outcome Z :=
  if is_finite x then i64 (Btrunc x) else Undef.
