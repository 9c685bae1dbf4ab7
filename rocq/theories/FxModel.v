(** * Model of fixed-point numbers

    Models /repo/aslam_optimizer/aslam_backend_expressions/include/aslam_backend_expressions/FixedPointNumber.hpp.
    A number is its numerator; [b] is the width of the integer type (8, 16, 32 or
    64 bits) and [D] the divider.  Narrow operands are promoted to int and the
    result is converted back by wrapping, as the compilers in use do; an overflow of
    int or of a wider type is undefined.  Simplifications: doubles are reals; long
    double, which is used for products and quotients of 64-bit numbers, is real
    arithmetic with a rounding function [ld] as parameter. *)
From Coq Require Import Reals ZArith Bool.
From Verif Require Import Base LutModel.
Local Open Scope Z_scope.

(** Conversion to a signed integer of [b] bits *)
Definition low (b : Z) : Z := - 2 ^ (b - 1).
Definition high (b : Z) : Z := 2 ^ (b - 1) - 1.
Definition wrap (b v : Z) : Z := (v - low b) mod 2 ^ b + low b.
Definition in_range (b v : Z) : bool := (low b <=? v) && (v <=? high b).
(** The type of [p + q]: int for narrow operands *)
Definition result (b v : Z) : outcome Z := if b <? 32 then Ok (wrap b v) else if in_range b v then Ok v else UB.

(** Lines 58-59 *)
Definition of_double (b D : Z) (x : R) : outcome Z := let v := trunc (x * IZR D) in if in_range b v then Ok v else UB.
(** Line 62: the dividers are unsigned 64-bit integers *)
Definition convert (b2 D2 D1 p : Z) : Z := wrap b2 ((p mod 2 ^ 64 * D2) mod 2 ^ 64 / D1).
(** Line 71 *)
Definition to_double (D p : Z) : R := (IZR p / IZR D)%R.
(** Lines 77-95 *)
Definition negate (b p : Z) : outcome Z := result b (- p).
Definition plus (b p q : Z) : outcome Z := result b (p + q).
Definition minus (b p q : Z) : outcome Z := result b (p - q).

Section LongDouble.
Variable ld : R -> R.
Definition of_long_double (v : R) : outcome Z := let z := trunc v in if in_range 64 z then Ok z else UB.
(** Lines 97-112: the next bigger type is an integer of twice the width, or long double *)
Definition times (b D p q : Z) : outcome Z :=
  if b <? 64 then Ok (wrap b (Z.quot (p * q) D)) else of_long_double (ld (ld (IZR p * IZR q) / IZR D)%R).
Definition over (b D p q : Z) : outcome Z :=
  if q =? 0 then UB
  else if b <? 64 then Ok (wrap b (Z.quot (p * D) q)) else of_long_double (ld (ld (IZR p * IZR D) / IZR q)%R).
End LongDouble.
