(** * What fixed-point numbers mean *)
From Coq Require Import Reals ZArith.
Local Open Scope Z_scope.

(** A supported type: the width of the integers, and a positive divider they can hold *)
Definition type_ok (b D : Z) : Prop := (b = 8 \/ b = 16 \/ b = 32 \/ b = 64) /\ 0 < D <= 2 ^ (b - 1) - 1.
(** The numerators of a type *)
Definition number (b p : Z) : Prop := - 2 ^ (b - 1) <= p <= 2 ^ (b - 1) - 1.
(** The number a numerator stands for *)
Definition value (D p : Z) : R := (IZR p / IZR D)%R.
(** [r] is [x] rounded toward zero to the type *)
Definition cut (D : Z) (x : R) (r : Z) : Prop := ((0 <= x /\ value D r <= x < value D (r + 1)) \/ (x <= 0 /\ value D (r - 1) < x <= value D r))%R.
(** Rounding to a significand of 64 bits: monotone, exact where it can be, and
    otherwise off by at most one part in 2^64 *)
Definition extended (ld : R -> R) : Prop :=
  (forall x y, x <= y -> ld x <= ld y)%R /\ (forall z, - 2 ^ 64 <= z <= 2 ^ 64 -> ld (IZR z) = IZR z) /\ (forall x, Rabs (ld x - x) <= Rabs x / 2 ^ 64)%R.
