(** * Model of small numerical helpers

    Models, in /repo/Schweizer-Messer/sm_common/include/sm_common, round.hpp,
    numerical_comparisons.hpp and maths.hpp.  Reals for floats and doubles; a
    quotient is undefined for a zero divisor, where the code returns an infinity or
    a NaN; a conversion to an integer type that cannot hold the value is undefined,
    one from long to int wraps. *)
From Coq Require Import Reals ZArith Bool.
From Verif Require Import Base LutModel.
Local Open Scope R_scope.

(** round.hpp lines 6-14: the result is a whole number *)
Definition floor (x : R) : Z := Int_part x.
Definition ceil (x : R) : Z := (- Int_part (- x))%Z.
Definition round (x : R) : Z := if Rlt_dec x 0 then ceil (x - / 2) else floor (x + / 2).
(** Lines 16-34 *)
Definition rint_double (x : R) : outcome Z := ret_i32 (round x).
Definition rint_float (x : R) : outcome Z := do l <- ret_i64 (round x); Ok (cast_i32 l).
Definition lrint_double (x : R) : outcome Z := ret_i32 (round x).
Definition lrint_float (x : R) : outcome Z := ret_i64 (round x).

(** numerical_comparisons.hpp lines 44-92 *)
Definition max_times_epsilon (a b eps : R) : R := Rmax (Rabs a) (Rabs b) * eps.
Definition compare_with (test : R -> R -> R -> bool) (a b eps : R) : outcome bool := if Rlt_dec 0 eps then Ok (test a b eps) else Throw.
Definition le (x y : R) : bool := if Rle_dec x y then true else false.
Definition approximately_equal : R -> R -> R -> outcome bool := compare_with (fun a b eps => le (Rabs (a - b)) (max_times_epsilon a b eps)).
Definition definitely_greater : R -> R -> R -> outcome bool := compare_with (fun a b eps => negb (le (a - b) (max_times_epsilon a b eps))).
Definition definitely_less : R -> R -> R -> outcome bool := compare_with (fun a b eps => negb (le (b - a) (max_times_epsilon a b eps))).

(** maths.hpp lines 21-40 *)
Definition solve_quadratic (a b c : R) : outcome (R * R) :=
  let d := b * b - 4 * c * a in
  if Rlt_dec d 0 then Throw
  else let n := if Rlt_dec b 0 then sqrt d - b else - sqrt d - b in
       do x <- quotient n (2 * a); do y <- quotient (2 * c) n; Ok (x, y).
(** Lines 50-52 *)
Definition sgn (x : R) : Z := ((if Rlt_dec 0 x then 1 else 0) - (if Rlt_dec x 0 then 1 else 0))%Z.
