(** * What rounding means *)
From Coq Require Import Reals ZArith.
Local Open Scope R_scope.
(** [z] is the integer nearest to [x], halves going away from zero *)
Definition nearest (x : R) (z : Z) : Prop := Rabs (x - IZR z) <= / 2 /\ (Rabs (x - IZR z) = / 2 -> Rabs x < Rabs (IZR z)).
