(** * Two lines in space *)
From Coq Require Import Reals.
From Verif Require Import KinModel.
Local Open Scope R_scope.

(** The point at parameter [s] of the line through [p] along [r]. *)
Definition along (p r : v3) (s : R) : v3 := V3 (x0 p + s * x0 r) (x1 p + s * x1 r) (x2 p + s * x2 r).
Definition sq_dist (a b : v3) : R := (x0 a - x0 b) ^ 2 + (x1 a - x1 b) ^ 2 + (x2 a - x2 b) ^ 2.
Definition dist (a b : v3) : R := sqrt (sq_dist a b).
(** Neither direction is a multiple of the other. *)
Definition independent (a b : v3) : Prop := ~ exists k, b = V3 (k * x0 a) (k * x1 a) (k * x2 a) \/ a = V3 (k * x0 b) (k * x1 b) (k * x2 b).
