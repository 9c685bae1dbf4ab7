(** * Specification: an extended unified camera in a consistent state *)

From Coq Require Import Reals.
From Verif Require Import KinModel DistModel PinModel CamSpec OmniModel EucmModel.
Local Open Scope R_scope.

(** The cached values belong to the parameters. *)
Definition eucm_sync (M : eucm) : Prop :=
  in_sync (ei M) /\ e_over M = 1 / (eb M * (2 * ea M - 1)) /\ e_fov M = (if Rle_dec (ea M) (1 / 2) then ea M / (1 - ea M) else (1 - ea M) / ea M).

(** The length of a point in the metric of the model. *)
Definition ellipsoid_norm (beta : R) (p : v3) : R := sqrt (beta * (x0 p * x0 p + x1 p * x1 p) + x2 p * x2 p).

(** The region where the projection is one to one on rays. *)
Definition eucm_valid (alpha beta : R) (p : v3) : Prop :=
  0 < alpha * ellipsoid_norm beta p + (1 - alpha) * x2 p /\ 0 < (1 - alpha) * ellipsoid_norm beta p + alpha * x2 p.
