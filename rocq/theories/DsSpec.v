(** * Specification: a double sphere camera in a consistent state *)

From Coq Require Import Reals.
From Verif Require Import KinModel KinSpec DistModel PinModel CamSpec OmniModel EucmModel EucmSpec DsModel.
Local Open Scope R_scope.

(** The cached values belong to the parameters. *)
Definition ds_sync (M : ds) : Prop :=
  in_sync (si M) /\
  s_over M = (if Rlt_dec (1 / 2) (sa M) then 1 / (2 * sa M - 1) else dbl_max) /\
  s_fov M = (if Rle_dec (2 * ds_w (sa M) * sx M + sx M * sx M + 1) 0 then NotFinite
             else Val ((ds_w (sa M) + sx M) / sqrt (2 * ds_w (sa M) * sx M + sx M * sx M + 1))).

(** The point as seen from the centre of the second sphere. *)
Definition shifted (xi : R) (p : v3) : v3 := V3 (x0 p) (x1 p) (xi * v3_norm p + x2 p).

(** The region where the second projection is one to one on rays. *)
Definition ds_valid (xi alpha : R) (p : v3) : Prop := eucm_valid alpha 1 (shifted xi p).
