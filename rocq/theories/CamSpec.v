(** * Specification: what the functions of a camera model mean *)

From Coquelicot Require Import Coquelicot.
From Coq Require Import Reals List ZArith.
From Verif Require Import KinModel KinCurve DistModel DistSpec PinModel.
Import ListNotations.
Local Open Scope R_scope.

(** [J] is the Jacobian of the image of a point: whatever differentiable way
    the point moves through [p], its image exists near that moment and moves
    with velocity [J] times the velocity of the point. *)
Definition point_jacobian (f : v3 -> res v2) (p : v3) (J : m23) : Prop :=
  forall c t d, c t = p -> v3_derive c t d -> v2_rderive (fun s => f (c s)) t (m23_vec J d).

(** The same for the map from pixels to rays. *)
Definition pixel_jacobian (f : v2 -> res v3) (k : v2) (J : m32) : Prop :=
  forall c t d, c t = k -> v2_derive c t d -> v3_rderive (fun s => f (c s)) t (m32_vec J d).
Definition plane_jacobian (f : v2 -> res v2) (y : v2) (J : m2) : Prop :=
  forall c t d, c t = y -> v2_derive c t d -> v2_rderive (fun s => f (c s)) t (m2_vec J d).

(** [cols] are the columns of the Jacobian of the image with respect to [n]
    parameters, of which [p0] are the present values. *)
Definition image_param_jacobian (n : nat) (f : list R -> res v2) (p0 : list R) (cols : list v2) : Prop :=
  length cols = n /\
  forall p t dp, (forall i, (i < n)%nat -> nth i (p t) 0 = nth i p0 0) -> list_derive n p t dp ->
    v2_rderive (fun s => f (p s)) t (combine_cols cols dp).

(** [q] is [p] moved along the ray through the origin. *)
Definition along_ray (s : R) (p : v3) : v3 := V3 (s * x0 p) (s * x1 p) (s * x2 p).
Definition along_hray (s : R) (p : v4) : v4 := V4 (s * q0 p) (s * q1 p) (s * q2 p) (s * q3 p).

(** Inside the image: 0 <= k < resolution in both coordinates. *)
Definition in_image (C : intr) (k : v2) : Prop :=
  0 <= u0 k < IZR (ru C) /\ 0 <= u1 k < IZR (rv C).

(** The cached values belong to the focal lengths. *)
Definition in_sync (C : intr) : Prop := recip_fu C = 1 / fu C /\ recip_fv C = 1 / fv C.
