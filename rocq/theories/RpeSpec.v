(** * What a reprojection error and its Jacobians have to be *)
From Coquelicot Require Import Coquelicot.
From Coq Require Import Reals List.
From Verif Require Import KinModel KinSpec ExprModel ExprSpec DistModel DistSpec PinModel CamSpec EucmSpec DsSpec RpeModel.
Import ListNotations.
Local Open Scope R_scope.

(** ** Where the models of C59-C63 have derivatives *)

(** The distortion with parameters [d] at the point [y] of the image plane. *)
Definition lens_regular (l : lens) (d : list R) (y : v2) : Prop :=
  match l with
  | NoLens | RadTan => True
  | Equidistant => 1 / 10 ^ 8 < radius y
  | FieldOfView => 1 / 2 < nth 0 d 0 < 3 / 2 /\ 1 / 10 ^ 5 < radius y * radius y
  end.
(** The border of the field of view of a double sphere camera (C63). *)
Definition sphere_border (xi alpha : R) : R :=
  let w := if Rle_dec alpha (1 / 2) then alpha / (1 - alpha) else (1 - alpha) / alpha in
  (w + xi) / sqrt (2 * w * xi + xi * xi + 1).
(** The point [p] is in the region in which the camera forms a smooth image. *)
Definition smooth_at (P : projection) (k d : list R) (p : v3) : Prop :=
  match P with
  | Pinhole l => x2 p <> 0 /\ lens_regular l d (V2 (x0 p * (1 / x2 p)) (x1 p * (1 / x2 p)))
  | Omnidirectional l =>
      let z := x2 p + nth 0 k 0 * v3_norm p in
      0 < z /\ 0 < v3_norm p + nth 0 k 0 * x2 p /\ lens_regular l d (V2 (x0 p * (1 / z)) (x1 p * (1 / z)))
  | ExtendedUnified => 0 < nth 1 k 0 /\ eucm_valid (nth 0 k 0) (nth 1 k 0) p /\ nth 2 k 0 = nth 3 k 0
  | DoubleSphere =>
      0 <= nth 1 k 0 <= 1 /\ -1 < nth 0 k 0 <= 1 /\ 0 <= sphere_border (nth 0 k 0) (nth 1 k 0) /\
      - sphere_border (nth 0 k 0) (nth 1 k 0) * v3_norm p < x2 p
  end.
(** The same for a homogeneous point that is not at infinity. *)
Definition regular (c : camera) (ph : v4) : Prop :=
  length (c_intr c) = projection_dim (c_model c) /\ length (c_dist c) = distortion_dim (c_model c) /\
  (q3 ph < 0 -> smooth_at (c_model c) (c_intr c) (c_dist c) (V3 (- q0 ph) (- q1 ph) (- q2 ph))) /\
  (0 < q3 ph -> smooth_at (c_model c) (c_intr c) (c_dist c) (V3 (q0 ph) (q1 ph) (q2 ph))) /\
  q3 ph <> 0.

(** ** Motions of the camera parameters *)

(** The parameters [v] after the step [s] times [dv]. *)
Definition stepped (v dv : list R) (s : R) : list R := map (fun x => fst x + s * snd x) (combine v dv).
Definition with_intr (c : camera) (k : list R) : camera :=
  Camera (c_model c) (c_width c) (c_height c) k (c_dist c) (c_pactive c) (c_dactive c).
Definition with_dist (c : camera) (d : list R) : camera :=
  Camera (c_model c) (c_width c) (c_height c) (c_intr c) d (c_pactive c) (c_dactive c).

(** Row [r] of the sum of Jacobian times step over the camera's design variables. *)
Fixpoint camera_applied (L : list (camera_dv * (nat -> list R))) (dk dd : list R) (r : nat) : R :=
  match L with
  | [] => 0
  | (ProjectionDv, row) :: L => ldot (row r) dk + camera_applied L dk dd r
  | (DistortionDv, row) :: L => ldot (row r) dd + camera_applied L dk dd r
  end.

(** The error alone and the returned value alone. *)
Definition error_of (r : res (v2 * R)) : res v2 := rbind r (fun x => Val (fst x)).
Definition cost_of (r : res (v2 * R)) : res R := rbind r (fun x => Val (snd x)).
(** [f] has values near 0, and their derivative is [w]. *)
Definition r_rderive (f : R -> res R) (w : R) : Prop :=
  exists g, locally 0 (fun s => f s = Val (g s)) /\ is_derive g 0 w.

(** The calls for the camera go to active design variables and have as many columns as parameters. *)
Definition listed (c : camera) (L : list (camera_dv * (nat -> list R))) : Prop :=
  forall v row, In (v, row) L ->
    (v = ProjectionDv /\ c_pactive c = true /\ forall r, length (row r) = projection_dim (c_model c)) \/
    (v = DistortionDv /\ c_dactive c = true /\ forall r, length (row r) = distortion_dim (c_model c)).
