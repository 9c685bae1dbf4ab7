(** * Model of the reprojection error and of the camera design variables

    Models
    - aslam_cv/aslam_cv_error_terms/include/aslam_cv_error_terms/implementation/
      ReprojectionError.hpp lines 9-106 and SimpleReprojectionError.hpp lines 9-64;
    - aslam_cv/aslam_cv_backend/include/aslam_cv_backend/implementation/
      CameraDesignVariable.hpp lines 4-81;
    - aslam_optimizer/aslam_backend/include/aslam_backend/backend/implementation/
      DesignVariableAdapter.hpp lines 26-102;
    - aslam_cv/aslam_cameras/include/aslam_cameras/cameras/implementation/
      CameraGeometry.hpp: homogeneousToKeypoint without and with Jacobian and
      lines 352-364, which pass the call on to the projection (the result of the
      mask is not used by the error terms and is left out).

    The projections and distortions are those of PinModel, OmniModel, EucmModel,
    DsModel and DistModel, the point is an expression of ExprModel.  The extended
    unified and the double sphere projection are taken without distortion, as
    they are instantiated by the library.

    Simplification: [double] is modelled by the real numbers. *)
From Coq Require Import Reals List ZArith.
From Verif Require Import Base KinModel TfModel ExprModel DistModel PinModel OmniModel EucmModel DsModel.
Import ListNotations.
Local Open Scope R_scope.

(** ** Cameras *)

(** The DISTORTION_T argument and its parameters. *)
Inductive lens := NoLens | RadTan | Equidistant | FieldOfView.
Definition lens_dim (l : lens) : nat :=
  match l with NoLens => 0 | RadTan | Equidistant => 4 | FieldOfView => 1 end%nat.
Definition lens_of (l : lens) (d : list R) : distortion :=
  match l with
  | NoLens => nodist
  | RadTan => radtan (rt_set d)
  | Equidistant => equi (eq_set d)
  | FieldOfView => fov (nth 0 d 0)
  end.
(** The PROJECTION_T argument. *)
Inductive projection := Pinhole (l : lens) | Omnidirectional (l : lens) | ExtendedUnified | DoubleSphere.
Definition projection_dim (P : projection) : nat :=
  match P with Pinhole _ => 4 | Omnidirectional _ => 5 | ExtendedUnified | DoubleSphere => 6 end%nat.
Definition distortion_dim (P : projection) : nat :=
  match P with Pinhole l | Omnidirectional l => lens_dim l | ExtendedUnified | DoubleSphere => 0%nat end.

Section Camera.
(** The resolution, which no design variable changes. *)
Variable width height : Z.
Definition sensor : intr := make_intr 1 1 0 0 width height.
Definition omni_camera (k : list R) : omni := omni_set (make_omni 0 sensor) k.
Definition eucm_cam (k : list R) : eucm := eucm_set (make_eucm 0 1 sensor) k.
Definition ds_cam (k : list R) : ds := ds_set (make_ds 0 0 sensor) k.

(** homogeneousToKeypoint(ph, hat_y) of the camera whose projection has the
    parameters [k] and whose distortion has the parameters [d]: the keypoint. *)
Definition image (P : projection) (k d : list R) (ph : v4) : res v2 :=
  match P with
  | Pinhole l => fst (pin_hproject (lens_of l d) (pin_set sensor k) ph)
  | Omnidirectional l => fst (omni_hproject (lens_of l d) (omni_camera k) ph)
  | ExtendedUnified => fst (eucm_hproject (eucm_cam k) ph)
  | DoubleSphere => fst (ds_hproject (ds_cam k) ph)
  end.
(** homogeneousToKeypoint(ph, hat_y, J): the Jacobian; its fourth column is zero. *)
Definition imageJ (P : projection) (k d : list R) (ph : v4) : res m23 :=
  match P with
  | Pinhole l => snd (fst (pin_hprojectJ (lens_of l d) (pin_set sensor k) ph))
  | Omnidirectional l => snd (fst (omni_hprojectJ (lens_of l d) (omni_camera k) ph))
  | ExtendedUnified => snd (fst (eucm_hprojectJ (eucm_cam k) ph))
  | DoubleSphere => snd (fst (ds_hprojectJ (ds_cam k) ph))
  end.
(** homogeneousToKeypointIntrinsicsJacobian: PinholeProjection.hpp 377-395,
    OmniProjection.hpp 444-460, ExtendedUnifiedProjection.hpp 470-486,
    DoubleSphereProjection.hpp 518-534. *)
Definition facing (ph : v4) : v3 := if Rlt_dec (q3 ph) 0 then neg3 (head3 ph) else head3 ph.
Definition intrinsicsJ (P : projection) (k d : list R) (ph : v4) : res (list v2) :=
  match P with
  | Pinhole l => pin_intrJ (lens_of l d) (facing ph)
  | Omnidirectional l => omni_intrJ (lens_of l d) (omni_camera k) (facing ph)
  | ExtendedUnified => eucm_intrJ (eucm_cam k) (facing ph)
  | DoubleSphere => ds_intrJ (ds_cam k) (facing ph)
  end.
(** homogeneousToKeypointDistortionJacobian: PinholeProjection.hpp 397-414,
    OmniProjection.hpp 462-479, ExtendedUnifiedProjection.hpp 488-505,
    DoubleSphereProjection.hpp 536-553 (a matrix without columns). *)
Definition coefficientsJ (P : projection) (k d : list R) (ph : v4) : res (list v2) :=
  match P with
  | Pinhole l => pin_distJ (lens_of l d) (pin_set sensor k) (facing ph)
  | Omnidirectional l => omni_distJ (lens_of l d) (omni_camera k) (facing ph)
  | ExtendedUnified | DoubleSphere => Val []
  end.
End Camera.

(** ** The error term *)

(** The camera and its design variables: the parameters and which of the two
    image-forming design variables are active (setActive, lines 17-22; the
    shutter plays no part here). *)
Record camera := Camera {
  c_model : projection; c_width : Z; c_height : Z;
  c_intr : list R; c_dist : list R; c_pactive : bool; c_dactive : bool }.
(** _y, _invR, _point *)
Record term := Term { t_y : v2; t_invR : m2; t_point : hexp }.

Definition camera_image (c : camera) : v4 -> res v2 := image (c_width c) (c_height c) (c_model c) (c_intr c) (c_dist c).

(** The calls of JacobianContainer::add: those of the point, and those for the
    camera's design variables (by rows). *)
Inductive camera_dv := ProjectionDv | DistortionDv.
Record jacobians := Jacobians { j_point : list added; j_camera : list (camera_dv * (nat -> list R)) }.

Definition neg_row (J : m23) (r : nat) : v4 :=
  match r with
  | 0 => V4 (- j00 J) (- j01 J) (- j02 J) (-0)
  | 1 => V4 (- j10 J) (- j11 J) (- j12 J) (-0)
  | _ => v4_zero
  end%nat.
Definition neg_cols (cols : list v2) (r : nat) : list R :=
  map (fun c => - match r with 0%nat => u0 c | 1%nat => u1 c | _ => 0 end) cols.

Section Term.
Variable inv3 : m3 -> m3.
Variable inv4 : m4 -> m4.

(** getPredictedMeasurement, ReprojectionError.hpp 97-106 *)
Definition predicted (th : env) (c : camera) (t : term) : res v2 := camera_image c (value_h inv4 th (t_point t)).
(** evaluateErrorImplementation, ReprojectionError.hpp 49-60: the error and the
    returned value.  The flag returned by homogeneousToKeypoint is ignored; when
    the projection refuses the point, hat_y is read without having been set. *)
Definition evaluate_error (th : env) (c : camera) (t : term) : res (v2 * R) :=
  rbind (predicted th c t) (fun hat_y =>
    let e := v2_sub (t_y t) hat_y in Val (e, v2_dot e (m2_vec (t_invR t) e))).

(** CameraDesignVariable::evaluateJacobians, lines 38-54 *)
Definition camera_jacobians (c : camera) (ph : v4) : res (list (camera_dv * (nat -> list R))) :=
  rbind (if c_pactive c
         then rbind (intrinsicsJ (c_width c) (c_height c) (c_model c) (c_intr c) (c_dist c) ph) (fun cols => Val [(ProjectionDv, neg_cols cols)])
         else Val []) (fun A =>
  rbind (if c_dactive c
         then rbind (coefficientsJ (c_width c) (c_height c) (c_model c) (c_intr c) (c_dist c) ph) (fun cols => Val [(DistortionDv, neg_cols cols)])
         else Val []) (fun B => Val (A ++ B))).
(** evaluateJacobiansImplementation, ReprojectionError.hpp 62-77.  The point is
    evaluated first (line 68), so the operand values kept by the nodes of the
    expression are the current ones. *)
Definition evaluate_jacobians (th : env) (c : camera) (t : term) : res jacobians :=
  let ph := value_h inv4 th (t_point t) in
  rbind (imageJ (c_width c) (c_height c) (c_model c) (c_intr c) (c_dist c) ph) (fun J =>
  rbind (camera_jacobians c ph) (fun L =>
    Val (Jacobians (jac_h inv3 inv4 th th (t_point t) (neg_row J)) L))).
(** SimpleReprojectionError.hpp 54-64 *)
Definition simple_jacobians (th : env) (c : camera) (t : term) : res (list added) :=
  let ph := value_h inv4 th (t_point t) in
  rbind (imageJ (c_width c) (c_height c) (c_model c) (c_intr c) (c_dist c) ph) (fun J =>
    Val (jac_h inv3 inv4 th th (t_point t) (neg_row J))).
End Term.

(** getDesignVariables, ReprojectionError.hpp 36-40 with CameraDesignVariable.hpp
    73-81; the shutter's design variable is inserted as well and gets no
    Jacobian here. *)
Definition camera_dvs : list camera_dv := [ProjectionDv; DistortionDv].

(** ** The adapter that makes a projection, distortion or shutter a design variable *)

(** The object's parameters and _backup (an empty matrix at first). *)
Record adapter := Adapter { a_value : list R; a_backup : list R }.
Inductive adapter_op := AUpdate (dp : list R) | ARevert | ASet (v : list R).
Fixpoint vadd (a b : list R) : list R :=
  match a, b with x :: a, y :: b => x + y :: vadd a b | _, _ => [] end.
(** updateImplementation 42-47, revertUpdateImplementation 51-55,
    setParametersImplementation 85-90 for an object with [n] parameters.  An
    array or matrix with fewer numbers is read past its end. *)
Definition adapter_step (n : nat) (a : adapter) (o : adapter_op) : outcome adapter :=
  match o with
  | AUpdate dp => if (length dp <? n)%nat then UB else Ok (Adapter (vadd (a_value a) (firstn n dp)) (a_value a))
  | ARevert => if (length (a_backup a) <? n)%nat then UB else Ok (Adapter (firstn n (a_backup a)) (a_backup a))
  | ASet v => if (length v <? n)%nat then UB else Ok (Adapter (firstn n v) (a_value a))
  end.
Fixpoint adapter_run (n : nat) (a : adapter) (ops : list adapter_op) : outcome adapter :=
  match ops with
  | [] => Ok a
  | o :: ops => do a' <- adapter_step n a o; adapter_run n a' ops
  end.
(** minimalDifferenceImplementation, 92-96: the output argument is not touched. *)
Definition adapter_minimal_difference (a : adapter) (xhat out : list R) : list R := out.
