(** * Model of the rolling shutter: keypoint times and adapted covariances

    Models
    - aslam_cv/aslam_time/include/aslam_time/implementation/Duration.hpp lines
      52-66 (fromSec) and include/aslam_time/Time.hpp lines 151-153 (toSec);
    - aslam_cv/aslam_cameras/include/aslam_cameras/cameras/RollingShutter.hpp
      lines 33-36, 78-86, src/RollingShutter.cpp lines 25-50, and
      cameras/GlobalShutter.hpp (no offset, no parameter);
    - aslam_cv/aslam_cameras/include/aslam_cameras/implementation/Frame.hpp lines
      89-94 (keypointTime);
    - aslam_cv/aslam_cv_backend/include/aslam_cv_backend/implementation/
      CameraDesignVariable.hpp lines 83-112 and ScalarExpressionNodeKeypointTime.hpp
      lines 5-58;
    - aslam_cv/aslam_cv_error_terms/include/aslam_cv_error_terms/implementation/
      CovarianceReprojectionError.hpp lines 12-140.

    The times are those of TimeModel, the pose curve that of BpModel, the camera
    that of RpeModel.  [double] is modelled by the real numbers. *)
From Coq Require Import Reals List ZArith.
From Verif Require Import Base TimeModel KinModel TfModel DistModel PinModel BsplModel BpModel ExprModel RpeModel.
Import ListNotations.
Local Open Scope R_scope.

(** ** Seconds *)

(** A conversion of a double to int32_t: towards zero, undefined if it does not fit. *)
Definition to_i32 (x : R) : outcome Z := ret_i32 (if Rle_dec 0 x then Int_part x else (- Int_part (- x))%Z).
(** floor *)
Definition floor_i32 (x : R) : outcome Z := ret_i32 (Int_part x).
(** Duration.hpp 52-66 without HAVE_TRUNC: nsec has the sign of d. *)
Definition duration_fromSec (d : R) : outcome duration :=
  do s <- (if Rle_dec 0 d then floor_i32 d else do f <- floor_i32 d; ret_i32 (f + 1));
  do n <- to_i32 ((d - IZR s) * 1000000000);
  Ok (Dn s n).
(** Time.hpp 151-153 *)
Definition time_toSec (t : time) : R := IZR (tsec t) + 1 / 10 ^ 9 * IZR (tnsec t).

(** ** Shutters *)

Inductive shutter := Global | Rolling (delay : R).
(** temporalOffset: RollingShutter.hpp 33-36, GlobalShutter.hpp 25-28 *)
Definition temporal_offset (s : shutter) (y : v2) : outcome duration :=
  match s with
  | Global => duration_fromSec 0
  | Rolling d => duration_fromSec (d * u1 y)
  end.
(** RollingShutter.cpp 25-27: update; a global shutter has no parameter. *)
Definition shutter_update (s : shutter) (dv : R) : shutter :=
  match s with Global => Global | Rolling d => Rolling (d + dv) end.

(** (stamp + temporalOffset(y)).toSec(): ScalarExpressionNodeKeypointTime.hpp 26-28,
    Frame.hpp 89-94, CovarianceReprojectionError.hpp 117-121. *)
Definition keypoint_time (stamp : time) (s : shutter) (y : v2) : outcome R :=
  do o <- temporal_offset s y; do t <- time_add stamp o; Ok (time_toSec t).

(** The expression returned by CameraDesignVariable::keypointTime, lines 83-104:
    a node, or, when the shutter is not active at that moment, the number. *)
Inductive time_expr := TNode (stamp : time) (y : v2) | TNumber (x : R).
Definition make_keypoint_time (active : bool) (s : shutter) (stamp : time) (y : v2) : outcome time_expr :=
  if active then Ok (TNode stamp y) else do x <- keypoint_time stamp s y; Ok (TNumber x).
(** The value with the shutter's present parameter. *)
Definition time_value (s : shutter) (e : time_expr) : outcome R :=
  match e with TNode stamp y => keypoint_time stamp s y | TNumber x => Ok x end.
(** The call for the shutter's design variable (lines 30-49), none for a number. *)
Definition time_jacobian (e : time_expr) (chain : R) : option R :=
  match e with TNode _ y => Some (chain * u1 y) | TNumber _ => None end.

(** ** The error with adapted covariance *)

(** covarianceMap, lines 46-87: [t] is observationTime(), [p] the value of the
    point.  The products are taken from the right. *)
Definition motion_of (K : rotk) (b : bspline) (t : R) (p : v4) : outcome v4 :=
  do c <- eval_D b t 0;
  do v <- eval_D b t 1;
  let '(T, JT) := curve_to_T_J K c in
  Ok (m46_vec (boxMinus (m4_vec T p)) (m6_vec JT (V6 (BpModel.head3 v) (BpModel.tail3 v)))).
Definition covariance_map (cam : camera) (delay : R) (K : rotk) (b : bspline) (t : R) (p : v4) : outcome (res m2) :=
  do w <- motion_of K b t p;
  Ok (rbind (imageJ (c_width cam) (c_height cam) (c_model cam) (c_intr cam) (c_dist cam) p) (fun J =>
    let j := v2_scale delay (m23_vec J (PinModel.head3 w)) in
    Val (M2 1 (u0 j) 0 (1 + u1 j)))).
(** evaluateErrorImplementation, lines 101-107: the new inverse covariance. *)
Definition adapted_invR (A invR : m2) : res m2 :=
  rbind (m2_inverse invR) (fun C => m2_inverse (m2_mul (m2_mul A C) (m2_tr A))).
(** evaluateErrorImplementation, lines 90-114, for the keypoint (y, invR).
    Without a spline the inverse covariance stays what the constructor of
    ErrorTermFs made it, the identity (ErrorTerm.hpp lines 22-27): the
    assignment in lines 29-31 is commented out. *)
Definition adapted_error (cam : camera) (delay : R) (curve : option (rotk * bspline)) (t : R) (y : v2) (invR : m2) (p : v4) : outcome (res (v2 * R)) :=
  let weigh (W : m2) := rbind (camera_image cam p) (fun hat_y => let e := v2_sub y hat_y in Val (e, v2_dot e (m2_vec W e))) in
  match curve with
  | None => Ok (weigh m2_I)
  | Some (K, b) => do A <- covariance_map cam delay K b t p; Ok (rbind A (fun A => rbind (adapted_invR A invR) weigh))
  end.
