(** * Model of the inertial error terms

    Models
    - aslam_offline_calibration/kalibr/src/EuclideanError.cpp lines 5-38,
      AccelerometerError.cpp lines 6-66, GyroscopeError.cpp lines 5-91;
    - aslam_offline_calibration/kalibr/python/kalibr_imu_camera_calibration/
      IccSensors.py lines 611-619, 628-629 (weights) and addAccelerometerErrorTerms,
      addGyroscopeErrorTerms of the three IMU models: lines 669-749, 969-1062,
      1119-1178.

    The expressions are those of ExprModel; what the pose curve contributes
    (orientation, acceleration, angular rates) is any expression.

    Simplifications: [double] is modelled by the real numbers; the inverse of a
    multiple of the identity (numpy.linalg.inv) by the multiple with the inverse
    factor; printing and progress bars are left out. *)
From Coq Require Import Reals List.
From Verif Require Import KinModel ExprModel.
Import ListNotations.
Local Open Scope R_scope.

(** _measurement, invR, _predictedMeasurement *)
Record eterm := ETerm { et_z : v3; et_invR : m3; et_pred : eexp }.

Section Inverses.
Variable inv3 : m3 -> m3.
Variable inv4 : m4 -> m4.

(** EuclideanError.cpp lines 19-22, GyroscopeError.cpp 45-50 *)
Definition et_error (th : env) (t : eterm) : v3 := v3_sub (value_e inv4 th (et_pred t)) (et_z t).
(** evaluateChiSquaredError: e^T invR e *)
Definition et_chi2 (th : env) (t : eterm) : R :=
  let e := et_error th t in v3_dot e (m3_vec (et_invR t) e).
(** EuclideanError.cpp lines 25-28, GyroscopeError.cpp 52-55: the prediction is
    not evaluated here; [tc] is the state at its last evaluation. *)
Definition et_jacobians (tc th : env) (t : eterm) : list added := jac0_e inv3 inv4 tc th (et_pred t).
(** The design variables registered by the constructors *)
Definition et_variables (th : env) (t : eterm) : list dvid := dvs_e th (et_pred t).
End Inverses.

(** The design variables change and the term is evaluated; the operand values kept
    by the expression are those of its construction or last evaluation. *)
Inductive eop := EStep (d : steps) | EEvaluate.
Definition eop_run (s : env * env) (o : eop) : env * env :=
  match o with
  | EStep d => (fst s, update (snd s) d)
  | EEvaluate => (snd s, snd s)
  end.

(** ** The predictions of the C++ classes *)

(** AccelerometerError, line 14 *)
Definition accelerometer (C_b_w : rexp) (a_w bias g_w : eexp) : eexp :=
  EAdd (EMul C_b_w (ESub a_w g_w)) bias.
(** The acceleration of a lever arm: dw x r + w x (w x r) *)
Definition lever (w dw r : eexp) : eexp := EAdd (ECross dw r) (ECross w (ECross w r)).
(** AccelerometerErrorEccentric, lines 38-47; [ix], [iy], [iz] are the matrices
    with a single one on the diagonal and nothing to estimate. *)
Definition accelerometer_eccentric (ix iy iz : mexp) (M : mexp) (C_b_w : rexp) (a_w w dw : eexp) (C_i_b : rexp)
    (rx ry rz bias g_w : eexp) : eexp :=
  EAdd (EMat M (EMul C_i_b
    (EAdd (EAdd (EAdd (EMul C_b_w (ESub a_w g_w)) (EMat ix (lever w dw rx))) (EMat iy (lever w dw ry)))
          (EMat iz (lever w dw rz))))) bias.
(** GyroscopeError, line 12 *)
Definition gyroscope (w bias : eexp) : eexp := EAdd w bias.
(** GyroscopeErrorEccentric, lines 76-80 *)
Definition gyroscope_eccentric (M Ma : mexp) (C_b_w : rexp) (a_w w dw : eexp) (C_i_b : rexp) (r bias g_w : eexp) : eexp :=
  EAdd (EMat M (EAdd (EMul C_i_b w)
    (EMat Ma (EMul C_i_b (EAdd (EAdd (EMul C_b_w (ESub a_w g_w)) (ECross dw r)) (ECross w (ECross w r))))))) bias.

(** ** The predictions of the IMU models *)

(** The acceleration minus gravity at [r], in the body frame: lines 698-699, 1041 *)
Definition body_force (C_b_w : rexp) (a_w g_w w dw r : eexp) : eexp :=
  EAdd (EAdd (EMul C_b_w (ESub a_w g_w)) (ECross dw r)) (ECross w (ECross w r)).
(** IccImu: lines 698-700 and 737-738 *)
Definition imu_accel (C_b_w C_i_b : rexp) (a_w g_w w dw r bias : eexp) : eexp :=
  EAdd (EMul C_i_b (body_force C_b_w a_w g_w w dw r)) bias.
Definition imu_gyro (C_i_b : rexp) (w bias : eexp) : eexp := EAdd (EMul C_i_b w) bias.
(** IccScaledMisalignedImu: lines 999-1002 and 1041-1051 *)
Definition scaled_accel (M : mexp) (C_b_w C_i_b : rexp) (a_w g_w w dw r bias : eexp) : eexp :=
  EAdd (EMat M (EMul C_i_b (body_force C_b_w a_w g_w w dw r))) bias.
Definition scaled_gyro (M Ma : mexp) (C_b_w C_i_b C_g_i : rexp) (a_w g_w w dw r bias : eexp) : eexp :=
  EAdd (EAdd (EMat M (EMul (RMul C_g_i C_i_b) w)) (EMat Ma (EMul (RMul C_g_i C_i_b) (body_force C_b_w a_w g_w w dw r)))) bias.
(** IccScaledMisalignedSizeEffectImu: the point of one axis, lines 1152-1154, and
    the prediction, 1159-1164 *)
Definition axis_point (C_i_b : rexp) (r r_i : eexp) : eexp := EAdd r (EMul (RInv C_i_b) r_i).
Definition size_accel (ix iy iz M : mexp) (C_b_w C_i_b : rexp) (a_w g_w w dw r rx_i ry_i rz_i bias : eexp) : eexp :=
  EAdd (EMat M (EAdd (EAdd (EAdd (EMul C_i_b (EMul C_b_w (ESub a_w g_w)))
    (EMat ix (EMul C_i_b (lever w dw (axis_point C_i_b r rx_i)))))
    (EMat iy (EMul C_i_b (lever w dw (axis_point C_i_b r ry_i)))))
    (EMat iz (EMul C_i_b (lever w dw (axis_point C_i_b r rz_i)))))) bias.

(** ** Adding the terms *)

(** One measurement: stamp (in seconds), omega, alpha *)
Record sample := Sample { im_stamp : R; im_omega : v3; im_alpha : v3 }.
(** alphaInvR * weight: lines 616-618, 628-629, 679, 700 *)
Definition weight (sigma scale : R) : m3 := m3_scale (1 / scale) (m3_scale (/ (sigma * sigma)) m3_I).
(** The loops: [value] is alpha or omega of a measurement, [pred] the prediction
    made for a time. *)
Fixpoint add_terms (tmin tmax offset sigma scale : R) (value : sample -> v3) (pred : R -> eexp) (data : list sample)
    : list eterm * nat :=
  match data with
  | [] => ([], 0%nat)
  | im :: data =>
      let tk := im_stamp im + offset in
      let '(added, skipped) := add_terms tmin tmax offset sigma scale value pred data in
      if Rlt_dec tmin tk
      then if Rlt_dec tk tmax then (ETerm (value im) (weight sigma scale) (pred tk) :: added, skipped)
           else (added, S skipped)
      else (added, S skipped)
  end.
