(** * Model of pose curves

    Models aslam_nonparametric_estimation/aslam_bsplines/src/BSplinePose.cpp over
    the reals: a B-spline (BsplModel) whose six rows are a position and three
    rotation parameters, and a RotationalKinematics object (RotModel).

    - A rotation object is the record of its virtual functions.  [kJ] is None
      where the code's Jacobian divides by zero (RotationVector.cpp at zero).
    - A Jacobian with 3, 4 or 6 rows is the function from the column number to
      the column.  The number of columns is 6 * order.
    - The Jacobian and index outputs are always requested.
    - initPoseSpline2, initPoseSpline3, initPoseSplineSparse and
      initPoseSplineSparseKnots (lines 423-441) only pass their arguments on to
      the fits of BsplModel's class and are not repeated; nor are
      initPoseSpline and addPoseSegment2, whose curve functions are not
      modelled. *)
From Coq Require Import Reals List Arith ZArith Bool.
From Verif Require Import Base KinModel RotModel TfModel BsplModel BshModel.
Import ListNotations.
Local Open Scope R_scope.

(** ** sm_kinematics RotationalKinematics.hpp lines 14-43 *)
Record rotk := Rotk {
  kC : v3 -> m3;               (* parametersToRotationMatrix *)
  kS : v3 -> m3;               (* parametersToSMatrix, and the output S *)
  kP : m3 -> v3;               (* rotationMatrixToParameters *)
  kW : v3 -> v3 -> v3;         (* angularVelocityAndJacobian: the value *)
  kJ : v3 -> v3 -> option (m3 * m3)  (* ... and the 3x6 Jacobian *)
}.
Definition k_zyx : rotk := Rotk zyx_C zyx_S zyx_params zyx_omega (fun p v => Some (zyx_J p v)).
Definition k_ypr : rotk := Rotk ypr_C ypr_S ypr_params ypr_omega (fun p v => Some (ypr_J p v)).
Definition k_zxy : rotk := Rotk zxy_C zxy_S zxy_params zxy_omega (fun p v => Some (zxy_J p v)).
Definition k_er : rotk := Rotk er_C er_S er_params er_omega (fun p v => Some (er_J p v)).
Definition k_rv : rotk := Rotk rv_C rv_S rv_params rv_omega rv_J.

(** [c.head<3>()] and [c.tail<3>()] of a vector of six. *)
Definition head3 (c : vec) : v3 := V3 (c 0%nat) (c 1%nat) (c 2%nat).
Definition tail3 (c : vec) : v3 := V3 (c 3%nat) (c 4%nat) (c 5%nat).
(** Column [m] of a matrix with six rows. *)
Definition column (J : mat) (m : nat) : v6 := V6 (head3 (fun r => J r m)) (tail3 (fun r => J r m)).

(** lines 384-392 *)
Definition curve_to_T (K : rotk) (c : vec) : m4 := rt (kC K (tail3 c)) (head3 c).
(** lines 394-412 *)
Definition curve_to_T_J (K : rotk) (p : vec) : m4 * m6 :=
  let s := kS K (tail3 p) in
  (rt (kC K (tail3 p)) (head3 p), M6 m3_I (m3_mul (m3_neg (crossMx (head3 p))) s) m3_zero s).
(** lines 414-421 *)
Definition T_to_curve (K : rotk) (T : m4) : vec := fun r =>
  let t := topRight T in let p := kP K (topLeft T) in
  match r with
  | 0 => x0 t | 1 => x1 t | 2 => x2 t | 3 => x0 p | 4 => x1 p | _ => x2 p
  end%nat.

(** ** Poses *)

(** lines 21-24 *)
Definition transformation (K : rotk) (b : bspline) (t : R) : outcome m4 :=
  do c <- eval b t; Ok (curve_to_T K c).
(** lines 26-41 *)
Definition transformation_J (K : rotk) (b : bspline) (t : R) : outcome (m4 * (nat -> v6) * list nat) :=
  do '(p, js, idx) <- eval_D_and_jacobian b t 0;
  let '(T, jt) := curve_to_T_J K p in
  Ok (T, fun m => m6_vec jt (column js m), idx).
(** lines 43-61 *)
Definition orientation_J (K : rotk) (b : bspline) (t : R) : outcome (m3 * (nat -> v3) * list nat) :=
  do '(p, js, idx) <- eval_D_and_jacobian b t 0;
  Ok (kC K (tail3 p), fun m => m3_vec (kS K (tail3 p)) (tl3 (column js m)), idx).
(** lines 64-83 *)
Definition inverse_orientation_J (K : rotk) (b : bspline) (t : R) : outcome (m3 * (nat -> v3) * list nat) :=
  do '(p, js, idx) <- eval_D_and_jacobian b t 0;
  let c := m3_tr (kC K (tail3 p)) in
  Ok (c, fun m => m3_vec (m3_mul (m3_neg c) (kS K (tail3 p))) (tl3 (column js m)), idx).
(** lines 97-98, 117-118: transpose the rotation, then the translation. *)
Definition invert (T : m4) : m4 :=
  let c := m3_tr (topLeft T) in rt c (m3_vec (m3_neg c) (topRight T)).
Definition m6_neg (A : m6) : m6 := M6 (m3_neg (c00 A)) (m3_neg (c01 A)) (m3_neg (c10 A)) (m3_neg (c11 A)).
(** lines 86-112 *)
Definition inverse_transformation_J (K : rotk) (b : bspline) (t : R) : outcome (m4 * (nat -> v6) * list nat) :=
  do '(p, js, _) <- eval_D_and_jacobian b t 0;
  let '(T, jt) := curve_to_T_J K p in
  let T := invert T in
  do idx <- local_coef_indices b t;
  Ok (T, fun m => m6_vec (m6_mul (m6_neg (boxTimes T)) jt) (column js m), idx).
(** lines 114-120 *)
Definition inverse_transformation (K : rotk) (b : bspline) (t : R) : outcome m4 :=
  do c <- eval b t; Ok (invert (curve_to_T K c)).
(** lines 124-136 *)
Definition transform_vector_J (K : rotk) (b : bspline) (t : R) (v : v4) : outcome (v4 * (nat -> v4) * list nat) :=
  do '(T, jt, idx) <- transformation_J K b t;
  let vn := m4_vec T v in
  Ok (vn, fun m => m46_vec (boxMinus vn) (jt m), idx).
(** lines 139-142, 146-149, 151-154 *)
Definition position (b : bspline) (t : R) : outcome v3 := do c <- eval b t; Ok (head3 c).
Definition orientation (K : rotk) (b : bspline) (t : R) : outcome m3 := do c <- eval b t; Ok (kC K (tail3 c)).
Definition inverse_orientation (K : rotk) (b : bspline) (t : R) : outcome m3 :=
  do c <- eval b t; Ok (m3_tr (kC K (tail3 c))).

(** ** Velocities and accelerations *)

(** lines 158-161, 170-173 *)
Definition linear_velocity (b : bspline) (t : R) : outcome v3 := do c <- eval_D b t 1; Ok (head3 c).
Definition linear_acceleration (b : bspline) (t : R) : outcome v3 := do c <- eval_D b t 2; Ok (head3 c).
(** lines 163-168, 175-180 *)
Definition linear_velocity_body (K : rotk) (b : bspline) (t : R) : outcome v3 :=
  do r <- eval_D b t 0; do v <- eval_D b t 1; Ok (m3_vec (m3_tr (kC K (tail3 r))) (head3 v)).
Definition linear_acceleration_body (K : rotk) (b : bspline) (t : R) : outcome v3 :=
  do r <- eval_D b t 0; do a <- eval_D b t 2; Ok (m3_vec (m3_tr (kC K (tail3 r))) (head3 a)).
(** lines 182-191: the Jacobian is cut to its first three rows. *)
Definition linear_acceleration_J (b : bspline) (t : R) : outcome (v3 * (nat -> v3) * list nat) :=
  do '(a, j, idx) <- eval_D_and_jacobian b t 2;
  Ok (head3 a, fun m => hd3 (column j m), idx).
(** lines 195-204 *)
Definition angular_velocity_w (K : rotk) (b : bspline) (t : R) : outcome v3 :=
  do r <- eval_D b t 0; do v <- eval_D b t 1;
  Ok (m3_vec (m3_neg (kS K (tail3 r))) (tail3 v)).
(** lines 207-219 and 288-300: the derivative of order [d] = 1, 2 *)
Definition angular_rate_body (d : Z) (K : rotk) (b : bspline) (t : R) : outcome v3 :=
  do r <- eval_D b t 0; do v <- eval_D b t d;
  Ok (m3_vec (m3_mul (m3_neg (m3_tr (kC K (tail3 r)))) (kS K (tail3 r))) (tail3 v)).
Definition angular_velocity_body := angular_rate_body 1.
Definition angular_acceleration_body := angular_rate_body 2.
(** lines 235-238: the rotation rows of Jp on top of those of Jpdot. *)
Definition stacked (jp jd : mat) (m : nat) : v6 := V6 (tl3 (column jp m)) (tl3 (column jd m)).
(** Jo * column, for the 3x6 matrix Jo *)
Definition m36_vec (J : m3 * m3) (d : v6) : v3 := v3_add (m3_vec (fst J) (hd3 d)) (m3_vec (snd J) (tl3 d)).
(** lines 222-253 and 303-331 *)
Definition angular_rate_body_J (d : Z) (K : rotk) (b : bspline) (t : R) :
    outcome (v3 * option (nat -> v3) * list nat) :=
  do '(p, jp, _) <- eval_D_and_jacobian b t 0;
  do '(pd, jd, idx) <- eval_D_and_jacobian b t d;
  do '(c, jr, _) <- inverse_orientation_J K b t;
  let w := m3_vec (m3_neg c) (kW K (tail3 p) (tail3 pd)) in
  let J := match kJ K (tail3 p) (tail3 pd) with
    | None => None
    | Some jo =>
        let jo := (m3_mul (m3_neg c) (fst jo), m3_mul (m3_neg c) (snd jo)) in
        Some (fun m => v3_add (m36_vec jo (stacked jp jd m)) (m3_vec (crossMx w) (jr m)))
    end in
  Ok (w, J, idx).
Definition angular_velocity_body_J := angular_rate_body_J 1.
Definition angular_acceleration_body_J := angular_rate_body_J 2.
(** lines 257-285 and 335-359 *)
Definition angular_rate_J (d : Z) (K : rotk) (b : bspline) (t : R) :
    outcome (v3 * option (nat -> v3) * list nat) :=
  do '(p, jp, _) <- eval_D_and_jacobian b t 0;
  do '(pd, jd, idx) <- eval_D_and_jacobian b t d;
  let J := match kJ K (tail3 p) (tail3 pd) with
    | None => None
    | Some jo => Some (fun m => m36_vec jo (stacked jp jd m))
    end in
  Ok (kW K (tail3 p) (tail3 pd), J, idx).
Definition angular_velocity_w_J := angular_rate_J 1.
Definition angular_acceleration_w_J := angular_rate_J 2.

(** ** Growing: lines 369-374 *)
Definition add_pose_segment (solve : nat -> mat -> vec -> vec) (junk : vec) (K : rotk)
    (b : bspline) (t : R) (T : m4) : outcome bspline :=
  add_segment solve junk b t 6 (T_to_curve K T).
