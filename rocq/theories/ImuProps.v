(** * C85: inertial error terms *)
From Coquelicot Require Import Coquelicot.
From Coq Require Import Reals List Arith ZArith Lia Psatz.
From Verif Require Import Base KinModel KinSpec KinProofs KinExp KinCurve RotModel RotSpec RotEuler RotVec TfModel TfSpec TfProofs
  BsplModel BsplSpec BsplProofs BsdProofs BsplProps BsdProps BpModel BpSpec BpProofs BpProps ExprModel ExprSpec ExprProofs ExprChart ExprProps
  TfCurve ImuModel ImuSpec ImuProofs ImuCurve.
Import ListNotations.
Local Open Scope R_scope.

(** ** What the terms measure *)

Lemma body_force_value inv4 th P Q t C_b_w a_w g_w w dw r dwt C A : SO3 (Q t) ->
  follows inv4 th P Q t C_b_w a_w w dwt -> value_e inv4 th dw = dwt \/ value_e inv4 th r = v3_zero ->
  accelerates (mounted P Q (value_e inv4 th r)) t A ->
  m3_vec C (value_e inv4 th (body_force C_b_w a_w g_w w dw r)) = specific_force (sensor_axes Q C t) A (value_e inv4 th g_w).
Proof.
  intros S (EC & B) DW HA. rewrite (mounted_force _ _ _ _ _ _ _ C A (value_e inv4 th g_w) S B HA).
  change (value_e inv4 th (body_force C_b_w a_w g_w w dw r)) with
    (v3_add (v3_add (m3_vec (value_r inv4 th C_b_w) (v3_sub (value_e inv4 th a_w) (value_e inv4 th g_w)))
       (m3_vec (crossMx (value_e inv4 th dw)) (value_e inv4 th r)))
       (m3_vec (crossMx (value_e inv4 th w)) (m3_vec (crossMx (value_e inv4 th w)) (value_e inv4 th r)))).
  rewrite EC. f_equal. unfold swing.
  destruct DW as [ -> | -> ]; [ generalize (value_e inv4 th r) | ];
    generalize (m3_vec (m3_tr (Q t)) (v3_sub (value_e inv4 th a_w) (value_e inv4 th g_w))).
  - generalize (value_e inv4 th w). kring.
  - generalize (value_e inv4 th w), (value_e inv4 th dw). kring.
Qed.

(** The accelerometer term is the difference between the specific force at the
    place of the sensor, in its own axes (scaled and misaligned by M, plus bias),
    and the measurement. *)
Theorem C85_accelerometer inv4 th P Q t C_b_w C_i_b a_w g_w w dw r bias M dwt z invR : SO3 (Q t) ->
  follows inv4 th P Q t C_b_w a_w w dwt -> value_e inv4 th dw = dwt \/ value_e inv4 th r = v3_zero ->
  (exists A, accelerates (mounted P Q (value_e inv4 th r)) t A) /\
  forall A, accelerates (mounted P Q (value_e inv4 th r)) t A ->
  let f := specific_force (sensor_axes Q (value_r inv4 th C_i_b) t) A (value_e inv4 th g_w) in
  et_error inv4 th (ETerm z invR (imu_accel C_b_w C_i_b a_w g_w w dw r bias)) = v3_sub (v3_add f (value_e inv4 th bias)) z /\
  et_error inv4 th (ETerm z invR (scaled_accel M C_b_w C_i_b a_w g_w w dw r bias)) =
    v3_sub (v3_add (m3_vec (value_m th M) f) (value_e inv4 th bias)) z.
Proof.
  intros S F DW. split; [ eexists; apply (lever_acceleration _ _ _ _ _ _ _ (proj2 F)) | ]. intros A HA f.
  assert (E : m3_vec (value_r inv4 th C_i_b) (value_e inv4 th (body_force C_b_w a_w g_w w dw r)) = f)
    by exact (body_force_value _ _ _ _ _ _ _ _ _ _ _ _ _ _ S F DW HA).
  unfold et_error, imu_accel, scaled_accel. cbn [et_pred et_z].
  change (value_e inv4 th (EAdd ?x ?y)) with (v3_add (value_e inv4 th x) (value_e inv4 th y)).
  change (value_e inv4 th (EMat ?x ?y)) with (m3_vec (value_m th x) (value_e inv4 th y)).
  change (value_e inv4 th (EMul ?x ?y)) with (m3_vec (value_r inv4 th x) (value_e inv4 th y)).
  rewrite E. split; reflexivity.
Qed.
Print Assumptions C85_accelerometer.

(** The C++ class for a sensor at the origin of the body, with the body's axes. *)
Theorem C85_accelerometer_class inv4 th P Q t C_b_w a_w g_w w bias dwt z invR : SO3 (Q t) ->
  follows inv4 th P Q t C_b_w a_w w dwt ->
  et_error inv4 th (ETerm z invR (accelerometer C_b_w a_w bias g_w)) =
  v3_sub (v3_add (specific_force (Q t) (value_e inv4 th a_w) (value_e inv4 th g_w)) (value_e inv4 th bias)) z.
Proof.
  intros S (EC & B). unfold et_error, accelerometer, specific_force. cbn [et_pred et_z]. rewrite <- EC. reflexivity.
Qed.
Print Assumptions C85_accelerometer_class.

(** The gyroscope terms: the angular velocity of the sensor's own axes; with
    scaling, misalignment and sensitivity to acceleration. *)
Theorem C85_gyroscope inv4 th P Q t C_b_w C_i_b C_g_i a_w g_w w dw r bias M Ma dwt z invR :
  SO3 (Q t) -> SO3 (value_r inv4 th C_i_b) -> SO3 (value_r inv4 th C_g_i) ->
  follows inv4 th P Q t C_b_w a_w w dwt -> value_e inv4 th dw = dwt \/ value_e inv4 th r = v3_zero ->
  let axes := sensor_axes Q (value_r inv4 th C_i_b) in
  let gaxes := sensor_axes Q (m3_mul (value_r inv4 th C_g_i) (value_r inv4 th C_i_b)) in
  (exists u, turns axes t u) /\ (exists u, turns gaxes t u) /\
  forall u ug A, turns axes t u -> turns gaxes t ug -> accelerates (mounted P Q (value_e inv4 th r)) t A ->
  et_error inv4 th (ETerm z invR (imu_gyro C_i_b w bias)) = v3_sub (v3_add u (value_e inv4 th bias)) z /\
  et_error inv4 th (ETerm z invR (gyroscope (EMul C_i_b w) bias)) = v3_sub (v3_add u (value_e inv4 th bias)) z /\
  et_error inv4 th (ETerm z invR (scaled_gyro M Ma C_b_w C_i_b C_g_i a_w g_w w dw r bias)) =
    v3_sub (v3_add (v3_add (m3_vec (value_m th M) ug)
      (m3_vec (value_m th Ma) (specific_force (gaxes t) A (value_e inv4 th g_w)))) (value_e inv4 th bias)) z /\
  et_error inv4 th (ETerm z invR (gyroscope_eccentric M Ma C_b_w a_w w dw C_i_b r bias g_w)) =
    v3_sub (v3_add (m3_vec (value_m th M) (v3_add u
      (m3_vec (value_m th Ma) (specific_force (axes t) A (value_e inv4 th g_w))))) (value_e inv4 th bias)) z.
Proof.
  intros S SI SG F DW axes gaxes. destruct F as (EC & B). pose proof B as (_ & W & EW & HW & _).
  pose proof (locally_singleton _ _ HW) as T. cbv beta in T. rewrite EW in T.
  pose proof (SO3_mul _ _ SG SI) as SGI.
  pose proof (mounted_turn _ _ _ _ SI T) as T1. pose proof (mounted_turn _ _ _ _ SGI T) as T2.
  split; [ eexists; exact T1 | split; [ eexists; exact T2 | ] ]. intros u ug A HU HG HA.
  assert (SA : SO3 (axes t)) by (apply SO3_mul; [ exact S | apply SO3_tr, SI ]).
  assert (SGA : SO3 (gaxes t)) by (apply SO3_mul; [ exact S | apply SO3_tr, SGI ]).
  rewrite (turns_unique _ _ _ _ SA HU T1), (turns_unique _ _ _ _ SGA HG T2).
  assert (E1 := body_force_value inv4 th P Q t C_b_w a_w g_w w dw r dwt (value_r inv4 th C_i_b) A S (conj EC B) DW HA).
  assert (E2 := body_force_value inv4 th P Q t C_b_w a_w g_w w dw r dwt (m3_mul (value_r inv4 th C_g_i) (value_r inv4 th C_i_b)) A S (conj EC B) DW HA).
  change (sensor_axes Q (value_r inv4 th C_i_b) t) with (axes t) in E1.
  change (sensor_axes Q (m3_mul (value_r inv4 th C_g_i) (value_r inv4 th C_i_b)) t) with (gaxes t) in E2.
  rewrite <- E1, <- E2. split; [ reflexivity | split; [ reflexivity | split; reflexivity ] ].
Qed.
Print Assumptions C85_gyroscope.

(** The model with one lever arm per axis: axis k of the sensor reads component k
    of the specific force at its own point. *)
Theorem C85_size_effect inv4 th P Q t C_b_w C_i_b a_w g_w w dw r rx ry rz bias ix iy iz M dwt z invR :
  SO3 (Q t) -> follows inv4 th P Q t C_b_w a_w w dwt -> value_e inv4 th dw = dwt ->
  selects th ix 0 -> selects th iy 1 -> selects th iz 2 ->
  let C := value_r inv4 th C_i_b in
  let point := fun r_i => mounted P Q (v3_add (value_e inv4 th r) (m3_vec (m3_tr C) (value_e inv4 th r_i))) in
  forall Ax Ay Az, accelerates (point rx) t Ax -> accelerates (point ry) t Ay -> accelerates (point rz) t Az ->
  let f := fun A => specific_force (sensor_axes Q C t) A (value_e inv4 th g_w) in
  et_error inv4 th (ETerm z invR (size_accel ix iy iz M C_b_w C_i_b a_w g_w w dw r rx ry rz bias)) =
  v3_sub (v3_add (m3_vec (value_m th M) (V3 (x0 (f Ax)) (x1 (f Ay)) (x2 (f Az)))) (value_e inv4 th bias)) z.
Proof.
  intros S (EC & B) DW IX IY IZ C point Ax Ay Az HX HY HZ f.
  unfold f. unfold point in HX, HY, HZ.
  rewrite (mounted_force _ _ _ _ _ _ _ C Ax (value_e inv4 th g_w) S B HX), (mounted_force _ _ _ _ _ _ _ C Ay (value_e inv4 th g_w) S B HY),
    (mounted_force _ _ _ _ _ _ _ C Az (value_e inv4 th g_w) S B HZ).
  unfold et_error. cbn [et_pred et_z].
  match goal with |- v3_sub ?x _ = _ => change x with
    (v3_add (m3_vec (value_m th M) (v3_add (v3_add (v3_add
       (m3_vec C (m3_vec (value_r inv4 th C_b_w) (v3_sub (value_e inv4 th a_w) (value_e inv4 th g_w))))
       (m3_vec (value_m th ix) (m3_vec C (swing (value_e inv4 th w) (value_e inv4 th dw) (v3_add (value_e inv4 th r) (m3_vec (m3_tr C) (value_e inv4 th rx)))))))
       (m3_vec (value_m th iy) (m3_vec C (swing (value_e inv4 th w) (value_e inv4 th dw) (v3_add (value_e inv4 th r) (m3_vec (m3_tr C) (value_e inv4 th ry)))))))
       (m3_vec (value_m th iz) (m3_vec C (swing (value_e inv4 th w) (value_e inv4 th dw) (v3_add (value_e inv4 th r) (m3_vec (m3_tr C) (value_e inv4 th rz))))))))
      (value_e inv4 th bias)) end.
  rewrite EC, IX, IY, IZ, DW.
  f_equal. f_equal. f_equal.
  generalize (m3_vec (m3_tr (Q t)) (v3_sub (value_e inv4 th a_w) (value_e inv4 th g_w))).
  generalize (v3_add (value_e inv4 th r) (m3_vec (m3_tr C) (value_e inv4 th rx))).
  generalize (v3_add (value_e inv4 th r) (m3_vec (m3_tr C) (value_e inv4 th ry))).
  generalize (v3_add (value_e inv4 th r) (m3_vec (m3_tr C) (value_e inv4 th rz))).
  intros pz py px v.
  generalize (swing (value_e inv4 th w) dwt px), (swing (value_e inv4 th w) dwt py), (swing (value_e inv4 th w) dwt pz).
  generalize C. clear. kring.
Qed.
Print Assumptions C85_size_effect.

(** The C++ class with one lever arm per axis takes component k of the specific
    force at the k-th point along the axes of the body, and turns the result. *)
Theorem C85_eccentric_class inv4 th P Q t C_b_w C_i_b a_w g_w w dw rx ry rz bias ix iy iz M dwt z invR :
  SO3 (Q t) -> follows inv4 th P Q t C_b_w a_w w dwt -> value_e inv4 th dw = dwt ->
  selects th ix 0 -> selects th iy 1 -> selects th iz 2 ->
  let point := fun r => mounted P Q (value_e inv4 th r) in
  forall Ax Ay Az, accelerates (point rx) t Ax -> accelerates (point ry) t Ay -> accelerates (point rz) t Az ->
  let f := fun A => specific_force (sensor_axes Q m3_I t) A (value_e inv4 th g_w) in
  et_error inv4 th (ETerm z invR (accelerometer_eccentric ix iy iz M C_b_w a_w w dw C_i_b rx ry rz bias g_w)) =
  v3_sub (v3_add (m3_vec (value_m th M) (m3_vec (value_r inv4 th C_i_b) (V3 (x0 (f Ax)) (x1 (f Ay)) (x2 (f Az))))) (value_e inv4 th bias)) z.
Proof.
  intros S (EC & B) DW IX IY IZ point Ax Ay Az HX HY HZ f. unfold f. unfold point in HX, HY, HZ.
  rewrite (mounted_force _ _ _ _ _ _ _ m3_I Ax (value_e inv4 th g_w) S B HX), (mounted_force _ _ _ _ _ _ _ m3_I Ay (value_e inv4 th g_w) S B HY),
    (mounted_force _ _ _ _ _ _ _ m3_I Az (value_e inv4 th g_w) S B HZ).
  unfold et_error. cbn [et_pred et_z].
  match goal with |- v3_sub ?x _ = _ => change x with
    (v3_add (m3_vec (value_m th M) (m3_vec (value_r inv4 th C_i_b) (v3_add (v3_add (v3_add
       (m3_vec (value_r inv4 th C_b_w) (v3_sub (value_e inv4 th a_w) (value_e inv4 th g_w)))
       (m3_vec (value_m th ix) (swing (value_e inv4 th w) (value_e inv4 th dw) (value_e inv4 th rx))))
       (m3_vec (value_m th iy) (swing (value_e inv4 th w) (value_e inv4 th dw) (value_e inv4 th ry))))
       (m3_vec (value_m th iz) (swing (value_e inv4 th w) (value_e inv4 th dw) (value_e inv4 th rz))))))
      (value_e inv4 th bias)) end.
  rewrite EC, IX, IY, IZ, DW. f_equal. f_equal. f_equal. f_equal.
  generalize (m3_vec (m3_tr (Q t)) (v3_sub (value_e inv4 th a_w) (value_e inv4 th g_w))).
  generalize (swing (value_e inv4 th w) dwt (value_e inv4 th rx)), (swing (value_e inv4 th w) dwt (value_e inv4 th ry)), (swing (value_e inv4 th w) dwt (value_e inv4 th rz)).
  clear. kring.
Qed.
Print Assumptions C85_eccentric_class.

(** A body that spins around its z axis, and an IMU turned against it. *)
Definition spin (s : R) : m3 := rot_z s.
Definition still (s : R) : v3 := v3_zero.
Lemma spin_motion : body_motion still spin 0 v3_zero (V3 0 0 1) v3_zero.
Proof.
  split.
  - exists (fun _ => v3_zero). split; [ | apply v3_derive_const ]. exists (mkposreal 1 Rlt_0_1). intros s _. apply v3_derive_const.
  - exists (fun _ => V3 0 0 1). split; [ reflexivity | ]. split; [ | apply v3_derive_const ].
    exists (mkposreal 1 Rlt_0_1). intros s _. unfold turns, spin, rot_z, m3_derive. kunf.
    split; [ | split ]; (split; [ | split ]); auto_derive; try exact Logic.I; match goal with |- ?a = ?b => change (@eq R a b) end; ring.
Qed.
Lemma spin_0 : spin 0 = m3_I.
Proof. unfold spin, rot_z. rewrite cos_0, sin_0. unfold m3_I. f_equal; ring. Qed.
(** Quaternion 0 is the identity, quaternion 1 a third of a turn. *)
Definition spinning : env := Env (fun i => match i with 0%nat => V4 0 0 0 1 | _ => V4 (1/2) (1/2) (1/2) (1/2) end) (fun _ => v3_zero) (fun _ => V4 0 0 0 1) (fun _ => 1) (fun _ => (1, m3_I))
  (fun i => match i with 0%nat => M3 1 0 0 0 0 0 0 0 0 | 1%nat => M3 0 0 0 0 1 0 0 0 0 | 2%nat => M3 0 0 0 0 0 0 0 0 1 | _ => m3_I end) (fun _ => []).
Lemma spinning_follows inv4 : follows inv4 spinning still spin 0 (RDv 0) (EConst v3_zero) (EConst (V3 0 0 1)) v3_zero.
Proof.
  split; [ | exact spin_motion ]. rewrite spin_0. cbn [value_r spinning vq]. unfold quat2r, m3_I. kunf. cbn. f_equal; field.
Qed.

(** Of the turned IMU, that class does not predict what the axes measure: a
    perfect measurement has an error. *)
Theorem C85_eccentric_refuted : exists inv4 th P Q t C_b_w C_i_b a_w g_w w dw rx ry rz bias Ax Ay Az,
  SO3 (Q t) /\ SO3 (value_r inv4 th C_i_b) /\ follows inv4 th P Q t C_b_w a_w w (value_e inv4 th dw) /\
  selects th (MDv 0) 0 /\ selects th (MDv 1) 1 /\ selects th (MDv 2) 2 /\ value_m th (MDv 3) = m3_I /\
  value_e inv4 th bias = v3_zero /\
  accelerates (mounted P Q (value_e inv4 th rx)) t Ax /\ accelerates (mounted P Q (value_e inv4 th ry)) t Ay /\
  accelerates (mounted P Q (value_e inv4 th rz)) t Az /\
  let f := fun A => specific_force (sensor_axes Q (value_r inv4 th C_i_b) t) A (value_e inv4 th g_w) in
  let z := V3 (x0 (f Ax)) (x1 (f Ay)) (x2 (f Az)) in
  et_error inv4 th (ETerm z m3_I (accelerometer_eccentric (MDv 0) (MDv 1) (MDv 2) (MDv 3) C_b_w a_w w dw C_i_b rx ry rz bias g_w)) <> v3_zero.
Proof.
  exists minv4, spinning, still, spin, 0, (RDv 0), (RDv 1), (EConst v3_zero), (EConst v3_zero), (EConst (V3 0 0 1)), (EConst v3_zero),
    (EConst (V3 1 0 0)), (EConst v3_zero), (EConst v3_zero), (EConst v3_zero).
  pose proof (fun r => lever_acceleration still spin 0 _ _ _ r spin_motion) as LA.
  eexists. eexists. eexists.
  split; [ rewrite spin_0; apply SO3_I | ].
  split. { cbn [value_r spinning vq]. split; [ unfold quat2r; kunf; cbn; f_equal; field | unfold quat2r; kunf; cbn; field ]. }
  split; [ apply spinning_follows | ].
  split; [ reflexivity | ]. split; [ reflexivity | ]. split; [ reflexivity | ]. split; [ reflexivity | ]. split; [ reflexivity | ].
  split; [ apply LA | ]. split; [ apply LA | ]. split; [ apply LA | ].
  intros f z E.
  assert (F := C85_eccentric_class minv4 spinning still spin 0 (RDv 0) (RDv 1) (EConst v3_zero) (EConst v3_zero) (EConst (V3 0 0 1)) (EConst v3_zero)
    (EConst (V3 1 0 0)) (EConst v3_zero) (EConst v3_zero) (EConst v3_zero) (MDv 0) (MDv 1) (MDv 2) (MDv 3) v3_zero z m3_I
    ltac:(rewrite spin_0; apply SO3_I) (spinning_follows minv4) eq_refl eq_refl eq_refl eq_refl _ _ _ (LA _) (LA _) (LA _)).
  cbv zeta in F. rewrite E in F. clear E. apply (f_equal x2) in F. unfold z, f in F.
  revert F. unfold specific_force, sensor_axes, swing. rewrite spin_0. cbn [value_e value_r value_m spinning vq vm]. unfold quat2r. kunf. cbn. lra.
Qed.
Print Assumptions C85_eccentric_refuted.

(** ** Pose curves *)

(** On every pose curve, between two knots: what the curve returns as orientation,
    acceleration and angular velocity is a motion of a body. *)
Theorem C85_curve K dom k l C c b t j inv4 th C_b_w a_w w : parametrises K dom ->
  built k l 6 C c b -> nondecreasing l -> long_end k l -> (k - 1 <= j < C)%nat -> knot l j < t < knot l (j + 1) ->
  (forall s, knot l j < s < knot l (j + 1) -> rotation_ok dom b s) ->
  (exists Q, orientation K b t = Ok Q /\ value_r inv4 th C_b_w = m3_tr Q) ->
  linear_acceleration b t = Ok (value_e inv4 th a_w) -> angular_velocity_body K b t = Ok (value_e inv4 th w) ->
  exists P Q W dw, SO3 (Q t) /\
    (forall s, knot l j < s < knot l (j + 1) -> position b s = Ok (P s) /\ orientation K b s = Ok (Q s) /\ angular_velocity_body K b s = Ok (W s)) /\
    v3_derive W t dw /\ follows inv4 th P Q t C_b_w a_w w dw.
Proof.
  intros PK H ND LE J I RO (Qt & EQ & EV) EA EW.
  destruct (curve_motion K dom k l C c b t j PK H ND LE J I RO) as (P & Q & W & a & dw & V & S & LA & DW & B).
  exists P, Q, W, dw. split; [ exact S | split; [ exact V | split; [ exact DW | ] ] ].
  destruct (V t I) as (_ & V2 & V3'). assert (Q t = Qt) by congruence. assert (a = value_e inv4 th a_w) by congruence.
  assert (W t = value_e inv4 th w) by congruence. subst Qt a. split; [ exact EV | ]. match goal with X : W t = _ |- _ => rewrite <- X end. exact B.
Qed.
Print Assumptions C85_curve.

(** With the curve's own angular acceleration and a lever arm, a perfect
    measurement has an error. *)
Theorem C85_curve_refuted : exists b t P Q a w dw r A th C_b_w,
  built 2 knots4 6 2 BpProps.turning b /\ first_time 2 knots4 < t < last_time 2 knots4 /\
  (forall s, first_time 2 knots4 < s < last_time 2 knots4 -> position b s = Ok (P s) /\ orientation k_ypr b s = Ok (Q s)) /\
  linear_acceleration b t = Ok a /\ angular_velocity_body k_ypr b t = Ok w /\ angular_acceleration_body k_ypr b t = Ok dw /\
  SO3 (Q t) /\ value_r minv4 th C_b_w = m3_tr (Q t) /\ value_r minv4 th (RDv 0) = m3_I /\ accelerates (mounted P Q r) t A /\
  et_error minv4 th (ETerm (specific_force (sensor_axes Q m3_I t) A v3_zero) m3_I
    (imu_accel C_b_w (RDv 0) (EConst a) (EConst v3_zero) (EConst w) (EConst dw) (EConst r) (EConst v3_zero))) <> v3_zero.
Proof.
  destruct C69_angular_acceleration_refuted as (b & t & dw & W0 & H & I & HW & HD & ND).
  destruct knots4_times as (T1 & T2 & T3 & LE).
  assert (IK : forall s, first_time 2 knots4 < s < last_time 2 knots4 <-> knot knots4 1 < s < knot knots4 (1 + 1)).
  { intros s. rewrite T1, T2. unfold knot, knots4. cbn [nth Nat.add]. reflexivity. }
  destruct (curve_motion k_ypr _ 2 knots4 2 BpProps.turning b t 1 (proj1 (proj2 C69_kinds)) H knots4_nd LE ltac:(lia) (proj1 (IK t) I))
    as (P & Q & W & a & dwt & V & S & LA & DW & B); [ intros s _ x _; exact Logic.I | ].
  assert (EW : forall s, first_time 2 knots4 < s < last_time 2 knots4 -> W s = W0 s).
  { intros s Is. destruct (V s (proj1 (IK s) Is)) as (_ & _ & V3'). pose proof (HW s Is). congruence. }
  assert (NE : v3_sub dw dwt <> v3_zero).
  { intros Z. apply ND. assert (dw = dwt) as ->.
    { destruct dw as [ d0 d1 d2 ], dwt as [ e0 e1 e2 ]. revert Z. kunf. intros Z.
      pose proof (f_equal x0 Z). pose proof (f_equal x1 Z). pose proof (f_equal x2 Z). cbn [x0 x1 x2] in *. f_equal; lra. }
    apply (v3_derive_ext_loc W); [ | exact DW ]. eapply filter_imp; [ | exact (between _ _ t I) ]. exact EW. }
  destruct (some_arm _ NE) as (r & Hr).
  pose proof (lever_acceleration P Q t _ _ _ r B) as HA.
  exists b, t, P, Q, a, (W t), dw, r. eexists. exists rest, (RTf (TConst (rt (m3_tr (Q t)) v3_zero))).
  split; [ exact H | split; [ exact I | split; [ | split; [ exact LA | split; [ apply V, IK, I | split; [ exact HD | split; [ exact S | ] ] ] ] ] ] ].
  { intros s Is. destruct (V s (proj1 (IK s) Is)) as (V1 & V2 & _). split; assumption. }
  assert (EC : value_r minv4 rest (RTf (TConst (rt (m3_tr (Q t)) v3_zero))) = m3_tr (Q t)) by apply topLeft_rt.
  assert (EI : value_r minv4 rest (RDv 0) = m3_I).
  { cbn [value_r rest vq]. unfold quat2r, m3_I. kunf. cbn. f_equal; field. }
  split; [ exact EC | split; [ exact EI | split; [ exact HA | ] ] ].
  intros E. apply Hr. rewrite (mounted_force _ _ _ _ _ _ _ m3_I _ v3_zero S B HA) in E.
  unfold et_error in E. cbn [et_pred et_z] in E.
  match type of E with v3_sub ?x _ = _ => change x with
    (v3_add (m3_vec (value_r minv4 rest (RDv 0)) (v3_add (v3_add (m3_vec (value_r minv4 rest (RTf (TConst (rt (m3_tr (Q t)) v3_zero)))) (v3_sub a v3_zero))
       (m3_vec (crossMx dw) r)) (m3_vec (crossMx (W t)) (m3_vec (crossMx (W t)) r)))) v3_zero) in E end.
  rewrite EC, EI in E. rewrite <- E. unfold swing.
  generalize (m3_vec (m3_tr (Q t)) (v3_sub a v3_zero)), (m3_vec (crossMx (W t)) (m3_vec (crossMx (W t)) r)). clear. kring.
Qed.
Print Assumptions C85_curve_refuted.

(** ** Jacobians *)

Lemma run_fresh ops : fresh ops -> forall th0, let s := fold_left eop_run ops (th0, th0) in fst s = snd s.
Proof.
  intros [ -> | (pre & ->) ] th0; [ reflexivity | ]. rewrite fold_left_app. cbn [fold_left eop_run fst snd]. reflexivity.
Qed.
(** After any history of updates and evaluations that ends in an evaluation: the
    Jacobians are the derivative of the error along every motion of the design
    variables; they belong to registered variables, and the error depends on no
    other. *)
Theorem C85_jacobians inv3 inv4 th0 ops d t : inverts3 inv3 -> inverts4 inv4 -> fresh ops ->
  let '(tc, th) := fold_left eop_run ops (th0, th0) in
  ok_e inv4 th (et_pred t) ->
  (exists rate, v3_derive (fun s => et_error inv4 (moved th d s) t) 0 rate /\
     forall r, applied (et_jacobians inv3 inv4 tc th t) d r = v3_at rate r) /\
  (forall i row, In (i, row) (et_jacobians inv3 inv4 tc th t) -> In i (et_variables th t) /\ forall r, length (row r) = dim th i) /\
  forall th', agree (et_variables th t) th th' -> et_error inv4 th' t = et_error inv4 th t /\ et_chi2 inv4 th' t = et_chi2 inv4 th t.
Proof.
  intros I3 I4 F. pose proof (run_fresh ops F th0) as E. destruct (fold_left eop_run ops (th0, th0)) as [tc th].
  cbn [fst snd] in E. subst tc. intros OK. split; [ | split ].
  - destruct (C70_error_terms inv3 inv4 th d I3 I4) as [X _]. exact (X (et_pred t) (et_z t) OK).
  - intros i row IN. destruct (C70_design_variables inv3 inv4 th th) as (_ & X & _). destruct (X (et_pred t)) as [Y _].
    apply (Y (fun _ => v3_zero)). right. exact IN.
  - intros th' AG. destruct (C70_design_variables inv3 inv4 th th) as (_ & X & _). destruct (X (et_pred t)) as [_ Y].
    assert (et_error inv4 th' t = et_error inv4 th t) as EE by (unfold et_error; rewrite (Y th' AG); reflexivity).
    split; [ exact EE | unfold et_chi2; rewrite EE; reflexivity ].
Qed.
Print Assumptions C85_jacobians.

(** Without an evaluation after the last update they may not be. *)
Definition push : steps := Steps (fun _ => v3_zero) (fun _ => V3 1 0 0) (fun _ => v3_zero) (fun _ => 0) (fun _ => (0, 0)) (fun _ => []).
Lemma no_turn q : updateQuat q v3_zero = q.
Proof. rewrite <- (update_zero q v3_zero) at 2. f_equal. kring. Qed.
Theorem C85_stale_refuted : exists inv3 inv4 th0 step d t rate, inverts3 inv3 /\ inverts4 inv4 /\
  let '(tc, th) := fold_left eop_run [EEvaluate; EStep step] (th0, th0) in
  ok_e inv4 th (et_pred t) /\ v3_derive (fun s => et_error inv4 (moved th d s) t) 0 rate /\
  applied (et_jacobians inv3 inv4 tc th t) d 1 <> v3_at rate 1.
Proof.
  pose (t := ETerm v3_zero m3_I (imu_gyro (RDv 0) (EDv 0) (EConst v3_zero))).
  assert (OK : ok_e minv4 (update before push) (et_pred t)).
  { split; [ split; [ | exact Logic.I ] | exact Logic.I ].
    cbn [update before push vq dq]. rewrite no_turn. unfold unit4. kunf. cbn. ring. }
  destruct (C85_jacobians minv minv4 (update before push) [] turn t minv_inverts minv4_inverts (or_introl eq_refl) OK) as ((rate & D & J) & _).
  exists minv, minv4, before, push, turn, t, rate. split; [ exact minv_inverts | split; [ exact minv4_inverts | ] ].
  cbn [fold_left eop_run fst snd]. split; [ exact OK | split; [ exact D | ] ]. rewrite <- (J 1%nat).
  unfold et_jacobians, t, imu_gyro. cbn [et_pred]. unfold jac0_e, jac_r, jac_e. cbn [app applied ldot coords v3_list rows3].
  unfold before, turn, push. cbn [update value_r value_e vq vp dq dp]. rewrite !no_turn. unfold quat2r. kunf. cbn. lra.
Qed.
Print Assumptions C85_stale_refuted.

(** ** Adding the terms *)

(** Every measurement strictly inside the interval of the curve gives one term, in
    order, with its prediction and its weight; the others are counted. *)
Theorem C85_terms tmin tmax offset sigma scale value pred data :
  let '(terms, skipped) := add_terms tmin tmax offset sigma scale value pred data in
  let inside := filter (used tmin tmax offset) data in
  map (fun t => (et_z t, et_pred t)) terms = map (fun im => (value im, pred (im_stamp im + offset))) inside /\
  (length terms + skipped = length data)%nat /\
  forall inv4 th t, 0 < sigma -> 0 < scale -> In t terms ->
    let e := et_error inv4 th t in
    et_chi2 inv4 th t = v3_dot e e / (sigma * sigma * scale) /\ 0 <= et_chi2 inv4 th t /\
    (et_chi2 inv4 th t = 0 <-> value_e inv4 th (et_pred t) = et_z t).
Proof.
  assert (CH : forall inv4 th z p, 0 < sigma -> 0 < scale -> let t := ETerm z (weight sigma scale) p in
    let e := et_error inv4 th t in
    et_chi2 inv4 th t = v3_dot e e / (sigma * sigma * scale) /\ 0 <= et_chi2 inv4 th t /\
    (et_chi2 inv4 th t = 0 <-> value_e inv4 th p = z)).
  { intros inv4 th z p S1 S2 t e.
    assert (E : et_chi2 inv4 th t = v3_dot e e / (sigma * sigma * scale)).
    { unfold et_chi2. fold e. cbn [et_invR t]. unfold weight. clearbody e. destruct e as [ a b c ]. kunf. field. lra. }
    assert (P : 0 < / (sigma * sigma * scale)) by (apply Rinv_0_lt_compat; apply Rmult_lt_0_compat; [ nra | exact S2 ]).
    rewrite E. split; [ reflexivity | ]. unfold Rdiv.
    assert (EE : e = v3_sub (value_e inv4 th p) z) by reflexivity. clearbody e.
    destruct e as [ a b c ]. set (Y := / _) in *. clearbody Y.
    assert (SQ : v3_dot (V3 a b c) (V3 a b c) = a * a + b * b + c * c) by (kunf; ring). rewrite SQ.
    pose proof (Rle_0_sqr a) as A1. pose proof (Rle_0_sqr b) as A2. pose proof (Rle_0_sqr c) as A3. unfold Rsqr in *.
    split; [ apply Rmult_le_pos; lra | ]. split.
    - intros Z. apply Rmult_integral in Z. destruct Z as [ Z | Z ]; [ | lra ].
      assert (a = 0) by nra. assert (b = 0) by nra. assert (c = 0) by nra. subst a b c.
      destruct (value_e inv4 th p) as [ p0 p1 p2 ], z as [ z0 z1 z2 ]. revert EE. kunf. intros EE.
      pose proof (f_equal x0 EE). pose proof (f_equal x1 EE). pose proof (f_equal x2 EE). cbn [x0 x1 x2] in *. f_equal; lra.
    - intros <-. assert (V3 a b c = v3_zero) as Z by (rewrite EE; kring). pose proof (f_equal x0 Z). pose proof (f_equal x1 Z).
      pose proof (f_equal x2 Z). cbn [x0 x1 x2 v3_zero] in *. subst a b c. ring. }
  induction data as [ | im data IH ]; [ cbn; split; [ reflexivity | split; [ reflexivity | intros inv4 th t _ _ [] ] ] | ].
  cbn [add_terms filter]. destruct (add_terms tmin tmax offset sigma scale value pred data) as [terms skipped].
  destruct IH as (A & B & D). unfold used at 1.
  destruct (Rlt_dec tmin (im_stamp im + offset)) as [ L1 | L1 ]; [ destruct (Rlt_dec (im_stamp im + offset) tmax) as [ L2 | L2 ] | ];
    cbn [map length]; (split; [ first [ exact A | f_equal; exact A ] | split; [ lia | ] ]).
  - intros inv4 th t S1 S2 [ <- | IN ]; [ exact (CH inv4 th _ _ S1 S2) | exact (D inv4 th t S1 S2 IN) ].
  - exact D.
  - exact D.
Qed.
Print Assumptions C85_terms.

(** ** The theorems apply *)

(** The spinning body with a lever arm: the point is pulled inwards. *)
Example C85_ex_spin : SO3 (spin 0) /\ follows minv4 spinning still spin 0 (RDv 0) (EConst v3_zero) (EConst (V3 0 0 1)) v3_zero /\
  SO3 (value_r minv4 spinning (RDv 1)) /\ selects spinning (MDv 0) 0 /\ selects spinning (MDv 1) 1 /\ selects spinning (MDv 2) 2 /\
  accelerates (mounted still spin (V3 1 0 0)) 0 (V3 (-1) 0 0).
Proof.
  split; [ rewrite spin_0; apply SO3_I | split; [ apply spinning_follows | split ] ].
  { cbn [value_r spinning vq]. split; [ unfold quat2r; kunf; cbn; f_equal; field | unfold quat2r; kunf; cbn; field ]. }
  split; [ reflexivity | split; [ reflexivity | split; [ reflexivity | ] ] ].
  pose proof (lever_acceleration still spin 0 _ _ _ (V3 1 0 0) spin_motion) as LA.
  assert (E : V3 (-1) 0 0 = v3_add v3_zero (m3_vec (spin 0) (swing (V3 0 0 1) v3_zero (V3 1 0 0)))).
  { rewrite spin_0. unfold swing. kunf. cbn. f_equal; ring. }
  rewrite E. exact LA.
Qed.
Example C85_ex_curve : exists b, built 2 knots4 6 2 BpProps.turning b /\ nondecreasing knots4 /\ long_end 2 knots4 /\
  knot knots4 1 < 3 / 2 < knot knots4 (1 + 1) /\ forall s, knot knots4 1 < s < knot knots4 (1 + 1) -> rotation_ok (fun _ => True) b s.
Proof.
  destruct turning_built as (b & H). destruct knots4_times as (T1 & T2 & T3 & LE). exists b.
  split; [ exact H | split; [ exact knots4_nd | split; [ exact LE | split; [ unfold knot, knots4; cbn [nth Nat.add]; lra | ] ] ] ].
  intros s _ x _. exact Logic.I.
Qed.
Example C85_ex_jacobian : fresh [EStep push; EEvaluate] /\
  ok_e minv4 (update rest push) (imu_accel (RInv (RDv 1)) (RDv 0) (EDv 0) (EConst (V3 0 0 (-9))) (EDv 1) (EDv 2) (EDv 3) (EDv 4)).
Proof.
  split; [ right; exists [EStep push]; reflexivity | ].
  assert (U : forall i, unit4 (vq (update rest push) i)).
  { intros i. cbn [update rest push vq dq]. rewrite no_turn. unfold unit4. kunf. cbn. ring. }
  cbn. pose proof (U 0%nat). pose proof (U 1%nat). tauto.
Qed.
Example C85_ex_terms : fst (add_terms 0 2 (1 / 2) 3 1 im_alpha (fun _ => EConst v3_zero)
    [Sample (-1 / 2) v3_zero v3_zero; Sample 1 v3_zero (V3 1 2 3); Sample (3 / 2) v3_zero v3_zero]) =
  [ETerm (V3 1 2 3) (weight 3 1) (EConst v3_zero)].
Proof.
  cbn [add_terms im_stamp im_alpha].
  repeat match goal with |- context [Rlt_dec ?a ?b] => destruct (Rlt_dec a b); try lra end. reflexivity.
Qed.
