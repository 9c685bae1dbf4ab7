(** * C55-C56: three-parameter rotations *)

From Coquelicot Require Import Coquelicot.
From Coq Require Import Reals Psatz.
From Verif Require Import KinModel KinSpec KinProofs KinExp KinAxis KinCurve RotModel RotSpec RotEuler RotVec RotVecJ.
Local Open Scope R_scope.

(** Each Euler convention is the product of three turns about the axes in its
    name, so its matrix is always a rotation. *)
Theorem C55_euler_rotations p :
  (zyx_C p = m3_mul (rot_z (- x0 p)) (m3_mul (rot_y (- x1 p)) (rot_x (- x2 p))) /\ SO3 (zyx_C p)) /\
  (ypr_C p = m3_mul (rot_z (x0 p)) (m3_mul (rot_y (x1 p)) (rot_x (x2 p))) /\ SO3 (ypr_C p)) /\
  (zxy_C p = m3_mul (rot_z (x0 p)) (m3_mul (rot_x (x1 p)) (rot_y (x2 p))) /\ SO3 (zxy_C p)) /\
  rph2R p = m3_mul (rot_z (x2 p)) (m3_mul (rot_y (x1 p)) (rot_x (x0 p))).
Proof.
  split; [split; [apply zyx_product | apply zyx_SO3] | ].
  split; [split; [apply ypr_product | apply ypr_SO3] | ].
  split; [split; [apply zxy_product | apply zxy_SO3] | apply rph_product].
Qed.

(** Away from gimbal lock the angles come back, and every rotation that is
    not at gimbal lock is the rotation of the angles read from it. *)
Theorem C55_euler_roundtrip p C :
  (- (PI / 2) < x1 p < PI / 2 ->
   (- PI <= x0 p < PI -> - PI <= x2 p < PI -> zyx_params (zyx_C p) = p) /\
   (- PI < x0 p <= PI -> - PI < x2 p <= PI ->
    ypr_params (ypr_C p) = p /\ zxy_params (zxy_C p) = p /\ R2rph (rph2R p) = p)) /\
  (SO3 C ->
   (-1 < m20 C < 1 -> zyx_C (zyx_params C) = C /\ ypr_C (ypr_params C) = C /\ rph2R (R2rph C) = C) /\
   (-1 < m21 C < 1 -> zxy_C (zxy_params C) = C)).
Proof.
  split.
  - intros H. split; intros A B.
    + apply zyx_roundtrip; assumption.
    + split; [apply ypr_roundtrip; assumption | split; [apply zxy_roundtrip; assumption | apply R2rph_roundtrip; assumption]].
  - intros H. split; intros B.
    + split; [apply zyx_of_params; assumption | split; [apply ypr_of_params; assumption | apply rph2R_of; assumption]].
    + apply zxy_of_params; assumption.
Qed.

(** At gimbal lock the rotation is not recovered. *)
Theorem C55_gimbal_refuted :
  exists p, SO3 (ypr_C p) /\ ypr_C (ypr_params (ypr_C p)) <> ypr_C p.
Proof.
  exists (V3 0 (PI / 2) (PI / 2)). split; [apply ypr_SO3 | ].
  destruct gimbal_lost as (E & A & B). rewrite E. intros Q. rewrite Q in B. lra.
Qed.

(** Rodrigues parameters and rotation vectors. *)
Theorem C55_vectors p C :
  SO3 (er_C p) /\ SO3 (rv_C p) /\
  (1 / 10 ^ 14 <= v3_norm p <= 10 ^ 14 -> er_params (er_C p) = p) /\
  (1 / 10 ^ 14 <= v3_norm p < PI -> 1 / 10 ^ 14 <= 2 * sin (v3_norm p) -> rv_params (rv_C p) = p) /\
  (1 / 10 ^ 14 <= v3_norm p ->
   forall v, m3_vec (rv_C p) v = rodrigues (v3_scale (/ v3_norm p) p) (v3_norm p) v) /\
  (SO3 C -> 1 / 10 ^ 14 <= rot_angle C -> 1 / 10 ^ 14 <= v3_norm (skew_part C) ->
   er_C (er_params C) = C /\ rv_C (rv_params C) = C /\ v3_norm (rv_params C) = rot_angle C).
Proof.
  split; [apply er_SO3 | split; [apply rv_SO3 | split; [apply er_roundtrip | split; [apply rv_roundtrip | split]]]].
  - apply rv_rodrigues.
  - intros H A K. split; [apply er_of_params; assumption | apply rv_of_params; assumption].
Qed.

(** A half turn is read back as no rotation at all by both. *)
Theorem C55_half_turn_refuted :
  exists p, rot_angle (rv_C p) = PI /\
    rv_C (rv_params (rv_C p)) <> rv_C p /\ er_C (er_params (rv_C p)) <> rv_C p.
Proof.
  exists (V3 PI 0 0).
  destruct (half_turn_matrix _ rv_C_half_turn) as (_ & A & B & D). rewrite A, B.
  split; [exact D | ]. rewrite rv_C_half_turn, rv_C_zero. split; intros E.
  - assert (Q : m11 m3_I = -1) by (rewrite E; reflexivity). cbn in Q. lra.
  - assert (Q : m11 (er_C v3_zero) = -1) by (rewrite E; reflexivity).
    assert (Q1 : m11 (er_C v3_zero) = 1) by (unfold er_C, v3_zero; kunf; field; lra). lra.
Qed.

(** angleMod returns the same angle, between -pi and pi. *)
Theorem C55_angle_mod a :
  - PI <= angleMod a <= PI /\ sin (angleMod a) = sin a /\ cos (angleMod a) = cos a /\
  exists k : Z, angleMod a = a - 2 * PI * IZR k.
Proof.
  split; [apply angleMod_range | ]. destruct (angleMod_same a) as [A B].
  split; [exact A | split; [exact B | ]]. eexists. reflexivity.
Qed.

(** S matrices turn parameter rates into angular velocities. *)
Theorem C56_rates :
  rates_to_velocity zyx_C zyx_S (fun _ => True) /\
  rates_to_velocity ypr_C ypr_S (fun _ => True) /\
  rates_to_velocity zxy_C zxy_S (fun _ => True) /\
  rates_to_velocity er_C er_S (fun _ => True) /\
  rates_to_velocity rv_C rv_S (fun p => 1 / 10 ^ 14 < v3_norm p).
Proof.
  split; [exact zyx_rates | split; [exact ypr_rates | split; [exact zxy_rates | split; [exact er_rates | exact rv_rates]]]].
Qed.

(** angularVelocityAndJacobian: the velocity is S times the rate, and the
    3x6 matrix is its derivative. *)
Theorem C56_jacobians :
  (forall p v, zyx_omega p v = m3_vec (zyx_S p) v /\ ypr_omega p v = m3_vec (ypr_S p) v /\
     zxy_omega p v = m3_vec (zxy_S p) v /\ er_omega p v = m3_vec (er_S p) v /\ rv_omega p v = m3_vec (rv_S p) v) /\
  velocity_jacobian zyx_omega (fun p v J => J = zyx_J p v) (fun _ => True) /\
  velocity_jacobian ypr_omega (fun p v J => J = ypr_J p v) (fun _ => True) /\
  velocity_jacobian zxy_omega (fun p v J => J = zxy_J p v) (fun _ => True) /\
  velocity_jacobian er_omega (fun p v J => J = er_J p v) (fun _ => True) /\
  velocity_jacobian rv_omega (fun p v J => rv_J p v = Some J) (fun p => 1 / 10 ^ 14 < v3_norm p).
Proof.
  split.
  - intros p v. split; [reflexivity | split; [reflexivity | split; [reflexivity | split; [ | reflexivity]]]].
    apply er_omega_S.
  - split; [exact zyx_jac | split; [exact ypr_jac | split; [exact zxy_jac | split; [exact er_jac | exact rv_jac]]]].
Qed.

(** The Jacobian of a rotation vector is computed everywhere but at zero. *)
Theorem C56_rotation_vector_defined p v : rv_J p v = None <-> p = v3_zero.
Proof. apply rv_J_none. Qed.

(** There it divides by zero, although nothing is singular: with a constant
    zero parameter the velocity is just the rate. *)
Theorem C56_zero_vector_refuted :
  exists p v, rv_omega p v = v /\ rv_S p = m3_I /\ rv_J p v = None.
Proof.
  exists v3_zero, (V3 1 0 0). assert (S : rv_S v3_zero = m3_I).
  { unfold rv_S. rewrite v3_norm_zero. destruct (ltb_spec 0 (1 / 10 ^ 14)) as [_ | L]; [reflexivity | lra]. }
  split; [unfold rv_omega; rewrite S; apply m3_vec_I | split; [exact S | apply rv_J_zero]].
Qed.

(** parametersToInverseSMatrix is the inverse of S, except at full turns. *)
Theorem C56_inverse_S p : 1 / 10 ^ 14 <= v3_norm p -> cos (v3_norm p) <> 1 ->
  exists Si, rv_invS p = Some Si /\ m3_mul (rv_S p) Si = m3_I /\ m3_mul Si (rv_S p) = m3_I.
Proof. apply rv_invS_inverse. Qed.

(** ** The hypotheses are met *)

Example C55_ex_euler : zxy_params (zxy_C (V3 (-2) 1 3)) = V3 (-2) 1 3.
Proof.
  pose proof PI_4 as P4. pose proof PI2_3_2 as P3. apply (C55_euler_roundtrip (V3 (-2) 1 3) m3_I); cbn [x0 x1 x2]; lra.
Qed.
Example C55_ex_vector : er_params (er_C (V3 1 2 3)) = V3 1 2 3.
Proof.
  apply (C55_vectors (V3 1 2 3) m3_I). unfold v3_norm, v3_dot. cbn [x0 x1 x2]. split.
  - apply Rle_trans with (sqrt 1); [rewrite sqrt_1; lra | apply sqrt_le_1; lra].
  - apply Rle_trans with (sqrt (16)); [apply sqrt_le_1; lra | ].
    replace 16 with (4 * 4) by ring. rewrite sqrt_square; lra.
Qed.
Example C56_ex_rates (t : R) :
  exists Cdot, m3_derive (fun s => ypr_C (V3 (2 * s) 1 (3 * s))) t Cdot /\
    angular_velocity (ypr_C (V3 (2 * t) 1 (3 * t))) Cdot (m3_vec (ypr_S (V3 (2 * t) 1 (3 * t))) (V3 2 0 3)).
Proof.
  apply (proj1 (proj2 C56_rates) (fun s => V3 (2 * s) 1 (3 * s)) t (V3 2 0 3)); [ | exact I].
  unfold v3_derive. cbn [x0 x1 x2]. split; [ | split]; auto_derive; auto; ring.
Qed.
Example C56_ex_jacobian : 1 / 10 ^ 14 < v3_norm (V3 1 2 3) /\ exists J, rv_J (V3 1 2 3) (V3 4 5 6) = Some J.
Proof.
  split.
  - apply Rlt_le_trans with (sqrt 1); [rewrite sqrt_1; lra | unfold v3_norm, v3_dot; cbn [x0 x1 x2]; apply sqrt_le_1; lra].
  - destruct (rv_J (V3 1 2 3) (V3 4 5 6)) as [J | ] eqn:E; [exists J; reflexivity | ].
    apply (proj1 (C56_rotation_vector_defined _ _)) in E. unfold v3_zero in E.
    exfalso. assert (Q : x0 (V3 1 2 3) = x0 (V3 0 0 0)) by (rewrite E; reflexivity). cbn in Q. lra.
Qed.

Print Assumptions C55_euler_rotations.
Print Assumptions C55_euler_roundtrip.
Print Assumptions C55_gimbal_refuted.
Print Assumptions C55_vectors.
Print Assumptions C55_half_turn_refuted.
Print Assumptions C55_angle_mod.
Print Assumptions C56_rates.
Print Assumptions C56_jacobians.
Print Assumptions C56_rotation_vector_defined.
Print Assumptions C56_zero_vector_refuted.
Print Assumptions C56_inverse_S.
