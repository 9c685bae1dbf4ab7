(** * Properties of rotations: quaternions, axis-angle vectors, Jacobians *)

From Coquelicot Require Import Coquelicot.
From Coq Require Import Reals Psatz Nsatz.
From Verif Require Import KinModel KinSpec KinProofs KinExp KinAxis KinCurve KinJac.
Local Open Scope R_scope.

(** ** C52: unit quaternions are rotations *)

(** The composition of quaternions is the quaternion product; it is
    associative with identity, the conjugate of a unit quaternion is its
    inverse, lengths multiply, and the matrix forms agree with it. *)
Theorem C52_group : forall p q r : v4,
  qplus p q = quat_mult p q /\
  qplus p (qplus q r) = qplus (qplus p q) r /\
  qplus quatIdentity q = q /\ qplus q quatIdentity = q /\
  (unit4 q -> qplus q (quatInv q) = quatIdentity /\ qplus (quatInv q) q = quatIdentity) /\
  (unit4 p -> unit4 q -> unit4 (qplus p q) /\ unit4 (quatInv q)) /\
  m4_vec (quatPlus p) q = qplus p q /\ m4_vec (quatOPlus q) p = qplus p q /\ qoplus q p = qplus p q.
Proof.
  intros p q r.
  split; [kring | ]. split; [kring | ]. split; [kring | ]. split; [kring | ].
  split; [ | split].
  - intros U. unfold unit4 in U. clear p r. kdestruct. kunf in U. kunf. split; f_equal; nsatz.
  - intros U V. split.
    + apply unit4_dot. rewrite v4_dot_qplus. rewrite (proj1 (unit4_dot p) U), (proj1 (unit4_dot q) V). ring.
    + unfold unit4, quatInv in *. cbn [q0 q1 q2 q3]. rewrite <- V. ring.
  - split; [kring | split; kring].
Qed.
Print Assumptions C52_group.

(** A unit quaternion yields a proper rotation matrix, composition becomes
    the matrix product, the conjugate becomes the transpose, and rotating a
    vector by the quaternion is multiplying by the matrix. *)
Theorem C52_homomorphism : forall p q : v4, unit4 p -> unit4 q ->
  SO3 (quat2r q) /\ preserves_dot (quat2r q) /\
  quat2r (qplus p q) = m3_mul (quat2r p) (quat2r q) /\
  quat2r quatIdentity = m3_I /\
  quat2r (quatInv q) = m3_tr (quat2r q) /\
  (forall v, quatRotate q v = m3_vec (quat2r q) v) /\
  (quat2r p = quat2r q <-> p = q \/ p = v4_neg q).
Proof.
  intros p q Up Uq. split; [apply quat2r_SO3, Uq | ].
  split; [apply SO3_dot, quat2r_SO3, Uq | ].
  split; [apply quat2r_mul | ]. split; [kring | ]. split; [apply quat2r_inv | ].
  split; [intros v; apply quatRotate_correct, Uq | ]. split.
  - apply quat2r_inj; assumption.
  - intros [-> | ->]; [reflexivity | apply quat2r_neg].
Qed.
Print Assumptions C52_homomorphism.

(** Extracting a quaternion from a rotation matrix and back loses nothing,
    for every rotation, whichever of the four branches is taken; the scalar
    part of the result is never negative. *)
Theorem C52_roundtrip :
  (forall C, SO3 C -> unit4 (r2quat C) /\ quat2r (r2quat C) = C /\ 0 <= q3 (r2quat C)) /\
  (forall q, unit4 q ->
     (r2quat (quat2r q) = q \/ r2quat (quat2r q) = v4_neg q) /\
     (0 < q3 q -> r2quat (quat2r q) = q)).
Proof.
  split; [exact r2quat_spec | ]. intros q U.
  destruct (r2quat_quat2r q U) as [H P]. split; [exact H | ]. intros G.
  destruct H as [H | H]; [exact H | ]. rewrite H in P. unfold v4_neg in P. cbn [q3] in P. lra.
Qed.
Print Assumptions C52_roundtrip.

(** The hypotheses are met: a third of a turn about (1,1,1). *)
Example C52_ex_unit : unit4 (V4 (1/2) (1/2) (1/2) (1/2)).
Proof. unfold unit4. cbn [q0 q1 q2 q3]. field. Qed.
Example C52_ex_so3 : SO3 (M3 0 1 0 0 0 1 1 0 0).
Proof. split; kring. Qed.
Example C52_ex_half_turn : unit4 (V4 1 0 0 0) /\ quat2r (V4 1 0 0 0) = M3 1 0 0 0 (-1) 0 0 0 (-1).
Proof. split; [unfold unit4; cbn [q0 q1 q2 q3]; ring | kring]. Qed.

(** ** C53: axis-angle vectors *)

(** From the angle 2^-13 up the exponential is a unit quaternion that rotates
    by Rodrigues' formula about the axis; at zero it is the identity. *)
Theorem C53_exponential : forall a,
  (eps4 <= v3_norm a ->
     unit4 (axisAngle2quat a) /\
     (forall v, quatRotate (axisAngle2quat a) v = rodrigues (v3_scale (/ v3_norm a) a) (v3_norm a) v) /\
     axisAngle2R a = quat2r (axisAngle2quat a)) /\
  axisAngle2quat v3_zero = quatIdentity /\
  (forall q, updateQuat q a = qplus (axisAngle2quat a) q).
Proof.
  intros a. split; [ | split; [apply exp_zero | intros q; apply update_is_product]].
  intros H. pose proof (exp_unit_big a H) as U. split; [exact U | split].
  - intros v. rewrite quatRotate_correct by exact U. apply exp_rodrigues, H.
  - apply R_is_exp, H.
Qed.
Print Assumptions C53_exponential.

(** Below 2^-13, except at zero, the result is NOT a unit quaternion: the
    code adds theta^2/48 where the series of sin(theta/2)/theta subtracts it. *)
Theorem C53_small_unit_refuted : exists a, 0 < v3_norm a < eps4 /\ ~ unit4 (axisAngle2quat a).
Proof.
  assert (N : v3_norm (V3 (/ 16384) 0 0) = / 16384).
  { unfold v3_norm, v3_dot. cbn [x0 x1 x2]. apply sqrt_lem_1; lra. }
  exists (V3 (/ 16384) 0 0). assert (B : 0 < v3_norm (V3 (/ 16384) 0 0) < eps4).
  { rewrite N. unfold eps4. lra. }
  split; [exact B | ]. intros U. apply (proj1 (unit4_dot _)) in U.
  destruct (exp_norm_small _ B) as [L _]. lra.
Qed.
Print Assumptions C53_small_unit_refuted.

(** How far off it is: the squared length exceeds one by at most theta^4/24,
    which is below 2^-52/24 on that range. *)
Theorem C53_small_bound : forall a, 0 < v3_norm a < eps4 ->
  let n2 := v4_dot (axisAngle2quat a) (axisAngle2quat a) in
  1 < n2 /\ n2 <= 1 + v3_norm a * v3_norm a * v3_norm a * v3_norm a / 24 /\ n2 < 1 + / 2 ^ 52 / 24.
Proof.
  intros a H. cbv zeta. destruct (exp_norm_small a H) as [L U]. cbv zeta in U.
  split; [exact L | split; [exact U | ]].
  destruct H as [H0 H1]. set (t := v3_norm a) in *.
  assert (t * t < eps4 * eps4) by nra.
  assert (t * t * (t * t) < eps4 * eps4 * (eps4 * eps4)) by nra.
  assert (E : eps4 * eps4 * (eps4 * eps4) = / 2 ^ 52).
  { unfold eps4. replace 8192 with (2 ^ 13) by (cbn [pow]; lra).
    rewrite <- !Rinv_mult, <- !pow_add. reflexivity. }
  lra.
Qed.
Print Assumptions C53_small_bound.

(** Logarithm after exponential and back.  The logarithm is defined for every
    unit quaternion except minus the identity, where it divides by zero. *)
Theorem C53_log : 
  (forall q, unit4 q -> (quat2AxisAngle q = None <-> q = v4_neg quatIdentity)) /\
  (forall q, unit4 q -> eps4 <= v3_norm (qeps q) \/ (q3 q < 0 /\ 0 < v3_norm (qeps q)) ->
     exists l, quat2AxisAngle q = Some l /\ axisAngle2quat l = q /\
               v3_norm l = 2 * acos (q3 q) /\ v3_norm l < 2 * PI) /\
  (forall a, eps4 <= v3_norm a < 2 * PI -> eps4 <= sin (v3_norm a / 2) \/ PI < v3_norm a ->
     quat2AxisAngle (axisAngle2quat a) = Some a).
Proof.
  split; [exact log_none | split; [ | exact log_of_exp]].
  intros q U H. exists (v3_scale (2 * (acos (q3 q) / v3_norm (qeps q))) (qeps q)).
  destruct (exp_of_log q U H) as (A & B & _ & D).
  split; [apply log_big; assumption | split; [exact D | split; [exact A | exact B]]].
Qed.
Print Assumptions C53_log.

(** Near the identity the quadratic term of the series for asin(x)/x is lost
    because its coefficient is written as the integer quotient 1/6: the
    result is exactly twice the vector part, too short by up to 8/3 n^3. *)
Theorem C53_log_small_refuted : exists q l, unit4 q /\ 0 < q3 q /\ quat2AxisAngle q = Some l /\
  v3_norm l <> 2 * acos (q3 q).
Proof.
  set (n := / 16384). set (e := sqrt (1 - n * n)).
  assert (Hn : 0 < n < eps4) by (unfold n, eps4; lra).
  assert (E : e * e = 1 - n * n) by (apply sqrt_sqrt; unfold n; lra).
  assert (P : 0 <= e) by apply sqrt_pos.
  assert (N : v3_norm (qeps (V4 n 0 0 e)) = n).
  { unfold v3_norm, v3_dot, qeps. cbn [x0 x1 x2 q0 q1 q2 q3]. apply sqrt_lem_1; nra. }
  assert (G : n < e). { unfold eps4, n in *. nra. }
  exists (V4 n 0 0 e), (v3_scale 2 (qeps (V4 n 0 0 e))).
  split; [unfold unit4; cbn [q0 q1 q2 q3]; lra | ].
  split; [cbn [q3]; lra | ]. split.
  - apply log_small; [cbn [q3]; lra | rewrite N; cbn [q3]; lra | rewrite N; lra].
  - rewrite v3_norm_scale, Rabs_right, N by lra. cbn [q3]. intros C.
    assert (Ac : acos e = n) by lra.
    assert (S1 : sin (acos e) = n). { apply (acos_ge_sin e); nra. }
    rewrite Ac in S1. pose proof (sin_lt_x n (proj1 Hn)). lra.
Qed.
Print Assumptions C53_log_small_refuted.

Theorem C53_log_small_bound : forall q, unit4 q -> 0 < q3 q -> v3_norm (qeps q) < eps4 ->
  let n := v3_norm (qeps q) in
  quat2AxisAngle q = Some (v3_scale 2 (qeps q)) /\
  (0 < n -> 0 < 2 * acos (q3 q) - 2 * n <= 8 / 3 * (n * n * n)).
Proof.
  intros q U P S0 n. pose proof (unit_split q U) as E. pose proof (v3_norm_pos (qeps q)) as NP.
  fold n in E, NP, S0. split.
  - apply log_small; [exact P | fold n; unfold eps4 in S0; nra | exact S0].
  - intros Np. assert (A : acos (q3 q) = asin n).
    { assert (Eb : 0 <= q3 q <= 1) by nra. pose proof (acos_half _ Eb) as B.
      rewrite <- (asin_sin (acos (q3 q))) by lra. f_equal. apply (acos_ge_sin (q3 q)); lra. }
    rewrite A. destruct (asin_bounds n ltac:(lra)) as [L H]. lra.
Qed.
Print Assumptions C53_log_small_bound.

(** Rotation matrices from axis-angle vectors are always proper rotations,
    rotate by Rodrigues' formula from 1e-12 up, and the vector is recovered
    for angles away from zero and from a half turn. *)
Theorem C53_matrix : 
  (forall a, SO3 (axisAngle2R a)) /\
  (forall a v, 1 / 10 ^ 12 <= v3_norm a ->
     m3_vec (axisAngle2R a) v = rodrigues (v3_scale (/ v3_norm a) a) (v3_norm a) v) /\
  (forall a, 1 / 10 ^ 10 <= v3_norm a < PI -> 1 / 10 ^ 10 <= 2 * sin (v3_norm a) ->
     R2AxisAngle (axisAngle2R a) = a) /\
  (forall C, SO3 C -> 1 / 10 ^ 10 <= rot_angle C -> 1 / 10 ^ 10 <= v3_norm (skew_part C) ->
     axisAngle2R (R2AxisAngle C) = C /\ v3_norm (R2AxisAngle C) = rot_angle C).
Proof.
  split; [exact axisAngle2R_SO3 | split; [exact R_rodrigues | split; [exact R2_of_R | exact R_of_R2]]].
Qed.
Print Assumptions C53_matrix.

(** A half turn is NOT recovered: the conversion answers the zero vector. *)
Theorem C53_half_turn_refuted : exists C, SO3 C /\ C <> m3_I /\
  R2AxisAngle C = v3_zero /\ axisAngle2R (R2AxisAngle C) = m3_I.
Proof.
  destruct half_turn_lost as (A & B & C).
  exists (axisAngle2R (V3 PI 0 0)). split; [apply axisAngle2R_SO3 | ].
  split; [rewrite C; unfold m3_I; intros E; injection E as ? ?; lra | ].
  split; [exact A | rewrite A; exact B].
Qed.
Print Assumptions C53_half_turn_refuted.

(** The four-argument form treats every negative angle as zero. *)
Theorem C53_negative_angle_refuted : exists a, unit3 (V3 0 0 1) /\
  axisAngle2R4 a 0 0 1 = m3_I /\ rodrigues (V3 0 0 1) a (V3 1 0 0) <> V3 1 0 0.
Proof.
  exists (- PI). split; [unfold unit3; cbn [x0 x1 x2]; ring | ]. split.
  - unfold axisAngle2R4. pose proof PI_RGT_0.
    destruct (ltb_spec (- PI) (1 / 10 ^ 12)); [reflexivity | lra].
  - unfold rodrigues. rewrite cos_neg, cos_PI. kunf. intros E. injection E as E ? ?. lra.
Qed.
Print Assumptions C53_negative_angle_refuted.

(** Spherical interpolation: exact end points, and in between it starts from
    the first quaternion and follows a single rotation axis towards the
    nearer of the two quaternions of the target rotation, never turning by
    more than a half turn; it is defined for all unit quaternions. *)
Theorem C53_slerp : forall p0 p1 t, unit4 p0 -> unit4 p1 ->
  (t <= 0 -> qslerp p0 p1 t = Some p0) /\
  (1 <= t -> qslerp p0 p1 t = Some p1) /\
  (0 < t < 1 -> exists s l,
     (s = p1 \/ s = v4_neg p1) /\ 0 <= v4_dot p0 s /\ v3_norm l <= PI /\
     qslerp p0 p1 t = Some (qplus p0 (axisAngle2quat (v3_scale t l))) /\
     let r := qplus (quatInv p0) s in
     (eps4 <= v3_norm (qeps r) ->
        qplus p0 (axisAngle2quat l) = s /\ v3_norm l = 2 * acos (v4_dot p0 s)) /\
     (v3_norm (qeps r) < eps4 -> l = v3_scale 2 (qeps r)) /\
     (p0 = s -> qslerp p0 p1 t = Some p0)).
Proof.
  intros p0 p1 t U0 U1. split; [ | split].
  - intros H. unfold qslerp. destruct (Rle_dec t 0); [reflexivity | lra].
  - intros H. unfold qslerp. destruct (Rle_dec t 0); [lra | ].
    destruct (Rle_dec 1 t); [reflexivity | lra].
  - intros H. destruct (slerp_spec p0 p1 t U0 U1 H) as (l & L0 & L1 & L2 & L3 & L4).
    exists (nearer p0 p1), l. split; [apply nearer_or | ]. split; [apply nearer_dot | ].
    split; [exact L2 | ]. split; [exact L1 | ]. split; [exact L3 | ]. split; [exact L4 | ].
    intros E.
    assert (R0 : qplus (quatInv p0) (nearer p0 p1) = quatIdentity).
    { rewrite <- E. apply (C52_group p0 p0 p0). exact U0. }
    rewrite R0 in L4.
    assert (Z : qeps quatIdentity = v3_zero) by reflexivity.
    rewrite Z, v3_norm_zero in L4. specialize (L4 eps4_pos). subst l. rewrite L1. f_equal.
    replace (v3_scale t (v3_scale 2 v3_zero)) with v3_zero by kring.
    rewrite exp_zero. apply (C52_group p0 p0 p0).
Qed.
Print Assumptions C53_slerp.

Example C53_ex_angle : eps4 <= v3_norm (V3 1 0 0) < 2 * PI /\ eps4 <= sin (v3_norm (V3 1 0 0) / 2).
Proof.
  assert (N : v3_norm (V3 1 0 0) = 1).
  { unfold v3_norm, v3_dot. cbn [x0 x1 x2]. apply sqrt_lem_1; lra. }
  rewrite N. pose proof PI2_1. unfold eps4. split; [lra | ].
  pose proof (sin_lower (1/2) ltac:(lra) ltac:(lra)). lra.
Qed.
Example C53_ex_matrix : 1 / 10 ^ 10 <= rot_angle (M3 1 0 0 0 0 1 0 (-1) 0) /\
  1 / 10 ^ 10 <= v3_norm (skew_part (M3 1 0 0 0 0 1 0 (-1) 0)) /\ SO3 (M3 1 0 0 0 0 1 0 (-1) 0).
Proof.
  split; [ | split].
  - unfold rot_angle. replace ((m3_trace (M3 1 0 0 0 0 1 0 (-1) 0) - 1) / 2) with 0 by (kunf; field).
    rewrite acos_0. pose proof PI2_1. lra.
  - unfold skew_part, v3_norm, v3_dot. cbn [x0 x1 x2 m00 m01 m02 m10 m11 m12 m20 m21 m22].
    replace (sqrt _) with 2; [lra | ]. symmetry. apply sqrt_lem_1; lra.
  - split; kring.
Qed.

(** ** C54: Jacobians of the rotation maps *)

(** A quaternion moving on the unit sphere turns with angular velocity
    quatS(q) qdot, and quatInvS is the inverse map. *)
Theorem C54_angular_velocity :
  (forall (q : R -> v4) t qd, (forall s, unit4 (q s)) -> v4_derive q t qd ->
     exists Cdot, m3_derive (fun s => quat2r (q s)) t Cdot /\
       angular_velocity (quat2r (q t)) Cdot (m34_vec (quatS (q t)) qd)) /\
  (forall q, unit4 q -> m34_mul43 (quatS q) (quatInvS q) = m3_I) /\
  (forall q w, unit4 q -> v4_dot q (m43_vec (quatInvS q) w) = 0).
Proof.
  split; [exact quatS_angular | split].
  - intros q U. rewrite S_invS, (proj1 (unit4_dot q) U). kring.
  - intros q w _. kring.
Qed.
Print Assumptions C54_angular_velocity.

(** quatJacobian is the derivative, in every direction, of the update of a
    quaternion by a small rotation vector. *)
Theorem C54_update_jacobian : forall q d,
  v4_derive (fun s => updateQuat q (v3_scale s d)) 0 (m43_vec (quatJacobian q) d) /\
  quatJacobian q = quatInvS q.
Proof. intros q d. split; [apply update_derive | apply jacobian_invS]. Qed.
Print Assumptions C54_update_jacobian.

(** quatExpJacobian is the derivative of the exponential along any curve, and
    the two difference matrices are inverse to each other. *)
Theorem C54_exp_jacobian :
  (forall (a : R -> v3) t d, v3_derive a t d -> eps4 < v3_norm (a t) ->
     v4_derive (fun s => axisAngle2quat (a s)) t (m43_vec (quatExpJacobian (a t)) d)) /\
  (forall v, eps4 <= v3_norm v -> sin (v3_norm v / 2) <> 0 -> cos (v3_norm v / 2) <> 0 ->
     m3_mul (expDiffMat v) (logDiffMat v) = m3_I).
Proof. split; [exact exp_derive | exact exp_log_diff]. Qed.
Print Assumptions C54_exp_jacobian.

(** Below 2^-13 the difference matrices are I - a X + b X X with series in
    place of the trigonometric coefficients, and inverse to each other up to
    fourth order. *)
Lemma cos_series x : 0 <= x <= 1 -> 1 - x * x / 2 + x * x * x * x / 24 - x * x * x * x * x * x / 720 <= cos x <= 1 - x * x / 2 + x * x * x * x / 24.
Proof.
  intros H. destruct (pre_cos_bound x 0 ltac:(lra) ltac:(lra)) as [_ B]. destruct (pre_cos_bound x 1 ltac:(lra) ltac:(lra)) as [A _].
  unfold cos_approx, cos_term in A, B. cbn [Nat.mul Nat.add sum_f_R0 pow fact INR] in A, B. split; [ eapply Rle_trans; [ | exact A ] | eapply Rle_trans; [ exact B | ] ]; right; field.
Qed.
Lemma sin_series x : 0 <= x <= 1 -> x - x * x * x / 6 + x * x * x * x * x / 120 - x * x * x * x * x * x * x / 5040 <= sin x <= x - x * x * x / 6 + x * x * x * x * x / 120.
Proof.
  intros H. destruct (pre_sin_bound x 0 ltac:(lra) ltac:(lra)) as [_ B]. destruct (pre_sin_bound x 1 ltac:(lra) ltac:(lra)) as [A _].
  unfold sin_approx, sin_term in A, B. cbn [Nat.mul Nat.add sum_f_R0 pow fact INR] in A, B. split; [ eapply Rle_trans; [ | exact A ] | eapply Rle_trans; [ exact B | ] ]; right; field.
Qed.
Theorem C54_small_angles : forall v, 0 < v3_norm v < eps4 ->
  let p := v3_norm v in
  let X := crossMx v in
  (exists a b, expDiffMat v = m3_add (m3_sub m3_I (m3_scale a X)) (m3_mul (m3_scale b X) X) /\
     Rabs (a - (1 - cos p) / (p * p)) <= p * p * p * p / 720 /\ Rabs (b - (p - sin p) / (p * p * p)) <= p * p * p * p / 5040) /\
  (exists e f, m3_mul (expDiffMat v) (logDiffMat v) = m3_add (m3_add m3_I (m3_scale e X)) (m3_scale f (m3_mul X X)) /\
     Rabs e <= p * p * p * p / 720 /\ Rabs f <= p * p * p * p / 2000).
Proof.
  intros v H p X. assert (P : 0 < p < / 8192) by exact H.
  assert (EE : expDiffMat v = m3_add (m3_sub m3_I (m3_scale ((1/2) * (1 - (1/12) * (p * p))) X)) (m3_mul (m3_scale ((1/6) * (1 - (1/20) * (p * p))) X) X)).
  { unfold expDiffMat. cbv zeta. fold p. destruct (eqb_spec p 0) as [Z | _]; [lra | ]. rewrite (Rabs_right p) by lra. unfold isSmall. destruct (ltb_spec p eps4) as [_ | L]; [ reflexivity | unfold eps4 in L; lra ]. }
  assert (EL : logDiffMat v = m3_add (m3_add m3_I (m3_scale (1/2) X)) (m3_mul (m3_scale (1 / 12 * (1 + 1 / 60 * p * p)) X) X)).
  { unfold logDiffMat. cbv zeta. fold p. destruct (eqb_spec p 0) as [Z | _]; [lra | ]. rewrite (Rabs_right p) by lra. unfold isSmall. destruct (ltb_spec p eps4) as [_ | L]; [ reflexivity | unfold eps4 in L; lra ]. }
  split.
  - eexists. eexists. split; [ exact EE | ].
    assert (P2 : 0 < p * p) by nra. assert (P3 : 0 < p * p * p) by nra. destruct (cos_series p ltac:(lra)) as [C1 C2]. destruct (sin_series p ltac:(lra)) as [S1 S2]. split.
    + replace (1/2 * (1 - 1/12 * (p * p)) - (1 - cos p) / (p * p)) with ((cos p - (1 - p * p / 2 + p * p * p * p / 24)) / (p * p)) by (field; lra).
      unfold Rdiv at 1. rewrite Rabs_mult, (Rabs_right (/ (p * p))) by (left; apply Rinv_0_lt_compat; exact P2).
      apply Rmult_le_reg_r with (p * p); [ exact P2 | ]. rewrite Rmult_assoc, Rinv_l, Rmult_1_r by lra.
      apply Rabs_le. lra.
    + replace (1/6 * (1 - 1/20 * (p * p)) - (p - sin p) / (p * p * p)) with ((sin p - (p - p * p * p / 6 + p * p * p * p * p / 120)) / (p * p * p)) by (field; lra).
      unfold Rdiv at 1. rewrite Rabs_mult, (Rabs_right (/ (p * p * p))) by (left; apply Rinv_0_lt_compat; exact P3).
      apply Rmult_le_reg_r with (p * p * p); [ exact P3 | ]. rewrite Rmult_assoc, Rinv_l, Rmult_1_r by lra.
      apply Rabs_le. lra.
  - rewrite EE, EL. unfold X. rewrite diff_product. cbv zeta. rewrite <- (v3_norm_sq v). fold p. eexists. eexists. split; [ reflexivity | ].
    assert (Q0 : 0 <= p * p <= 1) by nra. assert (Q1 : 0 <= p * p * p * p) by nra.
    assert (Q2 : p * p * p * p * (p * p) <= p * p * p * p) by nra. assert (Q3 : 0 <= p * p * p * p * (p * p)) by nra. split; apply Rabs_le.
    + replace (1/2 - 1/2 * (1 - 1/12 * (p * p)) + p * p * (1/2 * (1 - 1/12 * (p * p)) * (1/12 * (1 + 1/60 * p * p)) - 1/6 * (1 - 1/20 * (p * p)) / 2))
        with (p * p * p * p / 720 - p * p * p * p * (p * p) / 17280) by field. lra.
    + replace (1/12 * (1 + 1/60 * p * p) + 1/6 * (1 - 1/20 * (p * p)) - 1/2 * (1 - 1/12 * (p * p)) / 2 - p * p * (1/12 * (1 + 1/60 * p * p)) * (1/6 * (1 - 1/20 * (p * p))))
        with (p * p * p * p / 2160 + p * p * p * p * (p * p) / 86400) by field. lra.
Qed.
Print Assumptions C54_small_angles.
Example C54_ex_small : 0 < v3_norm (V3 (/ 10000) 0 0) < eps4.
Proof.
  unfold v3_norm, v3_dot, eps4. cbn [x0 x1 x2].
  replace (/ 10000 * / 10000 + 0 * 0 + 0 * 0) with (/ 10000 * / 10000) by ring. rewrite sqrt_square by lra. lra.
Qed.

(** Both Jacobians of the logarithm are its derivative along any curve of
    unit quaternions (the second one needs a nonzero scalar part, where the
    tangent it divides by is finite). *)
Theorem C54_log_jacobian : forall (q : R -> v4) t qd,
  (forall s, unit4 (q s)) -> v4_derive q t qd -> eps4 < v3_norm (qeps (q t)) ->
  exists l, locally t (fun s => quat2AxisAngle (q s) = Some (l s)) /\
    v3_derive l t (m34_vec (quatLogJacobian (q t)) qd) /\
    (q3 (q t) <> 0 -> exists J, quatLogJacobian2 (q t) = Some J /\
       m34_vec J qd = m34_vec (quatLogJacobian (q t)) qd).
Proof.
  intros q t qd U D L. pose proof eps4_pos as P.
  destruct (log_derive q t qd U D L) as (l & Hl & Dl). exists l.
  assert (J1 : m34_vec (quatLogJacobian (q t)) qd = log_rate (q t) qd) by (apply logJ1; [apply U | lra]).
  rewrite J1. split; [exact Hl | split; [exact Dl | ]]. intros Z.
  apply logJ2; [apply U | | lra | exact Z].
  destruct D as (A & B & C & D). unfold v4_dot.
  apply (unit_tangent _ _ _ _ t _ _ _ _ A B C D). exact U.
Qed.
Print Assumptions C54_log_jacobian.

(** A uniform turn about the z axis meets the hypotheses. *)
Example C54_ex_curve :
  let q := fun s => V4 0 0 (sin s) (cos s) in
  (forall s, unit4 (q s)) /\ v4_derive q 1 (V4 0 0 (cos 1) (- sin 1)) /\ eps4 < v3_norm (qeps (q 1)).
Proof.
  cbv zeta. split; [ | split].
  - intros s. unfold unit4. cbn [q0 q1 q2 q3]. pose proof (sin2_cos2 s) as T. unfold Rsqr in T. lra.
  - unfold v4_derive. cbn [q0 q1 q2 q3].
    split; [ | split; [ | split]]; auto_derive; try exact I; ring.
  - unfold v3_norm, v3_dot, qeps. cbn [q0 q1 q2 q3 x0 x1 x2].
    replace (0 * 0 + 0 * 0 + sin 1 * sin 1) with (sin 1 * sin 1) by ring.
    pose proof (sin_lower 1 ltac:(lra) ltac:(pose proof PI2_1; lra)).
    rewrite sqrt_square by lra. unfold eps4. lra.
Qed.
