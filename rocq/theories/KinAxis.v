(** * Spherical interpolation and axis-angle rotation matrices *)

From Coq Require Import Reals Psatz Nsatz.
From Verif Require Import KinModel KinSpec KinProofs KinExp.
Local Open Scope R_scope.

(** ** qslerp *)

Lemma rel_scalar p s : q3 (qplus (quatInv p) s) = v4_dot p s.
Proof. kring. Qed.
Lemma rel_unit p s : unit4 p -> unit4 s -> unit4 (qplus (quatInv p) s).
Proof.
  intros U V. apply unit4_dot. rewrite v4_dot_qplus.
  assert (v4_dot (quatInv p) (quatInv p) = 1) as -> by (rewrite <- U; kring).
  assert (v4_dot s s = 1) as -> by exact V. ring.
Qed.
Lemma rel_compose p s : unit4 p -> qplus p (qplus (quatInv p) s) = s.
Proof. intros U. unfold unit4 in U. kdestruct. kunf in U. kunf. f_equal; nsatz. Qed.

(** The nearer of the two quaternions standing for the target rotation. *)
Definition nearer (p0 p1 : v4) : v4 :=
  if ltb (v4_dot (v4_add p0 p1) (v4_add p0 p1)) (v4_dot (v4_sub p0 p1) (v4_sub p0 p1))
  then v4_neg p1 else p1.
Lemma nearer_dot p0 p1 : 0 <= v4_dot p0 (nearer p0 p1).
Proof.
  unfold nearer.
  assert (E : v4_dot (v4_sub p0 p1) (v4_sub p0 p1) =
              v4_dot (v4_add p0 p1) (v4_add p0 p1) - 4 * v4_dot p0 p1) by kring.
  destruct (ltb_spec (v4_dot (v4_add p0 p1) (v4_add p0 p1)) (v4_dot (v4_sub p0 p1) (v4_sub p0 p1))) as [L | L].
  - replace (v4_dot p0 (v4_neg p1)) with (- v4_dot p0 p1) by kring. lra.
  - lra.
Qed.
Lemma nearer_unit p0 p1 : unit4 p1 -> unit4 (nearer p0 p1).
Proof. intros U. unfold nearer. destruct (ltb _ _); [apply unit4_neg | ]; exact U. Qed.
Lemma nearer_or p0 p1 : nearer p0 p1 = p1 \/ nearer p0 p1 = v4_neg p1.
Proof. unfold nearer. destruct (ltb _ _); [right | left]; reflexivity. Qed.

Lemma slerp_mid p0 p1 t : 0 < t < 1 ->
  qslerp p0 p1 t =
  match quat2AxisAngle (qplus (quatInv p0) (nearer p0 p1)) with
  | Some l => Some (qplus p0 (axisAngle2quat (v3_scale t l)))
  | None => None
  end.
Proof.
  intros [H0 H1]. unfold qslerp.
  destruct (Rle_dec t 0); [lra | ]. destruct (Rle_dec 1 t); [lra | ]. reflexivity.
Qed.

Lemma acos_half e : 0 <= e <= 1 -> 0 <= acos e <= PI / 2.
Proof.
  intros H. pose proof (acos_bound e). split; [lra | ].
  destruct (Rle_lt_dec (acos e) (PI / 2)) as [? | C]; [assumption | exfalso].
  assert (cos (acos e) < 0) by (apply cos_lt_0; pose proof PI_RGT_0; lra).
  rewrite cos_acos in * by lra. lra.
Qed.

Lemma slerp_spec p0 p1 t : unit4 p0 -> unit4 p1 -> 0 < t < 1 ->
  let s := nearer p0 p1 in
  let r := qplus (quatInv p0) s in
  exists l, quat2AxisAngle r = Some l /\
    qslerp p0 p1 t = Some (qplus p0 (axisAngle2quat (v3_scale t l))) /\
    v3_norm l <= PI /\
    (eps4 <= v3_norm (qeps r) -> qplus p0 (axisAngle2quat l) = s /\ v3_norm l = 2 * acos (v4_dot p0 s)) /\
    (v3_norm (qeps r) < eps4 -> l = v3_scale 2 (qeps r)).
Proof.
  intros U0 U1 Ht s r.
  assert (Us : unit4 s) by (apply nearer_unit, U1).
  assert (Ur : unit4 r) by (apply rel_unit; assumption).
  assert (R3 : q3 r = v4_dot p0 s) by apply rel_scalar.
  pose proof (nearer_dot p0 p1) as D. fold s in D.
  pose proof (unit_split r Ur) as E. rewrite R3 in E.
  pose proof (v3_norm_pos (qeps r)) as NP. pose proof eps4_pos as EP.
  destruct (Rle_lt_dec eps4 (v3_norm (qeps r))) as [B | B].
  - rewrite slerp_mid by exact Ht. fold s. fold r.
    rewrite (log_big r Ur (or_introl B)).
    eexists. split; [reflexivity | ]. split; [reflexivity | ].
    destruct (exp_of_log r Ur (or_introl B)) as (N & N2 & _ & X).
    split; [ | split].
    + rewrite N, R3. pose proof (acos_half (v4_dot p0 s) ltac:(nra)). lra.
    + intros _. rewrite X, N, R3. split; [apply rel_compose, U0 | reflexivity].
    + intros C. lra.
  - assert (G : 0 < q3 r). { rewrite R3. pose proof eps4_lt_1. nra. }
    assert (L : v3_norm (qeps r) <= q3 r). { rewrite R3 in *. unfold eps4 in *. nra. }
    rewrite slerp_mid by exact Ht. fold s. fold r. rewrite (log_small r G L B).
    eexists. split; [reflexivity | ]. split; [reflexivity | ].
    split; [ | split].
    + rewrite v3_norm_scale, Rabs_right by lra. pose proof PI2_1. unfold eps4 in B. lra.
    + intros C. lra.
    + intros _. reflexivity.
Qed.

(** ** axisAngle2R *)

Lemma R4_rodrigues a ax ay az v : 1 / 10 ^ 12 <= a -> unit3 (V3 ax ay az) ->
  m3_vec (axisAngle2R4 a ax ay az) v = rodrigues (V3 ax ay az) a v.
Proof.
  intros H U. unfold axisAngle2R4. destruct (ltb_spec a (1 / 10 ^ 12)); [lra | ].
  unfold unit3 in U. cbn [x0 x1 x2] in U. destruct v as [x y z]. kunf. f_equal; ring.
Qed.

Lemma norm_unfold v : sqrt (x0 v * x0 v + x1 v * x1 v + x2 v * x2 v) = v3_norm v.
Proof. reflexivity. Qed.

Lemma normalized_unit v : 0 < v3_norm v -> unit3 (v3_scale (/ v3_norm v) v).
Proof.
  intros H. unfold unit3. unfold v3_scale. cbn [x0 x1 x2]. rewrite norm_scaled_sq. field. lra.
Qed.

Lemma R_rodrigues a v : 1 / 10 ^ 12 <= v3_norm a ->
  m3_vec (axisAngle2R a) v = rodrigues (v3_scale (/ v3_norm a) a) (v3_norm a) v.
Proof.
  intros H. unfold axisAngle2R. rewrite norm_unfold. cbv zeta.
  destruct (ltb_spec (v3_norm a) (1 / 10 ^ 12)) as [L | _]; [lra | ].
  assert (P : 0 < v3_norm a) by lra.
  pose proof (normalized_unit a P) as U.
  assert (E : v3_scale (/ v3_norm a) a =
              V3 (x0 a * (1 / v3_norm a)) (x1 a * (1 / v3_norm a)) (x2 a * (1 / v3_norm a))).
  { unfold v3_scale. f_equal; field; lra. }
  rewrite E in *. apply R4_rodrigues; assumption.
Qed.

Lemma R_is_exp a : eps4 <= v3_norm a -> axisAngle2R a = quat2r (axisAngle2quat a).
Proof.
  intros H. apply m3_ext. intros v. rewrite exp_rodrigues by exact H.
  apply R_rodrigues. unfold eps4 in H. lra.
Qed.

Lemma rodrigues_SO3 C e a : unit3 e -> (forall v, m3_vec C v = rodrigues e a v) -> SO3 C.
Proof.
  intros U H.
  assert (E : C = m3_sub (m3_add (m3_scale (cos a) m3_I) (m3_scale (1 - cos a) (m3_outer e e)))
                         (m3_scale (sin a) (crossMx e))).
  { apply m3_ext. intros v. rewrite H. kring. }
  pose proof (sin2_cos2 a) as T. unfold Rsqr in T. rewrite E. clear E H.
  set (s := sin a) in *. set (c := cos a) in *. clearbody s c. unfold unit3 in U.
  destruct e as [x y z]. cbn [x0 x1 x2] in U. split.
  - kunf. f_equal; nsatz.
  - kunf. nsatz.
Qed.

Lemma axisAngle2R_SO3 a : SO3 (axisAngle2R a).
Proof.
  destruct (Rlt_le_dec (v3_norm a) (1 / 10 ^ 12)) as [L | L].
  - assert (axisAngle2R a = m3_I) as ->; [ | apply SO3_I].
    unfold axisAngle2R. rewrite norm_unfold.
    destruct (ltb_spec (v3_norm a) (1 / 10 ^ 12)); [reflexivity | contradiction].
  - apply (rodrigues_SO3 _ (v3_scale (/ v3_norm a) a) (v3_norm a)); [apply normalized_unit; lra | ].
    intros v. apply R_rodrigues, L.
Qed.

(** ** R2AxisAngle *)

Lemma two_acos e : 0 <= e <= 1 -> acos (2 * e * e - 1) = 2 * acos e.
Proof.
  intros H. pose proof (acos_half e H) as B. rewrite <- (acos_cos (2 * acos e)) by lra. f_equal.
  rewrite cos_2a_cos, cos_acos by lra. ring.
Qed.

(** The part of a matrix that survives subtracting its transpose. *)
Definition skew_part (C : m3) : v3 := V3 (m21 C - m12 C) (m02 C - m20 C) (m10 C - m01 C).
Definition rot_angle (C : m3) : R := acos ((m3_trace C - 1) / 2).

Lemma R2_quat q : unit4 q -> 0 <= q3 q ->
  rot_angle (quat2r q) = 2 * acos (q3 q) /\
  skew_part (quat2r q) = v3_scale (-4 * q3 q) (qeps q) /\
  (1 / 10 ^ 10 <= rot_angle (quat2r q) -> 1 / 10 ^ 10 <= v3_norm (skew_part (quat2r q)) ->
   0 < q3 q /\ 0 < v3_norm (qeps q) /\
   R2AxisAngle (quat2r q) = v3_scale (2 * acos (q3 q) / v3_norm (qeps q)) (qeps q)).
Proof.
  intros U P. pose proof (unit_split q U) as E. pose proof (v3_norm_pos (qeps q)) as NP.
  assert (Eb : 0 <= q3 q <= 1) by nra.
  assert (T : m3_trace (quat2r q) - 1 = 2 * (2 * q3 q * q3 q - 1)).
  { unfold unit4 in U. destruct q as [a b c d]. kunf. kunf in U. lra. }
  assert (A : rot_angle (quat2r q) = 2 * acos (q3 q)).
  { unfold rot_angle. rewrite T. replace (2 * (2 * q3 q * q3 q - 1) / 2) with (2 * q3 q * q3 q - 1) by field.
    apply two_acos, Eb. }
  assert (K : skew_part (quat2r q) = v3_scale (-4 * q3 q) (qeps q)) by (unfold skew_part; kring).
  split; [exact A | split; [exact K | ]]. intros H1 H2.
  pose proof H2 as H2'. rewrite K, v3_norm_scale in H2'.
  assert (Hq : 0 < q3 q).
  { destruct Eb as [[? | Z] _]; [assumption | ]. rewrite <- Z in H2'.
    rewrite Rmult_0_r, Rabs_R0 in H2'. lra. }
  rewrite Rabs_left in H2' by lra.
  assert (Hn : 0 < v3_norm (qeps q)) by nra.
  split; [exact Hq | split; [exact Hn | ]].
  unfold R2AxisAngle.
  assert (M : Rmax (-1) (Rmin ((m00 (quat2r q) + m11 (quat2r q) + m22 (quat2r q) - 1) * (1/2)) 1) =
              (m3_trace (quat2r q) - 1) / 2).
  { assert (0 <= q3 q * q3 q <= 1) by nra.
    assert (-1 <= (m3_trace (quat2r q) - 1) / 2 <= 1) by (rewrite T; lra).
    unfold m3_trace in *. rewrite Rmin_left by lra. rewrite Rmax_right by lra. field. }
  rewrite M. fold (rot_angle (quat2r q)). rewrite A in *.
  change (V3 (m21 (quat2r q) - m12 (quat2r q)) (m02 (quat2r q) - m20 (quat2r q)) (m10 (quat2r q) - m01 (quat2r q)))
    with (skew_part (quat2r q)). cbv zeta.
  destruct (ltb_spec (Rabs (2 * acos (q3 q))) (1 / 10 ^ 10)) as [L | _];
    [rewrite Rabs_right in L by lra; lra | ].
  destruct (ltb_spec (Rabs (v3_norm (skew_part (quat2r q)))) (1 / 10 ^ 10)) as [L | _];
    [rewrite Rabs_right in L by lra; lra | ].
  rewrite K, v3_norm_scale, Rabs_left by lra.
  destruct q as [a b c d]. unfold v3_scale, qeps in *. cbn [x0 x1 x2 q0 q1 q2 q3] in *.
  set (n := v3_norm _) in *. f_equal; field; lra.
Qed.

Lemma axisAngle2R_of_log q : unit4 q -> 0 <= q3 q ->
  1 / 10 ^ 10 <= rot_angle (quat2r q) -> 0 < v3_norm (qeps q) ->
  axisAngle2R (v3_scale (2 * acos (q3 q) / v3_norm (qeps q)) (qeps q)) = quat2r q.
Proof.
  intros U P A N. pose proof (unit_split q U) as E.
  assert (Eb : 0 <= q3 q <= 1) by nra.
  destruct (R2_quat q U P) as (A2 & _). rewrite A2 in A.
  pose proof (acos_half _ Eb) as B.
  destruct (acos_ge_sin (q3 q) ltac:(lra) _ (Rlt_le _ _ N) E) as (S1 & _).
  set (n := v3_norm (qeps q)) in *.
  assert (Nl : v3_norm (v3_scale (2 * acos (q3 q) / n) (qeps q)) = 2 * acos (q3 q)).
  { rewrite v3_norm_scale. fold n. rewrite Rabs_right; [field; lra | ].
    apply Rle_ge, Rmult_le_pos; [lra | left; apply Rinv_0_lt_compat; lra]. }
  apply m3_ext. intros v. rewrite R_rodrigues by (rewrite Nl; lra). rewrite Nl.
  assert (Z : v3_scale (/ (2 * acos (q3 q))) (v3_scale (2 * acos (q3 q) / n) (qeps q)) = v3_scale (/ n) (qeps q)).
  { unfold v3_scale. cbn [x0 x1 x2]. f_equal; field; lra. }
  rewrite Z. unfold rodrigues. rewrite sin_2a, cos_2a, S1, cos_acos by lra.
  assert (I : / n * n = 1) by (field; lra).
  assert (N2 : n * n = q0 q * q0 q + q1 q * q1 q + q2 q * q2 q) by (unfold n; rewrite v3_norm_sq; reflexivity).
  set (k := / n) in *. clearbody k. clearbody n. clear - I N2 E. 
  destruct q as [a b c d], v as [x y z]. cbn [q0 q1 q2 q3] in *. kunf. f_equal; nsatz.
Qed.

Lemma R_of_R2 C : SO3 C ->
  1 / 10 ^ 10 <= rot_angle C -> 1 / 10 ^ 10 <= v3_norm (skew_part C) ->
  axisAngle2R (R2AxisAngle C) = C /\ v3_norm (R2AxisAngle C) = rot_angle C.
Proof.
  intros H A K. destruct (r2quat_spec C H) as (U & E & P).
  rewrite <- E in A, K. destruct (R2_quat _ U P) as (A2 & _ & R2). destruct (R2 A K) as (Hq & Hn & R3).
  rewrite <- E. rewrite R3. split.
  - apply axisAngle2R_of_log; assumption.
  - rewrite A2, v3_norm_scale. pose proof (unit_split _ U).
    pose proof (acos_half (q3 (r2quat C)) ltac:(nra)). rewrite Rabs_right; [field; lra | ].
    apply Rle_ge, Rmult_le_pos; [lra | left; apply Rinv_0_lt_compat; lra].
Qed.

(** At a half turn the matrix is symmetric and the axis is lost. *)
Lemma half_turn_lost :
  R2AxisAngle (axisAngle2R (V3 PI 0 0)) = v3_zero /\
  axisAngle2R v3_zero = m3_I /\ axisAngle2R (V3 PI 0 0) = M3 1 0 0 0 (-1) 0 0 0 (-1).
Proof.
  pose proof PI2_1 as P.
  assert (N : v3_norm (V3 PI 0 0) = PI).
  { unfold v3_norm, v3_dot. cbn [x0 x1 x2]. apply sqrt_lem_1; nra. }
  assert (E : axisAngle2R (V3 PI 0 0) = M3 1 0 0 0 (-1) 0 0 0 (-1)).
  { apply m3_ext. intros v. rewrite R_rodrigues by (rewrite N; lra). rewrite N.
    unfold rodrigues. rewrite cos_PI, sin_PI. destruct v as [x y z]. kunf. f_equal; field; lra. }
  split; [ | split; [ | exact E]].
  - rewrite E. unfold R2AxisAngle. cbn [m00 m01 m02 m10 m11 m12 m20 m21 m22].
    destruct (ltb _ (1 / 10 ^ 10)); [reflexivity | ].
    replace (V3 (0 - 0) (0 - 0) (0 - 0)) with v3_zero by (unfold v3_zero; f_equal; ring).
    rewrite v3_norm_zero, Rabs_R0.
    destruct (ltb_spec 0 (1 / 10 ^ 10)) as [_ | L]; [reflexivity | lra].
  - unfold axisAngle2R. rewrite norm_unfold, v3_norm_zero.
    destruct (ltb_spec 0 (1 / 10 ^ 12)) as [_ | L]; [reflexivity | lra].
Qed.

(** log after exp for matrices *)
Lemma R2_of_R a : 1 / 10 ^ 10 <= v3_norm a < PI -> 1 / 10 ^ 10 <= 2 * sin (v3_norm a) ->
  R2AxisAngle (axisAngle2R a) = a.
Proof.
  intros [H0 H1] H2. set (t := v3_norm a) in *.
  set (e := v3_scale (/ t) a).
  assert (Ea : a = v3_scale t e).
  { unfold e, v3_scale. cbn [x0 x1 x2]. destruct a as [x y z]. cbn [x0 x1 x2].
    f_equal; field; lra. }
  assert (Ue : unit3 e) by (apply normalized_unit; fold t; lra).
  assert (M : axisAngle2R a =
    m3_sub (m3_add (m3_scale (cos t) m3_I) (m3_scale (1 - cos t) (m3_outer e e)))
           (m3_scale (sin t) (crossMx e))).
  { apply m3_ext. intros v. rewrite R_rodrigues by (fold t; lra). fold t. fold e. kring. }
  assert (T : m3_trace (axisAngle2R a) = 1 + 2 * cos t).
  { rewrite M. unfold unit3 in Ue. destruct e as [x y z]. cbn [x0 x1 x2] in Ue. kunf.
    replace (cos t * 1 + (1 - cos t) * (x * x) - sin t * 0 +
      (cos t * 1 + (1 - cos t) * (y * y) - sin t * 0) +
      (cos t * 1 + (1 - cos t) * (z * z) - sin t * 0))
      with (3 * cos t + (1 - cos t) * (x * x + y * y + z * z)) by ring.
    rewrite Ue. ring. }
  assert (K : skew_part (axisAngle2R a) = v3_scale (-2 * sin t) e).
  { rewrite M. unfold skew_part. kring. }
  assert (Ne : v3_norm e = 1).
  { unfold v3_norm, v3_dot. rewrite Ue. apply sqrt_1. }
  assert (Sp : 0 < sin t) by lra.
  unfold R2AxisAngle.
  assert (Cb : Rmax (-1) (Rmin ((m00 (axisAngle2R a) + m11 (axisAngle2R a) + m22 (axisAngle2R a) - 1) * (1/2)) 1) = cos t).
  { replace ((m00 (axisAngle2R a) + m11 (axisAngle2R a) + m22 (axisAngle2R a) - 1) * (1/2)) with (cos t)
      by (unfold m3_trace in T; lra).
    pose proof (COS_bound t). rewrite Rmin_left by lra. rewrite Rmax_right by lra. reflexivity. }
  rewrite Cb. change (V3 (m21 (axisAngle2R a) - m12 (axisAngle2R a)) (m02 (axisAngle2R a) - m20 (axisAngle2R a)) (m10 (axisAngle2R a) - m01 (axisAngle2R a)))
    with (skew_part (axisAngle2R a)). rewrite K, v3_norm_scale, Ne, acos_cos by lra. cbv zeta.
  rewrite (Rabs_left (-2 * sin t)) by lra.
  destruct (ltb_spec (Rabs t) (1 / 10 ^ 10)) as [L | _]; [rewrite Rabs_right in L by lra; lra | ].
  destruct (ltb_spec (Rabs (- (-2 * sin t) * 1)) (1 / 10 ^ 10)) as [L | _];
    [rewrite Rabs_right in L by lra; lra | ].
  transitivity (v3_scale t e); [ | symmetry; exact Ea].
  unfold v3_scale. cbn [x0 x1 x2]. f_equal; field; lra.
Qed.
