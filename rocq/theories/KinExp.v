(** * Axis-angle vectors: exponential, logarithm and interpolation *)

From Coq Require Import Reals Psatz Nsatz.
From Verif Require Import KinModel KinSpec KinProofs.
Local Open Scope R_scope.

Lemma v3_dot_pos v : 0 <= v3_dot v v.
Proof. unfold v3_dot. nra. Qed.
Lemma v3_norm_pos v : 0 <= v3_norm v.
Proof. apply sqrt_pos. Qed.
Lemma v3_norm_sq v : v3_norm v * v3_norm v = v3_dot v v.
Proof. apply sqrt_sqrt, v3_dot_pos. Qed.
Lemma v3_norm_scale s v : v3_norm (v3_scale s v) = Rabs s * v3_norm v.
Proof.
  unfold v3_norm.
  replace (v3_dot (v3_scale s v) (v3_scale s v)) with (Rsqr s * v3_dot v v) by (unfold Rsqr; kring).
  rewrite sqrt_mult; [ | apply Rle_0_sqr | apply v3_dot_pos]. rewrite sqrt_Rsqr_abs. reflexivity.
Qed.
Lemma v3_norm_0 v : v3_norm v = 0 -> v = v3_zero.
Proof.
  intros H. pose proof (v3_norm_sq v) as E. rewrite H in E.
  destruct v as [a b c]. unfold v3_dot in E. cbn [x0 x1 x2] in E. unfold v3_zero.
  f_equal; nra.
Qed.
Lemma v3_norm_zero : v3_norm v3_zero = 0.
Proof. unfold v3_norm. replace (v3_dot v3_zero v3_zero) with 0 by kring. apply sqrt_0. Qed.

Lemma eps4_pos : 0 < eps4.
Proof. unfold eps4. lra. Qed.
Lemma eps4_lt_1 : eps4 < 1.
Proof. unfold eps4. lra. Qed.

(** [isSmall] is a strict comparison with the fourth root of epsilon. *)
Lemma isSmall_true x : x < eps4 -> isSmall x = true.
Proof. intros H. unfold isSmall. destruct (ltb_spec x eps4); [reflexivity | contradiction]. Qed.
Lemma isSmall_false x : eps4 <= x -> isSmall x = false.
Proof. intros H. unfold isSmall. destruct (ltb_spec x eps4); [lra | reflexivity]. Qed.

(** The exponential on the accurate range, without the branch. *)
Lemma exp_big a : eps4 <= v3_norm a ->
  axisAngle2quat a =
  let t := v3_norm a in
  V4 (sin (t / 2) / t * x0 a) (sin (t / 2) / t * x1 a) (sin (t / 2) / t * x2 a) (cos (t / 2)).
Proof.
  intros H. unfold axisAngle2quat. cbv zeta. rewrite isSmall_false by exact H.
  replace (v3_norm a * (1/2)) with (v3_norm a / 2) by field. reflexivity.
Qed.
Lemma exp_small a : v3_norm a < eps4 ->
  axisAngle2quat a =
  let t := v3_norm a in
  V4 ((1/2 + t * t / 48) * x0 a) ((1/2 + t * t / 48) * x1 a) ((1/2 + t * t / 48) * x2 a) (cos (t / 2)).
Proof.
  intros H. unfold axisAngle2quat. cbv zeta. rewrite isSmall_true by exact H.
  replace (v3_norm a * (1/2)) with (v3_norm a / 2) by field.
  replace (1/2 + v3_norm a * v3_norm a * (1/48)) with (1/2 + v3_norm a * v3_norm a / 48) by field.
  reflexivity.
Qed.
Lemma exp_zero : axisAngle2quat v3_zero = quatIdentity.
Proof.
  rewrite exp_small by (rewrite v3_norm_zero; apply eps4_pos). cbv zeta.
  rewrite v3_norm_zero. replace (0 / 2) with 0 by field. rewrite cos_0.
  unfold v3_zero, quatIdentity. cbn [x0 x1 x2]. f_equal; ring.
Qed.

Lemma norm_scaled_sq k a :
  k * x0 a * (k * x0 a) + k * x1 a * (k * x1 a) + k * x2 a * (k * x2 a) =
  k * k * (v3_norm a * v3_norm a).
Proof. rewrite v3_norm_sq. unfold v3_dot. ring. Qed.

Lemma exp_unit_big a : eps4 <= v3_norm a -> unit4 (axisAngle2quat a).
Proof.
  intros H. rewrite exp_big by exact H. cbv zeta. unfold unit4. cbn [q0 q1 q2 q3].
  rewrite norm_scaled_sq. pose proof eps4_pos as P.
  pose proof (sin2_cos2 (v3_norm a / 2)) as T. unfold Rsqr in T.
  replace (sin (v3_norm a / 2) / v3_norm a * (sin (v3_norm a / 2) / v3_norm a) *
           (v3_norm a * v3_norm a)) with (sin (v3_norm a / 2) * sin (v3_norm a / 2))
    by (field; lra).
  exact T.
Qed.

(** Bounds on the sine from its alternating series. *)
Lemma sin_lower x : 0 <= x -> x <= PI -> x - x * x * x / 6 <= sin x.
Proof.
  intros H0 H1. pose proof (sin_bound x 0 H0 H1) as [L _].
  replace (sin_approx x (2 * 0 + 1)) with (x - x * x * x / 6) in L; [exact L | ].
  unfold sin_approx, sin_term. cbn [Nat.mul Nat.add sum_f_R0].
  rewrite !fact_simpl. cbn [Nat.mul Nat.add fact pow]. simpl INR. field.
Qed.
Lemma sin_upper x : 0 <= x -> sin x <= x.
Proof.
  intros [H | <-]; [left; apply sin_lt_x, H | rewrite sin_0; lra].
Qed.

(** In the series range the quaternion is longer than one, by at most
    theta^4/24: the series for sin(t/2)/t is 1/2 - t^2/48, the code adds. *)
Lemma exp_norm_small a : 0 < v3_norm a < eps4 ->
  let t := v3_norm a in
  1 < v4_dot (axisAngle2quat a) (axisAngle2quat a) <= 1 + t * t * t * t / 24.
Proof.
  intros [H0 H1]. cbv zeta. rewrite exp_small by exact H1. cbv zeta.
  unfold v4_dot. cbn [q0 q1 q2 q3]. rewrite norm_scaled_sq.
  set (t := v3_norm a) in *. pose proof (sin2_cos2 (t / 2)) as T. unfold Rsqr in T.
  pose proof PI2_1. unfold eps4 in H1.
  assert (L : t / 2 - t / 2 * (t / 2) * (t / 2) / 6 <= sin (t / 2)) by (apply sin_lower; lra).
  assert (U : sin (t / 2) <= t / 2) by (apply sin_upper; lra).
  assert (t * t < 1) by nra.
  assert (P0 : 0 <= t / 2 - t * t * t / 48) by nra.
  assert (L' : t / 2 - t * t * t / 48 <= sin (t / 2)) by lra.
  set (s := sin (t / 2)) in *. set (c := cos (t / 2)) in *.
  assert (S1 : s * s <= t / 2 * (t / 2)) by nra.
  assert (S2 : (t / 2 - t * t * t / 48) * (t / 2 - t * t * t / 48) <= s * s) by nra.
  assert (Q : 0 < t * t * t * t) by (repeat apply Rmult_lt_0_compat; lra).
  replace ((1/2 + t * t / 48) * (1/2 + t * t / 48) * (t * t))
    with ((t / 2 + t * t * t / 48) * (t / 2 + t * t * t / 48)) by field.
  assert (0 < t * t * t) by (repeat apply Rmult_lt_0_compat; lra).
  split; nra.
Qed.

(** The rotation it stands for. *)
Lemma exp_rodrigues a v : eps4 <= v3_norm a ->
  m3_vec (quat2r (axisAngle2quat a)) v =
  rodrigues (v3_scale (/ v3_norm a) a) (v3_norm a) v.
Proof.
  intros H. rewrite exp_big by exact H. cbv zeta. pose proof eps4_pos as P.
  set (t := v3_norm a) in *.
  assert (N : t * t = x0 a * x0 a + x1 a * x1 a + x2 a * x2 a) by (unfold t; rewrite v3_norm_sq; reflexivity).
  replace t with (2 * (t / 2)) at 5 by field.
  assert (C2 : cos t = cos (t/2) * cos (t/2) - sin (t/2) * sin (t/2)).
  { rewrite <- cos_plus. f_equal. field. }
  assert (S2 : sin t = 2 * sin (t/2) * cos (t/2)).
  { rewrite <- sin_2a. f_equal. field. }
  pose proof (sin2_cos2 (t / 2)) as T. unfold Rsqr in T.
  replace (2 * (t / 2)) with t by field.
  set (s := sin (t / 2)) in *. set (c := cos (t / 2)) in *.
  unfold rodrigues. rewrite C2, S2. clearbody s c. clear C2 S2.
  assert (I : / t * t = 1) by (field; lra). unfold Rdiv.
  set (k := / t) in *. clearbody k. clearbody t.
  destruct a as [a b d], v as [u w z]. cbn [x0 x1 x2] in N. kunf. clear H.
  f_equal; nsatz.
Qed.

(** ** The logarithm *)

Lemma unit_split q : unit4 q -> v3_norm (qeps q) * v3_norm (qeps q) + q3 q * q3 q = 1.
Proof. intros H. rewrite v3_norm_sq. rewrite <- H. kring. Qed.

Lemma log_big q : unit4 q ->
  eps4 <= v3_norm (qeps q) \/ (q3 q < 0 /\ 0 < v3_norm (qeps q)) ->
  quat2AxisAngle q = Some (v3_scale (2 * (acos (q3 q) / v3_norm (qeps q))) (qeps q)).
Proof.
  intros U H. pose proof (unit_split q U) as E. unfold quat2AxisAngle, qeta.
  pose proof (v3_norm_pos (qeps q)) as NP. pose proof eps4_pos as P. pose proof eps4_lt_1 as P1.
  set (n := v3_norm (qeps q)) in *. set (e := q3 q) in *.
  assert (Nn : 0 < n) by lra. assert (N1 : n <= 1) by nra. assert (Ee : -1 <= e <= 1) by nra.
  destruct (ltb_spec (Rabs e) n) as [L | L]; [reflexivity | ].
  destruct (ltb_spec 0 e) as [G | G].
  - unfold arcSinXOverX. rewrite (Rabs_right n) by lra. rewrite isSmall_false by lra.
    replace (asin n) with (acos e); [reflexivity | ].
    assert (e = cos (asin n)) as Ec.
    { rewrite cos_asin by lra. symmetry. apply sqrt_lem_1; unfold Rsqr; nra. }
    rewrite Ec. apply acos_cos. pose proof (asin_bound n).
    assert (0 <= asin n); [ | lra].
    destruct (Rle_lt_dec 0 (asin n)) as [? | C]; [assumption | exfalso].
    pose proof (sin_asin n ltac:(lra)). assert (sin (asin n) < 0); [ | lra].
    apply sin_lt_0_var; pose proof PI_RGT_0; lra.
  - destruct (eqb_spec n 0) as [Z | Z]; [lra | ].
    replace (PI - asin n) with (acos e); [reflexivity | ].
    assert (A0 : 0 <= asin n).
    { pose proof (asin_bound n).
      destruct (Rle_lt_dec 0 (asin n)) as [? | C]; [assumption | exfalso].
      pose proof (sin_asin n ltac:(lra)). assert (sin (asin n) < 0); [ | lra].
      apply sin_lt_0_var; pose proof PI_RGT_0; lra. }
    assert (e = cos (PI - asin n)) as Ec.
    { rewrite Rtrigo_facts.cos_pi_minus, cos_asin by lra.
      assert (sqrt (1 - n²) = - e) as ->; [ | lra]. apply sqrt_lem_1; unfold Rsqr; nra. }
    rewrite Ec. apply acos_cos. pose proof (asin_bound n). pose proof PI_RGT_0. lra.
Qed.

Lemma log_small q : 0 < q3 q -> v3_norm (qeps q) <= q3 q -> v3_norm (qeps q) < eps4 ->
  quat2AxisAngle q = Some (v3_scale 2 (qeps q)).
Proof.
  intros G L S0. unfold quat2AxisAngle, qeta.
  destruct (ltb_spec (Rabs (q3 q)) (v3_norm (qeps q))) as [L' | _];
    [rewrite Rabs_right in L' by lra; lra | ].
  destruct (ltb_spec 0 (q3 q)); [ | lra]. unfold arcSinXOverX.
  pose proof (v3_norm_pos (qeps q)). rewrite (Rabs_right (v3_norm (qeps q))) by lra.
  rewrite isSmall_true by exact S0. change (IZR (1 / 6)) with 0.
  f_equal. f_equal. ring.
Qed.

Lemma log_none q : unit4 q -> quat2AxisAngle q = None <-> q = v4_neg quatIdentity.
Proof.
  intros U. pose proof (unit_split q U) as E. split.
  - unfold quat2AxisAngle, qeta.
    destruct (ltb_spec (Rabs (q3 q)) (v3_norm (qeps q))); [discriminate | ].
    destruct (ltb_spec 0 (q3 q)); [discriminate | ].
    destruct (eqb_spec (v3_norm (qeps q)) 0) as [Z | Z]; [intros _ | discriminate].
    rewrite Z in E. apply v3_norm_0 in Z. destruct q as [a b c d]. unfold qeps, v3_zero in Z.
    cbn [q0 q1 q2 q3] in *. injection Z as -> -> ->. unfold v4_neg, quatIdentity.
    cbn [q0 q1 q2 q3]. f_equal; nra.
  - intros ->. unfold quat2AxisAngle, qeta.
    assert (Z : v3_norm (qeps (v4_neg quatIdentity)) = 0).
    { unfold v3_norm. replace (v3_dot _ _) with 0 by kring. apply sqrt_0. }
    rewrite Z. destruct (ltb_spec (Rabs (q3 (v4_neg quatIdentity))) 0) as [L | _].
    { pose proof (Rabs_pos (q3 (v4_neg quatIdentity))). lra. }
    destruct (ltb_spec 0 (q3 (v4_neg quatIdentity))) as [L | _].
    { unfold v4_neg, quatIdentity in L. cbn [q3] in L. lra. }
    destruct (eqb_spec 0 0); [reflexivity | congruence].
Qed.

Lemma acos_ge_sin e : -1 <= e <= 1 -> forall n, 0 <= n -> n * n + e * e = 1 ->
  sin (acos e) = n /\ n <= acos e.
Proof.
  intros He n Hn E. pose proof (acos_bound e) as B.
  assert (S1 : sin (acos e) = n).
  { rewrite sin_acos by exact He. apply sqrt_lem_1; unfold Rsqr; nra. }
  split; [exact S1 | ]. rewrite <- S1. apply sin_upper. lra.
Qed.

(** exp after log is the identity on unit quaternions. *)
Lemma exp_of_log q : unit4 q ->
  eps4 <= v3_norm (qeps q) \/ (q3 q < 0 /\ 0 < v3_norm (qeps q)) ->
  let l := v3_scale (2 * (acos (q3 q) / v3_norm (qeps q))) (qeps q) in
  v3_norm l = 2 * acos (q3 q) /\ v3_norm l < 2 * PI /\ eps4 <= v3_norm l /\ axisAngle2quat l = q.
Proof.
  intros U H l. pose proof (unit_split q U) as E.
  pose proof (v3_norm_pos (qeps q)) as NP. pose proof eps4_pos as P. pose proof eps4_lt_1 as P1.
  assert (Nn : 0 < v3_norm (qeps q)) by lra. assert (Ee : -1 <= q3 q <= 1) by nra.
  assert (Ee' : -1 < q3 q < 1) by nra.
  pose proof (acos_bound_lt (q3 q) Ee') as B.
  destruct (acos_ge_sin (q3 q) Ee _ NP E) as (S1 & S2).
  assert (Nl : v3_norm l = 2 * acos (q3 q)).
  { unfold l. rewrite v3_norm_scale. rewrite Rabs_right; [field; lra | ].
    apply Rle_ge. apply Rmult_le_pos; [lra | ].
    apply Rmult_le_pos; [lra | left; apply Rinv_0_lt_compat; lra]. }
  assert (Big : eps4 <= v3_norm l).
  { rewrite Nl. destruct H as [H | [H _]]; [lra | ].
    assert (PI / 2 < acos (q3 q)); [ | pose proof PI2_1; lra].
    destruct (Rlt_le_dec (PI / 2) (acos (q3 q))) as [? | C]; [assumption | exfalso].
    assert (0 <= cos (acos (q3 q))) by (apply cos_ge_0; lra).
    rewrite cos_acos in * by exact Ee. lra. }
  split; [exact Nl | ]. split; [rewrite Nl; lra | ]. split; [exact Big | ].
  rewrite exp_big by exact Big. cbv zeta. rewrite Nl.
  replace (2 * acos (q3 q) / 2) with (acos (q3 q)) by field.
  rewrite cos_acos by exact Ee. rewrite S1. unfold l, qeps in *. cbn [x0 x1 x2 v3_scale].
  destruct q as [a b c d]. cbn [q0 q1 q2 q3] in *. unfold v3_scale. cbn [x0 x1 x2].
  f_equal; field; lra.
Qed.

(** log after exp is the identity on vectors shorter than two pi. *)
Lemma log_of_exp a : eps4 <= v3_norm a < 2 * PI ->
  eps4 <= sin (v3_norm a / 2) \/ PI < v3_norm a ->
  quat2AxisAngle (axisAngle2quat a) = Some a.
Proof.
  intros [H0 H1] H. pose proof eps4_pos as P. pose proof (exp_unit_big a H0) as U.
  assert (Sp : 0 < sin (v3_norm a / 2)) by (apply sin_gt_0; lra).
  assert (Ne : v3_norm (qeps (axisAngle2quat a)) = sin (v3_norm a / 2)).
  { assert (qeps (axisAngle2quat a) = v3_scale (sin (v3_norm a / 2) / v3_norm a) a) as ->.
    { rewrite exp_big by exact H0. reflexivity. }
    rewrite v3_norm_scale, Rabs_right; [field; lra | ].
    apply Rle_ge, Rmult_le_pos; [lra | left; apply Rinv_0_lt_compat; lra]. }
  assert (E3 : q3 (axisAngle2quat a) = cos (v3_norm a / 2)) by (rewrite exp_big by exact H0; reflexivity).
  rewrite log_big; [ | exact U | ].
  - rewrite E3, Ne, acos_cos by lra.
    assert (qeps (axisAngle2quat a) = v3_scale (sin (v3_norm a / 2) / v3_norm a) a) as ->.
    { rewrite exp_big by exact H0. reflexivity. }
    f_equal. destruct a as [x y z]. unfold v3_scale. cbn [x0 x1 x2].
    set (t := v3_norm _) in *. f_equal; field; lra.
  - rewrite Ne, E3. destruct H as [H | H]; [left; exact H | right; split; [ | exact Sp]].
    apply cos_lt_0; lra.
Qed.

(** The scale lost to the integer quotient: near zero the logarithm of q has
    length 2 n instead of 2 asin n. *)
Lemma asin_bounds n : 0 < n < eps4 -> n < asin n <= n + 4 / 3 * (n * n * n).
Proof.
  intros [H0 H1]. unfold eps4 in H1.
  pose proof (sin_asin n ltac:(lra)) as E. pose proof (asin_bound_lt n ltac:(lra)) as B.
  pose proof PI_RGT_0. pose proof PI_4.
  assert (Y0 : 0 < asin n).
  { destruct (Rlt_le_dec 0 (asin n)) as [? | [C | C]]; [assumption | | ].
    - exfalso. assert (sin (asin n) < 0) by (apply sin_lt_0_var; lra). lra.
    - rewrite C, sin_0 in E. lra. }
  set (y := asin n) in *. clearbody y.
  assert (L : y - y * y * y / 6 <= sin y) by (apply sin_lower; lra).
  assert (U : sin y < y) by (apply sin_lt_x, Y0).
  rewrite E in *. split; [exact U | ].
  assert (Y2 : y < 2) by lra.
  assert (Y3 : y <= 3 * n). { assert (y * y < 4) by nra. assert (y * y * y <= 4 * y) by nra. lra. }
  assert (Y4 : y <= 2 * n). { assert (y <= 1) by lra. assert (y * y * y <= y) by nra. lra. }
  assert (y * y <= 4 * (n * n)) by nra.
  assert (y * y * y <= 8 * (n * n * n)) by nra. lra.
Qed.
