(** * C57 and C58: transformations, homogeneous points and their uncertainty *)

From Coquelicot Require Import Coquelicot.
From Coq Require Import Reals Psatz.
From Verif Require Import KinModel KinSpec KinProofs KinExp KinAxis KinCurve KinJac RotEuler TfModel TfSpec TfProofs TfCurve HpProofs.
Local Open Scope R_scope.

(** A transformation with a quaternion of length one stands for the rigid
    motion p -> C p + t; products, inverses and the identity stand for the
    composed, inverse and identity motions, satisfy the group laws exactly,
    and never leave the unit quaternions. *)
Theorem C57_group : forall A B C, unit4 (tq A) -> unit4 (tq B) -> unit4 (tq C) ->
  rigid (tf_T A) (quat2r (tq A)) (tt A) /\
  tf_T (tf_mul A B) = m4_mul (tf_T A) (tf_T B) /\
  m4_mul (tf_T (tf_inverse A)) (tf_T A) = m4_I /\ m4_mul (tf_T A) (tf_T (tf_inverse A)) = m4_I /\
  unit4 (tq (tf_mul A B)) /\ unit4 (tq (tf_inverse A)) /\
  tf_mul A (tf_mul B C) = tf_mul (tf_mul A B) C /\
  tf_mul tf_identity A = A /\ tf_mul A tf_identity = A /\
  tf_mul (tf_inverse A) A = tf_identity /\ tf_mul A (tf_inverse A) = tf_identity /\
  tf_inverse (tf_mul A B) = tf_mul (tf_inverse B) (tf_inverse A).
Proof.
  intros A B C HA HB HC. pose proof (inverse_rigid _ _ _ (T_rigid A HA)) as (I1 & I2 & _).
  split; [exact (T_rigid A HA) | ]. split; [apply T_mul; assumption | ].
  rewrite (T_inverse_matrix A HA). split; [exact I2 | ]. split; [exact I1 | ].
  split; [apply good_mul; assumption | ]. split; [apply good_inverse; assumption | ].
  split; [apply tf_mul_assoc; assumption | ]. split; [apply tf_id_l; assumption | ].
  split; [apply tf_id_r; assumption | ]. split; [apply tf_inverse_l; assumption | ].
  split; [apply tf_inverse_r; assumption | apply tf_inverse_mul; assumption].
Qed.
Print Assumptions C57_group.

Example C57_ex_group :
  let A := TF (V4 (3/5) 0 0 (4/5)) (V3 1 2 3) in
  unit4 (tq A) /\ tf_mul A A <> tf_identity.
Proof.
  cbv zeta. split; [unfold unit4; cbn [tq q0 q1 q2 q3]; field | ].
  intros E. assert (U : unit4 (tq (TF (V4 (3/5) 0 0 (4/5)) (V3 1 2 3)))) by (unfold unit4; cbn [tq q0 q1 q2 q3]; field).
  assert (X : x0 (tt (tf_mul (TF (V4 (3/5) 0 0 (4/5)) (V3 1 2 3)) (TF (V4 (3/5) 0 0 (4/5)) (V3 1 2 3)))) = 0) by (rewrite E; reflexivity).
  revert X. unfold tf_mul, mk_tf. cbn [tt tq]. kunf. lra.
Qed.

(** Transforming points: the three overloads agree with the matrix and with
    each other, products act by composition, and reading the matrix back
    gives the transformation up to the sign of the quaternion. *)
Theorem C57_points : forall A B p h e, unit4 (tq A) -> unit4 (tq B) ->
  tf_hpoint A h = m4_vec (tf_T A) h /\
  tf_point A p = v3_add (m3_vec (quat2r (tq A)) p) (tt A) /\
  tf_point (tf_mul A B) p = tf_point A (tf_point B p) /\
  tf_point (tf_inverse A) (tf_point A p) = p /\
  (stands_for h e -> stands_for (tf_hpoint A h) (tf_point A e)) /\
  v3_dot (v3_sub (tf_point A p) (tf_point A e)) (v3_sub (tf_point A p) (tf_point A e)) = v3_dot (v3_sub p e) (v3_sub p e) /\
  (let A' := tf_of_matrix (tf_T A) in tf_T A' = tf_T A /\ tt A' = tt A /\ (tq A' = tq A \/ tq A' = v4_neg (tq A))).
Proof.
  intros A B p h e HA HB.
  assert (Hom : forall D x, unit4 (tq D) -> m4_vec (tf_T D) (V4 (x0 x) (x1 x) (x2 x) 1) =
            V4 (x0 (tf_point D x)) (x1 (tf_point D x)) (x2 (tf_point D x)) 1).
  { intros D x HD. rewrite tf_point_correct by exact HD. unfold tf_T. rewrite rt_vec. cbv zeta. cbn [q0 q1 q2 q3]. rewrite v3_eta.
    generalize (m3_vec (quat2r (tq D)) x), (tt D). kring. }
  assert (Inj : forall u v : v3, V4 (x0 u) (x1 u) (x2 u) 1 = V4 (x0 v) (x1 v) (x2 v) 1 -> u = v).
  { intros [] []. cbn. intros E. injection E. intros -> -> ->. reflexivity. }
  assert (Comp : forall D E x, unit4 (tq D) -> unit4 (tq E) -> tf_point (tf_mul D E) x = tf_point D (tf_point E x)).
  { intros D E x HD HE. apply Inj. rewrite <- !Hom; try assumption; [ | apply good_mul; assumption].
    rewrite T_mul, m4_vec_mul by assumption. reflexivity. }
  split; [apply tf_hpoint_correct; exact HA | ]. split; [apply tf_point_correct; exact HA | ].
  split; [apply Comp; assumption | ]. split.
  { rewrite <- Comp, tf_inverse_l by (try assumption; apply good_inverse; assumption).
    apply Inj. rewrite <- Hom by exact good_identity. rewrite T_identity.
    clear. destruct p. kunf. f_equal; ring. }
  split; [intros H; apply tf_spec; assumption | ]. split.
  { rewrite !tf_point_correct by exact HA.
    replace (v3_sub (v3_add (m3_vec (quat2r (tq A)) p) (tt A)) (v3_add (m3_vec (quat2r (tq A)) e) (tt A)))
      with (m3_vec (quat2r (tq A)) (v3_sub p e)) by (generalize (quat2r (tq A)), (tt A); kring).
    apply SO3_dot, quat2r_SO3, HA. }
  cbv zeta. unfold tf_of_matrix, tf_T. rewrite topLeft_rt, topRight_rt. cbn [tq tt].
  pose proof (quat2r_SO3 _ HA) as S. pose proof (r2quat_spec _ S) as (U & E & _).
  rewrite E. split; [reflexivity | ]. split; [reflexivity | ].
  apply quat2r_inj; [exact U | exact HA | exact E].
Qed.
Print Assumptions C57_points.

(** Perturbations. For every curve of matrices that is perturbed from the
    left at rate d: the image of a point moves at boxMinus(Tp) d, the product
    of two curves is perturbed at da + boxTimes(A) db, the inverse at
    -boxTimes(A^-1) d, and the image under the inverse moves at the rate the
    inverse Jacobian says. The update by oplus perturbs at S d. *)
Theorem C57_jacobians :
  (forall M t d p, perturbed M t d ->
     v4_derive (fun s => fst (transformJ (M s) p)) t (m46_vec (snd (transformJ (M t) p)) d)) /\
  (forall M t d p, SE3 (M t) -> perturbed M t d ->
     v4_derive (fun s => fst (inverseTransformJ (M s) p)) t (m46_vec (snd (inverseTransformJ (M t) p)) d)) /\
  (forall M N t dM dN, SE3 (M t) -> perturbed M t dM -> perturbed N t dN ->
     perturbed (fun s => m4_mul (M s) (N s)) t (v6_add dM (m6_vec (boxTimes (M t)) dN))) /\
  (forall M t d, SE3 (M t) -> perturbed M t d ->
     perturbed (fun s => inverseTransform (M s)) t
       (m6_vec (boxTimes (inverseTransform (M t))) (V6 (v3_neg (hd3 d)) (v3_neg (tl3 d))))) /\
  (forall A d, perturbed (fun s => tf_T (tf_oplus A (V6 (v3_scale s (hd3 d)) (v3_scale s (tl3 d))))) 0
     (m6_vec (tf_S A) d)).
Proof.
  split; [ | split; [ | split; [ | split]]].
  - intros M t d p H. exact (perturbed_point M t d p H).
  - exact inverse_point_derive.
  - exact perturbed_product.
  - exact perturbed_inverse.
  - exact update_perturbs.
Qed.
Print Assumptions C57_jacobians.

Example C57_ex_jacobians : perturbed (fun s => tf_T (TF (V4 0 0 0 1) (V3 s 0 0))) 0 (V6 (V3 1 0 0) (V3 0 0 0)).
Proof.
  exists (M4 (V4 0 0 0 1) (V4 0 0 0 0) (V4 0 0 0 0) (V4 0 0 0 0)). split.
  - unfold m4_derive, v4_derive. tunf.
    split; [ | split; [ | split]]; (split; [ | split; [ | split]]);
      first [exact (@is_derive_const _ R_NormedModule _ 0) | exact (@is_derive_id _ 0)].
  - intros [a b c d]. tunf. f_equal; ring.
Qed.

(** boxPlus is minus the matrix of the twist, boxMinus its transposed form,
    and boxTimes intertwines the action and is multiplicative. *)
Theorem C57_adjoint : forall d p A B, SE3 A -> SE3 B ->
  m4_vec (boxPlus d) p = v4_neg (twist d p) /\ m46_vec (boxMinus p) d = twist d p /\
  m4_mul A (boxPlus d) = m4_mul (boxPlus (m6_vec (boxTimes A) d)) A /\
  boxTimes (m4_mul A B) = m6_mul (boxTimes A) (boxTimes B) /\
  m6_mul (boxTimes (inverseTransform A)) (boxTimes A) = m6_I.
Proof.
  intros d p A B HA HB.
  assert (X : forall e w, m4_vec (boxPlus e) w = v4_neg (twist e w)) by tring.
  split; [apply X | ]. split; [tring | ]. split.
  { apply m4_ext. intros v. rewrite !m4_vec_mul, !X, <- (twist_adjoint A d v HA).
    generalize (twist d v). kring. }
  split; [apply boxTimes_mul; assumption | ].
  rewrite <- boxTimes_mul by (try assumption; apply SE3_inverse; assumption).
  destruct HA as (C & t & H). rewrite (proj1 (proj2 (inverse_rigid A C t H))). apply boxTimes_I.
Qed.
Print Assumptions C57_adjoint.

(** Uncertain transformations: the covariance of a product, of an inverse and
    of a transformed point is the first-order propagation through exactly the
    Jacobians above; composition is associative, inversion is an involution
    that reverses products, covariances stay covariances, and the covariance
    for oplus converts back and forth without loss. *)
Theorem C57_uncertain : forall A B C p, unit4 (tq (ut A)) -> unit4 (tq (ut B)) -> unit4 (tq (ut C)) ->
  (exists V, propagates66 (m6_vec (boxTimes (tf_T (ut A)))) (uU B) V /\
     utf_mul A B = UTF (tf_mul (ut A) (ut B)) (m6_add (uU A) V) /\
     tf_mul_utf (ut A) B = UTF (tf_mul (ut A) (ut B)) V) /\
  utf_mul_tf A (ut B) = UTF (tf_mul (ut A) (ut B)) (uU A) /\
  propagates66 (m6_vec (boxTimes (tf_T (tf_inverse (ut A))))) (uU A) (uU (utf_inverse A)) /\
  (exists V W, propagates64 (m46_vec (boxMinus (m4_vec (tf_T (ut A)) (up p)))) (uU A) V /\
     propagates44 (m4_vec (tf_T (ut A))) (uU4 p) W /\
     utf_uhp A p = UHP (m4_vec (tf_T (ut A)) (up p)) (m4_add V W) /\
     utf_hp A (up p) = UHP (m4_vec (tf_T (ut A)) (up p)) V /\
     tf_uhp (ut A) p = UHP (m4_vec (tf_T (ut A)) (up p)) W) /\
  utf_mul A (utf_mul B C) = utf_mul (utf_mul A B) C /\
  utf_inverse (utf_inverse A) = A /\
  utf_inverse (utf_mul A B) = utf_mul (utf_inverse B) (utf_inverse A) /\
  (cov6 (uU A) -> cov6 (uU B) -> cov6 (uU (utf_mul A B)) /\ cov6 (uU (utf_inverse A))) /\
  (cov6 (uU A) -> cov4 (uU4 p) -> cov4 (uU4 (utf_uhp A p))) /\
  (forall U, propagates66 (m6_vec (tf_S (ut A))) U (uU (utf_setUOplus A U)) /\
     utf_UOplus (utf_setUOplus A U) = U) /\
  utf_setUOplus A (utf_UOplus A) = A.
Proof.
  intros A B C p HA HB HC.
  assert (G : good (ut A)) by exact HA.
  split.
  { exists (m6_sandwich (boxTimes (tf_T (ut A))) (uU B)). split; [apply sandwich_propagates | ].
    split; reflexivity. }
  split; [reflexivity | ]. split; [apply sandwich_propagates | ]. split.
  { exists (m46_mul_tr (m46_mul6 (boxMinus (m4_vec (tf_T (ut A)) (up p))) (uU A)) (boxMinus (m4_vec (tf_T (ut A)) (up p)))),
      (m4_sandwich (tf_T (ut A)) (uU4 p)).
    split; [apply sandwich46_propagates | ]. split; [apply sandwich4_propagates | ].
    unfold utf_uhp, utf_hp, tf_uhp. cbv zeta. rewrite tf_hpoint_correct by exact HA.
    split; [reflexivity | split; reflexivity]. }
  split; [apply utf_mul_assoc; assumption | ]. split; [apply utf_inverse_inverse; assumption | ].
  split; [apply utf_inverse_mul; assumption | ]. split.
  { intros PA PB. split.
    - apply cov6_add; [exact PA | ]. eapply propagates66_cov; [apply sandwich_propagates | exact PB].
    - eapply propagates66_cov; [apply sandwich_propagates | exact PA]. }
  split.
  { intros PA PP. apply cov4_add.
    - eapply propagates64_cov; [apply sandwich46_propagates | exact PA].
    - eapply propagates44_cov; [apply sandwich4_propagates | exact PP]. }
  split.
  { intros U. split; [apply sandwich_propagates | ].
    unfold utf_UOplus, utf_setUOplus. cbn [ut uU]. rewrite <- sandwich_mul, S_inverse_l. apply sandwich_I. }
  destruct A as [A U]. unfold utf_UOplus, utf_setUOplus. cbn [ut uU].
  rewrite <- sandwich_mul, S_inverse_r, sandwich_I. reflexivity.
Qed.
Print Assumptions C57_uncertain.

Example C57_ex_uncertain : cov6 m6_I /\
  uU (utf_mul (UTF tf_identity m6_I) (UTF tf_identity m6_I)) = m6_add m6_I m6_I.
Proof.
  split; [split | ].
  - tring.
  - intros [[a b c] [d e f]]. tunf.
    pose proof (Rle_0_sqr a). pose proof (Rle_0_sqr b). pose proof (Rle_0_sqr c).
    pose proof (Rle_0_sqr d). pose proof (Rle_0_sqr e). pose proof (Rle_0_sqr f). unfold Rsqr in *. nra.
  - unfold utf_mul. cbn [uU ut]. rewrite T_identity, boxTimes_I, sandwich_I. reflexivity.
Qed.

(** The Euler form of a transformation: both round trips, away from gimbal
    lock; the rotation vector part is the negated roll, pitch and heading. *)
Theorem C57_euler :
  (forall d, - PI <= x0 (tl3 d) < PI -> - (PI / 2) < x1 (tl3 d) < PI / 2 -> - PI <= x2 (tl3 d) < PI ->
     fromTEuler (toTEuler d) = d) /\
  (forall M C t, rigid M C t -> -1 < m20 C < 1 -> toTEuler (fromTEuler M) = M) /\
  (forall d, SE3 (toTEuler d)).
Proof.
  split; [ | split].
  - intros [rho phi] H0 H1 H2. cbn [tl3] in *. unfold fromTEuler, toTEuler. cbn [hd3 tl3].
    rewrite topLeft_rt, topRight_rt, R2rph_roundtrip; [rewrite v3_neg_neg; reflexivity | | | ];
      destruct phi as [a b c]; unfold v3_neg; cbn [x0 x1 x2] in *; lra.
  - intros M C t H B. apply rigid_rt in H. destruct H as (S & ->). unfold fromTEuler, toTEuler. cbn [hd3 tl3].
    rewrite topLeft_rt, topRight_rt, v3_neg_neg, rph2R_of by assumption. reflexivity.
  - intros d. unfold toTEuler. eexists. eexists. apply rigid_rt. split; [ | reflexivity].
    rewrite rph_product. apply SO3_mul; [apply rot_z_SO3 | apply SO3_mul; [apply rot_y_SO3 | apply rot_x_SO3]].
Qed.
Print Assumptions C57_euler.

(** Interpolation is defined for all unit transformations and all times, does
    not depend on the order of its two arguments unless their times coincide,
    clamps outside the interval, and inside it moves the translation on a
    straight line and the rotation about a fixed axis, with a unit quaternion. *)
Theorem C57_interpolation : forall A B s0 s1 si, unit4 (tq A) -> unit4 (tq B) ->
  (s0 <> s1 -> interp_tf A s0 B s1 si = interp_tf B s1 A s0 si) /\
  (s0 <= s1 -> si <= s0 -> interp_tf A s0 B s1 si = Some A) /\
  (s0 <= s1 -> Rmax (s0 + 1 / 10 ^ 14) s1 <= si -> interp_tf A s0 B s1 si = Some B) /\
  (s0 + 1 / 10 ^ 14 <= s1 -> s0 < si < s1 -> exists D s l,
     interp_tf A s0 B s1 si = Some D /\ unit4 (tq D) /\
     tt D = v3_add (v3_scale ((s1 - si) / (s1 - s0)) (tt A)) (v3_scale ((si - s0) / (s1 - s0)) (tt B)) /\
     (s = tq B \/ s = v4_neg (tq B)) /\ v3_norm l <= PI /\
     (let q := qplus (tq A) (axisAngle2quat (v3_scale ((si - s0) / (s1 - s0)) l)) in
      tq D = v4_scale (1 / v4_norm q) q) /\
     (eps4 <= v3_norm (qeps (qplus (quatInv (tq A)) s)) -> qplus (tq A) (axisAngle2quat l) = s)).
Proof.
  intros A B s0 s1 si HA HB.
  assert (E : 0 < 1 / 10 ^ 14) by (apply Rdiv_lt_0_compat; [lra | apply pow_lt; lra]).
  set (e := 1 / 10 ^ 14) in *.
  assert (Low : forall X Y u v, unit4 (tq X) -> u <= v -> si <= u -> interp_sorted X u Y v si = Some X).
  { intros X Y u v HX L H. unfold interp_sorted. fold e. set (m := Rmax e (v - u)).
    assert (M : 0 < m) by (unfold m; pose proof (Rmax_l e (v - u)); lra).
    assert (Q : (si - u) / m <= 0).
    { unfold Rdiv. assert (0 < / m) by (apply Rinv_0_lt_compat; exact M). nra. }
    unfold slerp_tf, qslerp, lerp. destruct (Rle_dec _ 0); [ | contradiction].
    rewrite mk_unit by exact HX. destruct X. reflexivity. }
  split; [ | split; [ | split]].
  - intros N. unfold interp_tf. destruct (ltb_spec s1 s0), (ltb_spec s0 s1); try reflexivity; exfalso; lra.
  - intros L H. unfold interp_tf. destruct (ltb_spec s1 s0); [lra | ]. apply Low; assumption.
  - intros L H. unfold interp_tf. destruct (ltb_spec s1 s0); [lra | ]. unfold interp_sorted. fold e.
    set (m := Rmax e (s1 - s0)).
    assert (M : 0 < m) by (unfold m; pose proof (Rmax_l e (s1 - s0)); lra).
    assert (K : m <= si - s0).
    { unfold m. pose proof (Rmax_l (s0 + e) s1). pose proof (Rmax_r (s0 + e) s1). apply Rmax_lub; lra. }
    assert (Q : 1 <= (si - s0) / m).
    { apply Rmult_le_reg_r with m; [exact M | ]. unfold Rdiv. rewrite Rmult_assoc, Rinv_l by lra. lra. }
    unfold slerp_tf, qslerp, lerp. destruct (Rle_dec _ 0); [lra | ]. destruct (Rle_dec 1 _); [ | contradiction].
    rewrite mk_unit by exact HB. destruct B. reflexivity.
  - intros L H. unfold interp_tf. destruct (ltb_spec s1 s0); [lra | ]. unfold interp_sorted. fold e.
    rewrite Rmax_right by lra. set (r := (si - s0) / (s1 - s0)).
    assert (I0 : 0 < / (s1 - s0)) by (apply Rinv_0_lt_compat; lra).
    assert (T : 0 < r < 1).
    { unfold r. split; [apply Rdiv_lt_0_compat; lra | ].
      apply Rmult_lt_reg_r with (s1 - s0); [lra | ]. unfold Rdiv. rewrite Rmult_assoc, Rinv_l by lra. lra. }
    destruct (slerp_spec (tq A) (tq B) r HA HB T) as (l & L0 & L1 & L2 & L3 & L4).
    unfold slerp_tf. rewrite L1. eexists. exists (nearer (tq A) (tq B)), l.
    split; [reflexivity | ]. split.
    { apply (mk_good _ (tt A)). rewrite v4_dot_qplus.
      apply (proj1 (unit4_dot _)) in HA. rewrite HA, Rmult_1_l. apply exp_not_zero. }
    split.
    { cbn [mk_tf tt]. unfold lerp. destruct (Rle_dec r 0); [lra | ]. destruct (Rle_dec 1 r); [lra | ].
      replace (1 - r) with ((s1 - si) / (s1 - s0)); [reflexivity | unfold r; field; lra]. }
    split; [apply nearer_or | ]. split; [exact L2 | ]. split; [reflexivity | ].
    intros Q. apply (proj1 (L3 Q)).
Qed.
Print Assumptions C57_interpolation.

(** The same transformation is not returned for coinciding times: the order
    of the arguments decides. *)
Example C57_ex_same_time : interp_tf tf_identity 0 (TF quatIdentity (V3 1 0 0)) 0 0 <>
  interp_tf (TF quatIdentity (V3 1 0 0)) 0 tf_identity 0 0.
Proof.
  assert (U : unit4 quatIdentity) by (unfold unit4, quatIdentity; cbn [q0 q1 q2 q3]; ring).
  rewrite (proj1 (proj2 (C57_interpolation tf_identity (TF quatIdentity (V3 1 0 0)) 0 0 0 U U))) by lra.
  rewrite (proj1 (proj2 (C57_interpolation (TF quatIdentity (V3 1 0 0)) tf_identity 0 0 0 U U))) by lra.
  intros E. injection E. lra.
Qed.

(** ** C58 *)

(** Addition, subtraction and scaling of homogeneous points are those of the
    Euclidean points they stand for. *)
Theorem C58_arithmetic : forall p q a b s, stands_for p a -> stands_for q b ->
  stands_for (hp_add p q) (v3_add a b) /\ stands_for (hp_sub p q) (v3_sub a b) /\
  stands_for (hp_scale s p) (v3_scale s a) /\
  hp_euclid p = a /\ fst (fromHomogeneous p) = a /\
  m4_vec (hPlus q) p = hp_add p q /\ m4_vec (hMinus q) p = hp_sub p q /\
  stands_for (fst (normalizeJ p)) a /\ unit4 (fst (normalizeJ p)).
Proof.
  intros p q a b s P Q. split; [apply add_spec; assumption | ]. split; [apply sub_spec; assumption | ].
  split; [apply scale_spec; assumption | ].
  assert (E : hp_euclid p = a) by (apply (proj1 (euclid_spec p a (proj1 P))), P).
  split; [exact E | ]. split; [rewrite <- euclid_from; exact E | ].
  split; [tring | ]. split; [tring | ].
  assert (N : 0 < v4_dot p p).
  { destruct P as (P & _). destruct p as [x y z w]. cbn [q3] in P. unfold v4_dot. cbn [q0 q1 q2 q3].
    pose proof (Rle_0_sqr x). pose proof (Rle_0_sqr y). pose proof (Rle_0_sqr z). unfold Rsqr in *.
    assert (0 < w * w) by nra. lra. }
  assert (S : v4_norm p * v4_norm p = v4_dot p p) by (unfold v4_norm; apply sqrt_sqrt; lra).
  assert (Z : v4_norm p <> 0) by (intros F; rewrite F in S; lra).
  unfold normalizeJ. cbn [fst]. split.
  - assert (ZI : 1 / v4_norm p <> 0) by (unfold Rdiv; rewrite Rmult_1_l; apply Rinv_neq_0_compat; exact Z).
    revert ZI. generalize (1 / v4_norm p). intros k K. destruct p as [x y z w], a as [u v t].
    unfold stands_for, v4_scale in *. cbn [q0 q1 q2 q3 x0 x1 x2] in *. destruct P as (P & -> & -> & ->).
    split; [nra | split; [ | split]; ring].
  - pose proof (mk_good p v3_zero N) as G. exact G.
Qed.
Print Assumptions C58_arithmetic.

Example C58_ex_arithmetic : stands_for (V4 2 4 6 2) (V3 1 2 3) /\ stands_for (V4 1 0 0 (-1)) (V3 (-1) 0 0).
Proof. unfold stands_for. cbn [q0 q1 q2 q3 x0 x1 x2]. split; (split; [lra | split; [ | split]; ring]). Qed.

(** The Jacobians are the derivatives of what they are returned with. *)
Theorem C58_jacobians :
  (forall p t d, v4_derive p t d -> q3 (p t) <> 0 ->
     v3_derive (fun s => fst (fromHomogeneous (p s))) t (m34_vec (snd (fromHomogeneous (p t))) d)) /\
  (forall p t d, v4_derive p t d -> p t <> v4_zero ->
     v4_derive (fun s => fst (normalizeJ (p s))) t (m4_vec (snd (normalizeJ (p t))) d)) /\
  (forall p d, v4_derive (fun s => hp_oplus p (v3_scale s d)) 0 (m43_vec (hp_J4 p) d)) /\
  (forall p d, q3 p <> 0 ->
     v3_derive (fun s => hp_euclid (hp_oplus p (v3_scale s d))) 0 (m3_vec (hp_J3 p) d)).
Proof.
  split; [exact fromHomogeneous_derive | ]. split; [exact normalize_derive | ].
  split; [exact oplus_derive | exact euclid_derive].
Qed.
Print Assumptions C58_jacobians.

Example C58_ex_jacobians : m3_vec (hp_J3 (V4 2 4 6 2)) (V3 1 0 0) = V3 1 (5/2) (1/2).
Proof. tunf. f_equal; field. Qed.

(** Covariances. The sum of two uncertain points, the Euclidean covariance,
    normalisation and the minimal covariance propagate to first order through
    the derivatives; the minimal covariance round-trips for unit points. *)
Theorem C58_covariances :
  (forall a b : uhp, exists JA JB VA VB,
     (forall f g t f' g', v4_derive f t f' -> v4_derive g t g' -> f t = up a -> g t = up b ->
        v4_derive (fun s => hp_add (f s) (g s)) t (v4_add (JA f') (JB g'))) /\
     propagates44 JA (uU4 a) VA /\ propagates44 JB (uU4 b) VB /\
     uhp_add a b = UHP (hp_add (up a) (up b)) (m4_add VA VB)) /\
  (forall p, propagates43 (m34_vec (snd (fromHomogeneous (up p)))) (uU4 p) (uhp_U3 p)) /\
  (forall p, propagates44 (m4_vec (snd (normalizeJ (up p)))) (uU4 p) (uU4 (uhp_normalize p))) /\
  (forall p U, propagates34 (m43_vec (hp_J4 (up p))) U (uU4 (uhp_setUOplus p U))) /\
  (forall p U, unit4 (up p) -> uhp_Uav (uhp_setUOplus p U) = U).
Proof.
  split; [ | split; [ | split; [ | split]]].
  - intros a b. exists (m4_vec (hPlus (up b))), (m4_vec (hPlus (up a))).
    exists (m4_sandwich (hPlus (up b)) (uU4 a)), (m4_sandwich (hPlus (up a)) (uU4 b)).
    split; [ | split; [apply sandwich4_propagates | split; [apply sandwich4_propagates | reflexivity]]].
    intros f g t f' g' F G <- <-. apply add_derive; assumption.
  - intros p. apply sandwich43_propagates.
  - intros p. apply sandwich4_propagates.
  - intros p U. replace (hp_J4 (up p)) with (quatInvS (up p)) by (unfold hp_J4; generalize (up p); kring).
    apply sandwich34_propagates.
  - intros p U H. apply Uav_set. exact H.
Qed.
Print Assumptions C58_covariances.

(** Differences, and sums or differences with a certain point, are right only
    for covariances that have no part in the homogeneous coordinate (and, for
    the mixed operators, a certain point whose homogeneous coordinate is 1). *)
Theorem C58_euclidean_covariances : forall (a b : uhp) c,
  euclidean_cov (uU4 a) -> euclidean_cov (uU4 b) ->
  (exists JA JB VA VB,
     (forall f g t f' g', v4_derive f t f' -> v4_derive g t g' -> f t = up a -> g t = up b ->
        v4_derive (fun s => hp_sub (f s) (g s)) t (v4_add (JA f') (JB g'))) /\
     propagates44 JA (uU4 a) VA /\ propagates44 JB (uU4 b) VB /\
     uhp_sub a b = UHP (hp_sub (up a) (up b)) (m4_add VA VB)) /\
  (q3 c = 1 -> uU4 (uhp_add_hp a c) = m4_sandwich (hPlus c) (uU4 a) /\
               uU4 (uhp_sub_hp a c) = m4_sandwich (hMinus c) (uU4 a)).
Proof.
  intros a b c EA EB. split.
  - exists (m4_vec (hMinus (up b))), (m4_vec (sub_right (up a))).
    exists (m4_sandwich (hMinus (up b)) (uU4 a)), (m4_sandwich (sub_right (up a)) (uU4 b)).
    split; [ | split; [apply sandwich4_propagates | split; [apply sandwich4_propagates | ]]].
    + intros f g t f' g' F G <- <-. apply sub_derive; assumption.
    + unfold uhp_sub. rewrite (hPlus_hMinus_euclidean _ _ EA), (hPlus_sub_right _ _ EB). reflexivity.
  - intros H. unfold uhp_add_hp, uhp_sub_hp. cbn [uU4].
    rewrite <- (hPlus_hMinus_euclidean _ _ EA), (sandwich_w1 c _ H EA). split; reflexivity.
Qed.
Print Assumptions C58_euclidean_covariances.

Example C58_ex_euclidean : euclidean_cov (M4 (V4 1 0 0 0) (V4 0 2 0 0) (V4 0 0 3 0) v4_zero).
Proof. unfold euclidean_cov. cbn [q3 r40 r41 r42 r43]. auto. Qed.

(** Otherwise they are wrong: there is an uncertain point whose difference
    with another has reported Euclidean variance 1 along x where the
    first-order variance of the difference is 9, and one whose sum with a
    certain point reports 1/4 instead of 1. *)
Theorem C58_difference_refuted :
  (exists a b JA, cov4 (uU4 a) /\ uU4 b = M4 v4_zero v4_zero v4_zero v4_zero /\
     (forall f t f', v4_derive f t f' -> f t = up a ->
        is_derive (fun s => x0 (hp_euclid (hp_sub (f s) (up b)))) t (v4_dot JA f')) /\
     v4_dot JA (m4_vec (uU4 a) JA) = 9 /\ m00 (uhp_U3 (uhp_sub a b)) = 1) /\
  (exists a c JA, cov4 (uU4 a) /\
     (forall f t f', v4_derive f t f' -> f t = up a ->
        is_derive (fun s => x0 (hp_euclid (hp_add (f s) c))) t (v4_dot JA f')) /\
     v4_dot JA (m4_vec (uU4 a) JA) = 1 /\ m00 (uhp_U3 (uhp_add_hp a c)) = 1 / 4).
Proof.
  assert (Cov : forall u, cov4 (v4_outer u u)).
  { intros [a b c d]. split; [tring | ]. intros [x y z w]. tunf.
    match goal with |- 0 <= ?e => replace e with (Rsqr (a*x+b*y+c*z+d*w)) by (unfold Rsqr; ring) end. apply Rle_0_sqr. }
  split.
  - exists (UHP (V4 3 0 0 1) (v4_outer (V4 0 0 0 1) (V4 0 0 0 1))),
      (UHP (V4 1 0 0 1) (M4 v4_zero v4_zero v4_zero v4_zero)), (V4 1 0 0 (-3)).
    cbn [up uU4]. split; [apply Cov | ]. split; [reflexivity | ]. split.
    + intros f t f' F E. pose proof (sub_derive f (fun _ => V4 1 0 0 1) t f' v4_zero F (v4_const_derive _ t)) as H.
      pose proof (fromHomogeneous_derive _ t _ H) as K. cbv beta in K. rewrite E in K.
      destruct K as (K & _); [tunf; lra | ].
      eapply is_derive_ext; [intros s; rewrite euclid_from; reflexivity | ].
      match type of K with is_derive _ _ ?d => match goal with |- is_derive _ _ ?e => replace e with d end end; [exact K | ].
      clear. destruct f'. tunf. unfold sub_right. tunf. field.
    + split; [tunf; ring | ]. unfold uhp_U3, uhp_sub, m4_sandwich. cbn [up uU4]. tunf. field.
  - exists (UHP (V4 1 0 0 1) (v4_outer (V4 1 0 0 0) (V4 1 0 0 0))), (V4 0 0 0 2), (V4 1 0 0 (-1)).
    cbn [up uU4]. split; [apply Cov | ]. split.
    + intros f t f' F E. pose proof (add_derive f (fun _ => V4 0 0 0 2) t f' v4_zero F (v4_const_derive _ t)) as H.
      pose proof (fromHomogeneous_derive _ t _ H) as K. cbv beta in K. rewrite E in K.
      destruct K as (K & _); [tunf; lra | ].
      eapply is_derive_ext; [intros s; rewrite euclid_from; reflexivity | ].
      match type of K with is_derive _ _ ?d => match goal with |- is_derive _ _ ?e => replace e with d end end; [exact K | ].
      clear. destruct f'. tunf. field.
    + split; [tunf; ring | ]. unfold uhp_U3, uhp_add_hp. cbn [up uU4]. tunf. field.
Qed.
Print Assumptions C58_difference_refuted.
