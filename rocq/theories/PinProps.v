(** * C60: the pinhole projection *)

From Coquelicot Require Import Coquelicot.
From Coq Require Import Reals List Psatz ZArith Bool.
From Verif Require Import KinModel KinSpec KinProofs KinExp KinCurve DistModel DistSpec DistProofs DistUndist PinModel CamSpec PinProofs.
Import ListNotations.
Local Open Scope R_scope.

(** The distortions of the library return the same point with and without
    the Jacobian. *)
Lemma distort_overloads : (forall y, fst (distortJ nodist y) = distort nodist y) /\
  (forall D y, fst (distortJ (radtan D) y) = distort (radtan D) y) /\
  (forall D y, fst (distortJ (equi D) y) = distort (equi D) y) /\ (forall w y, fst (distortJ (fov w) y) = distort (fov w) y).
Proof. split; [reflexivity | ]. split; [reflexivity | ]. split; reflexivity. Qed.

(** A point is reported visible exactly when it is in front of the camera and
    its image is inside the sensor; both overloads, and the visibility tests,
    agree on image and flag; the image depends only on the ray. *)
Theorem C60_pinhole_image D C p :
  (forall k, fst (pin_project D C p) = Val k -> (snd (pin_project D C p) = true <-> (0 < x2 p /\ in_image C k))) /\
  (x2 p = 0 -> snd (pin_project D C p) = false) /\
  ((forall y, fst (distortJ D y) = distort D y) ->
     fst (fst (pin_projectJ D C p)) = fst (pin_project D C p) /\ snd (pin_projectJ D C p) = snd (pin_project D C p)) /\
  pin_visible D C p = snd (pin_project D C p) /\
  (forall s, 0 < s -> pin_project D C (along_ray s p) = pin_project D C p) /\
  (forall ph s, s <> 0 -> q3 ph <> 0 -> pin_hproject D C (along_hray s ph) = pin_hproject D C ph) /\
  (forall w, 0 <= w -> pin_hproject D C (V4 (x0 p) (x1 p) (x2 p) w) = pin_project D C p).
Proof.
  split.
  { intros k E. unfold pin_project in *. destruct (Req_EM_T (x2 p) 0) as [ | N]; [discriminate | ]. cbn [fst snd] in *.
    assert (Ek : to_pixel C (distort D (V2 (x0 p * (1 / x2 p)) (x1 p * (1 / x2 p)))) = k) by congruence. rewrite Ek.
    rewrite andb_true_iff, on_sensor_spec, ltb_spec. tauto. }
  split; [intros Z; unfold pin_project; destruct (Req_EM_T (x2 p) 0); [reflexivity | contradiction] | ].
  split; [intros H; apply pin_overloads; exact H | ]. split; [reflexivity | ].
  split.
  { intros s P. destruct (pin_ray D C p s ltac:(lra)) as (E1 & E2). specialize (E2 P).
    destruct (pin_project D C (along_ray s p)), (pin_project D C p). cbn [fst snd] in *. congruence. }
  split; [intros ph s; apply pin_hray | ].
  intros w W. unfold pin_hproject. cbn [q3]. destruct (Rlt_dec w 0); [lra | ]. unfold head3. cbn [q0 q1 q2]. destruct p; reflexivity.
Qed.
Example C60_ex_image : exists k, pin_project nodist (make_intr 400 400 320 240 640 480) (V3 1 1 2) = (Val k, true).
Proof.
  exists (V2 520 440). unfold pin_project. cbn [x2]. destruct (Req_EM_T 2 0); [lra | ].
  assert (E : to_pixel (make_intr 400 400 320 240 640 480) (distort nodist (V2 (x0 (V3 1 1 2) * (1 / 2)) (x1 (V3 1 1 2) * (1 / 2)))) = V2 520 440).
  { unfold to_pixel, make_intr. cbn [distort nodist fu fv cu cv u0 u1 x0 x1]. f_equal; field. }
  rewrite E. f_equal. apply andb_true_iff. split; [ | apply ltb_spec; lra]. apply on_sensor_spec. unfold in_image, make_intr. cbn [u0 u1 ru rv]. lra.
Qed.

(** The Jacobian with respect to the point, whenever the distortion's is right. *)
Theorem C60_pinhole_point_jacobian D C p J : x2 p <> 0 ->
  (forall K, snd (distortJ D (V2 (x0 p * (1 / x2 p)) (x1 p * (1 / x2 p)))) = Val K ->
     jacobian (distort D) (V2 (x0 p * (1 / x2 p)) (x1 p * (1 / x2 p))) K) ->
  snd (fst (pin_projectJ D C p)) = Val J ->
  point_jacobian (fun q => fst (pin_project D C q)) p J.
Proof.
  intros N H E. assert (ED : exists Jd, snd (distortJ D (normalised p)) = Val Jd).
  { unfold pin_projectJ in E. destruct (Req_EM_T (x2 p) 0); [contradiction | ].
    change (V2 (x0 p * (1 / x2 p)) (x1 p * (1 / x2 p))) with (normalised p) in E.
    destruct (distortJ D (normalised p)) as [kp [Jd | | | ]]; cbn [rbind fst snd] in E; try discriminate. exists Jd. reflexivity. }
  destruct ED as [Jd ED]. exact (pin_point_jacobian D C p Jd J N ED (H Jd ED) E).
Qed.
Example C60_ex_point_jacobian D C p : x2 p <> 0 -> exists J, snd (fst (pin_projectJ (radtan D) C p)) = Val J /\
  point_jacobian (fun q => fst (pin_project (radtan D) C q)) p J.
Proof.
  intros N. destruct (snd (fst (pin_projectJ (radtan D) C p))) as [J | | | ] eqn:E.
  - exists J. split; [reflexivity | ]. apply (C60_pinhole_point_jacobian (radtan D) C p J N); [ | exact E].
    intros K EK. cbn [distortJ radtan snd] in EK.
    assert (K = rt_J D (V2 (x0 p * (1 / x2 p)) (x1 p * (1 / x2 p)))) by congruence. subst K. apply rt_jacobian.
  - exfalso. unfold pin_projectJ in E. destruct (Req_EM_T (x2 p) 0); [contradiction | ]. cbn [distortJ radtan rbind fst snd] in E. discriminate.
  - exfalso. unfold pin_projectJ in E. destruct (Req_EM_T (x2 p) 0); [contradiction | ]. cbn [distortJ radtan rbind fst snd] in E. discriminate.
  - exfalso. unfold pin_projectJ in E. destruct (Req_EM_T (x2 p) 0); [contradiction | ]. cbn [distortJ radtan rbind fst snd] in E. discriminate.
Qed.

(** Round trips between points and pixels, given an exact undistortion. *)
Theorem C60_pinhole_round_trip D C :
  (forall p k b, fu C <> 0 -> fv C <> 0 -> pin_project D C p = (Val k, b) ->
     undistort D (distort D (V2 (x0 p * (1 / x2 p)) (x1 p * (1 / x2 p)))) = Val (V2 (x0 p * (1 / x2 p)) (x1 p * (1 / x2 p))) ->
     fst (pin_lift D C k) = Val (along_ray (1 / x2 p) p) /\ (b = true -> snd (pin_lift D C k) = true)) /\
  (forall k p b, (forall y x, undistort D y = Val x -> distort D x = y) ->
     pin_lift D C k = (Val p, b) -> pin_project D C p = (Val k, b)) /\
  (forall k, pin_hlift D C k = (rbind (fst (pin_lift D C k)) (fun p => Val (V4 (x0 p) (x1 p) (x2 p) 0)), snd (pin_lift D C k))).
Proof.
  split; [ | split].
  - intros p k b A B E H. exact (proj2 (pin_lift_project D C p k b A B H E)).
  - intros k p b H E. exact (pin_project_lift D C k p b H E).
  - intros k. unfold pin_hlift. destruct (pin_lift D C k); reflexivity.
Qed.
(** Both hypotheses hold without distortion, so any pixel of a camera with
    non-zero focal lengths is the image of its ray. *)
Example C60_ex_round_trip C k : fu C <> 0 -> fv C <> 0 -> in_image C k -> exists p,
  pin_lift nodist C k = (Val p, true) /\ pin_project nodist C p = (Val k, true).
Proof.
  intros A B I. destruct (pin_lift nodist C k) as [r b] eqn:E. assert (Eb : b = true).
  { assert (b = on_sensor C k) by (unfold pin_lift in E; congruence). subst b. apply on_sensor_spec. exact I. } subst b.
  destruct r as [p | | | ].
  - exists p. split; [reflexivity | ]. apply (proj1 (proj2 (C60_pinhole_round_trip nodist C)) k p true); [ | exact E].
    intros y x EX. cbn [undistort distort nodist] in *. congruence.
  - exfalso. unfold pin_lift, pin_norm in E. destruct (Req_EM_T (fu C) 0); [contradiction | ]. destruct (Req_EM_T (fv C) 0); [contradiction | ]. cbn [undistort nodist rbind] in E. discriminate.
  - exfalso. unfold pin_lift, pin_norm in E. destruct (Req_EM_T (fu C) 0); [contradiction | ]. destruct (Req_EM_T (fv C) 0); [contradiction | ]. cbn [undistort nodist rbind] in E. discriminate.
  - exfalso. unfold pin_lift, pin_norm in E. destruct (Req_EM_T (fu C) 0); [contradiction | ]. destruct (Req_EM_T (fv C) 0); [contradiction | ]. cbn [undistort nodist rbind] in E. discriminate.
Qed.

(** Jacobians with respect to focal lengths and centre, and with respect to
    the coefficients of the distortion. *)
Theorem C60_pinhole_parameter_jacobians :
  (forall D C v p cols, pin_intrJ D p = Val cols ->
     image_param_jacobian 4 (fun w => fst (pin_project D (pin_set C w) p)) v cols) /\
  (forall C v p cols, pin_distJ (radtan (rt_set v)) C p = Val cols ->
     image_param_jacobian 4 (fun w => fst (pin_project (radtan (rt_set w)) C p)) v cols) /\
  (forall C v p cols, pin_distJ (equi (eq_set v)) C p = Val cols ->
     1 / 10 ^ 8 < radius (V2 (x0 p * (1 / x2 p)) (x1 p * (1 / x2 p))) ->
     image_param_jacobian 4 (fun w => fst (pin_project (equi (eq_set w)) C p)) v cols) /\
  (forall C w0 p cols, pin_distJ (fov w0) C p = Val cols -> 1 / 2 < w0 < 3 / 2 ->
     1 / 10 ^ 5 <= radius (V2 (x0 p * (1 / x2 p)) (x1 p * (1 / x2 p))) * radius (V2 (x0 p * (1 / x2 p)) (x1 p * (1 / x2 p))) ->
     image_param_jacobian 1 (fun w => fst (pin_project (fov (nth 0 w 0)) C p)) [w0] cols).
Proof.
  split; [intros D C v p cols E; apply pin_intr_jacobian; exact E | ].
  split.
  { intros C v p cols E. apply (pin_dist_jacobian 4 (fun w => radtan (rt_set w)) C v p cols _ eq_refl); [ | exact E].
    intros y cs EC _. cbn [paramJ radtan] in EC. assert (cs = rt_paramJ y) by congruence. subst cs. apply rt_param_jacobian. }
  split.
  { intros C v p cols E H. apply (pin_dist_jacobian 4 (fun w => equi (eq_set w)) C v p cols _ eq_refl); [ | exact E].
    intros y cs EC ->. apply eq_param_jacobian; [exact H | exact EC]. }
  intros C w0 p cols E W H. apply (pin_dist_jacobian 1 (fun w => fov (nth 0 w 0)) C [w0] p cols _ eq_refl); [ | exact E].
  intros y cs EC ->. cbn [paramJ fov nth] in EC. assert (cs = fov_paramJ w0 (normalised p)) by congruence. subst cs.
  apply fov_param_jacobian; [exact W | exact H].
Qed.
Example C60_ex_parameter_jacobians D p : x2 p <> 0 -> exists cols, pin_intrJ D p = Val cols /\ length cols = 4%nat.
Proof. intros N. unfold pin_intrJ. destruct (Req_EM_T (x2 p) 0); [contradiction | ]. eexists. split; [reflexivity | reflexivity]. Qed.

(** The Jacobian of the map from pixels to rays: right when the two focal
    lengths agree or the distortion does not mix the axes. *)
Theorem C60_pinhole_pixel_jacobian D C k y K kp p J : fu C <> 0 -> fv C <> 0 -> in_sync C ->
  kp = V2 ((u0 k - cu C) / fu C) ((u1 k - cv C) / fv C) ->
  undistortJ D kp = Val (y, K) -> plane_jacobian (undistort D) kp K ->
  fu C = fv C \/ (n01 K = 0 /\ n10 K = 0) ->
  fst (pin_liftJ D C k) = Val (p, J) -> pixel_jacobian (fun q => fst (pin_lift D C q)) k J.
Proof.
  intros A B S EK EU HK HC E. subst kp. refine (pin_pixel_jacobian D C k y K _ A B S _ EU HK HC p J E).
  unfold pin_norm. destruct (Req_EM_T (fu C) 0); [contradiction | ]. destruct (Req_EM_T (fv C) 0); [contradiction | reflexivity].
Qed.
Example C60_ex_pixel_jacobian k : exists p J,
  fst (pin_liftJ nodist (make_intr 400 300 320 240 640 480) k) = Val (p, J) /\
  pixel_jacobian (fun q => fst (pin_lift nodist (make_intr 400 300 320 240 640 480) q)) k J.
Proof.
  set (C := make_intr 400 300 320 240 640 480).
  destruct (fst (pin_liftJ nodist C k)) as [[p J] | | | ] eqn:E.
  - exists p, J. split; [reflexivity | ].
    apply (C60_pinhole_pixel_jacobian nodist C k (V2 ((u0 k - cu C) / fu C) ((u1 k - cv C) / fv C)) m2_I
             (V2 ((u0 k - cu C) / fu C) ((u1 k - cv C) / fv C)) p J);
      [cbn; lra | cbn; lra | split; reflexivity | reflexivity | reflexivity | | right; split; reflexivity | exact E].
    intros c t d Ec H. exists c. split; [apply filter_forall; reflexivity | rewrite m2_vec_I; exact H].
  - exfalso. revert E. unfold pin_liftJ, pin_norm, C. cbn [fst fu fv make_intr]. destruct (Req_EM_T 400 0); [lra | ]. destruct (Req_EM_T 300 0); [lra | ]. discriminate.
  - exfalso. revert E. unfold pin_liftJ, pin_norm, C. cbn [fst fu fv make_intr]. destruct (Req_EM_T 400 0); [lra | ]. destruct (Req_EM_T 300 0); [lra | ]. discriminate.
  - exfalso. revert E. unfold pin_liftJ, pin_norm, C. cbn [fst fu fv make_intr]. destruct (Req_EM_T 400 0); [lra | ]. destruct (Req_EM_T 300 0); [lra | ]. discriminate.
Qed.

(** ... and wrong otherwise: here the two Jacobians, of the image and of the
    ray, do not compose to the identity on the plane at depth one. *)
Theorem C60_pinhole_pixel_jacobian_refuted :
  exists D C p k J K d, in_sync C /\ fst (pin_project (radtan D) C p) = Val k /\
    snd (fst (pin_projectJ (radtan D) C p)) = Val J /\ fst (pin_liftJ (radtan D) C k) = Val (p, K) /\
    x2 d = 0 /\ x0 (m32_vec K (m23_vec J d)) <> x0 d.
Proof.
  set (D := RT (- (3 / 8)) 0 (1 / 8) (1 / 8)). set (C := make_intr 1 2 0 0 10 10).
  assert (ED : rt_distort D (V2 1 1) = V2 1 1).
  { unfold rt_distort, D. cbn [rk1 rk2 rp1 rp2 u0 u1]. f_equal; field. }
  assert (EJ : rt_J D (V2 1 1) = M2 (1 / 2) (- (1 / 4)) (- (1 / 4)) (1 / 2)).
  { unfold rt_J, D. cbn [rk1 rk2 rp1 rp2 u0 u1]. f_equal; field. }
  assert (DT : m2_det (M2 (1 / 2) (- (1 / 4)) (- (1 / 4)) (1 / 2)) = 3 / 16) by (unfold m2_det; cbn [n00 n01 n10 n11]; field).
  assert (EI : m2_inverse (M2 (1 / 2) (- (1 / 4)) (- (1 / 4)) (1 / 2)) = Val (M2 (8 / 3) (4 / 3) (4 / 3) (8 / 3))).
  { unfold m2_inverse. rewrite DT. destruct (Req_EM_T (3 / 16) 0); [lra | ]. unfold m2_scale. cbn [n00 n01 n10 n11]. f_equal. f_equal; field. }
  assert (EU : rt_undistortJ D (V2 1 1) = Val (V2 1 1, M2 (8 / 3) (4 / 3) (4 / 3) (8 / 3))).
  { unfold rt_undistortJ, rt_undistort. rewrite (rt_fixed 5 D (V2 1 1) (V2 1 1) ED); [ | rewrite EJ, DT; lra].
    cbn [rbind]. rewrite EJ, EI. reflexivity. }
  exists D, C, (V3 1 1 1), (V2 1 2), (M23 (1 / 2) (- (1 / 4)) (- (1 / 4)) (- (1 / 2)) 1 (- (1 / 2))),
    (M32 (8 / 3) (4 / 3) (2 / 3) (4 / 3) 0 0), (V3 1 0 0).
  assert (N1 : V2 (x0 (V3 1 1 1) * (1 / x2 (V3 1 1 1))) (x1 (V3 1 1 1) * (1 / x2 (V3 1 1 1))) = V2 1 1) by (cbn [x0 x1 x2]; f_equal; field).
  split; [split; reflexivity | ]. split.
  { rewrite pin_project_front by (cbn [x2]; lra). cbn [fst]. unfold normalised. rewrite N1. cbn [distort radtan]. rewrite ED.
    unfold to_pixel, C, make_intr. cbn [fu fv cu cv u0 u1]. f_equal. f_equal; ring. }
  split.
  { unfold pin_projectJ. destruct (Req_EM_T (x2 (V3 1 1 1)) 0) as [Z | _]; [cbn [x2] in Z; lra | ]. rewrite N1. cbn [distortJ radtan rbind fst snd].
    rewrite EJ. unfold C, make_intr. cbn [fu fv n00 n01 n10 n11 x0 x1 x2]. f_equal. f_equal; field. }
  split.
  { unfold pin_liftJ, pin_norm, C, make_intr. cbn [fst fu fv cu cv u0 u1 recip_fu recip_fv].
    destruct (Req_EM_T 1 0); [lra | ]. destruct (Req_EM_T 2 0); [lra | ]. cbn [rbind].
    replace (V2 ((1 - 0) / 1) ((2 - 0) / 2)) with (V2 1 1) by (f_equal; field). cbn [undistortJ radtan]. rewrite EU. cbn [rbind fst snd n00 n01 n10 n11 u0 u1].
    f_equal. f_equal. f_equal; field. }
  split; [reflexivity | ]. unfold m32_vec, m23_vec. cbn [j00 j01 j02 j10 j11 j12 l00 l01 l10 l11 l20 l21 u0 u1 x0 x1 x2]. lra.
Qed.

(** The overload with the Jacobian ignores the sign of the fourth coordinate:
    a visible homogeneous point is reported invisible. *)
Theorem C60_pinhole_homogeneous_refuted :
  exists C ph, q3 ph <> 0 /\ snd (pin_hproject nodist C ph) = true /\ snd (pin_hprojectJ nodist C ph) = false /\
    fst (fst (pin_hprojectJ nodist C ph)) = fst (pin_hproject nodist C ph).
Proof.
  exists (make_intr 1 1 0 0 10 10), (V4 (-1) (-1) (-1) (-1)). split; [cbn [q3]; lra | ].
  unfold pin_hproject, pin_hprojectJ, pin_projectJ, pin_project, head3, neg3. cbn [q0 q1 q2 q3 x0 x1 x2].
  destruct (Rlt_dec (-1) 0); [ | lra]. destruct (Req_EM_T (- -1) 0); [lra | ]. destruct (Req_EM_T (-1) 0); [lra | ].
  cbn [distort distortJ nodist fst snd].
  split; [ | split].
  - apply andb_true_iff. split; [ | apply ltb_spec; lra]. apply on_sensor_spec. unfold in_image, to_pixel, make_intr. cbn [u0 u1 fu fv cu cv ru rv].
    replace (- -1 * (1 / - -1)) with 1 by field. lra.
  - apply andb_false_iff. right. unfold ltb. destruct (Rlt_dec 0 (-1)); [lra | reflexivity].
  - f_equal. f_equal. f_equal; field.
Qed.

(** Changing the intrinsics: the cached reciprocals stay in step through any
    history; parameters read back as written, updates add. *)
Theorem C60_pinhole_parameters C ops v : length v = 4%nat -> in_sync C ->
  in_sync (fold_left intr_step ops C) /\ pin_get (pin_set C v) = v /\
  (forall i, (i < 4)%nat -> nth i (pin_get (pin_update C v)) 0 = nth i (pin_get C) 0 + nth i v 0) /\
  ru (pin_set C v) = ru C /\ rv (pin_set C v) = rv C /\ ru (pin_update C v) = ru C /\ rv (pin_update C v) = rv C.
Proof.
  intros L S. split; [apply pin_sync; exact S | ]. split; [symmetry; apply (list4 v L) | ].
  split; [intros i Hi; destruct i as [ | [ | [ | [ | ]]]]; try reflexivity; lia | ].
  split; [reflexivity | ]. split; [reflexivity | ]. split; reflexivity.
Qed.
Example C60_ex_parameters : in_sync (make_intr 400 300 320 240 640 480).
Proof. split; reflexivity. Qed.

(** Scaling the camera scales every image and keeps visibility when the new
    resolutions are whole numbers ... *)
Theorem C60_pinhole_resize D C s p m n : 0 < s -> IZR (ru C) * s = IZR m -> IZR (rv C) * s = IZR n ->
  pin_project D (pin_resize C s) p =
    (rbind (fst (pin_project D C p)) (fun k => Val (v2_scale s k)), snd (pin_project D C p)).
Proof. apply pin_resize_project. Qed.
Example C60_ex_resize : IZR (ru (make_intr 400 300 320 240 640 480)) * (1 / 2) = IZR 320.
Proof. cbn [ru make_intr]. lra. Qed.

(** ... but they are truncated: a visible point can become invisible. *)
Theorem C60_pinhole_resize_refuted : exists C s p,
  0 < s /\ snd (pin_project nodist C p) = true /\ snd (pin_project nodist (pin_resize C s) p) = false.
Proof.
  exists (make_intr 1 1 0 0 3 4), (1 / 2), (V3 (5 / 2) 1 1). split; [lra | ].
  assert (T : trunc (IZR 3 * (1 / 2)) = 1%Z).
  { unfold trunc. destruct (Rle_dec 0 (3 * (1 / 2))); [ | lra]. unfold Int_part. rewrite <- (tech_up (3 * (1 / 2)) 2); [reflexivity | lra | lra]. }
  unfold pin_project. cbn [x0 x1 x2]. destruct (Req_EM_T 1 0); [lra | ]. cbn [snd distort nodist]. split.
  - apply andb_true_iff. split; [ | apply ltb_spec; lra]. apply on_sensor_spec. unfold in_image, to_pixel, make_intr. cbn [u0 u1 fu fv cu cv ru rv]. lra.
  - apply andb_false_iff. left. apply not_true_is_false. rewrite on_sensor_spec. unfold in_image, to_pixel, pin_resize, make_intr.
    cbn [u0 u1 fu fv cu cv ru rv]. rewrite T. lra.
Qed.

Print Assumptions C60_pinhole_image.
Print Assumptions C60_pinhole_point_jacobian.
Print Assumptions C60_pinhole_round_trip.
Print Assumptions C60_pinhole_parameter_jacobians.
Print Assumptions C60_pinhole_pixel_jacobian.
Print Assumptions C60_pinhole_pixel_jacobian_refuted.
Print Assumptions C60_pinhole_homogeneous_refuted.
Print Assumptions C60_pinhole_parameters.
Print Assumptions C60_pinhole_resize.
Print Assumptions C60_pinhole_resize_refuted.
