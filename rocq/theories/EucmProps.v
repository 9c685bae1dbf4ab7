(** * C62: the extended unified projection *)

From Coquelicot Require Import Coquelicot.
From Coq Require Import Reals List Psatz ZArith Bool.
From Verif Require Import KinModel KinSpec KinProofs KinExp KinCurve DistModel DistSpec DistProofs DistUndist PinModel CamSpec PinProofs OmniModel OmniSpec OmniProofs EucmModel EucmSpec EucmProofs.
Import ListNotations.
Local Open Scope R_scope.

(** A point is projected exactly inside the field of view of the model and
    reported visible exactly when its image is moreover inside the sensor;
    all overloads agree; the image depends only on the ray. *)
Theorem C62_eucm_image M p : eucm_sync M -> 0 < eb M ->
  (forall k b, eucm_project M p = (Val k, b) ->
     eucm_valid (ea M) (eb M) p /\
     let N := ea M * ellipsoid_norm (eb M) p + (1 - ea M) * x2 p in
     k = V2 (fu (ei M) * (x0 p * (1 / N)) + cu (ei M)) (fv (ei M) * (x1 p * (1 / N)) + cv (ei M)) /\
     (b = true <-> in_image (ei M) k)) /\
  (eucm_valid (ea M) (eb M) p -> exists k b, eucm_project M p = (Val k, b)) /\
  (~ eucm_valid (ea M) (eb M) p -> snd (eucm_project M p) = false) /\
  fst (fst (eucm_projectJ M p)) = fst (eucm_project M p) /\ snd (eucm_projectJ M p) = snd (eucm_project M p) /\
  (forall ph, fst (fst (eucm_hprojectJ M ph)) = fst (eucm_hproject M ph) /\ snd (eucm_hprojectJ M ph) = snd (eucm_hproject M ph)) /\
  (forall s, 0 < s -> eucm_project M (along_ray s p) = eucm_project M p) /\
  (forall ph s, s <> 0 -> q3 ph <> 0 -> eucm_hproject M (along_hray s ph) = eucm_hproject M ph) /\
  (forall w, 0 <= w -> eucm_hproject M (V4 (x0 p) (x1 p) (x2 p) w) = eucm_project M p).
Proof.
  intros S B.
  assert (OV : forall p, fst (fst (eucm_projectJ M p)) = fst (eucm_project M p) /\ snd (eucm_projectJ M p) = snd (eucm_project M p)).
  { intros q. destruct (eucm_valid_dec (ea M) (eb M) q) as [V | V].
    - assert (E := eucm_projectJ_valid M q S B V). cbv zeta in E. rewrite E, (eucm_project_valid M q S B V). split; reflexivity.
    - rewrite (eucm_projectJ_invalid M q S B V), (eucm_project_invalid M q S B V). split; reflexivity. }
  split.
  { intros k b E. destruct (eucm_project_val M p k b S B E) as (V & Ek & Eb). split; [exact V | ]. cbv zeta. split; [exact Ek | ].
    rewrite Eb. apply on_sensor_spec. }
  split; [intros V; do 2 eexists; exact (eucm_project_valid M p S B V) | ].
  split; [intros V; rewrite (eucm_project_invalid M p S B V); reflexivity | ].
  split; [exact (proj1 (OV p)) | ]. split; [exact (proj2 (OV p)) | ].
  split.
  { intros ph. unfold eucm_hprojectJ, eucm_hproject. destruct (Rlt_dec (q3 ph) 0); [ | exact (OV (head3 ph))].
    destruct (OV (neg3 (head3 ph))) as (A' & B'). destruct (eucm_projectJ M (neg3 (head3 ph))) as [[k J] b]. exact (conj A' B'). }
  split; [intros s P; exact (eucm_ray M p s S B P) | ].
  split.
  { intros ph s Hs Hq. unfold eucm_hproject. apply (h_ray (eucm_project M)); [ | exact Hs | exact Hq]. intros q a P. exact (eucm_ray M q a S B P). }
  intros w W. unfold eucm_hproject. cbn [q3]. destruct (Rlt_dec w 0); [lra | ]. unfold head3. cbn [q0 q1 q2]. destruct p; reflexivity.
Qed.
(** A camera that sees a point behind it. *)
Definition eucm_camera := make_eucm (5 / 8) 1 (make_intr 100 100 320 240 640 480).
Lemma eucm_camera_sync : eucm_sync eucm_camera.
Proof. split; [split; reflexivity | ]. split; reflexivity. Qed.
Lemma en_43 : ellipsoid_norm 1 (V3 12 0 (-5)) = 13.
Proof. unfold ellipsoid_norm. cbn [x0 x1 x2]. replace (1 * (12 * 12 + 0 * 0) + -5 * -5) with (13 * 13) by ring. apply sqrt_square. lra. Qed.
Lemma eucm_camera_valid : eucm_valid (ea eucm_camera) (eb eucm_camera) (V3 12 0 (-5)).
Proof. unfold eucm_valid. cbn [ea eb eucm_camera make_eucm x2]. rewrite en_43. lra. Qed.
Example C62_ex_image : exists k, eucm_project eucm_camera (V3 12 0 (-5)) = (Val k, true).
Proof.
  exists (V2 (320 + 1920 / 10) 240). rewrite (eucm_project_valid _ _ eucm_camera_sync ltac:(cbn; lra) eucm_camera_valid).
  assert (E : to_pixel (ei eucm_camera) (eucm_point (ea eucm_camera) (eb eucm_camera) (V3 12 0 (-5))) = V2 (320 + 1920 / 10) 240).
  { unfold eucm_point. cbn [ea eb ei eucm_camera make_eucm x0 x1 x2]. rewrite en_43. unfold to_pixel, make_intr. cbn [fu fv cu cv u0 u1]. f_equal; field. }
  rewrite E. f_equal. apply on_sensor_spec. unfold in_image, eucm_camera, make_eucm, make_intr. cbn [ei u0 u1 ru rv]. lra.
Qed.

(** The Jacobians with respect to the point, Euclidean and homogeneous. *)
Theorem C62_eucm_point_jacobian M : eucm_sync M -> 0 < eb M ->
  (forall p k J b, eucm_projectJ M p = ((Val k, Val J), b) -> point_jacobian (fun q => fst (eucm_project M q)) p J) /\
  (forall ph k J b, eucm_hprojectJ M ph = ((Val k, Val J), b) ->
     point_jacobian (fun q => fst (eucm_hproject M (V4 (x0 q) (x1 q) (x2 q) (q3 ph)))) (V3 (q0 ph) (q1 ph) (q2 ph)) J) /\
  (forall p, eucm_valid (ea M) (eb M) p -> exists k J b, eucm_projectJ M p = ((Val k, Val J), b)).
Proof.
  intros S B. split; [intros p k J b; exact (eucm_point_jacobian M p k J b S B) | ]. split.
  - intros ph k J b E. unfold eucm_hprojectJ, eucm_hproject in *. cbn [q3]. destruct (Rlt_dec (q3 ph) 0).
    + destruct (eucm_projectJ M (neg3 (head3 ph))) as [[k' J'] b'] eqn:E'. destruct J' as [J' | | | ]; cbn [rbind] in E; try discriminate.
      assert (k' = Val k) by congruence. subst k'. assert (EJ : J = m23_opp J') by congruence. subst J.
      assert (H := neg_point_jacobian _ _ _ (eucm_point_jacobian M (neg3 (head3 ph)) k J' b' S B E')).
      intros c t d Ec Hc. destruct (H c t d Ec Hc) as (g & L & G). exists g. split; [ | exact G].
      eapply filter_imp; [ | exact L]. cbv beta. intros s Hs. rewrite <- Hs. reflexivity.
    + intros c t d Ec Hc. destruct (eucm_point_jacobian M (head3 ph) k J b S B E c t d Ec Hc) as (g & L & G). exists g. split; [ | exact G].
      eapply filter_imp; [ | exact L]. cbv beta. intros s Hs. rewrite <- Hs. unfold head3. cbn [q0 q1 q2]. destruct (c s); reflexivity.
  - intros p V. assert (E := eucm_projectJ_valid M p S B V). cbv zeta in E. do 3 eexists. exact E.
Qed.
Example C62_ex_point_jacobian : exists k J b, eucm_projectJ eucm_camera (V3 12 0 (-5)) = ((Val k, Val J), b).
Proof. apply (C62_eucm_point_jacobian eucm_camera eucm_camera_sync ltac:(cbn; lra)). exact eucm_camera_valid. Qed.

(** Round trips. *)
Theorem C62_eucm_round_trip M : eucm_sync M -> 0 < eb M -> 0 <= ea M <= 1 ->
  (forall p k b, fu (ei M) <> 0 -> fv (ei M) <> 0 -> eucm_project M p = (Val k, b) ->
     eucm_lift M k = (Val (along_ray (1 / v3_norm p) p), true)) /\
  (forall k p b, eucm_lift M k = (Val p, b) ->
     (1 / 2 < ea M -> (1 / fu (ei M) * (u0 k - cu (ei M))) ^ 2 + (1 / fv (ei M) * (u1 k - cv (ei M))) ^ 2 <> 1 / (eb M * (2 * ea M - 1))) ->
     b = true /\ v3_norm p = 1 /\ fst (eucm_project M p) = Val k /\ (snd (eucm_project M p) = true <-> in_image (ei M) k)).
Proof.
  intros S B A. split.
  - intros p k b F G E. exact (eucm_lift_project M p k b S B A F G E).
  - intros k p b E NB. destruct (eucm_project_lift M k p b S B A E) as (E1 & E2 & E3).
    + intros X y EN. specialize (NB X). unfold norm_pixel in EN. destruct (Req_EM_T _ 0); [discriminate | ]. destruct (Req_EM_T _ 0); [discriminate | ].
      destruct S as ((S1 & S2) & _). rewrite S1, S2 in EN. assert (Ey : y = V2 (1 / fu (ei M) * (u0 k - cu (ei M))) (1 / fv (ei M) * (u1 k - cv (ei M)))) by congruence.
      subst y. cbn [u0 u1]. intros Z. apply NB. rewrite <- Z. ring.
    + rewrite E1. cbn [fst snd]. split; [exact E2 | ]. split; [exact E3 | ]. split; [reflexivity | apply on_sensor_spec].
Qed.
Example C62_ex_round_trip : exists k, eucm_project eucm_camera (V3 12 0 (-5)) = (Val k, true) /\
  eucm_lift eucm_camera k = (Val (along_ray (1 / v3_norm (V3 12 0 (-5))) (V3 12 0 (-5))), true).
Proof.
  destruct C62_ex_image as (k & E). exists k. split; [exact E | ].
  apply (C62_eucm_round_trip eucm_camera eucm_camera_sync ltac:(cbn; lra) ltac:(cbn; lra)) with (b := true); [cbn; lra | cbn; lra | exact E].
Qed.

(** On the boundary of the liftable disc a pixel is said to be liftable and
    its point is out of the field of view. *)
Theorem C62_eucm_boundary_refuted : exists M k p,
  eucm_sync M /\ 0 < eb M /\ 0 <= ea M <= 1 /\ eucm_liftable M k = true /\ eucm_lift M k = (Val p, true) /\ in_image (ei M) k /\ snd (eucm_project M p) = false.
Proof.
  set (M := make_eucm (5 / 8) 1 (make_intr 1 1 5 5 10 10)).
  assert (S : eucm_sync M) by (split; [split; reflexivity | ]; split; reflexivity). assert (B : 0 < eb M) by (cbn; lra).
  exists M, (V2 7 5), (V3 (4 / 5) 0 (- (3 / 5))). split; [exact S | ]. split; [exact B | ]. split; [cbn; lra | ].
  assert (EN : norm_pixel (ei M) (V2 7 5) = Val (V2 2 0)).
  { unfold norm_pixel, M, make_eucm, make_intr. cbn [ei fu fv cu cv recip_fu recip_fv u0 u1]. destruct (Req_EM_T 1 0); [lra | ]. f_equal. f_equal; field. }
  assert (RT : 1 - (ea M - (1 - ea M)) * eb M * (2 * 2 + 0 * 0) = 0) by (cbn [ea eb M make_eucm]; field).
  assert (LF := eucm_liftable_root M _ S B (Req_le _ _ (eq_sym RT))).
  split; [unfold eucm_liftable; rewrite EN; exact LF | ].
  split.
  { unfold eucm_lift. rewrite EN. cbn [u0 u1]. rewrite LF, RT, sqrt_0. destruct (Rlt_dec 0 0); [lra | ].
    cbn [ea eb M make_eucm]. destruct (Req_EM_T (5 / 8 * 0 + (1 - 5 / 8)) 0); [lra | ].
    replace ((1 - 5 / 8 * (5 / 8) * 1 * (2 * 2 + 0 * 0)) / (5 / 8 * 0 + (1 - 5 / 8))) with (- (3 / 2)) by field.
    replace (2 * 2 + 0 * 0 + - (3 / 2) * - (3 / 2)) with (5 / 2 * (5 / 2)) by field. rewrite sqrt_square by lra.
    destruct (Req_EM_T (5 / 2 * (5 / 2)) 0); [lra | ]. f_equal. f_equal. f_equal; field. }
  split; [unfold in_image, M, make_eucm, make_intr; cbn [ei u0 u1 ru rv]; lra | ].
  rewrite (eucm_project_invalid M _ S B); [reflexivity | ]. intros (_ & Q). revert Q. unfold ellipsoid_norm. cbn [x0 x1 x2 ea eb M make_eucm].
  replace (1 * (4 / 5 * (4 / 5) + 0 * 0) + - (3 / 5) * - (3 / 5)) with (1 * 1) by field. rewrite sqrt_square by lra. lra.
Qed.

(** The Jacobian of the map from pixels to rays. *)
Theorem C62_eucm_pixel_jacobian M k p J b : eucm_sync M -> 0 < eb M ->
  eucm_liftJ M k = (Val (p, J), b) -> fst (eucm_lift M k) = Val p /\ pixel_jacobian (fun q => fst (eucm_lift M q)) k J.
Proof. exact (eucm_pixel_jacobian M k p J b). Qed.
Example C62_ex_pixel_jacobian : exists p J b, eucm_liftJ eucm_camera (V2 420 240) = (Val (p, J), b).
Proof.
  assert (EN : norm_pixel (ei eucm_camera) (V2 420 240) = Val (V2 1 0)).
  { unfold norm_pixel, eucm_camera, make_eucm, make_intr. cbn [ei fu fv cu cv recip_fu recip_fv u0 u1]. destruct (Req_EM_T 100 0); [lra | ]. f_equal. f_equal; field. }
  unfold eucm_liftJ. rewrite EN. cbn [u0 u1].
  assert (P : 0 < 1 - (ea eucm_camera - (1 - ea eucm_camera)) * eb eucm_camera * (1 * 1 + 0 * 0)) by (cbn; lra). assert (SP := sqrt_lt_R0 _ P).
  rewrite (eucm_liftable_root _ _ eucm_camera_sync ltac:(cbn; lra) (Rlt_le _ _ P)). cbv zeta. destruct (Rlt_dec _ 0); [lra | ].
  destruct (Req_EM_T _ 0) as [Z | _]; [exfalso; cbn [ea eucm_camera make_eucm] in *; lra | ]. destruct (Req_EM_T _ 0); [lra | ].
  match goal with |- context [Req_EM_T (_ + ?a * ?a) 0] => destruct (Req_EM_T (1 * 1 + 0 * 0 + a * a) 0) as [Z | _]; [exfalso; assert (W := Rle_0_sqr a); unfold Rsqr in W; lra | ] end.
  do 3 eexists. reflexivity.
Qed.

(** The Jacobian with respect to the intrinsics is right for equal focal
    lengths ... *)
Theorem C62_eucm_intrinsics_jacobian M v p cols : 0 < nth 1 v 0 -> eucm_valid (nth 0 v 0) (nth 1 v 0) p -> nth 2 v 0 = nth 3 v 0 ->
  eucm_intrJ (eucm_set M v) p = Val cols -> image_param_jacobian 6 (fun w => fst (eucm_project (eucm_set M w) p)) v cols.
Proof. intros B V F E. rewrite (eucm_intrJ_columns M v p cols E F). exact (eucm_columns_jacobian M v p B V). Qed.
Example C62_ex_intrinsics_jacobian : exists cols, eucm_intrJ (eucm_set eucm_camera [5 / 8; 1; 100; 100; 320; 240]) (V3 12 0 (-5)) = Val cols /\
  eucm_valid (5 / 8) 1 (V3 12 0 (-5)).
Proof.
  unfold eucm_intrJ. destruct (Rle_dec _ 0) as [Z | _]; [exfalso; unfold eucm_d2 in Z; cbn [eucm_set make_eucm ea eb x0 x1 x2 nth] in Z; lra | ]. cbv zeta.
  change (sqrt (eucm_d2 (eucm_set eucm_camera [5 / 8; 1; 100; 100; 320; 240]) (V3 12 0 (-5)))) with (ellipsoid_norm 1 (V3 12 0 (-5))). rewrite en_43.
  destruct (Req_EM_T _ 0) as [Z | _]; [exfalso; cbn [eucm_set make_eucm ea eb x0 x1 x2 nth] in Z; lra | ]. eexists. split; [reflexivity | exact eucm_camera_valid].
Qed.

(** ... and wrong for different ones: the second row of the first two columns
    is scaled by the first focal length. *)
Theorem C62_eucm_intrinsics_jacobian_refuted : exists M v p cols,
  0 < nth 1 v 0 /\ eucm_valid (nth 0 v 0) (nth 1 v 0) p /\ eucm_intrJ (eucm_set M v) p = Val cols /\
  ~ image_param_jacobian 6 (fun w => fst (eucm_project (eucm_set M w) p)) v cols.
Proof.
  set (v := [1 / 2; 1; 1; 2; 0; 0]). set (p := V3 0 3 4).
  assert (EN : ellipsoid_norm 1 p = 5).
  { unfold ellipsoid_norm, p. cbn [x0 x1 x2]. replace (1 * (0 * 0 + 3 * 3) + 4 * 4) with (5 * 5) by ring. apply sqrt_square. lra. }
  assert (V : eucm_valid (nth 0 v 0) (nth 1 v 0) p) by (unfold eucm_valid; cbn [nth v]; rewrite EN; cbn [x2 p]; lra).
  assert (E : eucm_intrJ (eucm_set eucm_camera v) p = Val [V2 0 (- (4 / 27)); V2 0 (- (1 / 15)); V2 0 0; V2 0 (2 / 3); V2 1 0; V2 0 1]).
  { unfold eucm_intrJ. destruct (Rle_dec _ 0) as [Z | _]; [exfalso; unfold eucm_d2, v, p in Z; cbn [eucm_set make_eucm ea eb x0 x1 x2 nth] in Z; lra | ]. cbv zeta.
    change (sqrt (eucm_d2 (eucm_set eucm_camera v) p)) with (ellipsoid_norm 1 p). rewrite EN. unfold v, p.
    cbn [eucm_set make_eucm ea ei make_intr fu fv nth x0 x1 x2]. destruct (Req_EM_T _ 0) as [Z | _]; [exfalso; lra | ].
    f_equal. repeat (apply f_equal2; [f_equal; field | ]). reflexivity. }
  exists eucm_camera, v, p, [V2 0 (- (4 / 27)); V2 0 (- (1 / 15)); V2 0 0; V2 0 (2 / 3); V2 1 0; V2 0 1].
  split; [cbn; lra | ]. split; [exact V | ]. split; [exact E | ]. intros H.
  assert (U := param_jacobian_unique 6 _ v _ _ [1; 0; 0; 0; 0; 0] eq_refl H (eucm_columns_jacobian eucm_camera v p ltac:(cbn; lra) V)).
  unfold eucm_columns in U. change (ellipsoid_norm (nth 1 v 0) p) with (ellipsoid_norm 1 p) in U. rewrite EN in U.
  apply (f_equal u1) in U. unfold v, p, combine_cols, v2_add, v2_scale in U. cbn [nth u0 u1 x0 x1 x2] in U. lra.
Qed.

(** Changing the parameters: every cached value stays in step. *)
Theorem C62_eucm_parameters M ops v : length v = 6%nat -> eucm_sync M ->
  eucm_sync (fold_left eucm_step ops M) /\ eucm_get (eucm_set M v) = v /\
  (forall i, (i < 6)%nat -> nth i (eucm_get (eucm_update M v)) 0 = nth i (eucm_get M) 0 + nth i v 0) /\
  ru (ei (eucm_set M v)) = ru (ei M) /\ rv (ei (eucm_set M v)) = rv (ei M) /\ ru (ei (eucm_update M v)) = ru (ei M) /\ rv (ei (eucm_update M v)) = rv (ei M) /\
  (forall s p m n, 0 < eb M -> 0 < s -> IZR (ru (ei M)) * s = IZR m -> IZR (rv (ei M)) * s = IZR n ->
     eucm_project (eucm_resize M s) p = (rbind (fst (eucm_project M p)) (fun k => Val (v2_scale s k)), snd (eucm_project M p))).
Proof.
  intros L S. split.
  { revert M S. induction ops as [ | o ops IH]; intros M S; [exact S | ]. cbn [fold_left]. apply IH. apply eucm_step_sync. }
  split; [symmetry; apply (list6 v L) | ].
  split; [intros i Hi; destruct i as [ | [ | [ | [ | [ | [ | ]]]]]]; try reflexivity; lia | ].
  split; [reflexivity | ]. split; [reflexivity | ]. split; [reflexivity | ]. split; [reflexivity | ].
  intros s p m n B. exact (eucm_resize_project M s p m n S B).
Qed.
Example C62_ex_parameters : eucm_sync (fold_left eucm_step [EResize (1 / 2); EUpdate [0; 0; 1; 1; 0; 0]] eucm_camera).
Proof. apply (C62_eucm_parameters eucm_camera _ [0; 0; 0; 0; 0; 0] eq_refl eucm_camera_sync). Qed.

(** Initialisation takes over an omnidirectional camera with xi = 1 without
    changing any image or flag. *)
Theorem C62_eucm_initialisation C p :
  eucm_project (eucm_from_omni (make_omni 1 C)) p = omni_project nodist (make_omni 1 C) p.
Proof. exact (eucm_of_omni C p). Qed.
Example C62_ex_initialisation : exists k, fst (eucm_project (eucm_from_omni (make_omni 1 (make_intr 100 100 320 240 640 480))) (V3 0 0 1)) = Val k.
Proof.
  rewrite C62_eucm_initialisation. eexists. rewrite (omni_project_valid nodist); [cbn [fst]; reflexivity | split; [split; reflexivity | ]; split; reflexivity | ].
  unfold omni_valid, p_norm. cbn [x0 x1 x2 xi make_omni]. replace (0 * 0 + 0 * 0 + 1 * 1) with 1 by ring. rewrite sqrt_1. lra.
Qed.

(** Random pixels: liftable for alpha <= 1/2 and when beta (2 alpha - 1) >= 1;
    otherwise the radius used is the square of the right one. *)
Theorem C62_eucm_random_keypoint M u r k : eucm_sync M -> fu (ei M) <> 0 -> fv (ei M) <> 0 -> 0 <= r <= 1 ->
  ea M <= 1 / 2 \/ 1 <= eb M * (2 * ea M - 1) -> eucm_candidate M u r = Val k -> eucm_liftable M k = true.
Proof.
  intros S A B P X E. unfold eucm_candidate in E. destruct (Req_EM_T (eb M * (2 * ea M - 1)) 0) as [ | ND]; [discriminate | ]. destruct (Req_EM_T (v2_norm u) 0) as [ | NU]; [discriminate | ].
  match type of E with Val ?m = Val _ => assert (EK : k = m) by congruence end. clear E. subst k.
  unfold eucm_liftable. rewrite (norm_pixel_pixel (ei M) _ (proj1 S) A B).
  unfold eucm_liftable2. apply orb_true_iff. rewrite !leb_spec. destruct (Rle_lt_dec (ea M) (1 / 2)) as [Y | Y]; [left; exact Y | right].
  destruct X as [X | X]; [lra | ]. destruct S as (_ & O & _). rewrite O. set (q := 1 / (eb M * (2 * ea M - 1))).
  assert (Q : 0 <= q <= 1). { unfold q. split; [apply Rlt_le, Rdiv_lt_0_compat; lra | apply (Rle_div_l 1 1 (eb M * (2 * ea M - 1))); lra]. }
  assert (U : u0 u * u0 u + u1 u * u1 u = v2_norm u * v2_norm u) by (unfold v2_norm; symmetry; apply sqrt_sqrt; unfold v2_dot; nra).
  unfold v2_scale. cbn [u0 u1].
  replace (r * q * (1 / v2_norm u * u0 u) * (r * q * (1 / v2_norm u * u0 u)) + r * q * (1 / v2_norm u * u1 u) * (r * q * (1 / v2_norm u * u1 u)))
    with ((r * r) * (q * q)).
  2: { transitivity (r * r * (q * q) * ((u0 u * u0 u + u1 u * u1 u) * (1 / (v2_norm u * v2_norm u)))); [rewrite U; field; exact NU | field; exact NU]. }
  assert (r * r <= 1) by nra. assert (q * q <= q) by nra. nra.
Qed.
Example C62_ex_random_keypoint : exists k, eucm_candidate (make_eucm 1 2 (make_intr 100 100 320 240 640 480)) (V2 1 0) (1 / 2) = Val k.
Proof.
  unfold eucm_candidate. cbn [make_eucm ea eb]. destruct (Req_EM_T _ 0); [lra | ].
  assert (N : v2_norm (V2 1 0) = 1) by (unfold v2_norm, v2_dot; cbn [u0 u1]; replace (1 * 1 + 0 * 0) with 1 by ring; apply sqrt_1).
  rewrite N. destruct (Req_EM_T 1 0); [lra | ]. eexists. reflexivity.
Qed.
Theorem C62_eucm_random_keypoint_refuted :
  (exists M u r k, eucm_sync M /\ 0 < eb M /\ 0 <= r <= 1 /\ eucm_candidate M u r = Val k /\ in_image (ei M) k /\ eucm_liftable M k = false) /\
  (forall b C u r, eucm_candidate (make_eucm (1 / 2) b C) u r = NotFinite).
Proof.
  split.
  - set (M := make_eucm (3 / 4) 1 (make_intr 1 1 5 5 10 10)).
    assert (S : eucm_sync M) by (split; [split; reflexivity | ]; split; reflexivity).
    assert (N : v2_norm (V2 1 0) = 1) by (unfold v2_norm, v2_dot; cbn [u0 u1]; replace (1 * 1 + 0 * 0) with 1 by ring; apply sqrt_1).
    assert (EC : eucm_candidate M (V2 1 0) 1 = Val (to_pixel (ei M) (V2 2 0))).
    { unfold eucm_candidate. rewrite N. destruct (Req_EM_T _ 0) as [Z | _]; [exfalso; cbn [M make_eucm ea eb] in Z; lra | ]. destruct (Req_EM_T 1 0); [lra | ].
      f_equal. f_equal. unfold v2_scale, M, make_eucm. cbn [e_over u0 u1]. f_equal; field. }
    exists M, (V2 1 0), 1, (to_pixel (ei M) (V2 2 0)). split; [exact S | ]. split; [cbn; lra | ]. split; [lra | ]. split; [exact EC | ].
    split; [unfold in_image, to_pixel, M, make_eucm, make_intr; cbn [ei fu fv cu cv ru rv u0 u1]; lra | ].
    unfold eucm_liftable. rewrite (norm_pixel_pixel (ei M) _ (proj1 S)) by (cbn; lra). cbn [u0 u1].
    apply not_true_is_false. unfold eucm_liftable2. rewrite orb_true_iff, !leb_spec. unfold M, make_eucm. cbn [ea eb e_over].
    intros [H | H]; [lra | ]. replace (1 / (1 * (2 * (3 / 4) - 1))) with 2 in H by field. lra.
  - intros b C u r. unfold eucm_candidate. cbn [make_eucm ea eb]. destruct (Req_EM_T _ 0); [reflexivity | exfalso; lra].
Qed.

Print Assumptions C62_eucm_image.
Print Assumptions C62_eucm_point_jacobian.
Print Assumptions C62_eucm_round_trip.
Print Assumptions C62_eucm_boundary_refuted.
Print Assumptions C62_eucm_pixel_jacobian.
Print Assumptions C62_eucm_intrinsics_jacobian.
Print Assumptions C62_eucm_intrinsics_jacobian_refuted.
Print Assumptions C62_eucm_parameters.
Print Assumptions C62_eucm_initialisation.
Print Assumptions C62_eucm_random_keypoint.
Print Assumptions C62_eucm_random_keypoint_refuted.
