(** * C61: the omnidirectional (unified) projection *)

From Coquelicot Require Import Coquelicot.
From Coq Require Import Reals List Psatz ZArith Bool.
From Verif Require Import KinModel KinSpec KinProofs KinExp KinCurve DistModel DistSpec DistProofs DistUndist PinModel CamSpec PinProofs OmniModel OmniSpec OmniProofs PinProps.
Import ListNotations.
Local Open Scope R_scope.

(** A point is reported visible exactly when it is inside the field of view
    of the model, which is where the projection is one to one, and its image
    is inside the sensor; all overloads agree on image and flag; the image
    depends only on the ray, for homogeneous points on the line. *)
Theorem C61_omni_image D M p : omni_sync M ->
  (forall k b, omni_project D M p = (Val k, b) ->
     0 < x2 p + xi M * v3_norm p /\ 0 < v3_norm p + xi M * x2 p /\
     k = to_pixel (oi M) (distort D (V2 (x0 p * (1 / (x2 p + xi M * v3_norm p))) (x1 p * (1 / (x2 p + xi M * v3_norm p))))) /\
     (b = true <-> in_image (oi M) k)) /\
  (0 < x2 p + xi M * v3_norm p -> 0 < v3_norm p + xi M * x2 p -> exists k b, omni_project D M p = (Val k, b)) /\
  ((x2 p + xi M * v3_norm p <= 0 \/ v3_norm p + xi M * x2 p <= 0) -> snd (omni_project D M p) = false) /\
  ((forall y, fst (distortJ D y) = distort D y) ->
     fst (fst (omni_projectJ D M p)) = fst (omni_project D M p) /\ snd (omni_projectJ D M p) = snd (omni_project D M p) /\
     (forall ph, fst (fst (omni_hprojectJ D M ph)) = fst (omni_hproject D M ph) /\ snd (omni_hprojectJ D M ph) = snd (omni_hproject D M ph))) /\
  (forall s, 0 < s -> omni_project D M (along_ray s p) = omni_project D M p) /\
  (forall ph s, s <> 0 -> q3 ph <> 0 -> omni_hproject D M (along_hray s ph) = omni_hproject D M ph) /\
  (forall w, 0 <= w -> omni_hproject D M (V4 (x0 p) (x1 p) (x2 p) w) = omni_project D M p).
Proof.
  intros S. split.
  { intros k b E. destruct (omni_project_val D M p k b S E) as ((A & B) & Ek & Eb).
    split; [exact A | ]. split; [exact B | ]. split; [exact Ek | ]. rewrite Eb. apply on_sensor_spec. }
  split; [intros A B; do 2 eexists; exact (omni_project_valid D M p S (conj A B)) | ].
  split.
  { intros H. rewrite (omni_project_invalid D M p S); [reflexivity | ]. intros (A & B). unfold p_norm in A, B.
    change (sqrt (x0 p * x0 p + x1 p * x1 p + x2 p * x2 p)) with (v3_norm p) in A, B. lra. }
  split.
  { intros H. destruct (omni_overloads D M p S H) as (A & B). split; [exact A | ]. split; [exact B | ].
    intros ph. unfold omni_hprojectJ, omni_hproject. destruct (Rlt_dec (q3 ph) 0).
    - destruct (omni_overloads D M (neg3 (head3 ph)) S H) as (A' & B'). destruct (omni_projectJ D M (neg3 (head3 ph))) as [[k J] b]. exact (conj A' B').
    - exact (omni_overloads D M (head3 ph) S H). }
  split; [intros s P; exact (omni_ray D M p s S P) | ].
  split.
  { intros ph s Hs Hq. unfold omni_hproject. apply (h_ray (omni_project D M)); [ | exact Hs | exact Hq]. intros q a P. exact (omni_ray D M q a S P). }
  intros w W. unfold omni_hproject. cbn [q3]. destruct (Rlt_dec w 0); [lra | ]. unfold head3. cbn [q0 q1 q2]. destruct p; reflexivity.
Qed.
(** A camera with xi = 5/4 sees a point to the side of it, and behind it. *)
Definition side_camera := make_omni (5 / 4) (make_intr 100 100 320 240 640 480).
Lemma side_sync : omni_sync side_camera.
Proof. split; [split; reflexivity | ]. split; reflexivity. Qed.
Lemma norm_34 : v3_norm (V3 4 0 (-3)) = 5.
Proof. unfold v3_norm, v3_dot. cbn [x0 x1 x2]. replace (4 * 4 + 0 * 0 + -3 * -3) with (5 * 5) by ring. apply sqrt_square. lra. Qed.
Example C61_ex_image : omni_sync side_camera /\ exists k, omni_project nodist side_camera (V3 4 0 (-3)) = (Val k, true).
Proof.
  split; [exact side_sync | ]. exists (V2 (320 + 1600 / 13) 240).
  assert (V : omni_valid (xi side_camera) (V3 4 0 (-3))).
  { unfold omni_valid, p_norm. fold (v3_norm (V3 4 0 (-3))). change (sqrt _) with (v3_norm (V3 4 0 (-3))). rewrite norm_34. cbn [x2 side_camera xi make_omni]. lra. }
  rewrite (omni_project_valid _ _ _ side_sync V).
  assert (E : to_pixel (oi side_camera) (distort nodist (omni_point (xi side_camera) (V3 4 0 (-3)))) = V2 (320 + 1600 / 13) 240).
  { unfold omni_point, p_norm. change (sqrt _) with (v3_norm (V3 4 0 (-3))). rewrite norm_34.
    cbn [x0 x1 x2 side_camera xi oi make_omni distort nodist]. unfold to_pixel, make_intr. cbn [fu fv cu cv u0 u1]. f_equal; field. }
  rewrite E. f_equal. apply on_sensor_spec. unfold in_image, side_camera, make_omni, make_intr. cbn [oi u0 u1 ru rv]. lra.
Qed.

(** The Jacobian with respect to the point, and the one with respect to a
    homogeneous point, whenever the distortion's is right. *)
Theorem C61_omni_point_jacobian D M : omni_sync M ->
  (forall y K, snd (distortJ D y) = Val K -> jacobian (distort D) y K) ->
  (forall p k J b, omni_projectJ D M p = ((Val k, Val J), b) -> point_jacobian (fun q => fst (omni_project D M q)) p J) /\
  (forall ph k J b, q3 ph <> 0 -> omni_hprojectJ D M ph = ((Val k, Val J), b) ->
     point_jacobian (fun q => fst (omni_hproject D M (V4 (x0 q) (x1 q) (x2 q) (q3 ph)))) (V3 (q0 ph) (q1 ph) (q2 ph)) J).
Proof.
  intros S H.
  assert (HP : forall p k J b, omni_projectJ D M p = ((Val k, Val J), b) -> point_jacobian (fun q => fst (omni_project D M q)) p J).
  { intros p k J b E.
    assert (V : omni_valid (xi M) p).
    { assert (~ ~ omni_valid (xi M) p).
      { intros N. unfold omni_projectJ in E. destruct (Rle_dec _ _) as [L | L]; [discriminate | ]. apply L. apply (omni_valid_spec M p S). exact N. }
      unfold omni_valid in *. destruct (Rlt_dec 0 (x2 p + xi M * p_norm p)), (Rlt_dec 0 (p_norm p + xi M * x2 p)); tauto. }
    assert (ED : exists Jd, snd (distortJ D (omni_point (xi M) p)) = Val Jd).
    { unfold omni_projectJ in E. destruct (Rle_dec _ _); [discriminate | ]. destruct (Req_EM_T _ 0); [discriminate | ]. destruct (Req_EM_T _ 0); [discriminate | ].
      unfold omni_point. destruct (distortJ D _) as [kp [Jd | | | ]]; cbn [rbind] in E; try discriminate. exists Jd. reflexivity. }
    destruct ED as [Jd ED]. apply (omni_point_jacobian D M p Jd J S V ED (H _ _ ED)). rewrite E. reflexivity. }
  split; [exact HP | ].
  intros ph k J b Hq E. unfold omni_hprojectJ, omni_hproject in *. cbn [q3]. destruct (Rlt_dec (q3 ph) 0) as [N | N].
  - destruct (omni_projectJ D M (neg3 (head3 ph))) as [[k' J'] b'] eqn:E'. destruct J' as [J' | | | ]; cbn [rbind] in E; try discriminate.
    assert (k' = Val k) by congruence. subst k'. assert (EJ : J = m23_opp J') by congruence. subst J.
    intros c t d Ec (A & B & C).
    assert (Hn : v3_derive (fun s => neg3 (c s)) t (neg3 d)).
    { split; [ | split]; unfold neg3; cbn [x0 x1 x2]; [exact (is_derive_opp _ t _ A) | exact (is_derive_opp _ t _ B) | exact (is_derive_opp _ t _ C)]. }
    assert (Ec' : neg3 (c t) = neg3 (head3 ph)) by (rewrite Ec; reflexivity).
    destruct (HP _ _ _ _ E' (fun s => neg3 (c s)) t (neg3 d) Ec' Hn) as (g & L & G). exists g. split.
    + eapply filter_imp; [ | exact L]. cbv beta. intros s Hs. rewrite <- Hs. unfold neg3, head3. cbn [q0 q1 q2 x0 x1 x2]. reflexivity.
    + eapply v2_derive_eq; [ | exact G]. unfold m23_vec, m23_opp, neg3. cbn [j00 j01 j02 j10 j11 j12 x0 x1 x2]. f_equal; ring.
  - intros c t d Ec Hc. destruct (HP _ _ _ _ E c t d Ec Hc) as (g & L & G). exists g. split; [ | exact G].
    eapply filter_imp; [ | exact L]. cbv beta. intros s Hs. rewrite <- Hs. unfold head3. cbn [q0 q1 q2]. destruct (c s); reflexivity.
Qed.
Example C61_ex_point_jacobian D : exists k J b, omni_projectJ (radtan D) side_camera (V3 4 0 (-3)) = ((Val k, Val J), b) /\
  point_jacobian (fun q => fst (omni_project (radtan D) side_camera q)) (V3 4 0 (-3)) J.
Proof.
  assert (V : omni_valid (xi side_camera) (V3 4 0 (-3))).
  { unfold omni_valid, p_norm. change (sqrt _) with (v3_norm (V3 4 0 (-3))). rewrite norm_34. cbn [x2 side_camera xi make_omni]. lra. }
  assert (E : exists k J b, omni_projectJ (radtan D) side_camera (V3 4 0 (-3)) = ((Val k, Val J), b)).
  { unfold omni_projectJ. destruct (Rle_dec _ _) as [L | _]; [apply (omni_valid_spec _ _ side_sync) in L; contradiction | ].
    destruct (Req_EM_T _ 0); [exfalso; destruct V; lra | ]. destruct (Req_EM_T _ 0); [exfalso; apply omni_valid_pos in V; lra | ].
    cbn [distortJ radtan rbind]. do 3 eexists. reflexivity. }
  destruct E as (k & J & b & E). exists k, J, b. split; [exact E | ].
  apply (proj1 (C61_omni_point_jacobian (radtan D) side_camera side_sync
    ltac:(intros y K EK; cbn [distortJ radtan snd] in EK; assert (K = rt_J D y) by congruence; subst K; apply rt_jacobian)) _ k J b E).
Qed.

(** Round trips, given an exact undistortion: lifting the image of a point
    gives the point at its depth scaled; projecting a lifted pixel gives the
    pixel, except on the boundary of the liftable disc. *)
Theorem C61_omni_round_trip D M : omni_sync M ->
  (forall p k b, fu (oi M) <> 0 -> fv (oi M) <> 0 -> omni_project D M p = (Val k, b) ->
     (forall y, undistort D (distort D y) = Val y) ->
     omni_lift D M k = (Val (along_ray (1 / (x2 p + xi M * v3_norm p)) p), true)) /\
  (forall k p b, -1 < xi M -> (forall y x, undistort D y = Val x -> distort D x = y) ->
     omni_lift D M k = (Val p, b) -> (1 < xi M -> x0 p * x0 p + x1 p * x1 p <> 1 / (xi M * xi M - 1)) ->
     b = true /\ fst (omni_project D M p) = Val k /\ (snd (omni_project D M p) = true <-> in_image (oi M) k)).
Proof.
  intros S. split.
  - intros p k b A B E H. exact (omni_lift_project D M p k b S A B E (H _)).
  - intros k p b X H E NB. destruct (omni_project_lift D M k p b S X H E NB) as (A & B). rewrite A. cbn [fst snd].
    split; [exact B | ]. split; [reflexivity | apply on_sensor_spec].
Qed.
Example C61_ex_round_trip : exists k, omni_project nodist side_camera (V3 4 0 (-3)) = (Val k, true) /\
  omni_lift nodist side_camera k = (Val (along_ray (1 / (-3 + 5 / 4 * 5)) (V3 4 0 (-3))), true).
Proof.
  destruct (proj2 C61_ex_image) as (k & E). exists k. split; [exact E | ].
  assert (H := proj1 (C61_omni_round_trip nodist side_camera side_sync) (V3 4 0 (-3)) k true).
  rewrite norm_34 in H. apply H; [cbn; lra | cbn; lra | exact E | reflexivity].
Qed.

(** ... on it, a pixel is said to be liftable and its point is out of the
    field of view. *)
Theorem C61_omni_boundary_refuted : exists M k p,
  omni_sync M /\ omni_liftable nodist M k = true /\ omni_lift nodist M k = (Val p, true) /\ in_image (oi M) k /\ snd (omni_project nodist M p) = false.
Proof.
  set (M := make_omni (5 / 4) (make_intr 3 3 4 4 10 10)).
  assert (S : omni_sync M) by (split; [split; reflexivity | ]; split; reflexivity).
  exists M, (V2 8 4), (V3 (4 / 3) 0 (- (16 / 9))). split; [exact S | ].
  assert (EN : omni_norm M (V2 8 4) = Val (V2 (4 / 3) 0)).
  { unfold omni_norm, M, make_omni, make_intr. cbn [oi fu fv cu cv recip_fu recip_fv u0 u1]. destruct (Req_EM_T 3 0); [lra | ]. f_equal. f_equal; field. }
  assert (RT : 1 + (1 - xi M * xi M) * (u0 (V2 (4 / 3) 0) * u0 (V2 (4 / 3) 0) + u1 (V2 (4 / 3) 0) * u1 (V2 (4 / 3) 0)) = 0) by (cbn; field).
  assert (LF := omni_liftable_root M _ S (Req_le _ _ (eq_sym RT))).
  split; [unfold omni_liftable; rewrite EN; cbn [rbind undistort nodist]; exact LF | ].
  split.
  { unfold omni_lift. rewrite EN. cbn [rbind undistort nodist]. rewrite LF, RT, sqrt_0. destruct (Rlt_dec 0 0); [lra | ].
    cbn [xi M make_omni u0 u1]. destruct (Req_EM_T _ 0); [lra | ]. f_equal. f_equal. f_equal. field. }
  split; [unfold in_image, M, make_omni, make_intr; cbn [oi u0 u1 ru rv]; lra | ].
  rewrite (omni_project_invalid nodist M _ S); [reflexivity | ]. intros (_ & B). revert B. unfold p_norm. cbn [x0 x1 x2 xi M make_omni].
  replace (4 / 3 * (4 / 3) + 0 * 0 + - (16 / 9) * - (16 / 9)) with (20 / 9 * (20 / 9)) by field. rewrite sqrt_square by lra. lra.
Qed.

(** The Jacobian of the map from pixels to rays. *)
Theorem C61_omni_pixel_jacobian D M k p J b : omni_sync M ->
  (forall y x K, undistortJ D y = Val (x, K) -> undistort D y = Val x /\ plane_jacobian (undistort D) y K) ->
  omni_liftJ D M k = (Val (p, J), b) ->
  fst (omni_lift D M k) = Val p /\ pixel_jacobian (fun q => fst (omni_lift D M q)) k J.
Proof.
  intros S H E. destruct (omni_norm M k) as [kp | | | ] eqn:EN; try (unfold omni_liftJ in E; rewrite EN in E; discriminate).
  destruct (undistortJ D kp) as [[y K] | | | ] eqn:EU; try (unfold omni_liftJ in E; rewrite EN in E; cbn [rbind] in E; rewrite EU in E; discriminate).
  destruct (H _ _ _ EU) as (EU0 & HK). destruct (omni_pixel_jacobian D M k y K kp p J b S EN EU0 EU HK E) as (A & B). split; [exact B | exact A].
Qed.
Example C61_ex_pixel_jacobian : exists p J b, omni_liftJ nodist side_camera (V2 400 300) = (Val (p, J), b) /\
  pixel_jacobian (fun q => fst (omni_lift nodist side_camera q)) (V2 400 300) J.
Proof.
  assert (E : exists p J b, omni_liftJ nodist side_camera (V2 400 300) = (Val (p, J), b)).
  { unfold omni_liftJ, omni_norm, side_camera, make_omni, make_intr. cbn [xi oi fu fv cu cv recip_fu recip_fv u0 u1].
    destruct (Req_EM_T 100 0); [lra | ]. cbn [rbind undistortJ nodist u0 u1].
    assert (0 < - (1 / 100 * (400 - 320) * (1 / 100 * (400 - 320)) + 1 / 100 * (300 - 240) * (1 / 100 * (300 - 240))) * (5 / 4 * (5 / 4) - 1) + 1) by lra.
    assert (SP := sqrt_lt_R0 _ H).
    rewrite omni_liftable_root; [ | split; [split; reflexivity | ]; split; reflexivity | cbn [xi]; lra].
    destruct (Rlt_dec _ 0); [lra | ]. destruct (Req_EM_T _ 0); [lra | ]. destruct (Req_EM_T _ 0); [lra | ]. do 3 eexists. reflexivity. }
  destruct E as (p & J & b & E). exists p, J, b. split; [exact E | ].
  refine (proj2 (C61_omni_pixel_jacobian nodist side_camera _ p J b side_sync _ E)).
  intros y x K EU. cbn [undistortJ nodist] in EU. assert (x = y) by congruence. assert (K = m2_I) by congruence. subst x K. split; [reflexivity | ].
  intros c t d Ec H. exists c. split; [apply filter_forall; reflexivity | rewrite m2_vec_I; exact H].
Qed.

(** Jacobians with respect to the five intrinsics and to the coefficients of
    the distortion, inside the field of view. *)
Theorem C61_omni_parameter_jacobians :
  (forall D M v p cols, (forall y, fst (distortJ D y) = distort D y) -> (forall y K, snd (distortJ D y) = Val K -> jacobian (distort D) y K) ->
     0 < x2 p + nth 0 v 0 * v3_norm p -> 0 < v3_norm p + nth 0 v 0 * x2 p ->
     omni_intrJ D (omni_set M v) p = Val cols ->
     image_param_jacobian 5 (fun w => fst (omni_project D (omni_set M w) p)) v cols) /\
  (forall M p, omni_sync M -> 0 < x2 p + xi M * v3_norm p -> 0 < v3_norm p + xi M * x2 p ->
     let y := V2 (x0 p * (1 / (x2 p + xi M * v3_norm p))) (x1 p * (1 / (x2 p + xi M * v3_norm p))) in
     (forall v cols, omni_distJ (radtan (rt_set v)) M p = Val cols ->
        image_param_jacobian 4 (fun w => fst (omni_project (radtan (rt_set w)) M p)) v cols) /\
     (forall v cols, omni_distJ (equi (eq_set v)) M p = Val cols -> 1 / 10 ^ 8 < radius y ->
        image_param_jacobian 4 (fun w => fst (omni_project (equi (eq_set w)) M p)) v cols) /\
     (forall w0 cols, omni_distJ (fov w0) M p = Val cols -> 1 / 2 < w0 < 3 / 2 -> 1 / 10 ^ 5 <= radius y * radius y ->
        image_param_jacobian 1 (fun w => fst (omni_project (fov (nth 0 w 0)) M p)) [w0] cols)).
Proof.
  split.
  - intros D M v p cols HF HJ V1 V2 E.
    assert (ED : exists Jd, snd (distortJ D (omni_point (nth 0 v 0) p)) = Val Jd).
    { unfold omni_intrJ in E. cbn [omni_set make_omni xi] in E. destruct (Req_EM_T _ 0); [discriminate | ].
      unfold omni_point. destruct (distortJ D _) as [kp [Jd | | | ]]; cbn [rbind] in E; try discriminate. exists Jd. reflexivity. }
    destruct ED as [Jd ED]. exact (omni_intr_jacobian D M v p Jd cols (conj V1 V2) ED (HF _) (HJ _ _ ED) E).
  - intros M p S V1 V2. cbv zeta. split; [ | split].
    + intros v cols E. apply (omni_dist_jacobian 4 (fun w => radtan (rt_set w)) M v p cols S (conj V1 V2)); [ | exact E].
      intros cs EC. cbn [paramJ radtan] in EC. assert (cs = rt_paramJ (omni_point (xi M) p)) by congruence. subst cs. apply rt_param_jacobian.
    + intros v cols E H. apply (omni_dist_jacobian 4 (fun w => equi (eq_set w)) M v p cols S (conj V1 V2)); [ | exact E].
      intros cs EC. apply eq_param_jacobian; [exact H | exact EC].
    + intros w0 cols E W H. apply (omni_dist_jacobian 1 (fun w => fov (nth 0 w 0)) M [w0] p cols S (conj V1 V2)); [ | exact E].
      intros cs EC. cbn [paramJ fov nth] in EC. assert (cs = fov_paramJ w0 (omni_point (xi M) p)) by congruence. subst cs.
      apply fov_param_jacobian; [exact W | exact H].
Qed.
Example C61_ex_parameter_jacobians : exists cols, omni_intrJ nodist (omni_set side_camera [5 / 4; 100; 100; 320; 240]) (V3 4 0 (-3)) = Val cols /\ length cols = 5%nat.
Proof.
  unfold omni_intrJ. cbn [omni_set make_omni xi nth x2]. change (p_norm (V3 4 0 (-3))) with (v3_norm (V3 4 0 (-3))). rewrite norm_34.
  destruct (Req_EM_T _ 0); [lra | ]. cbn [distortJ nodist rbind]. eexists. split; reflexivity.
Qed.

(** Changing the parameters: every cached value stays in step. *)
Theorem C61_omni_parameters M ops v : length v = 5%nat -> omni_sync M ->
  omni_sync (fold_left omni_step ops M) /\ omni_get (omni_set M v) = v /\
  (forall i, (i < 5)%nat -> nth i (omni_get (omni_update M v)) 0 = nth i (omni_get M) 0 + nth i v 0) /\
  ru (oi (omni_set M v)) = ru (oi M) /\ rv (oi (omni_set M v)) = rv (oi M) /\ ru (oi (omni_update M v)) = ru (oi M) /\ rv (oi (omni_update M v)) = rv (oi M) /\
  (forall D s p m n, 0 < s -> IZR (ru (oi M)) * s = IZR m -> IZR (rv (oi M)) * s = IZR n ->
     omni_project D (omni_resize M s) p = (rbind (fst (omni_project D M p)) (fun k => Val (v2_scale s k)), snd (omni_project D M p))).
Proof.
  intros L S. split.
  { revert M S. induction ops as [ | o ops IH]; intros M S; [exact S | ]. cbn [fold_left]. apply IH. apply omni_step_sync. }
  split; [symmetry; apply (list5 v L) | ].
  split; [intros i Hi; destruct i as [ | [ | [ | [ | [ | ]]]]]; try reflexivity; lia | ].
  split; [reflexivity | ]. split; [reflexivity | ]. split; [reflexivity | ]. split; [reflexivity | ].
  intros D s p m n. exact (omni_resize_project D M s p m n S).
Qed.
Example C61_ex_parameters : omni_sync (fold_left omni_step [OResize (1 / 2); OUpdate [0; 1; 1; 0; 0]] side_camera).
Proof. apply (C61_omni_parameters side_camera _ [0; 0; 0; 0; 0] eq_refl side_sync). Qed.

(** Random pixels of a camera without distortion can be lifted for xi <= 1
    and for xi * xi >= 2 ... *)
Theorem C61_omni_random_keypoint M u r k : omni_sync M -> fu (oi M) <> 0 -> fv (oi M) <> 0 -> 0 <= r <= 1 ->
  xi M <= 1 \/ 2 <= xi M * xi M -> omni_candidate nodist M u r = Val k -> omni_liftable nodist M k = true.
Proof.
  intros S A B P X E. unfold omni_candidate in E. destruct (Req_EM_T (xi M * xi M) 1); [discriminate | ]. destruct (Req_EM_T (v2_norm u) 0) as [ | NU]; [discriminate | ].
  match type of E with Val ?m = Val _ => assert (EK : k = m) by congruence end. clear E. subst k. cbn [distort nodist].
  unfold omni_liftable. rewrite (omni_norm_pixel M _ S A B). cbn [rbind undistort nodist].
  unfold omni_liftable2. apply orb_true_iff. rewrite !leb_spec. destruct (Rle_lt_dec (xi M) 1) as [Y | Y]; [left; exact Y | right].
  destruct X as [X | X]; [lra | ]. destruct S as (_ & O & _). rewrite O. set (q := 1 / (xi M * xi M - 1)).
  assert (Q : 0 <= q <= 1). { unfold q. split; [apply Rlt_le, Rdiv_lt_0_compat; lra | apply (Rle_div_l 1 1 (xi M * xi M - 1)); lra]. }
  assert (U : u0 u * u0 u + u1 u * u1 u = v2_norm u * v2_norm u) by (unfold v2_norm; symmetry; apply sqrt_sqrt; nra).
  unfold v2_scale. cbn [u0 u1].
  replace (r * q * (1 / v2_norm u * u0 u) * (r * q * (1 / v2_norm u * u0 u)) + r * q * (1 / v2_norm u * u1 u) * (r * q * (1 / v2_norm u * u1 u)))
    with ((r * r) * (q * q)).
  2: { transitivity (r * r * (q * q) * ((u0 u * u0 u + u1 u * u1 u) * (1 / (v2_norm u * v2_norm u)))); [rewrite U; field; exact NU | field; exact NU]. }
  assert (r * r <= 1) by nra. assert (q * q <= q) by nra. nra.
Qed.
Example C61_ex_random_keypoint : exists k, omni_candidate nodist (make_omni 2 (make_intr 100 100 320 240 640 480)) (V2 1 0) (1 / 2) = Val k.
Proof.
  unfold omni_candidate. cbn [make_omni xi]. destruct (Req_EM_T (2 * 2) 1); [lra | ].
  assert (N : v2_norm (V2 1 0) = 1) by (unfold v2_norm, v2_dot; cbn [u0 u1]; replace (1 * 1 + 0 * 0) with 1 by ring; apply sqrt_1).
  rewrite N. destruct (Req_EM_T 1 0); [lra | ]. eexists. reflexivity.
Qed.

(** ... but not in between, where the radius of the liftable disc is taken to
    be its square, and no finite pixel is ever produced for xi = 1. *)
Theorem C61_omni_random_keypoint_refuted :
  (exists M u r k, omni_sync M /\ 0 <= r <= 1 /\ omni_candidate nodist M u r = Val k /\ omni_accepted M k = true /\
     omni_liftable nodist M k = false) /\
  (forall D C u r, omni_candidate D (make_omni 1 C) u r = NotFinite).
Proof.
  split.
  - set (M := make_omni (5 / 4) (make_intr 9 9 20 20 50 50)).
    assert (S : omni_sync M) by (split; [split; reflexivity | ]; split; reflexivity).
    assert (N : v2_norm (V2 1 0) = 1) by (unfold v2_norm, v2_dot; cbn [u0 u1]; replace (1 * 1 + 0 * 0) with 1 by ring; apply sqrt_1).
    assert (EC : omni_candidate nodist M (V2 1 0) 1 = Val (to_pixel (oi M) (V2 (16 / 9) 0))).
    { unfold omni_candidate. rewrite N. destruct (Req_EM_T _ 1) as [Z | _]; [exfalso; cbn in Z; lra | ]. destruct (Req_EM_T 1 0); [lra | ].
      cbn [distort nodist]. f_equal. f_equal. unfold v2_scale, M, make_omni. cbn [one_over u0 u1]. f_equal; field. }
    exists M, (V2 1 0), 1, (to_pixel (oi M) (V2 (16 / 9) 0)). split; [exact S | ]. split; [lra | ]. split; [exact EC | ].
    split.
    { unfold omni_accepted, to_pixel, M, make_omni, make_intr. cbn [oi fu fv cu cv ru rv u0 u1]. rewrite !andb_true_iff, !ltb_spec. lra. }
    unfold omni_liftable. rewrite (omni_norm_pixel M _ S) by (cbn; lra). cbn [rbind undistort nodist u0 u1].
    apply not_true_is_false. unfold omni_liftable2. rewrite orb_true_iff, !leb_spec. unfold M, make_omni. cbn [xi one_over].
    intros [H | H]; [lra | ]. replace (1 / (5 / 4 * (5 / 4) - 1)) with (16 / 9) in H by field. lra.
  - intros D C u r. unfold omni_candidate. cbn [make_omni xi]. destruct (Req_EM_T (1 * 1) 1); [reflexivity | lra].
Qed.

Print Assumptions C61_omni_image.
Print Assumptions C61_omni_point_jacobian.
Print Assumptions C61_omni_round_trip.
Print Assumptions C61_omni_boundary_refuted.
Print Assumptions C61_omni_pixel_jacobian.
Print Assumptions C61_omni_parameter_jacobians.
Print Assumptions C61_omni_parameters.
Print Assumptions C61_omni_random_keypoint.
Print Assumptions C61_omni_random_keypoint_refuted.
