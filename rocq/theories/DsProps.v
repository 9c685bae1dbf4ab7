(** * C63: the double sphere projection *)

From Coquelicot Require Import Coquelicot.
From Coq Require Import Reals List Psatz ZArith Bool.
From Verif Require Import KinModel KinSpec KinProofs KinExp KinCurve DistModel DistSpec DistProofs DistUndist PinModel CamSpec PinProofs OmniModel OmniSpec OmniProofs EucmModel EucmSpec EucmProofs DsModel DsSpec DsProofs.
Import ListNotations.
Local Open Scope R_scope.

(** The angle at which the field of view ends, as a cosine. *)
Definition ds_border (xi alpha : R) : R :=
  let w := if Rle_dec alpha (1 / 2) then alpha / (1 - alpha) else (1 - alpha) / alpha in
  (w + xi) / sqrt (2 * w * xi + xi * xi + 1).

(** Points are projected exactly inside the field of view and reported
    visible exactly when the image is moreover inside the sensor.  For a border
    that is not negative every such point lies where the model is one to one. *)
Theorem C63_ds_image M p : ds_sync M -> 0 <= sa M <= 1 -> -1 < sx M <= 1 -> 0 <= ds_border (sx M) (sa M) ->
  (forall k b, ds_project M p = (Val k, b) ->
     - ds_border (sx M) (sa M) * v3_norm p < x2 p /\ ds_valid (sx M) (sa M) p /\
     let q := shifted (sx M) p in
     let N := sa M * v3_norm q + (1 - sa M) * x2 q in
     k = V2 (fu (si M) * (x0 p * (1 / N)) + cu (si M)) (fv (si M) * (x1 p * (1 / N)) + cv (si M)) /\
     (b = true <-> in_image (si M) k)) /\
  (- ds_border (sx M) (sa M) * v3_norm p < x2 p -> exists k b, ds_project M p = (Val k, b)) /\
  (x2 p <= - ds_border (sx M) (sa M) * v3_norm p -> snd (ds_project M p) = false) /\
  fst (fst (ds_projectJ M p)) = fst (ds_project M p) /\ snd (ds_projectJ M p) = snd (ds_project M p) /\
  (forall ph, fst (fst (ds_hprojectJ M ph)) = fst (ds_hproject M ph) /\ snd (ds_hprojectJ M ph) = snd (ds_hproject M ph)) /\
  (forall s, 0 < s -> ds_project M (along_ray s p) = ds_project M p) /\
  (forall ph s, s <> 0 -> q3 ph <> 0 -> ds_hproject M (along_hray s ph) = ds_hproject M ph) /\
  (forall w, 0 <= w -> ds_hproject M (V4 (x0 p) (x1 p) (x2 p) w) = ds_project M p).
Proof.
  intros S A X B. assert (CP := fov_radicand (sa M) (sx M) (proj1 X)).
  change (ds_border (sx M) (sa M)) with ((ds_w (sa M) + sx M) / sqrt (2 * ds_w (sa M) * sx M + sx M * sx M + 1)) in *.
  assert (SP : 0 < sqrt (2 * ds_w (sa M) * sx M + sx M * sx M + 1)) by (apply sqrt_lt_R0; exact CP).
  assert (WX : 0 <= ds_w (sa M) + sx M).
  { exact (div_nonneg _ _ SP B). }
  assert (RS := ds_refused_spec M (x2 p) (ds_d1 p) S (proj1 X)). change (ds_d1 p) with (v3_norm p) in RS.
  set (f := (ds_w (sa M) + sx M) / _) in *. replace (- f * v3_norm p) with (- (f * v3_norm p)) by ring.
  assert (VN : forall q, ds_valid (sx M) (sa M) q -> ds_norm M q <> 0).
  { intros q (V1 & _). rewrite <- d2_en in V1. change (x2 (shifted (sx M) q)) with (ds_k M q) in V1. unfold ds_norm. lra. }
  split.
  { intros k b E. destruct (ds_project_val M p k b E) as (ER & N & Ek & Eb). destruct (ds_accept_valid M p S A X WX ER) as (V & D).
    split. { apply Rnot_le_lt. intros L. apply RS in L. change (v3_norm p) with (ds_d1 p) in L. congruence. }
    split; [exact V | ]. cbv zeta. split; [exact Ek | ]. rewrite Eb. apply on_sensor_spec. }
  split.
  { intros L. assert (ER : ds_refused M (x2 p) (ds_d1 p) = false) by (apply not_true_is_false; intros T; apply RS in T; lra).
    destruct (ds_accept_valid M p S A X WX ER) as (V & _). do 2 eexists. exact (ds_project_ok M p ER (VN p V)). }
  split; [intros L; apply RS in L; unfold ds_project; change (v3_norm p) with (ds_d1 p) in L; rewrite L; reflexivity | ].
  split; [exact (proj1 (ds_overloads M p)) | ]. split; [exact (proj2 (ds_overloads M p)) | ].
  split.
  { intros ph. unfold ds_hprojectJ, ds_hproject. destruct (Rlt_dec (q3 ph) 0); [ | exact (ds_overloads M (head3 ph))].
    destruct (ds_overloads M (neg3 (head3 ph))) as (A' & B'). destruct (ds_projectJ M (neg3 (head3 ph))) as [[k J] b]. exact (conj A' B'). }
  split; [intros s P; exact (ds_ray M p s P) | ].
  split.
  { intros ph s Hs Hq. unfold ds_hproject. apply (h_ray (ds_project M)); [ | exact Hs | exact Hq]. intros q a P. exact (ds_ray M q a P). }
  intros w W. unfold ds_hproject. cbn [q3]. destruct (Rlt_dec w 0); [lra | ]. unfold head3. cbn [q0 q1 q2]. destruct p; reflexivity.
Qed.
(** A camera that sees a point behind it: xi = 3/8, alpha = 1/2, border
    cosine (11/8) / sqrt (121/64) = 1. *)
Definition ds_camera := make_ds (3 / 8) (1 / 2) (make_intr 100 100 320 240 640 480).
Lemma ds_camera_sync : ds_sync ds_camera.
Proof. split; [split; reflexivity | ]. split; reflexivity. Qed.
Lemma ds_camera_border : 0 <= ds_border (sx ds_camera) (sa ds_camera).
Proof.
  unfold ds_border. cbv zeta. cbn [ds_camera make_ds sx sa]. destruct (Rle_dec (1 / 2) (1 / 2)); [ | lra]. apply Rle_mult_inv_pos; [lra | ]. apply sqrt_lt_R0. lra.
Qed.
Lemma ds_camera_sees : exists k b, ds_project ds_camera (V3 8 0 (-6)) = (Val k, b).
Proof.
  apply (C63_ds_image ds_camera _ ds_camera_sync ltac:(cbn; lra) ltac:(cbn; lra) ds_camera_border).
  unfold ds_border. cbv zeta. cbn [ds_camera make_ds sx sa x2]. destruct (Rle_dec (1 / 2) (1 / 2)); [ | lra].
  unfold v3_norm, v3_dot. cbn [x0 x1 x2]. replace (8 * 8 + 0 * 0 + -6 * -6) with (10 * 10) by ring. rewrite sqrt_square by lra.
  replace (1 / 2 / (1 - 1 / 2)) with 1 by field. replace (2 * 1 * (3 / 8) + 3 / 8 * (3 / 8) + 1) with (11 / 8 * (11 / 8)) by field. rewrite sqrt_square by lra.
  replace ((1 + 3 / 8) / (11 / 8)) with 1 by field. lra.
Qed.
Example C63_ex_image : exists k, ds_project ds_camera (V3 0 0 1) = (Val k, true) /\ exists k b, ds_project ds_camera (V3 8 0 (-6)) = (Val k, b).
Proof.
  assert (D1 : ds_d1 (V3 0 0 1) = 1) by (unfold ds_d1; cbn [x0 x1 x2]; replace (0 * 0 + 0 * 0 + 1 * 1) with 1 by ring; apply sqrt_1).
  assert (ER : ds_refused ds_camera (x2 (V3 0 0 1)) (ds_d1 (V3 0 0 1)) = false).
  { apply not_true_is_false. rewrite (ds_refused_spec _ _ _ ds_camera_sync) by (cbn; lra). intros L. rewrite D1 in L.
    assert (B := ds_camera_border). change ((ds_w (sa ds_camera) + sx ds_camera) / _) with (ds_border (sx ds_camera) (sa ds_camera)) in L. cbn [x2] in L. lra. }
  assert (K : ds_k ds_camera (V3 0 0 1) = 11 / 8) by (unfold ds_k; rewrite D1; cbn [ds_camera make_ds sx x2]; field).
  assert (D2 : ds_d2 ds_camera (V3 0 0 1) = 11 / 8) by (unfold ds_d2; rewrite K; cbn [x0 x1]; replace (0 * 0 + 0 * 0 + 11 / 8 * (11 / 8)) with (11 / 8 * (11 / 8)) by ring; apply sqrt_square; lra).
  assert (N : ds_norm ds_camera (V3 0 0 1) = 11 / 8) by (unfold ds_norm; rewrite D2, K; cbn [ds_camera make_ds sa]; field).
  exists (V2 320 240). split; [ | exact ds_camera_sees]. rewrite (ds_project_ok _ _ ER) by (rewrite N; lra).
  assert (E : to_pixel (si ds_camera) (ds_point ds_camera (V3 0 0 1)) = V2 320 240).
  { unfold ds_point. rewrite N. unfold to_pixel, ds_camera, make_ds, make_intr. cbn [si fu fv cu cv u0 u1 x0 x1]. f_equal; field. }
  rewrite E. f_equal. apply on_sensor_spec. unfold in_image, ds_camera, make_ds, make_intr. cbn [si u0 u1 ru rv]. lra.
Qed.

(** A camera with a negative border accepts points outside the region: a
    point right of the axis is projected left of it, and lifting its image gives
    a point left of the axis. *)
Theorem C63_ds_image_refuted : exists M p k q,
  ds_sync M /\ 0 <= sa M <= 1 /\ -1 < sx M <= 1 /\ ds_project M p = (Val k, true) /\ ~ ds_valid (sx M) (sa M) p /\
  0 < x0 p /\ u0 k < cu (si M) /\ ds_lift M k = (Val q, true) /\ x0 q < 0.
Proof.
  set (M := make_ds (- (1 / 2)) 0 (make_intr 1 1 50 50 100 100)).
  assert (S : ds_sync M) by (split; [split; reflexivity | ]; split; reflexivity).
  assert (W : ds_w 0 = 0) by (unfold ds_w; destruct (Rle_dec 0 (1 / 2)); [field | lra]).
  assert (D1 : ds_d1 (V3 15 0 8) = 17) by (unfold ds_d1; cbn [x0 x1 x2]; replace (15 * 15 + 0 * 0 + 8 * 8) with (17 * 17) by ring; apply sqrt_square; lra).
  assert (K : ds_k M (V3 15 0 8) = - (1 / 2)) by (unfold ds_k; rewrite D1; cbn [M make_ds sx x2]; field).
  assert (N : ds_norm M (V3 15 0 8) = - (1 / 2)) by (unfold ds_norm; rewrite K; cbn [M make_ds sa]; ring).
  assert (ER : ds_refused M (x2 (V3 15 0 8)) (ds_d1 (V3 15 0 8)) = false).
  { apply not_true_is_false. rewrite (ds_refused_spec M _ _ S) by (cbn; lra). rewrite D1. cbn [M make_ds sa sx x2]. rewrite W.
    replace (2 * 0 * - (1 / 2) + - (1 / 2) * - (1 / 2) + 1) with (5 / 4) by field. intros L.
    assert (SQ : sqrt (5 / 4) * sqrt (5 / 4) = 5 / 4) by (apply sqrt_sqrt; lra). assert (P : 0 < sqrt (5 / 4)) by (apply sqrt_lt_R0; lra).
    assert (HI : (0 + - (1 / 2)) / sqrt (5 / 4) * sqrt (5 / 4) = - (1 / 2)) by (field; lra).
    assert (8 * sqrt (5 / 4) <= 17 / 2).
    { replace (17 / 2) with (- ((0 + - (1 / 2)) / sqrt (5 / 4) * 17) * sqrt (5 / 4)) by (field; lra). apply Rmult_le_compat_r; lra. }
    nra. }
  assert (EP : to_pixel (si M) (ds_point M (V3 15 0 8)) = V2 20 50).
  { unfold ds_point. rewrite N. unfold to_pixel, M, make_ds, make_intr. cbn [si fu fv cu cv u0 u1 x0 x1]. f_equal; field. }
  assert (EN : norm_pixel (si M) (V2 20 50) = Val (V2 (-30) 0)).
  { unfold norm_pixel, M, make_ds, make_intr. cbn [si fu fv cu cv recip_fu recip_fv u0 u1]. destruct (Req_EM_T 1 0); [lra | ]. f_equal. f_equal; field. }
  exists M, (V3 15 0 8), (V2 20 50), (V3 (51 / 1802 * -30) (51 / 1802 * 0) (51 / 1802 * 1 + 1 / 2)).
  split; [exact S | ]. split; [cbn; lra | ]. split; [cbn; lra | ].
  split. { rewrite (ds_project_ok M _ ER) by (rewrite N; lra). rewrite EP. f_equal. apply on_sensor_spec. unfold in_image, M, make_ds, make_intr. cbn [si u0 u1 ru rv]. lra. }
  split. { intros (V & _). rewrite <- d2_en in V. change (x2 (shifted (sx M) (V3 15 0 8))) with (ds_k M (V3 15 0 8)) in V. rewrite K in V. cbn [M make_ds sa] in V. lra. }
  split; [cbn [x0]; lra | ]. split; [cbn [u0 M make_ds make_intr si cu]; lra | ]. split; [ | cbn [x0]; lra].
  unfold ds_lift. rewrite EN. cbv zeta. cbn [u0 u1].
  assert (L : ds_liftable2 M (-30 * -30 + 0 * 0) = true) by (apply ds_liftable_root; [exact S | cbn; lra]). rewrite L. clear L.
  cbn [M make_ds sa sx]. destruct (Rlt_dec _ 0); [lra | ].
  set (q := sqrt (1 - (2 * 0 - 1) * (-30 * -30 + 0 * 0))). destruct (Req_EM_T _ 0) as [Z | _]; [exfalso; lra | ].
  replace ((1 - 0 * 0 * (-30 * -30 + 0 * 0)) / (0 * q + 1 - 0)) with 1 by (field; lra).
  replace (1 * 1 + (1 - - (1 / 2) * - (1 / 2)) * (-30 * -30 + 0 * 0)) with (26 * 26) by field. rewrite sqrt_square by lra.
  destruct (Rlt_dec _ 0); [lra | ]. destruct (Req_EM_T _ 0); [lra | ]. f_equal. f_equal. f_equal; field.
Qed.

(** The Jacobians with respect to the point, Euclidean and homogeneous. *)
Theorem C63_ds_point_jacobian M :
  (forall p k J b, ds_projectJ M p = ((Val k, Val J), b) -> point_jacobian (fun q => fst (ds_project M q)) p J) /\
  (forall ph k J b, ds_hprojectJ M ph = ((Val k, Val J), b) ->
     point_jacobian (fun q => fst (ds_hproject M (V4 (x0 q) (x1 q) (x2 q) (q3 ph)))) (V3 (q0 ph) (q1 ph) (q2 ph)) J) /\
  (forall p k b, ds_sync M -> 0 <= sa M <= 1 -> -1 < sx M <= 1 -> 0 <= ds_border (sx M) (sa M) -> ds_project M p = (Val k, b) ->
     exists J, ds_projectJ M p = ((Val k, Val J), b)).
Proof.
  split; [intros p k J b; exact (ds_point_jacobian M p k J b) | ]. split.
  - intros ph k J b E. unfold ds_hprojectJ, ds_hproject in *. cbn [q3]. destruct (Rlt_dec (q3 ph) 0).
    + destruct (ds_projectJ M (neg3 (head3 ph))) as [[k' J'] b'] eqn:E'. destruct J' as [J' | | | ]; cbn [rbind] in E; try discriminate.
      assert (k' = Val k) by congruence. subst k'. assert (EJ : J = m23_opp J') by congruence. subst J.
      assert (H := neg_point_jacobian _ _ _ (ds_point_jacobian M (neg3 (head3 ph)) k J' b' E')).
      intros c t d Ec Hc. destruct (H c t d Ec Hc) as (g & L & G). exists g. split; [ | exact G].
      eapply filter_imp; [ | exact L]. cbv beta. intros s Hs. rewrite <- Hs. reflexivity.
    + intros c t d Ec Hc. destruct (ds_point_jacobian M (head3 ph) k J b E c t d Ec Hc) as (g & L & G). exists g. split; [ | exact G].
      eapply filter_imp; [ | exact L]. cbv beta. intros s Hs. rewrite <- Hs. unfold head3. cbn [q0 q1 q2]. destruct (c s); reflexivity.
  - intros p k b S A X B E. destruct (C63_ds_image M p S A X B) as (I & _). destruct (I k b E) as (I1 & V & _). destruct (ds_project_val M p k b E) as (ER & N & Ek & Eb).
    assert (P2 := eucm_valid_pos _ _ _ (Rle_0_1) V). rewrite <- d2_en in P2.
    assert (P1 : ds_d1 p <> 0). { intros Z. change (v3_norm p) with (ds_d1 p) in I1. rewrite Z in I1. assert (Q := d1_sq p). rewrite Z in Q. nra. }
    unfold ds_projectJ. cbv zeta. rewrite ER. destruct (Req_EM_T _ 0); [contradiction | ]. destruct (Req_EM_T _ 0); [contradiction | ]. destruct (Req_EM_T _ 0); [lra | ].
    eexists. subst k b. reflexivity.
Qed.
Example C63_ex_point_jacobian : exists k J b, ds_projectJ ds_camera (V3 8 0 (-6)) = ((Val k, Val J), b).
Proof.
  destruct ds_camera_sees as (k & b & E).
  destruct (proj2 (proj2 (C63_ds_point_jacobian ds_camera)) _ k b ds_camera_sync ltac:(cbn; lra) ltac:(cbn; lra) ds_camera_border E) as (J & EJ).
  exists k, J, b. exact EJ.
Qed.

(** Round trips. *)
Theorem C63_ds_round_trip M : ds_sync M -> 0 <= sa M <= 1 ->
  (forall p k b, -1 < sx M <= 1 -> 0 <= ds_border (sx M) (sa M) -> fu (si M) <> 0 -> fv (si M) <> 0 -> ds_project M p = (Val k, b) ->
     ds_lift M k = (Val (along_ray (1 / v3_norm p) p), true)) /\
  (forall k p b, -1 < sx M < 1 -> ds_lift M k = (Val p, b) ->
     (1 / 2 < sa M -> (1 / fu (si M) * (u0 k - cu (si M))) ^ 2 + (1 / fv (si M) * (u1 k - cv (si M))) ^ 2 <> 1 / (2 * sa M - 1)) ->
     b = true /\ v3_norm p = 1 /\ ds_valid (sx M) (sa M) p /\
     (- ds_border (sx M) (sa M) < x2 p -> fst (ds_project M p) = Val k /\ (snd (ds_project M p) = true <-> in_image (si M) k))).
Proof.
  intros S A. split.
  - intros p k b X B F G E. assert (CP := fov_radicand (sa M) (sx M) (proj1 X)).
    change (ds_border (sx M) (sa M)) with ((ds_w (sa M) + sx M) / sqrt (2 * ds_w (sa M) * sx M + sx M * sx M + 1)) in B.
    assert (SP : 0 < sqrt (2 * ds_w (sa M) * sx M + sx M * sx M + 1)) by (apply sqrt_lt_R0; exact CP).
    assert (WX : 0 <= ds_w (sa M) + sx M).
    { exact (div_nonneg _ _ SP B). }
    exact (ds_lift_project M p k b S A X WX F G E).
  - intros k p b X E NB. destruct (ds_project_lift M k p b S A X E) as (E1 & E2 & E3 & E4).
    + intros Y y EN. specialize (NB Y). unfold norm_pixel in EN. destruct (Req_EM_T _ 0); [discriminate | ]. destruct (Req_EM_T _ 0); [discriminate | ].
      destruct S as ((S1 & S2) & _). rewrite S1, S2 in EN. assert (Ey : y = V2 (1 / fu (si M) * (u0 k - cu (si M))) (1 / fv (si M) * (u1 k - cv (si M)))) by congruence.
      subst y. cbn [u0 u1]. intros Z. apply NB. rewrite <- Z. ring.
    + split; [exact E2 | ]. split; [exact E1 | ]. split; [exact E3 | ]. intros L. rewrite E4.
      * cbn [fst snd]. split; [reflexivity | apply on_sensor_spec].
      * apply not_true_is_false. rewrite (ds_refused_spec M _ _ S (proj1 X)). intros T.
        change ((ds_w (sa M) + sx M) / _) with (ds_border (sx M) (sa M)) in T. lra.
Qed.
Example C63_ex_round_trip : exists k b, ds_project ds_camera (V3 8 0 (-6)) = (Val k, b) /\
  ds_lift ds_camera k = (Val (along_ray (1 / v3_norm (V3 8 0 (-6))) (V3 8 0 (-6))), true).
Proof.
  destruct ds_camera_sees as (k & b & E). exists k, b. split; [exact E | ].
  apply (C63_ds_round_trip ds_camera ds_camera_sync ltac:(cbn; lra)) with (b := b); [cbn; lra | exact ds_camera_border | cbn; lra | cbn; lra | exact E].
Qed.

(** The field of view is too narrow: a pixel of the image can be lifted to a
    point that the projection refuses, although the model is one to one there. *)
Theorem C63_ds_lift_refuted : exists M k p,
  ds_sync M /\ 0 <= sa M <= 1 /\ -1 < sx M < 1 /\ 0 <= ds_border (sx M) (sa M) /\ in_image (si M) k /\ ds_liftable M k = true /\
  ds_lift M k = (Val p, true) /\ ds_valid (sx M) (sa M) p /\ snd (ds_project M p) = false.
Proof.
  set (M := make_ds (1 / 2) 0 (make_intr 1 1 50 50 100 100)).
  assert (S : ds_sync M) by (split; [split; reflexivity | ]; split; reflexivity).
  assert (W : ds_w 0 = 0) by (unfold ds_w; destruct (Rle_dec 0 (1 / 2)); [field | lra]).
  assert (EN : norm_pixel (si M) (V2 80 50) = Val (V2 30 0)).
  { unfold norm_pixel, M, make_ds, make_intr. cbn [si fu fv cu cv recip_fu recip_fv u0 u1]. destruct (Req_EM_T 1 0); [lra | ]. f_equal. f_equal; field. }
  assert (L : ds_liftable2 M (30 * 30 + 0 * 0) = true) by (apply ds_liftable_root; [exact S | cbn; lra]).
  assert (EL : ds_lift M (V2 80 50) = (Val (V3 (15 / 17) 0 (- (8 / 17))), true)).
  { unfold ds_lift. rewrite EN. cbv zeta. cbn [u0 u1]. rewrite L. clear L. cbn [M make_ds sa sx]. destruct (Rlt_dec _ 0); [lra | ].
    set (q := sqrt (1 - (2 * 0 - 1) * (30 * 30 + 0 * 0))). destruct (Req_EM_T _ 0) as [Z | _]; [exfalso; lra | ].
    replace ((1 - 0 * 0 * (30 * 30 + 0 * 0)) / (0 * q + 1 - 0)) with 1 by (field; lra).
    replace (1 * 1 + (1 - 1 / 2 * (1 / 2)) * (30 * 30 + 0 * 0)) with (26 * 26) by field. rewrite sqrt_square by lra.
    destruct (Rlt_dec _ 0); [lra | ]. destruct (Req_EM_T _ 0); [lra | ]. f_equal. f_equal. f_equal; field. }
  destruct (ds_project_lift M _ _ _ S ltac:(cbn; lra) ltac:(cbn; lra) EL) as (N1 & _ & V & _); [cbn [M make_ds sa]; intros; lra | ].
  exists M, (V2 80 50), (V3 (15 / 17) 0 (- (8 / 17))). split; [exact S | ]. split; [cbn; lra | ]. split; [cbn; lra | ].
  split. { change (ds_border (sx M) (sa M)) with ((ds_w 0 + 1 / 2) / sqrt (2 * ds_w 0 * (1 / 2) + 1 / 2 * (1 / 2) + 1)). rewrite W. apply Rle_mult_inv_pos; [lra | apply sqrt_lt_R0; lra]. }
  split; [unfold in_image, M, make_ds, make_intr; cbn [si u0 u1 ru rv]; lra | ].
  split; [unfold ds_liftable; rewrite EN; exact L | ]. split; [exact EL | ]. split; [exact V | ].
  unfold ds_project. assert (R : ds_refused M (x2 (V3 (15 / 17) 0 (- (8 / 17)))) (ds_d1 (V3 (15 / 17) 0 (- (8 / 17)))) = true).
  { apply (ds_refused_spec M _ _ S); [cbn; lra | ]. change (ds_d1 (V3 (15 / 17) 0 (- (8 / 17)))) with (v3_norm (V3 (15 / 17) 0 (- (8 / 17)))). rewrite N1. cbn [M make_ds sa sx x2]. rewrite W.
    replace (2 * 0 * (1 / 2) + 1 / 2 * (1 / 2) + 1) with (5 / 4) by field.
    assert (SQ : sqrt (5 / 4) * sqrt (5 / 4) = 5 / 4) by (apply sqrt_sqrt; lra). assert (P : 0 < sqrt (5 / 4)) by (apply sqrt_lt_R0; lra).
    assert ((0 + 1 / 2) / sqrt (5 / 4) <= 8 / 17) by (apply (Rle_div_l (0 + 1 / 2) (8 / 17) (sqrt (5 / 4))); nra). lra. }
  rewrite R. reflexivity.
Qed.

(** The Jacobian of the map from pixels to rays. *)
Theorem C63_ds_pixel_jacobian M k p J b : ds_sync M ->
  ds_liftJ M k = (Val (p, J), b) -> fst (ds_lift M k) = Val p /\ pixel_jacobian (fun q => fst (ds_lift M q)) k J.
Proof. exact (ds_pixel_jacobian M k p J b). Qed.
Example C63_ex_pixel_jacobian : exists p J b, ds_liftJ ds_camera (V2 420 240) = (Val (p, J), b).
Proof.
  assert (EN : norm_pixel (si ds_camera) (V2 420 240) = Val (V2 1 0)).
  { unfold norm_pixel, ds_camera, make_ds, make_intr. cbn [si fu fv cu cv recip_fu recip_fv u0 u1]. destruct (Req_EM_T 100 0); [lra | ]. f_equal. f_equal; field. }
  unfold ds_liftJ. rewrite EN. cbv zeta. cbn [u0 u1].
  rewrite (ds_liftable_root _ _ ds_camera_sync) by (cbn; lra). cbn [ds_camera make_ds sa sx].
  replace (1 - (2 * (1 / 2) - 1) * (1 * 1 + 0 * 0)) with 1 by field. rewrite sqrt_1. destruct (Rlt_dec 1 0); [lra | ].
  destruct (Req_EM_T _ 0); [lra | ]. destruct (Req_EM_T 1 0); [lra | ]. destruct (Rle_dec _ 0) as [Z | _]; [exfalso | ].
  { revert Z. apply Rlt_not_le. assert (Q : 0 <= (1 - 1 / 2 * (1 / 2) * (1 * 1 + 0 * 0)) * (1 / (1 / 2 * 1 + 1 - 1 / 2)) * ((1 - 1 / 2 * (1 / 2) * (1 * 1 + 0 * 0)) * (1 / (1 / 2 * 1 + 1 - 1 / 2)))) by apply Rle_0_sqr. lra. }
  destruct (Req_EM_T _ 0) as [Z | _]; [exfalso | ].
  { assert (Q : 0 <= (1 - 1 / 2 * (1 / 2) * (1 * 1 + 0 * 0)) * (1 / (1 / 2 * 1 + 1 - 1 / 2)) * ((1 - 1 / 2 * (1 / 2) * (1 * 1 + 0 * 0)) * (1 / (1 / 2 * 1 + 1 - 1 / 2)))) by apply Rle_0_sqr. lra. }
  do 3 eexists. reflexivity.
Qed.

(** The Jacobian with respect to the six parameters. *)
Theorem C63_ds_intrinsics_jacobian M v p cols : -1 < nth 0 v 0 -> - ds_border (nth 0 v 0) (nth 1 v 0) * v3_norm p < x2 p ->
  ds_intrJ (ds_set M v) p = Val cols -> image_param_jacobian 6 (fun w => fst (ds_project (ds_set M w) p)) v cols.
Proof.
  intros X B E. apply ds_columns_jacobian; [exact X | | exact E]. apply not_true_is_false. rewrite (ds_refused_spec (ds_set M v) _ _ (ds_set_sync M v) X). intros T.
  change ((ds_w (sa (ds_set M v)) + sx (ds_set M v)) / _) with (ds_border (nth 0 v 0) (nth 1 v 0)) in T. change (ds_d1 p) with (v3_norm p) in T. lra.
Qed.
Example C63_ex_intrinsics_jacobian : exists cols, ds_intrJ (ds_set ds_camera [3 / 8; 1 / 2; 100; 100; 320; 240]) (V3 8 0 (-6)) = Val cols.
Proof.
  change (ds_set ds_camera [3 / 8; 1 / 2; 100; 100; 320; 240]) with ds_camera.
  destruct ds_camera_sees as (k & b & E). destruct (C63_ds_image ds_camera (V3 8 0 (-6)) ds_camera_sync ltac:(cbn; lra) ltac:(cbn; lra) ds_camera_border) as (I & _).
  destruct (I k b E) as (_ & V & _). destruct (ds_project_val _ _ k b E) as (_ & N & _). assert (P2 := eucm_valid_pos _ _ _ (Rle_0_1) V). rewrite <- d2_en in P2.
  unfold ds_intrJ. cbv zeta. destruct (Req_EM_T _ 0); [lra | ]. destruct (Req_EM_T _ 0); [contradiction | ]. eexists. reflexivity.
Qed.

(** Changing the parameters: every cached value stays in step. *)
Theorem C63_ds_parameters M ops v : length v = 6%nat -> ds_sync M ->
  ds_sync (fold_left ds_step ops M) /\ ds_get (ds_set M v) = v /\
  (forall i, (i < 6)%nat -> nth i (ds_get (ds_update M v)) 0 = nth i (ds_get M) 0 + nth i v 0) /\
  ru (si (ds_set M v)) = ru (si M) /\ rv (si (ds_set M v)) = rv (si M) /\ ru (si (ds_update M v)) = ru (si M) /\ rv (si (ds_update M v)) = rv (si M) /\
  (forall s p m n, 0 < s -> IZR (ru (si M)) * s = IZR m -> IZR (rv (si M)) * s = IZR n ->
     ds_project (ds_resize M s) p = (rbind (fst (ds_project M p)) (fun k => Val (v2_scale s k)), snd (ds_project M p))).
Proof.
  intros L S. split.
  { revert M S. induction ops as [ | o ops IH]; intros M S; [exact S | ]. cbn [fold_left]. apply IH. apply ds_step_sync. }
  split; [symmetry; apply (list6 v L) | ].
  split; [intros i Hi; destruct i as [ | [ | [ | [ | [ | [ | ]]]]]]; try reflexivity; lia | ].
  split; [reflexivity | ]. split; [reflexivity | ]. split; [reflexivity | ]. split; [reflexivity | ].
  intros s p m n. exact (ds_resize_project M s p m n S).
Qed.
Example C63_ex_parameters : ds_sync (fold_left ds_step [DResize (1 / 2); DUpdate [0; 0; 1; 1; 0; 0]] ds_camera).
Proof. apply (C63_ds_parameters ds_camera _ [0; 0; 0; 0; 0; 0] eq_refl ds_camera_sync). Qed.

(** With coinciding spheres the camera is the extended unified one with
    beta = 1; initialisation takes over an omnidirectional camera with xi = 1
    without changing any image or flag. *)
Theorem C63_ds_special_cases a C p :
  ds_project (make_ds 0 a C) p = eucm_project (make_eucm a 1 C) p /\
  ds_project (ds_from_omni (make_omni 1 C)) p = omni_project nodist (make_omni 1 C) p.
Proof. split; [exact (ds_eucm a C p) | exact (ds_of_omni C p)]. Qed.
Example C63_ex_special_cases : exists k, fst (ds_project (ds_from_omni (make_omni 1 (make_intr 100 100 320 240 640 480))) (V3 0 0 1)) = Val k.
Proof.
  rewrite (proj2 (C63_ds_special_cases 0 _ _)). eexists. rewrite (omni_project_valid nodist); [cbn [fst]; reflexivity | split; [split; reflexivity | ]; split; reflexivity | ].
  unfold omni_valid, p_norm. cbn [x0 x1 x2 xi make_omni]. replace (0 * 0 + 0 * 0 + 1 * 1) with 1 by ring. rewrite sqrt_1. lra.
Qed.

(** Random pixels are liftable for every alpha. *)
Theorem C63_ds_random_keypoint M u r k : ds_sync M -> fu (si M) <> 0 -> fv (si M) <> 0 -> 0 <= r <= 1 ->
  ds_candidate M u r = Val k -> ds_liftable M k = true.
Proof.
  intros S A B P E. unfold ds_candidate in E. destruct (Req_EM_T (v2_norm u) 0) as [ | NU]; [discriminate | ].
  match type of E with Val ?m = Val _ => assert (EK : k = m) by congruence end. clear E. subst k.
  unfold ds_liftable. rewrite (norm_pixel_pixel (si M) _ (proj1 S) A B).
  unfold ds_liftable2. apply orb_true_iff. rewrite !leb_spec. destruct (Rle_lt_dec (sa M) (1 / 2)) as [Y | Y]; [left; exact Y | right].
  assert (QP : 0 <= s_over M). { destruct S as (_ & O & _). rewrite O. destruct (Rlt_dec _ _); [apply Rlt_le, Rdiv_lt_0_compat; lra | apply Rlt_le, dbl_max_pos]. }
  assert (SQ : sqrt (s_over M) * sqrt (s_over M) = s_over M) by (apply sqrt_sqrt; exact QP). set (q := sqrt (s_over M)) in *.
  assert (U : u0 u * u0 u + u1 u * u1 u = v2_norm u * v2_norm u) by (unfold v2_norm; symmetry; apply sqrt_sqrt; unfold v2_dot; nra).
  unfold v2_scale. cbn [u0 u1].
  replace (r * q * (1 / v2_norm u * u0 u) * (r * q * (1 / v2_norm u * u0 u)) + r * q * (1 / v2_norm u * u1 u) * (r * q * (1 / v2_norm u * u1 u)))
    with ((r * r) * (q * q)).
  2: { transitivity (r * r * (q * q) * ((u0 u * u0 u + u1 u * u1 u) * (1 / (v2_norm u * v2_norm u)))); [rewrite U; field; exact NU | field; exact NU]. }
  rewrite SQ. assert (r * r <= 1) by nra. assert (0 <= r * r) by nra. nra.
Qed.
Example C63_ex_random_keypoint : exists k, ds_candidate ds_camera (V2 1 0) (1 / 2) = Val k.
Proof.
  unfold ds_candidate. assert (N : v2_norm (V2 1 0) = 1) by (unfold v2_norm, v2_dot; cbn [u0 u1]; replace (1 * 1 + 0 * 0) with 1 by ring; apply sqrt_1).
  rewrite N. destruct (Req_EM_T 1 0); [lra | ]. eexists. reflexivity.
Qed.

Print Assumptions C63_ds_image.
Print Assumptions C63_ds_image_refuted.
Print Assumptions C63_ds_point_jacobian.
Print Assumptions C63_ds_round_trip.
Print Assumptions C63_ds_lift_refuted.
Print Assumptions C63_ds_pixel_jacobian.
Print Assumptions C63_ds_intrinsics_jacobian.
Print Assumptions C63_ds_parameters.
Print Assumptions C63_ds_special_cases.
Print Assumptions C63_ds_random_keypoint.
