(** * C59: the lens distortions, their Jacobians and their inverses *)

From Coquelicot Require Import Coquelicot.
From Coq Require Import Reals List Psatz.
From Verif Require Import KinModel KinSpec KinProofs KinExp KinCurve DistModel DistSpec DistProofs DistUndist.
Import ListNotations.
Local Open Scope R_scope.

(** The value returned together with the Jacobian is the plain distortion,
    and the matrix is its Jacobian: everywhere for no distortion and for the
    radial-tangential model, off the axis for the equidistant model, and away
    from the switching radius for every accepted parameter of the
    field-of-view model. *)
Theorem C59_distortion_jacobians :
  (forall y, exists J, distortJ nodist y = (distort nodist y, Val J) /\ jacobian (distort nodist) y J) /\
  (forall D y, exists J, distortJ (radtan D) y = (distort (radtan D) y, Val J) /\ jacobian (distort (radtan D)) y J) /\
  (forall D y, 1 / 10 ^ 8 < radius y ->
     exists J, distortJ (equi D) y = (distort (equi D) y, Val J) /\ jacobian (distort (equi D)) y J) /\
  (forall w y, 1 / 2 <= w <= 3 / 2 -> radius y * radius y <> 1 / 10 ^ 5 ->
     exists J, distortJ (fov w) y = (distort (fov w) y, Val J) /\ jacobian (distort (fov w)) y J) /\
  (forall w y, Rabs w < 1 / 10 ^ 16 ->
     exists J, distortJ (fov w) y = (distort (fov w) y, Val J) /\ jacobian (distort (fov w)) y J).
Proof.
  split.
  { intros y. exists m2_I. split; [reflexivity | ]. intros c t d _ H. rewrite m2_vec_I. exact H. }
  split.
  { intros D y. exists (rt_J D y). split; [reflexivity | apply rt_jacobian]. }
  split.
  { intros D y H. assert (S0 := small_pos). destruct (eq_J D y) as [J | | | ] eqn:E.
    - exists J. split; [cbn [distortJ distort equi]; rewrite E; reflexivity | apply eq_jacobian; assumption].
    - unfold eq_J in E. fold (radius y) in E. destruct (Req_EM_T (radius y) 0); [lra | discriminate].
    - unfold eq_J in E. fold (radius y) in E. destruct (Req_EM_T (radius y) 0); discriminate.
    - unfold eq_J in E. fold (radius y) in E. destruct (Req_EM_T (radius y) 0); discriminate. }
  split.
  { intros w y W N. exists (fov_J w y). split; [reflexivity | apply fov_jacobian; assumption]. }
  intros w y W. exists (fov_J w y). split; [reflexivity | ].
  rewrite (proj2 (fov_small w y W)). intros c t d _ H. rewrite m2_vec_I.
  apply (v2_derive_ext c); [ | exact H]. intros s. cbn [distort fov]. symmetry. apply (fov_small w (c s) W).
Qed.

(** The Jacobian with respect to the coefficients. *)
Theorem C59_parameter_jacobians :
  (forall p y, parameter_jacobian 4 (fun q => distort (radtan (rt_set q)) y) p (rt_paramJ y) /\ paramJ (radtan (rt_set p)) y = Val (rt_paramJ y)) /\
  (forall p y, 1 / 10 ^ 8 < radius y -> exists cols, paramJ (equi (eq_set p)) y = Val cols /\
     parameter_jacobian 4 (fun q => distort (equi (eq_set q)) y) p cols) /\
  (forall w y, 1 / 2 < w < 3 / 2 -> 1 / 10 ^ 5 <= radius y * radius y -> exists cols, paramJ (fov w) y = Val cols /\
     parameter_jacobian 1 (fun q => distort (fov (nth 0 q 0)) y) [w] cols).
Proof.
  split.
  { intros p y. split; [apply rt_param_jacobian | reflexivity]. }
  split.
  { intros p y H. assert (S0 := small_pos). destruct (eq_paramJ y) as [cols | | | ] eqn:E.
    - exists cols. split; [exact E | apply eq_param_jacobian; assumption].
    - unfold eq_paramJ in E. fold (radius y) in E. destruct (Req_EM_T (radius y) 0); [lra | discriminate].
    - unfold eq_paramJ in E. fold (radius y) in E. destruct (Req_EM_T (radius y) 0); discriminate.
    - unfold eq_paramJ in E. fold (radius y) in E. destruct (Req_EM_T (radius y) 0); discriminate. }
  intros w y W H. exists (fov_paramJ w y). split; [reflexivity | apply fov_param_jacobian; assumption].
Qed.

(** Radial-tangential undistortion: a returned value is one exact Newton step
    past some point; a point already mapped to itself is returned unchanged;
    the Jacobian version returns the same value and a matrix that is the
    velocity of every differentiable local inverse through that value. *)
Theorem C59_radtan_undistort D y :
  (forall x, undistort (radtan D) y = Val x ->
     exists z, m2_vec (rt_J D z) (v2_sub x z) = v2_sub y (distort (radtan D) z)) /\
  (distort (radtan D) y = y -> m2_det (rt_J D y) <> 0 -> undistort (radtan D) y = Val y) /\
  undistort (radtan (RT 0 0 0 0)) y = Val y /\
  (forall x K, undistortJ (radtan D) y = Val (x, K) ->
     undistort (radtan D) y = Val x /\
     forall c t dc g dg, g t = x -> v2_derive g t dg -> v2_derive c t dc ->
       locally t (fun s => distort (radtan D) (g s) = c s) -> dg = m2_vec K dc).
Proof.
  split.
  { intros x E. destruct (rt_iterate_result 5 D y y x E ltac:(lia)) as (z & du & -> & H & _).
    exists z. cbn [distort radtan]. rewrite <- H. f_equal. destruct z as [z0 z1], du as [d0 d1]. unfold v2_sub, v2_add. cbn [u0 u1]. f_equal; ring. }
  split; [intros E N; apply rt_fixed; assumption | ].
  split; [apply rt_zero | ].
  intros x K E. cbn [undistortJ radtan] in E. unfold rt_undistortJ in E.
  destruct (rt_undistort D y) as [x' | | | ] eqn:EU; cbn [rbind] in E; try discriminate.
  destruct (m2_inverse (rt_J D x')) as [K' | | | ] eqn:EI; cbn [rbind] in E; try discriminate.
  assert (x' = x) by congruence. assert (K' = K) by congruence. subst x' K'. split; [exact EU | ].
  destruct (inverse_val _ _ EI) as (_ & IV). intros c t dc g dg Hg Hd Hc L.
  exact (inverse_derivative _ c t dc _ K x (rt_jacobian D x) IV g dg Hg Hd Hc L).
Qed.
Example C59_ex_radtan : exists x, rt_undistort (RT 0 0 0 0) (V2 3 4) = Val x /\ rt_distort (RT 0 0 0 0) x = V2 3 4.
Proof.
  exists (V2 3 4). split; [apply rt_zero | ]. unfold rt_distort. cbn [rk1 rk2 rp1 rp2 u0 u1]. f_equal; ring.
Qed.

(** ... but five rounds need not be enough, and there may be no value at all. *)
Theorem C59_radtan_undistort_refuted :
  (exists D y x z, undistort (radtan D) y = Val x /\ distort (radtan D) z = y /\
     39 / 100 < u0 (distort (radtan D) x) - u0 y) /\
  (exists D y z, distort (radtan D) z = y /\ undistort (radtan D) y = NotFinite).
Proof.
  split.
  - destruct on_axis_result as (x & E & H). exists (RT 1 0 0 0), (V2 10 0), (V2 x 0), (V2 2 0).
    split; [exact E | ]. split; [cbn [distort radtan]; unfold rt_distort; cbn [rk1 rk2 rp1 rp2 u0 u1]; f_equal; ring | ].
    cbn [distort radtan]. unfold rt_distort. cbn [rk1 rk2 rp1 rp2 u0 u1].
    assert (203 / 100 * (203 / 100) <= x * x) by nra. nra.
  - exists (RT (- (27 / 56)) (5 / 56) 0 0), (V2 1 0), (V2 2 0).
    split; [cbn [distort radtan]; unfold rt_distort; cbn [rk1 rk2 rp1 rp2 u0 u1]; f_equal; field | ].
    cbn [undistort radtan]. unfold rt_undistort. cbn [rt_iterate].
    rewrite inverse_none; [reflexivity | ]. rewrite det_gram. unfold rt_J, m2_det. cbn [rk1 rk2 rp1 rp2 u0 u1 n00 n01 n10 n11]. field.
Qed.

(** Equidistant undistortion.  Undistorting a distorted point returns it up
    to the ratio of the tangents of the computed and the true angle; when the
    iteration is a contraction with factor [q] the computed angle is within
    [q^20] of the true one; with zero coefficients it is exact; and whenever
    the computed angle is a fixed point, distorting the result gives the input. *)
Theorem C59_equidistant_undistort D x : 1 / 10 ^ 8 < radius x ->
  let th := atan (radius x) in
  let thd := th * eq_poly D th in
  (forall lo hi q, 0 <= q -> 0 < lo -> lo <= th <= hi -> lo <= thd <= hi ->
     (forall a, lo <= a <= hi -> 0 < eq_poly D a /\ lo <= thd / eq_poly D a <= hi) ->
     (forall a b, lo <= a <= hi -> lo <= b <= hi ->
        Rabs (thd / eq_poly D a - thd / eq_poly D b) <= q * Rabs (a - b)) ->
     exists a, undistort (equi D) (distort (equi D) x) = Val (v2_scale (tan a / radius x) x) /\
               Rabs (a - th) <= q ^ 20 * Rabs (thd - th)) /\
  undistort (equi (EQ 0 0 0 0)) (distort (equi (EQ 0 0 0 0)) x) = Val x.
Proof.
  intros H th thd. assert (S0 := small_pos).
  assert (A : 0 < th). { unfold th. rewrite <- atan_0. apply atan_increasing. lra. }
  split.
  - intros lo hi q Q L T TD HP HC.
    assert (FX : eq_next D thd th = th). { unfold eq_next, thd. destruct (HP th T) as (P & _). field. lra. }
    destruct (eq_contract 20 D thd lo hi q th Q) with (a := thd) as (a & E & _ & B); [ | exact HC | exact T | exact FX | exact TD | ].
    { intros a Ha. destruct (HP a Ha) as (P & I). split; [lra | exact I]. }
    exists a. split; [ | exact B]. apply eq_undistort_distort; [exact H | exact (proj1 (HP th T)) | exact E].
  - assert (P1 : eq_poly (EQ 0 0 0 0) th = 1) by (unfold eq_poly; cbn [ek1 ek2 ek3 ek4]; ring).
    cbn [undistort distort equi]. rewrite (eq_undistort_distort (EQ 0 0 0 0) x th H);
      [ | fold th; lra | fold th; rewrite P1, Rmult_1_r; apply eq_iterate_zero].
    unfold th. rewrite tan_atan. f_equal. unfold Rdiv. rewrite Rinv_r by lra. apply v2_scale_1.
Qed.
(** A lens for which the iteration contracts: k1 = 1/10 at an angle of 45
    degrees; the hypotheses hold with q = 1/2. *)
Example C59_ex_equidistant :
  let D := EQ (1 / 10) 0 0 0 in let x := V2 1 0 in let th := atan (radius x) in let thd := th * eq_poly D th in
  1 / 10 ^ 8 < radius x /\
  (exists lo hi q, 0 <= q < 1 /\ 0 < lo /\ lo <= th <= hi /\ lo <= thd <= hi /\
     (forall a, lo <= a <= hi -> 0 < eq_poly D a /\ lo <= thd / eq_poly D a <= hi) /\
     (forall a b, lo <= a <= hi -> lo <= b <= hi ->
        Rabs (thd / eq_poly D a - thd / eq_poly D b) <= q * Rabs (a - b))).
Proof.
  cbv zeta. assert (R1 : radius (V2 1 0) = 1).
  { unfold radius. cbn [u0 u1]. replace (1 * 1 + 0 * 0) with 1 by ring. apply sqrt_1. }
  rewrite R1, atan_1. assert (PB := PI_bounds).
  assert (EP : forall a, eq_poly (EQ (1 / 10) 0 0 0) a = 1 + a * a / 10) by (intros a; unfold eq_poly; cbn [ek1 ek2 ek3 ek4]; field).
  split; [cbn [pow]; lra | ].
  set (th := PI / 4). assert (TH : 3 / 4 < th < 1) by (unfold th; lra). clearbody th.
  rewrite EP. set (thd := th * (1 + th * th / 10)). assert (TD : 3 / 4 < thd < 11 / 10) by (unfold thd; split; nra). clearbody thd.
  exists (1 / 2), (11 / 10), (1 / 2).
  split; [lra | ]. split; [lra | ]. split; [lra | ]. split; [lra | ]. split.
  - intros a Ha. rewrite EP. assert (AA : 1 / 4 <= a * a <= 5 / 4) by nra. split; [lra | ]. split.
    + apply (Rle_div_r (1 / 2) thd (1 + a * a / 10)); lra.
    + apply (Rle_div_l thd (11 / 10) (1 + a * a / 10)); lra.
  - intros a b Ha Hb. rewrite !EP. assert (PA : 1 < 1 + a * a / 10) by nra. assert (PB' : 1 < 1 + b * b / 10) by nra.
    replace (thd / (1 + a * a / 10) - thd / (1 + b * b / 10)) with ((b - a) * (thd * (a + b) / 10 / ((1 + a * a / 10) * (1 + b * b / 10)))) by (field; lra).
    rewrite Rabs_mult, Rmult_comm, (Rabs_minus_sym b a).
    apply Rmult_le_compat_r; [apply Rabs_pos | ].
    assert (QQ : 1 < (1 + a * a / 10) * (1 + b * b / 10)) by nra.
    rewrite Rabs_pos_eq; [apply Rle_div_l; nra | ].
    apply Rmult_le_pos; [nra | apply Rlt_le, Rinv_0_lt_compat; lra].
Qed.

(** The optical axis itself: distorting the centre gives the centre, but
    undistorting it, and every Jacobian there, is not a number, although the
    distortion is the identity around the centre.  And for a lens with
    k1 = 3/2 the iteration oscillates and mirrors a point of the image. *)
Theorem C59_equidistant_refuted :
  (forall D, distort (equi D) (V2 0 0) = V2 0 0 /\ undistort (equi D) (V2 0 0) = NotFinite /\
     jacobian (distort (equi D)) (V2 0 0) m2_I /\ snd (distortJ (equi D) (V2 0 0)) = NotFinite /\
     undistortJ (equi D) (V2 0 0) = NotFinite /\ paramJ (equi D) (V2 0 0) = NotFinite) /\
  (exists D x x', 1 / 10 ^ 8 < radius x /\ undistort (equi D) (distort (equi D) x) = Val x' /\ 0 < u0 x /\ u0 x' < 0).
Proof.
  assert (R0 : radius (V2 0 0) = 0).
  { unfold radius. cbn [u0 u1]. replace (0 * 0 + 0 * 0) with 0 by ring. apply sqrt_0. }
  assert (S0 := small_pos). split.
  - intros D. assert (N : undistort (equi D) (V2 0 0) = NotFinite).
    { cbn [undistort equi]. unfold eq_undistort. cbn [u0 u1]. change (sqrt (0 * 0 + 0 * 0)) with (radius (V2 0 0)). rewrite R0.
      assert (Z : eq_poly D 0 = 1) by (unfold eq_poly; ring).
      assert (IT : forall n, eq_iterate n D 0 0 = Val 0).
      { induction n as [ | n IH]; [reflexivity | ]. cbn [eq_iterate]. rewrite Z. destruct (Req_EM_T 1 0); [lra | ].
        replace (0 / 1) with 0 by field. exact IH. }
      rewrite IT. cbn [rbind]. destruct (Req_EM_T 0 0); [reflexivity | lra]. }
    assert (J : eq_J D (V2 0 0) = NotFinite).
    { unfold eq_J. cbn [u0 u1]. change (sqrt (0 * 0 + 0 * 0)) with (radius (V2 0 0)). rewrite R0. destruct (Req_EM_T 0 0); [reflexivity | lra]. }
    split; [apply eq_distort_near; lra | ]. split; [exact N | ]. split.
    + intros c t d E H. rewrite m2_vec_I. apply (v2_derive_ext_loc c); [ | exact H].
      destruct H as (A & B).
      assert (C : continuous (fun s => u0 (c s) * u0 (c s) + u1 (c s) * u1 (c s)) t).
      { apply (continuous_plus (fun s => u0 (c s) * u0 (c s)) (fun s => u1 (c s) * u1 (c s)));
          [apply (continuous_mult (fun s => u0 (c s)) (fun s => u0 (c s))) | apply (continuous_mult (fun s => u1 (c s)) (fun s => u1 (c s)))];
          eapply derive_continuous; eassumption. }
      assert (L : u0 (c t) * u0 (c t) + u1 (c t) * u1 (c t) < 1 / 10 ^ 8 * (1 / 10 ^ 8)) by (rewrite E; cbn [u0 u1]; nra).
      eapply filter_imp; [ | exact (locally_lt _ t _ C L)]. cbv beta. intros s Ls. symmetry. apply eq_distort_near.
      rewrite <- radius2 in Ls. assert (P := radius_pos (c s)). nra.
    + split; [exact J | ]. split; [cbn [undistortJ undistort equi] in *; unfold eq_undistortJ; rewrite N; reflexivity | ].
      cbn [paramJ equi]. unfold eq_paramJ. cbn [u0 u1]. change (sqrt (0 * 0 + 0 * 0)) with (radius (V2 0 0)). rewrite R0. destruct (Req_EM_T 0 0); [reflexivity | lra].
  - assert (T1 := tan1_pos). assert (RX : radius (V2 (tan 1) 0) = tan 1).
    { unfold radius. cbn [u0 u1]. replace (tan 1 * tan 1 + 0 * 0) with (tan 1 * tan 1) by ring. apply sqrt_square. lra. }
    assert (AT : atan (tan 1) = 1) by (apply atan_tan; pose proof PI_bounds; lra).
    assert (S1 : 1 / 10 ^ 8 < 1) by (cbn [pow]; lra).
    destruct (osc_iterate 10 (5 / 2) ltac:(lra)) as (t' & E & B). cbn [Nat.mul Nat.add] in E.
    assert (TD : 1 * eq_poly osc 1 = 5 / 2) by (rewrite osc_poly; lra).
    exists osc, (V2 (tan 1) 0), (v2_scale (tan t' / tan 1) (V2 (tan 1) 0)).
    split; [rewrite RX; lra | ]. split.
    + cbn [undistort distort equi]. rewrite (eq_undistort_distort osc (V2 (tan 1) 0) t').
      * rewrite RX. reflexivity.
      * rewrite RX. lra.
      * apply osc_poly_pos.
      * rewrite RX, AT, TD. exact E.
    + cbn [u0]. split; [lra | ]. unfold v2_scale. cbn [u0 u1].
      replace (tan t' / tan 1 * tan 1) with (tan t') by (field; lra). apply tan_neg. pose proof PI_bounds. lra.
Qed.

(** Field-of-view undistortion: exact in both directions up to 89 degrees and
    outside the small disc where the code uses the limit of its formula;
    inside that disc the result is the point scaled by tan(a)/a, where
    a = 2 tan(w/2) r. *)
Theorem C59_fov_undistort w : 1 / 2 <= w <= 3 / 2 ->
  (forall x, 1 / 10 ^ 5 <= radius x * radius x -> atan (2 * tan (w / 2) * radius x) <= 89 * PI / 180 ->
     undistort (fov w) (distort (fov w) x) = Val x) /\
  (forall x, 0 < radius x -> radius x * radius x < 1 / 10 ^ 5 -> 2 * tan (w / 2) * radius x <= 89 * PI / 180 ->
     undistort (fov w) (distort (fov w) x) =
       Val (v2_scale (tan (2 * tan (w / 2) * radius x) / (2 * tan (w / 2) * radius x)) x)) /\
  (forall y x, radius y * w <= 89 * PI / 180 -> undistort (fov w) y = Val x -> 1 / 10 ^ 5 <= radius x * radius x ->
     distort (fov w) x = y) /\
  (forall y, undistort (fov 0) y = Val y /\ distort (fov 0) y = y).
Proof.
  intros W. split; [intros x; apply (fov_undistort_distort w x W) | ]. split.
  { intros x P S A. destruct (fov_facts w W) as (C & T & N). cbn [undistort distort fov].
    rewrite (fov_distort_close w x W S). unfold fov_undistort. change (v2_norm ?z) with (radius z).
    assert (K : 0 < 2 * tan (w / 2) / w) by (apply Rdiv_lt_0_compat; lra).
    rewrite radius_scale by lra.
    destruct (Req_EM_T (tan (w / 2) * 2) 0); [lra | ].
    assert (RP : 0 < 2 * tan (w / 2) / w * radius x) by nra.
    destruct (Req_EM_T (2 * tan (w / 2) / w * radius x) 0); [lra | ].
    replace (2 * tan (w / 2) / w * radius x * w) with (2 * tan (w / 2) * radius x) by (field; lra).
    assert (AP : 0 < 2 * tan (w / 2) * radius x) by nra.
    destruct (Rle_dec (Rabs (2 * tan (w / 2) * radius x)) fov_max_angle) as [_ | B];
      [ | exfalso; apply B; rewrite Rabs_pos_eq; [exact A | lra]].
    rewrite v2_scale_scale. f_equal. f_equal. field. repeat split; lra. }
  split; [intros y x; apply (fov_distort_undistort w y x W) | ].
  intros y. split; [apply fov_zero_undistort | ]. apply fov_small. rewrite Rabs_R0.
  apply Rdiv_lt_0_compat; [lra | apply pow_lt; lra].
Qed.
Example C59_ex_fov : let x := V2 (1 / 10) 0 in
  1 / 10 ^ 5 <= radius x * radius x /\ atan (2 * tan (1 / 2) * radius x) <= 89 * PI / 180.
Proof.
  cbv zeta. rewrite radius2. cbn [u0 u1]. split; [cbn [pow]; lra | ].
  assert (T : tan (1 / 2) < 1). { pose proof PI_bounds. apply Rlt_le_trans with (tan (PI / 4)); [apply tan_increasing; lra | rewrite tan_PI4; lra]. }
  assert (T0 : 0 < tan (1 / 2)) by (apply tan_gt_0; pose proof PI_bounds; lra).
  assert (RX : radius (V2 (1 / 10) 0) = 1 / 10).
  { unfold radius. cbn [u0 u1]. replace (1 / 10 * (1 / 10) + 0 * 0) with (1 / 10 * (1 / 10)) by ring. apply sqrt_square. lra. }
  rewrite RX. apply Rle_trans with (atan 1); [ | rewrite atan_1; pose proof PI_bounds; lra].
  apply Rlt_le, atan_increasing. lra.
Qed.

(** ... but beyond 89 degrees the distorted point is returned as it is, the
    derivative with respect to the parameter is wrong in the small disc, the
    Jacobian of undistortion is not available, and a rejected update stays in
    the object. *)
Theorem C59_fov_refuted :
  (exists x x', undistort (fov 1) (distort (fov 1) x) = Val x' /\ x' <> x /\ x' = distort (fov 1) x) /\
  (exists y cols, paramJ (fov 1) y = Val cols /\ ~ parameter_jacobian 1 (fun q => distort (fov (nth 0 q 0)) y) [1] cols) /\
  (forall w y, undistortJ (fov w) y = Throws) /\
  (exists w v, fov_valid w /\ snd (fov_update w v) = false /\ ~ fov_valid (fst (fov_update w v))).
Proof.
  assert (PB := PI_bounds). assert (F0 := five_pos). assert (M := max_angle_bounds).
  assert (W1 : 1 / 2 <= 1 <= 3 / 2) by lra. destruct (fov_facts 1 W1) as (C & T & N).
  split.
  { set (r := tan fov_max_angle / (2 * tan (1 / 2)) + 4).
    assert (TM : 0 < tan fov_max_angle) by (apply tan_gt_0; lra).
    assert (QP : 0 < tan fov_max_angle / (2 * tan (1 / 2))) by (apply Rdiv_lt_0_compat; lra).
    assert (RX : radius (V2 r 0) = r).
    { unfold radius. cbn [u0 u1]. replace (r * r + 0 * 0) with (r * r) by ring. apply sqrt_square. unfold r. lra. }
    assert (R4 : 4 < r) by (unfold r; lra).
    assert (RR : 1 / 10 ^ 5 <= radius (V2 r 0) * radius (V2 r 0)).
    { rewrite RX. apply Rle_trans with 1; [cbn [pow]; lra | nra]. }
    exists (V2 r 0), (distort (fov 1) (V2 r 0)). split; [ | split; [ | reflexivity]].
    - apply (fov_undistort_beyond 1 (V2 r 0) W1 RR). rewrite RX.
      rewrite <- (atan_tan fov_max_angle) by lra. apply atan_increasing. unfold r.
      replace (2 * tan (1 / 2) * (tan fov_max_angle / (2 * tan (1 / 2)) + 4)) with (tan fov_max_angle + 8 * tan (1 / 2)) by (field; lra). lra.
    - cbn [distort fov]. rewrite (fov_distort_far 1 _ W1 RR), RX. cbn [u0 u1]. intros E.
      assert (E' : r * fov_gain 1 r = r) by congruence. clear E. unfold fov_gain in E'.
      replace (r * (atan (2 * tan (1 / 2) * r) / (r * 1))) with (atan (2 * tan (1 / 2) * r)) in E' by (field; lra).
      assert (B := atan_bound (2 * tan (1 / 2) * r)). lra. }
  split.
  { assert (R0 : radius (V2 0 0) = 0).
    { unfold radius. cbn [u0 u1]. replace (0 * 0 + 0 * 0) with 0 by ring. apply sqrt_0. }
    exists (V2 0 0), (fov_paramJ 1 (V2 0 0)). split; [reflexivity | ]. intros (_ & H).
    specialize (H (fun s => [s]) 1 [1]). cbn [nth] in H.
    assert (H' := H ltac:(intros i Hi; reflexivity) ltac:(split; [reflexivity | intros i Hi; assert (i = O) by lia; subst i; cbn [nth]; apply @is_derive_id])).
    assert (Z : v2_derive (fun s => distort (fov s) (V2 0 0)) 1 (V2 0 0)).
    { apply (v2_derive_ext (fun _ => V2 0 0)); [ | apply v2_derive_const]. intros s. cbn [distort fov].
      unfold fov_distort, v2_scale. cbn [u0 u1]. f_equal; ring. }
    assert (E := v2_derive_unique _ _ _ _ H' Z).
    unfold fov_paramJ in E. change (v2_norm (V2 0 0)) with (radius (V2 0 0)) in E. rewrite R0 in E.
    destruct (Rlt_dec (1 * 1) (1 / 10 ^ 5)); [contradiction | ].
    destruct (Rlt_dec (0 * 0) (1 / 10 ^ 5)) as [_ | B]; [ | lra].
    assert (E0 : u0 (combine_cols [V2 ((1 - sin 1) / (1 * 1 * cos (1 / 2) * cos (1 / 2))) ((1 - sin 1) / (1 * 1 * cos (1 / 2) * cos (1 / 2)))] [1]) = 0)
      by (etransitivity; [exact (f_equal u0 E) | reflexivity]).
    unfold combine_cols, v2_add, v2_scale in E0. cbn [u0 u1] in E0.
    assert (S1 : sin 1 < 1). { apply Rlt_le_trans with (sin (PI / 2)); [apply sin_increasing_1; lra | rewrite sin_PI2; lra]. }
    assert (P : 0 < (1 - sin 1) / (1 * 1 * cos (1 / 2) * cos (1 / 2))) by (apply Rdiv_lt_0_compat; nra). lra. }
  split; [reflexivity | ].
  exists 1, 1. split; [right; lra | ].
  assert (NV : ~ Rabs (1 + 1) < 1 / 10 ^ 16).
  { rewrite Rabs_pos_eq by lra. assert (1 / 10 ^ 16 < 1) by (cbn [pow]; lra). lra. }
  split.
  - unfold fov_update. cbn [snd]. destruct (Rlt_dec (Rabs (1 + 1)) (1 / 10 ^ 16)); [contradiction | ].
    destruct (Rle_dec (1 / 2) (1 + 1)); [ | reflexivity]. destruct (Rle_dec (1 + 1) (3 / 2)); [lra | reflexivity].
  - unfold fov_update. cbn [fst]. intros [V | V]; [contradiction | lra].
Qed.

(** Reading, writing and incrementing the coefficients. *)
Theorem C59_parameters v D E : length v = 4%nat ->
  rt_get (rt_set v) = v /\ eq_get (eq_set v) = v /\
  (forall i, (i < 4)%nat -> nth i (rt_get (rt_update D v)) 0 = nth i (rt_get D) 0 + nth i v 0) /\
  (forall i, (i < 4)%nat -> nth i (eq_get (eq_update E v)) 0 = nth i (eq_get E) 0 + nth i v 0) /\
  (forall w x, fst (fov_update w x) = w + x /\ (snd (fov_update w x) = true <-> fov_valid (w + x))).
Proof.
  intros L. split; [symmetry; apply (list4 v L) | ]. split; [symmetry; apply (list4 v L) | ].
  split; [intros i Hi; destruct i as [ | [ | [ | [ | ]]]]; try reflexivity; lia | ].
  split; [intros i Hi; destruct i as [ | [ | [ | [ | ]]]]; try reflexivity; lia | ].
  intros w x. split; [reflexivity | ]. unfold fov_update, fov_valid. cbn [snd].
  destruct (Rlt_dec (Rabs (w + x)) (1 / 10 ^ 16)); [split; [intros _; left; assumption | reflexivity] | ].
  destruct (Rle_dec (1 / 2) (w + x)); [destruct (Rle_dec (w + x) (3 / 2)) | ];
    (split; [intros Q; try discriminate; right; split; assumption | intros [Q | Q]; try reflexivity; try contradiction; destruct Q; contradiction]).
Qed.
Print Assumptions C59_distortion_jacobians.
Print Assumptions C59_parameter_jacobians.
Print Assumptions C59_radtan_undistort.
Print Assumptions C59_radtan_undistort_refuted.
Print Assumptions C59_equidistant_undistort.
Print Assumptions C59_equidistant_refuted.
Print Assumptions C59_fov_undistort.
Print Assumptions C59_fov_refuted.
Print Assumptions C59_parameters.
