(** * Euler angles *)

From Coquelicot Require Import Coquelicot.
From Coq Require Import Reals Psatz Nsatz.
From Verif Require Import KinModel KinSpec KinProofs KinExp KinCurve RotModel RotSpec.
Local Open Scope R_scope.

(** ** atan2 *)

Lemma atan_tan_eq x : - (PI / 2) < x < PI / 2 -> atan (tan x) = x.
Proof. intros H. apply atan_tan. lra. Qed.

Lemma atan2_polar k a : 0 < k -> - PI < a <= PI -> atan2 (k * sin a) (k * cos a) = a.
Proof.
  intros K [L U]. unfold atan2. pose proof PI_RGT_0 as P.
  destruct (Rlt_dec 0 (k * cos a)) as [C | C].
  - assert (C' : 0 < cos a) by nra.
    assert (B : - (PI / 2) < a < PI / 2).
    { destruct (Rlt_le_dec (- (PI / 2)) a) as [A1 | A1].
      - split; [exact A1 | ]. destruct (Rlt_le_dec a (PI / 2)) as [A2 | A2]; [exact A2 | ].
        pose proof (cos_le_0 a ltac:(lra) ltac:(lra)). lra.
      - pose proof (cos_le_0 (- a) ltac:(lra) ltac:(lra)) as Q. rewrite cos_neg in Q. lra. }
    replace (k * sin a / (k * cos a)) with (tan a) by (unfold tan; field; lra).
    apply atan_tan_eq, B.
  - destruct (Rlt_dec (k * cos a) 0) as [D | D].
    + assert (D' : cos a < 0) by nra.
      replace (k * sin a / (k * cos a)) with (tan a) by (unfold tan; field; lra).
      destruct (Rle_dec 0 (k * sin a)) as [Q | Q].
      * assert (Q' : 0 <= sin a) by nra.
        assert (B : PI / 2 < a).
        { destruct (Rlt_le_dec (PI / 2) a) as [A1 | A1]; [exact A1 | ].
          destruct (Rlt_le_dec a (- (PI / 2))) as [A2 | A2].
          - pose proof (sin_lt_0 (a + 2 * PI) ltac:(lra) ltac:(lra)) as Z.
            rewrite sin_plus, sin_2PI, cos_2PI in Z. lra.
          - pose proof (cos_ge_0 a ltac:(lra) ltac:(lra)). lra. }
        assert (T : tan a = tan (a - PI)).
        { unfold tan. rewrite sin_minus, cos_minus, sin_PI, cos_PI. field. lra. }
        rewrite T, atan_tan_eq by lra. ring.
      * assert (Q' : sin a < 0) by nra.
        assert (B : a < - (PI / 2)).
        { destruct (Rlt_le_dec a (- (PI / 2))) as [A1 | A1]; [exact A1 | ].
          destruct (Rlt_le_dec (PI / 2) a) as [A2 | A2].
          - pose proof (sin_ge_0 a ltac:(lra) ltac:(lra)). lra.
          - pose proof (cos_ge_0 a ltac:(lra) ltac:(lra)). lra. }
        assert (T : tan a = tan (a + PI)).
        { unfold tan. rewrite sin_plus, cos_plus, sin_PI, cos_PI. field. lra. }
        rewrite T, atan_tan_eq by lra. ring.
    + assert (C0 : cos a = 0) by nra.
      pose proof (sin2_cos2 a) as T. unfold Rsqr in T. rewrite C0 in T.
      assert (B : a = PI / 2 \/ a = - (PI / 2)).
      { destruct (Rtotal_order a (- (PI / 2))) as [A | [A | A]]; [ | right; exact A | ].
        - pose proof (cos_lt_0 (- a) ltac:(lra) ltac:(lra)) as Q. rewrite cos_neg in Q. lra.
        - destruct (Rtotal_order a (PI / 2)) as [A' | [A' | A']]; [ | left; exact A' | ].
          + pose proof (cos_gt_0 a ltac:(lra) ltac:(lra)). lra.
          + pose proof (cos_lt_0 a ltac:(lra) ltac:(lra)). lra. }
      destruct B as [B | B].
      * assert (S : sin a = 1) by (rewrite B; apply sin_PI2). rewrite S.
        destruct (Rlt_dec 0 (k * 1)); lra.
      * assert (S : sin a = -1) by (rewrite B, sin_neg, sin_PI2; reflexivity). rewrite S.
        destruct (Rlt_dec 0 (k * -1)); [lra | ]. destruct (Rlt_dec (k * -1) 0); lra.
Qed.

Lemma polar_exists x y : 0 < x * x + y * y ->
  exists a, - PI < a <= PI /\ x = sqrt (x * x + y * y) * cos a /\ y = sqrt (x * x + y * y) * sin a.
Proof.
  intros H. set (r := sqrt (x * x + y * y)).
  assert (R0 : 0 < r) by (apply sqrt_lt_R0, H).
  assert (R2 : r * r = x * x + y * y) by (apply sqrt_sqrt; lra).
  assert (B : -1 <= x / r <= 1).
  { split.
    - apply (Rmult_le_reg_r r); [exact R0 | ]. replace (x / r * r) with x by (field; lra). nra.
    - apply (Rmult_le_reg_r r); [exact R0 | ]. replace (x / r * r) with x by (field; lra). nra. }
  pose proof (acos_bound (x / r)) as AB. pose proof PI_RGT_0 as P.
  assert (SA : sin (acos (x / r)) = Rabs y / r).
  { rewrite sin_acos by exact B. apply sqrt_lem_1.
    - unfold Rsqr. nra.
    - apply Rmult_le_pos; [apply Rabs_pos | left; apply Rinv_0_lt_compat, R0].
    - unfold Rsqr. replace (1 - x / r * (x / r)) with ((r * r - x * x) / (r * r)) by (field; lra).
      rewrite R2. replace (Rabs y / r * (Rabs y / r)) with (Rabs y * Rabs y / (r * r)) by (field; lra).
      rewrite <- Rabs_mult, Rabs_right by nra. rewrite R2. f_equal. ring. }
  destruct (Rle_lt_dec 0 y) as [Y | Y].
  - exists (acos (x / r)). split.
    + split; [lra | exact (proj2 AB)].
    + split; [rewrite cos_acos by exact B; field; lra | ].
      rewrite SA, Rabs_right by lra. field. lra.
  - exists (- acos (x / r)). split.
    + split; [ | lra].
      destruct (Req_dec (acos (x / r)) PI) as [E | E]; [ | lra].
      exfalso. rewrite E, sin_PI, Rabs_left in SA by lra.
      assert (- y = 0 * r) by (rewrite SA; field; lra). lra.
    + split; [rewrite cos_neg, cos_acos by exact B; field; lra | ].
      rewrite sin_neg, SA, Rabs_left by lra. field. lra.
Qed.

Lemma atan2_coords x y : 0 < x * x + y * y ->
  sqrt (x * x + y * y) * cos (atan2 y x) = x /\ sqrt (x * x + y * y) * sin (atan2 y x) = y.
Proof.
  intros H. destruct (polar_exists x y H) as (a & B & X & Y).
  assert (E : atan2 y x = a).
  { pose proof (atan2_polar _ a (sqrt_lt_R0 _ H) B) as E. rewrite <- X, <- Y in E. exact E. }
  rewrite E. split; symmetry; assumption.
Qed.
Lemma atan2_range x y : 0 < x * x + y * y -> - PI < atan2 y x <= PI.
Proof.
  intros H. destruct (polar_exists x y H) as (a & B & X & Y).
  assert (E : atan2 y x = a).
  { pose proof (atan2_polar _ a (sqrt_lt_R0 _ H) B) as E. rewrite <- X, <- Y in E. exact E. }
  rewrite E. exact B.
Qed.
Lemma atan2_origin : atan2 0 0 = 0.
Proof.
  unfold atan2. destruct (Rlt_dec 0 0); [lra | reflexivity].
Qed.

(** ** The three conventions as products of elementary rotations *)

Lemma zyx_product p : zyx_C p = m3_mul (rot_z (- x0 p)) (m3_mul (rot_y (- x1 p)) (rot_x (- x2 p))).
Proof. unfold zyx_C, rot_z, rot_y, rot_x. kring. Qed.
Lemma ypr_product p : ypr_C p = m3_mul (rot_z (x0 p)) (m3_mul (rot_y (x1 p)) (rot_x (x2 p))).
Proof. unfold ypr_C, rot_z, rot_y, rot_x. kring. Qed.
Lemma zxy_product p : zxy_C p = m3_mul (rot_z (x0 p)) (m3_mul (rot_x (x1 p)) (rot_y (x2 p))).
Proof. unfold zxy_C, rot_z, rot_y, rot_x. kring. Qed.
Lemma rph_product p : rph2R p = m3_mul (rot_z (x2 p)) (m3_mul (rot_y (x1 p)) (rot_x (x0 p))).
Proof. unfold rph2R, rot_z, rot_y, rot_x. kring. Qed.

Lemma rot_x_SO3 a : SO3 (rot_x a).
Proof.
  pose proof (sin2_cos2 a) as T. unfold Rsqr in T. unfold rot_x. split; kunf; [f_equal | ]; nsatz.
Qed.
Lemma rot_y_SO3 a : SO3 (rot_y a).
Proof.
  pose proof (sin2_cos2 a) as T. unfold Rsqr in T. unfold rot_y. split; kunf; [f_equal | ]; nsatz.
Qed.
Lemma rot_z_SO3 a : SO3 (rot_z a).
Proof.
  pose proof (sin2_cos2 a) as T. unfold Rsqr in T. unfold rot_z. split; kunf; [f_equal | ]; nsatz.
Qed.

Lemma ypr_SO3 p : SO3 (ypr_C p).
Proof. rewrite ypr_product. repeat apply SO3_mul; auto using rot_x_SO3, rot_y_SO3, rot_z_SO3. Qed.
Lemma zyx_SO3 p : SO3 (zyx_C p).
Proof. rewrite zyx_product. repeat apply SO3_mul; auto using rot_x_SO3, rot_y_SO3, rot_z_SO3. Qed.
Lemma zxy_SO3 p : SO3 (zxy_C p).
Proof. rewrite zxy_product. repeat apply SO3_mul; auto using rot_x_SO3, rot_y_SO3, rot_z_SO3. Qed.

(** ** Reading the angles back *)

Lemma asin_sin_neg a : - (PI / 2) < a < PI / 2 -> asin (sin a) = a.
Proof. intros H. apply asin_sin. lra. Qed.

Lemma zyx_is_ypr p : zyx_C p = ypr_C (v3_neg p).
Proof. unfold zyx_C, ypr_C. reflexivity. Qed.
Lemma zyx_params_ypr C : zyx_params C = v3_neg (ypr_params C).
Proof.
  unfold zyx_params, ypr_params, v3_neg. cbn [x0 x1 x2]. f_equal. rewrite asin_opp. ring.
Qed.

Lemma ypr_roundtrip p : - PI < x0 p <= PI -> - (PI / 2) < x1 p < PI / 2 -> - PI < x2 p <= PI ->
  ypr_params (ypr_C p) = p.
Proof.
  intros H0 H1 H2. pose proof (cos_gt_0 (x1 p) ltac:(lra) ltac:(lra)) as C.
  unfold ypr_params, ypr_C. cbn [m00 m10 m20 m21 m22]. cbv zeta.
  rewrite Ropp_involutive, asin_sin_neg by exact H1.
  rewrite (Rmult_comm (sin (x0 p))), (Rmult_comm (cos (x0 p)) (cos (x1 p))).
  rewrite !atan2_polar by assumption. destruct p; reflexivity.
Qed.

Lemma zxy_roundtrip p : - PI < x0 p <= PI -> - (PI / 2) < x1 p < PI / 2 -> - PI < x2 p <= PI ->
  zxy_params (zxy_C p) = p.
Proof.
  intros H0 H1 H2. pose proof (cos_gt_0 (x1 p) ltac:(lra) ltac:(lra)) as C.
  unfold zxy_params, zxy_C. cbn [m01 m11 m20 m21 m22]. cbv zeta.
  rewrite asin_sin_neg by exact H1.
  replace (- (- sin (x0 p) * cos (x1 p))) with (cos (x1 p) * sin (x0 p)) by ring.
  replace (- (- cos (x1 p) * sin (x2 p))) with (cos (x1 p) * sin (x2 p)) by ring.
  rewrite (Rmult_comm (cos (x0 p)) (cos (x1 p))).
  rewrite !atan2_polar by assumption. destruct p; reflexivity.
Qed.

(** The cosine of the middle angle, from the entry of the matrix. *)
Lemma mid_cos e : -1 < e < 1 -> cos (asin e) = sqrt (1 - e * e) /\ 0 < sqrt (1 - e * e).
Proof.
  intros H. split; [apply cos_asin; lra | apply sqrt_lt_R0; nra].
Qed.

Lemma SO3_entries C : SO3 C ->
  (m00 C * m00 C + m10 C * m10 C = 1 - m20 C * m20 C /\
   m21 C * m21 C + m22 C * m22 C = 1 - m20 C * m20 C) /\
  (m11 C * m11 C + m01 C * m01 C = 1 - m21 C * m21 C /\
   m20 C * m20 C + m22 C * m22 C = 1 - m21 C * m21 C).
Proof.
  intros H. pose proof (SO3_tr_l C H) as T. destruct H as [H _].
  destruct C as [c1 c4 c7 c2 c5 c8 c3 c6 c9]. kunf in H. kunf in T. kunf.
  injection H as H1 H2 H3 H4 H5 H6 H7 H8 H9. injection T as T1 T2 T3 T4 T5 T6 T7 T8 T9.
  split; split; lra.
Qed.

Lemma ypr_of_params C : SO3 C -> -1 < m20 C < 1 ->
  ypr_C (ypr_params C) = C /\
  (- PI < x0 (ypr_params C) <= PI /\ - (PI / 2) <= x1 (ypr_params C) <= PI / 2 /\ - PI < x2 (ypr_params C) <= PI).
Proof.
  intros H B. destruct (SO3_entries C H) as ((N1 & N2) & _).
  assert (P : 0 < 1 - m20 C * m20 C) by nra.
  split.
  - destruct (atan2_coords (m00 C) (m10 C) ltac:(lra)) as (A1 & A2).
    destruct (atan2_coords (m22 C) (m21 C) ltac:(lra)) as (A3 & A4).
    rewrite N1 in A1, A2. rewrite (Rplus_comm (m22 C * m22 C)), N2 in A3, A4.
    destruct (mid_cos (- m20 C) ltac:(lra)) as (MC & MP).
    assert (MS : sin (asin (- m20 C)) = - m20 C) by (apply sin_asin; lra).
    replace (- m20 C * - m20 C) with (m20 C * m20 C) in MC, MP by ring.
    assert (R2 : sqrt (1 - m20 C * m20 C) * sqrt (1 - m20 C * m20 C) = 1 - m20 C * m20 C)
      by (apply sqrt_sqrt; lra).
    unfold ypr_params, ypr_C. cbv zeta. cbn [x0 x1 x2]. rewrite MC, MS. clear MC MS.
    set (r := sqrt (1 - m20 C * m20 C)) in *. clearbody r.
    set (cz := cos (atan2 (m10 C) (m00 C))) in *. set (sz := sin (atan2 (m10 C) (m00 C))) in *.
    set (cx := cos (atan2 (m21 C) (m22 C))) in *. set (sx := sin (atan2 (m21 C) (m22 C))) in *.
    clearbody cz sz cx sx.
    pose proof (SO3_adj C H) as AD.
    destruct C as [c1 c4 c7 c2 c5 c8 c3 c6 c9]. unfold m3_adj in AD. kunf in AD. cbn [m00 m01 m02 m10 m11 m12 m20 m21 m22] in *. kunf.
    injection AD as D1 D2 D3 D4 D5 D6 D7 D8 D9.
    assert (RI : r * r <> 0) by nra.
    clear H B P N1 N2 MP.
    f_equal; [lra | | | lra | | | lra | lra | lra]; apply (Rmult_eq_reg_l (r * r)); try exact RI; clear RI.
    + replace (r * r * (- sz * cx + cz * - c3 * sx)) with (- (r * sz) * (r * cx) + (r * cz) * - c3 * (r * sx)) by ring.
      rewrite R2, A1, A2, A3, A4. clear - D4 D8. nsatz.
    + replace (r * r * (sz * sx + cz * - c3 * cx)) with ((r * sz) * (r * sx) + (r * cz) * - c3 * (r * cx)) by ring.
      rewrite R2, A1, A2, A3, A4. clear - D7 D5. nsatz.
    + replace (r * r * (cz * cx + sz * - c3 * sx)) with ((r * cz) * (r * cx) + (r * sz) * - c3 * (r * sx)) by ring.
      rewrite R2, A1, A2, A3, A4. clear - D5 D7. nsatz.
    + replace (r * r * (- cz * sx + sz * - c3 * cx)) with (- (r * cz) * (r * sx) + (r * sz) * - c3 * (r * cx)) by ring.
      rewrite R2, A1, A2, A3, A4. clear - D8 D4. nsatz.
  - unfold ypr_params. cbn [x0 x1 x2].
    pose proof (atan2_range (m00 C) (m10 C) ltac:(lra)) as Q1.
    pose proof (atan2_range (m22 C) (m21 C) ltac:(lra)) as Q2.
    pose proof (asin_bound (- m20 C)). split; [exact Q1 | split; [lra | exact Q2]].
Qed.

Lemma zxy_of_params C : SO3 C -> -1 < m21 C < 1 -> zxy_C (zxy_params C) = C.
Proof.
  intros H B. destruct (SO3_entries C H) as (_ & N1 & N2).
  assert (P : 0 < 1 - m21 C * m21 C) by nra.
  assert (O1 : m11 C * m11 C + - m01 C * - m01 C = 1 - m21 C * m21 C) by lra.
  assert (O2 : m22 C * m22 C + - m20 C * - m20 C = 1 - m21 C * m21 C) by lra.
  destruct (atan2_coords (m11 C) (- m01 C) ltac:(lra)) as (A1 & A2).
  destruct (atan2_coords (m22 C) (- m20 C) ltac:(lra)) as (A3 & A4).
  rewrite O1 in A1, A2. rewrite O2 in A3, A4.
  destruct (mid_cos (m21 C) ltac:(lra)) as (MC & MP).
  assert (MS : sin (asin (m21 C)) = m21 C) by (apply sin_asin; lra).
  assert (R2 : sqrt (1 - m21 C * m21 C) * sqrt (1 - m21 C * m21 C) = 1 - m21 C * m21 C)
    by (apply sqrt_sqrt; lra).
  unfold zxy_params, zxy_C. cbv zeta. cbn [x0 x1 x2]. rewrite MC, MS. clear MC MS.
  set (r := sqrt (1 - m21 C * m21 C)) in *. clearbody r.
  set (cz := cos (atan2 (- m01 C) (m11 C))) in *. set (sz := sin (atan2 (- m01 C) (m11 C))) in *.
  set (cy := cos (atan2 (- m20 C) (m22 C))) in *. set (sy := sin (atan2 (- m20 C) (m22 C))) in *.
  clearbody cz sz cy sy.
  pose proof (SO3_adj C H) as AD.
  destruct C as [c1 c4 c7 c2 c5 c8 c3 c6 c9]. unfold m3_adj in AD. kunf in AD.
  cbn [m00 m01 m02 m10 m11 m12 m20 m21 m22] in *. kunf.
  injection AD as D1 D2 D3 D4 D5 D6 D7 D8 D9.
  assert (RI : r * r <> 0) by nra.
  clear H B P N1 N2 O1 O2 MP.
  f_equal; try lra; apply (Rmult_eq_reg_l (r * r)); try exact RI; clear RI.
  - replace (r * r * (cz * cy - sz * c6 * sy)) with ((r * cz) * (r * cy) - (r * sz) * c6 * (r * sy)) by ring.
    rewrite R2, A1, A2, A3, A4. clear - D1 D2 D3 D4 D5 D6 D7 D8 D9. nsatz.
  - replace (r * r * (cz * sy + sz * c6 * cy)) with ((r * cz) * (r * sy) + (r * sz) * c6 * (r * cy)) by ring.
    rewrite R2, A1, A2, A3, A4. clear - D1 D2 D3 D4 D5 D6 D7 D8 D9. nsatz.
  - replace (r * r * (sz * cy + cz * c6 * sy)) with ((r * sz) * (r * cy) + (r * cz) * c6 * (r * sy)) by ring.
    rewrite R2, A1, A2, A3, A4. clear - D1 D2 D3 D4 D5 D6 D7 D8 D9. nsatz.
  - replace (r * r * (sz * sy - cz * c6 * cy)) with ((r * sz) * (r * sy) - (r * cz) * c6 * (r * cy)) by ring.
    rewrite R2, A1, A2, A3, A4. clear - D1 D2 D3 D4 D5 D6 D7 D8 D9. nsatz.
Qed.

(** Roll-pitch-heading are the same angles in the opposite order. *)
Lemma rph_is_ypr p : rph2R p = ypr_C (V3 (x2 p) (x1 p) (x0 p)).
Proof. unfold rph2R, ypr_C. kring. Qed.
Lemma R2rph_is_ypr C : R2rph C = let e := ypr_params C in V3 (x2 e) (x1 e) (x0 e).
Proof. unfold R2rph, ypr_params. cbn [x0 x1 x2]. rewrite asin_opp. reflexivity. Qed.

Lemma v3_eta p : V3 (x0 p) (x1 p) (x2 p) = p.
Proof. destruct p; reflexivity. Qed.
Lemma v3_neg_neg v : v3_neg (v3_neg v) = v.
Proof. kring. Qed.
Lemma zyx_of_params C : SO3 C -> -1 < m20 C < 1 -> zyx_C (zyx_params C) = C.
Proof.
  intros H B. rewrite zyx_is_ypr, zyx_params_ypr.
  rewrite v3_neg_neg.
  exact (proj1 (ypr_of_params C H B)).
Qed.
Lemma zyx_roundtrip p : - PI <= x0 p < PI -> - (PI / 2) < x1 p < PI / 2 -> - PI <= x2 p < PI ->
  zyx_params (zyx_C p) = p.
Proof.
  intros H0 H1 H2. rewrite zyx_is_ypr, zyx_params_ypr, ypr_roundtrip.
  - kring.
  - unfold v3_neg. cbn [x0]. lra.
  - unfold v3_neg. cbn [x1]. lra.
  - unfold v3_neg. cbn [x2]. lra.
Qed.
Lemma R2rph_roundtrip p : - PI < x0 p <= PI -> - (PI / 2) < x1 p < PI / 2 -> - PI < x2 p <= PI ->
  R2rph (rph2R p) = p.
Proof.
  intros H0 H1 H2. rewrite rph_is_ypr, R2rph_is_ypr, ypr_roundtrip by (cbn [x0 x1 x2]; assumption).
  destruct p; reflexivity.
Qed.
Lemma rph2R_of C : SO3 C -> -1 < m20 C < 1 -> rph2R (R2rph C) = C.
Proof.
  intros H B. rewrite rph_is_ypr, R2rph_is_ypr. cbv zeta. cbn [x0 x1 x2].
  rewrite v3_eta. exact (proj1 (ypr_of_params C H B)).
Qed.

(** ** Rates *)

Lemma euler_derive_scalar (f : R -> R) (t d : R) : is_derive f t d ->
  is_derive (fun s => sin (f s)) t (cos (f t) * d) /\ is_derive (fun s => cos (f s)) t (- sin (f t) * d).
Proof.
  intros H. derive_ex H. split; (auto_derive; [derive_side | derive_sub H; ring]).
Qed.

Lemma ypr_C_derive_scalar (x y z : R -> R) (t dx dy dz : R) :
  is_derive z t dz -> is_derive y t dy -> is_derive x t dx ->
  exists Cdot, m3_derive (fun s => ypr_C (V3 (z s) (y s) (x s))) t Cdot /\
    angular_velocity (ypr_C (V3 (z t) (y t) (x t))) Cdot (m3_vec (ypr_S (V3 (z t) (y t) (x t))) (V3 dz dy dx)).
Proof.
  intros Z Y X. derive_ex X. derive_ex Y. derive_ex Z.
  exists (m3_mul (m3_scale (-1) (crossMx (m3_vec (ypr_S (V3 (z t) (y t) (x t))) (V3 dz dy dx))))
            (ypr_C (V3 (z t) (y t) (x t)))).
  split; [ | reflexivity].
  pose proof (sin2_cos2 (z t)) as TZ. pose proof (sin2_cos2 (y t)) as TY. unfold Rsqr in TZ, TY.
  unfold m3_derive, ypr_C, ypr_S, ypr_buildS. kunf.
  split; [split; [ | split] | split; [split; [ | split] | split; [ | split]]];
    (auto_derive; [derive_side | derive_sub X; derive_sub Y; derive_sub Z;
     set (sz := sin (z t)) in *; set (cz := cos (z t)) in *; set (sy := sin (y t)) in *;
     set (cy := cos (y t)) in *; set (sx := sin (x t)) in *; set (cx := cos (x t)) in *;
     clearbody sz cz sy cy sx cx; clear - TZ TY; nsatz]).
Qed.

Lemma zxy_C_derive_scalar (x y z : R -> R) (t dx dy dz : R) :
  is_derive z t dz -> is_derive x t dx -> is_derive y t dy ->
  exists Cdot, m3_derive (fun s => zxy_C (V3 (z s) (x s) (y s))) t Cdot /\
    angular_velocity (zxy_C (V3 (z t) (x t) (y t))) Cdot (m3_vec (zxy_S (V3 (z t) (x t) (y t))) (V3 dz dx dy)).
Proof.
  intros Z X Y. derive_ex X. derive_ex Y. derive_ex Z.
  exists (m3_mul (m3_scale (-1) (crossMx (m3_vec (zxy_S (V3 (z t) (x t) (y t))) (V3 dz dx dy))))
            (zxy_C (V3 (z t) (x t) (y t)))).
  split; [ | reflexivity].
  pose proof (sin2_cos2 (z t)) as TZ. pose proof (sin2_cos2 (x t)) as TX. unfold Rsqr in TZ, TX.
  unfold m3_derive, zxy_C, zxy_S. kunf.
  split; [split; [ | split] | split; [split; [ | split] | split; [ | split]]];
    (auto_derive; [derive_side | derive_sub X; derive_sub Y; derive_sub Z;
     set (sz := sin (z t)) in *; set (cz := cos (z t)) in *; set (sy := sin (y t)) in *;
     set (cy := cos (y t)) in *; set (sx := sin (x t)) in *; set (cx := cos (x t)) in *;
     clearbody sz cz sy cy sx cx; clear - TZ TX; nsatz]).
Qed.


Lemma ypr_rates : rates_to_velocity ypr_C ypr_S (fun _ => True).
Proof.
  intros p t pd (A & B & C) _.
  destruct (ypr_C_derive_scalar _ _ _ t _ _ _ A B C) as (D & D1 & D2). exists D.
  rewrite !v3_eta in D2. split; [exact D1 | exact D2].
Qed.
Lemma zxy_rates : rates_to_velocity zxy_C zxy_S (fun _ => True).
Proof.
  intros p t pd (A & B & C) _.
  destruct (zxy_C_derive_scalar _ _ _ t _ _ _ A B C) as (D & D1 & D2). exists D.
  rewrite !v3_eta in D2. split; [exact D1 | exact D2].
Qed.

Lemma zyx_S_ypr p d : m3_vec (zyx_S p) d = m3_vec (ypr_S (v3_neg p)) (v3_neg d).
Proof. unfold zyx_S, ypr_S, zyx_buildS, ypr_buildS. kring. Qed.
Lemma v3_derive_neg p t d : v3_derive p t d -> v3_derive (fun s => v3_neg (p s)) t (v3_neg d).
Proof.
  intros (A & B & C). split; [ | split]; cbn [v3_neg x0 x1 x2].
  - exact (is_derive_opp _ t _ A).
  - exact (is_derive_opp _ t _ B).
  - exact (is_derive_opp _ t _ C).
Qed.
Lemma zyx_rates : rates_to_velocity zyx_C zyx_S (fun _ => True).
Proof.
  intros p t pd H _.
  destruct (ypr_rates _ t _ (v3_derive_neg p t pd H) I) as (D & D1 & D2). exists D.
  rewrite zyx_S_ypr. split; [exact D1 | exact D2].
Qed.

(** ** Jacobians of the angular velocity *)

Lemma ypr_J_scalar (a b c u v w : R -> R) (t da db dc du dv dw : R) :
  is_derive a t da -> is_derive b t db -> is_derive c t dc ->
  is_derive u t du -> is_derive v t dv -> is_derive w t dw ->
  let J := ypr_J (V3 (a t) (b t) (c t)) (V3 (u t) (v t) (w t)) in
  v3_derive (fun s => ypr_omega (V3 (a s) (b s) (c s)) (V3 (u s) (v s) (w s))) t
    (v3_add (m3_vec (fst J) (V3 da db dc)) (m3_vec (snd J) (V3 du dv dw))).
Proof.
  intros A B C U V W. cbv zeta.
  derive_ex A. derive_ex B. derive_ex C. derive_ex U. derive_ex V. derive_ex W.
  unfold v3_derive, ypr_omega, ypr_J, ypr_S, ypr_buildS. cbn [fst snd]. kunf.
  split; [ | split];
    (auto_derive; [derive_side | derive_sub A; derive_sub B; derive_sub C; derive_sub U; derive_sub V; derive_sub W; ring]).
Qed.
Lemma zyx_J_scalar (a b c u v w : R -> R) (t da db dc du dv dw : R) :
  is_derive a t da -> is_derive b t db -> is_derive c t dc ->
  is_derive u t du -> is_derive v t dv -> is_derive w t dw ->
  let J := zyx_J (V3 (a t) (b t) (c t)) (V3 (u t) (v t) (w t)) in
  v3_derive (fun s => zyx_omega (V3 (a s) (b s) (c s)) (V3 (u s) (v s) (w s))) t
    (v3_add (m3_vec (fst J) (V3 da db dc)) (m3_vec (snd J) (V3 du dv dw))).
Proof.
  intros A B C U V W. cbv zeta.
  derive_ex A. derive_ex B. derive_ex C. derive_ex U. derive_ex V. derive_ex W.
  unfold v3_derive, zyx_omega, zyx_J, zyx_S, zyx_buildS. cbn [fst snd]. kunf.
  split; [ | split];
    (auto_derive; [derive_side | derive_sub A; derive_sub B; derive_sub C; derive_sub U; derive_sub V; derive_sub W; ring]).
Qed.
Lemma zxy_J_scalar (a b c u v w : R -> R) (t da db dc du dv dw : R) :
  is_derive a t da -> is_derive b t db -> is_derive c t dc ->
  is_derive u t du -> is_derive v t dv -> is_derive w t dw ->
  let J := zxy_J (V3 (a t) (b t) (c t)) (V3 (u t) (v t) (w t)) in
  v3_derive (fun s => zxy_omega (V3 (a s) (b s) (c s)) (V3 (u s) (v s) (w s))) t
    (v3_add (m3_vec (fst J) (V3 da db dc)) (m3_vec (snd J) (V3 du dv dw))).
Proof.
  intros A B C U V W. cbv zeta.
  derive_ex A. derive_ex B. derive_ex C. derive_ex U. derive_ex V. derive_ex W.
  unfold v3_derive, zxy_omega, zxy_J, zxy_S. cbn [fst snd]. kunf.
  split; [ | split];
    (auto_derive; [derive_side | derive_sub A; derive_sub B; derive_sub C; derive_sub U; derive_sub V; derive_sub W; ring]).
Qed.

Lemma ypr_jac : velocity_jacobian ypr_omega (fun p v J => J = ypr_J p v) (fun _ => True).
Proof.
  intros p v t pd vd J (A & B & C) (U & V & W) _ ->.
  pose proof (ypr_J_scalar _ _ _ _ _ _ t _ _ _ _ _ _ A B C U V W) as H.
  cbv zeta in H. rewrite !v3_eta in H. exact H.
Qed.
Lemma zyx_jac : velocity_jacobian zyx_omega (fun p v J => J = zyx_J p v) (fun _ => True).
Proof.
  intros p v t pd vd J (A & B & C) (U & V & W) _ ->.
  pose proof (zyx_J_scalar _ _ _ _ _ _ t _ _ _ _ _ _ A B C U V W) as H.
  cbv zeta in H. rewrite !v3_eta in H. exact H.
Qed.
Lemma zxy_jac : velocity_jacobian zxy_omega (fun p v J => J = zxy_J p v) (fun _ => True).
Proof.
  intros p v t pd vd J (A & B & C) (U & V & W) _ ->.
  pose proof (zxy_J_scalar _ _ _ _ _ _ t _ _ _ _ _ _ A B C U V W) as H.
  cbv zeta in H. rewrite !v3_eta in H. exact H.
Qed.

(** ** Gimbal lock: with the middle angle at a right angle the other two
    angles are read back as zero, and the rotation is lost. *)
Lemma gimbal_lost :
  ypr_params (ypr_C (V3 0 (PI / 2) (PI / 2))) = V3 0 (PI / 2) 0 /\
  m01 (ypr_C (V3 0 (PI / 2) (PI / 2))) = 1 /\ m01 (ypr_C (V3 0 (PI / 2) 0)) = 0.
Proof.
  unfold ypr_C, ypr_params. cbn [x0 x1 x2 m00 m01 m10 m20 m21 m22].
  rewrite ?sin_PI2, ?cos_PI2, ?sin_0, ?cos_0.
  split; [ | split; ring].
  replace (1 * 0) with 0 by ring. replace (0 * 0) with 0 by ring. replace (0 * 1) with 0 by ring.
  rewrite atan2_origin. replace (- - (1)) with 1 by ring. rewrite asin_1. reflexivity.
Qed.

(** ** angleMod *)

Lemma round_away_near x : Rabs (x - IZR (round_away x)) <= 1 / 2.
Proof.
  unfold round_away. destruct (ltb_spec x 0) as [L | L].
  - rewrite opp_IZR. destruct (base_Int_part (- x + 1/2)) as [A B]. apply Rabs_le. lra.
  - destruct (base_Int_part (x + 1/2)) as [A B]. apply Rabs_le. lra.
Qed.
Lemma angleMod_range a : - PI <= angleMod a <= PI.
Proof.
  unfold angleMod. pose proof PI_RGT_0 as P. set (k := round_away (a / (2 * PI))).
  pose proof (round_away_near (a / (2 * PI))) as H. fold k in H.
  assert (E : a - 2 * PI * IZR k = 2 * PI * (a / (2 * PI) - IZR k)) by (field; lra).
  rewrite E. set (d := _ - IZR k) in *. clearbody d. revert H. unfold Rabs. destruct (Rcase_abs d); intros; nra.
Qed.
Lemma sin_cos_turns (k : Z) (a : R) : sin (a + 2 * PI * IZR k) = sin a /\ cos (a + 2 * PI * IZR k) = cos a.
Proof.
  assert (N : forall (n : nat) (b : R), sin (b + 2 * PI * INR n) = sin b /\ cos (b + 2 * PI * INR n) = cos b).
  { intros n b. replace (b + 2 * PI * INR n) with (b + 2 * INR n * PI) by ring.
    split; [apply sin_period | apply cos_period]. }
  destruct k as [ | m | m].
  - replace (a + 2 * PI * 0) with a by ring. split; reflexivity.
  - assert (E : IZR (Z.pos m) = INR (Pos.to_nat m)) by (rewrite INR_IZR_INZ, positive_nat_Z; reflexivity).
    rewrite E. apply N.
  - assert (E : IZR (Z.neg m) = - INR (Pos.to_nat m))
      by (rewrite <- Pos2Z.opp_pos, opp_IZR, INR_IZR_INZ, positive_nat_Z; reflexivity).
    rewrite E.
    destruct (N (Pos.to_nat m) (a + 2 * PI * - INR (Pos.to_nat m))) as [A B].
    replace (a + 2 * PI * - INR (Pos.to_nat m) + 2 * PI * INR (Pos.to_nat m)) with a in A, B by ring.
    split; symmetry; assumption.
Qed.
Lemma angleMod_same a : sin (angleMod a) = sin a /\ cos (angleMod a) = cos a.
Proof.
  unfold angleMod. set (k := round_away _).
  replace (a - 2 * PI * IZR k) with (a + 2 * PI * IZR (- k)) by (rewrite opp_IZR; ring).
  apply sin_cos_turns.
Qed.
