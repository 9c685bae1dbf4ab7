(** * Proofs: undistortion, and the field-of-view model *)

From Coquelicot Require Import Coquelicot.
From Coq Require Import Reals List Psatz.
From Verif Require Import KinModel KinSpec KinProofs KinExp KinCurve DistModel DistSpec DistProofs.
Import ListNotations.
Local Open Scope R_scope.

Lemma PI_bounds : 3 < PI < 4.
Proof.
  split; [pose proof PI2_3_2; lra | ].
  pose proof (PI_ineq 1) as [_ H]. cbn [Nat.mul Nat.add sum_f_R0] in H. unfold tg_alt, PI_tg in H.
  cbn [pow Nat.mul Nat.add INR] in H. lra.
Qed.

(** ** Equidistant undistortion *)
Definition eq_next (D : eqd) (thetad theta : R) : R := thetad / eq_poly D theta.

Lemma eq_iterate_plus n D a b : eq_iterate (S n) D a b =
  if Req_EM_T (eq_poly D b) 0 then NotFinite else eq_iterate n D a (eq_next D a b).
Proof. reflexivity. Qed.

(** If the iteration is a contraction with factor [q] on an interval that
    contains the starting angle and the true one, [n] rounds reduce the error
    by q^n. *)
Lemma eq_contract n D thetad lo hi q th :
  0 <= q ->
  (forall a, lo <= a <= hi -> eq_poly D a <> 0 /\ lo <= eq_next D thetad a <= hi) ->
  (forall a b, lo <= a <= hi -> lo <= b <= hi -> Rabs (eq_next D thetad a - eq_next D thetad b) <= q * Rabs (a - b)) ->
  lo <= th <= hi -> eq_next D thetad th = th ->
  forall a, lo <= a <= hi -> exists a', eq_iterate n D thetad a = Val a' /\ lo <= a' <= hi /\ Rabs (a' - th) <= q ^ n * Rabs (a - th).
Proof.
  intros Hq Hin Hc Ht Hf. induction n as [ | n IH]; intros a Ha.
  - exists a. cbn [eq_iterate pow]. split; [reflexivity | ]. split; [exact Ha | ]. lra.
  - rewrite eq_iterate_plus. destruct (Hin a Ha) as (N & Ha'). destruct (Req_EM_T (eq_poly D a) 0); [contradiction | ].
    destruct (IH _ Ha') as (a' & E & I & B). exists a'. split; [exact E | ]. split; [exact I | ].
    apply (Rle_trans _ _ _ B). cbn [pow]. assert (C := Hc a th Ha Ht). rewrite Hf in C.
    assert (0 <= q ^ n) by (apply pow_le; exact Hq). nra.
Qed.

Lemma eq_undistort_form D y th : radius y <> 0 -> eq_iterate 20 D (radius y) (radius y) = Val th ->
  eq_undistort D y = Val (V2 (u0 y * (tan th / radius y)) (u1 y * (tan th / radius y))).
Proof.
  intros N E. unfold eq_undistort. fold (radius y). rewrite E. cbn [rbind]. destruct (Req_EM_T (radius y) 0); [contradiction | reflexivity].
Qed.

Lemma radius_scaled y s : 0 <= s -> radius (V2 (u0 y * s) (u1 y * s)) = radius y * s.
Proof.
  intros H. unfold radius. cbn [u0 u1].
  replace (u0 y * s * (u0 y * s) + u1 y * s * (u1 y * s)) with ((u0 y * u0 y + u1 y * u1 y) * (s * s)) by ring.
  rewrite sqrt_mult; [ | nra | nra]. rewrite sqrt_square by exact H. reflexivity.
Qed.

(** The distorted radius is theta * polynomial(theta) when that is positive. *)
Lemma eq_distort_radius D y : 1 / 10 ^ 8 < radius y -> 0 <= eq_poly D (atan (radius y)) ->
  radius (eq_distort D y) = atan (radius y) * eq_poly D (atan (radius y)).
Proof.
  intros H P. assert (S0 := small_pos). rewrite eq_distort_far by exact H. unfold eq_gain.
  assert (A : 0 < atan (radius y)). { rewrite <- atan_0. apply atan_increasing. lra. }
  rewrite radius_scaled; [field; lra | ].
  apply Rmult_le_pos; [nra | apply Rlt_le, Rinv_0_lt_compat; lra].
Qed.

(** If the last angle is a fixed point, distorting the result gives the input. *)
Lemma eq_fixed_point D y th : 0 < th < PI / 2 -> 1 / 10 ^ 8 < tan th -> radius y = th * eq_poly D th -> radius y <> 0 ->
  eq_distort D (V2 (u0 y * (tan th / radius y)) (u1 y * (tan th / radius y))) = y.
Proof.
  intros T L E N. assert (S0 := small_pos). assert (R0 := radius_pos y).
  assert (TP : 0 < tan th) by (apply tan_gt_0; lra).
  assert (RR : radius (V2 (u0 y * (tan th / radius y)) (u1 y * (tan th / radius y))) = tan th).
  { rewrite radius_scaled; [field; exact N | ]. apply Rmult_le_pos; [lra | apply Rlt_le, Rinv_0_lt_compat; lra]. }
  rewrite eq_distort_far by (rewrite RR; exact L). rewrite RR. unfold eq_gain.
  rewrite atan_tan by lra. rewrite <- E. cbn [u0 u1]. rewrite <- (v2_eta y) at 7.
  f_equal; field; split; try lra; exact N.
Qed.

(** Undistorting a distorted point: the result is the point itself, scaled by
    the ratio of the tangents of the computed and the true angle. *)
Lemma eq_undistort_distort D x a' : 1 / 10 ^ 8 < radius x -> 0 < eq_poly D (atan (radius x)) ->
  let thd := atan (radius x) * eq_poly D (atan (radius x)) in
  eq_iterate 20 D thd thd = Val a' ->
  eq_undistort D (eq_distort D x) = Val (v2_scale (tan a' / radius x) x).
Proof.
  intros H P thd E. assert (S0 := small_pos).
  assert (A : 0 < atan (radius x)). { rewrite <- atan_0. apply atan_increasing. lra. }
  assert (RR : radius (eq_distort D x) = thd) by (apply eq_distort_radius; lra).
  assert (TP : 0 < thd) by (unfold thd; nra).
  rewrite (eq_undistort_form D _ a'); [ | rewrite RR; lra | rewrite RR; exact E].
  rewrite RR. rewrite eq_distort_far by exact H. unfold v2_scale, eq_gain. fold thd. cbn [u0 u1].
  f_equal. f_equal; field; split; lra.
Qed.

(** With all coefficients zero the iteration is exact. *)
Lemma eq_iterate_zero n a b : eq_iterate (S n) (EQ 0 0 0 0) a b = Val a.
Proof.
  revert b. induction n as [ | n IH]; intros b.
  - rewrite eq_iterate_plus. unfold eq_next, eq_poly. cbn [ek1 ek2 ek3 ek4 eq_iterate].
    match goal with |- context [Req_EM_T ?p 0] => replace p with 1 by ring end.
    destruct (Req_EM_T 1 0); [lra | ]. f_equal. field.
  - rewrite eq_iterate_plus. unfold eq_next, eq_poly. cbn [ek1 ek2 ek3 ek4].
    match goal with |- context [Req_EM_T ?p 0] => replace p with 1 by ring end.
    destruct (Req_EM_T 1 0); [lra | ]. apply IH.
Qed.

(** A camera for which the iteration oscillates: k1 = 3/2, true angle 1. *)
Definition osc : eqd := EQ (3 / 2) 0 0 0.
Lemma osc_poly t : eq_poly osc t = 1 + 3 / 2 * (t * t).
Proof. unfold eq_poly, osc. cbn [ek1 ek2 ek3 ek4]. ring. Qed.
Lemma osc_poly_pos t : 0 < eq_poly osc t.
Proof. rewrite osc_poly. nra. Qed.
Lemma osc_step t : 2 <= t <= 5 / 2 -> 2 <= eq_next osc (5 / 2) (eq_next osc (5 / 2) t) <= 5 / 2.
Proof.
  intros H. unfold eq_next. rewrite !osc_poly.
  assert (A : 0 < (5 / 2) / (1 + 3 / 2 * (t * t)) <= 5 / 14).
  { split; [apply Rdiv_lt_0_compat; nra | ]. apply Rle_div_l; nra. }
  set (b := (5 / 2) / (1 + 3 / 2 * (t * t))) in *. clearbody b. split.
  - apply Rle_div_r; nra.
  - apply Rle_div_l; nra.
Qed.
Lemma osc_iterate n t : 2 <= t <= 5 / 2 -> exists t', eq_iterate (2 * n) osc (5 / 2) t = Val t' /\ 2 <= t' <= 5 / 2.
Proof.
  revert t. induction n as [ | n IH]; intros t H; [exists t; split; [reflexivity | exact H] | ].
  replace (2 * S n)%nat with (S (S (2 * n))) by lia. rewrite !eq_iterate_plus.
  destruct (Req_EM_T (eq_poly osc t) 0) as [Z | _]; [exfalso; exact (Rlt_not_eq _ _ (osc_poly_pos _) (eq_sym Z)) | ].
  destruct (Req_EM_T (eq_poly osc (eq_next osc (5 / 2) t)) 0) as [Z | _]; [exfalso; exact (Rlt_not_eq _ _ (osc_poly_pos _) (eq_sym Z)) | ].
  apply IH. apply osc_step. exact H.
Qed.
Lemma tan_neg t : PI / 2 < t < PI -> tan t < 0.
Proof.
  intros H. unfold tan. assert (0 < sin t) by (apply sin_gt_0; lra).
  assert (cos t < 0) by (apply cos_lt_0; lra).
  unfold Rdiv. assert (/ cos t < 0) by (apply Rinv_lt_0_compat; assumption).
  rewrite <- (Rmult_0_r (sin t)). apply Rmult_lt_compat_l; assumption.
Qed.
Lemma tan1_pos : 1 < tan 1.
Proof.
  pose proof PI_bounds. apply (Rle_lt_trans _ (tan (PI / 4))); [rewrite tan_PI4; lra | ].
  apply tan_increasing; lra.
Qed.

(** ** Field-of-view *)
Lemma five_pos : 0 < 1 / 10 ^ 5.
Proof. apply Rdiv_lt_0_compat; [lra | apply pow_lt; lra]. Qed.
Lemma fov_facts w : 1 / 2 <= w <= 3 / 2 -> 0 < cos (w / 2) /\ 0 < tan (w / 2) /\ ~ w * w < 1 / 10 ^ 5.
Proof.
  intros H. pose proof PI_bounds. split; [apply cos_gt_0; lra | ]. split; [apply tan_gt_0; lra | ].
  assert (1 / 10 ^ 5 < 1 / 4) by (cbn [pow]; lra). nra.
Qed.
Definition fov_gain (w r : R) : R := atan (2 * tan (w / 2) * r) / (r * w).
Lemma fov_distort_far w y : 1 / 2 <= w <= 3 / 2 -> 1 / 10 ^ 5 <= radius y * radius y ->
  fov_distort w y = V2 (u0 y * fov_gain w (radius y)) (u1 y * fov_gain w (radius y)).
Proof.
  intros W H. destruct (fov_facts w W) as (_ & _ & N). unfold fov_distort. rewrite radius_norm.
  destruct (Rlt_dec (w * w) (1 / 10 ^ 5)); [contradiction | ].
  destruct (Rlt_dec (radius y * radius y) (1 / 10 ^ 5)); [lra | ].
  unfold v2_scale, fov_gain. f_equal; ring.
Qed.
Lemma fov_distort_close w y : 1 / 2 <= w <= 3 / 2 -> radius y * radius y < 1 / 10 ^ 5 ->
  fov_distort w y = v2_scale (2 * tan (w / 2) / w) y.
Proof.
  intros W H. destruct (fov_facts w W) as (_ & _ & N). unfold fov_distort. rewrite radius_norm.
  destruct (Rlt_dec (w * w) (1 / 10 ^ 5)); [contradiction | ].
  destruct (Rlt_dec (radius y * radius y) (1 / 10 ^ 5)); [reflexivity | contradiction].
Qed.
Lemma fov_gain_derive w r : 1 / 2 <= w <= 3 / 2 -> 0 < r ->
  is_derive (fov_gain w) r
    (2 * tan (w / 2) / (1 + (2 * tan (w / 2) * r) * (2 * tan (w / 2) * r)) / (r * w) - atan (2 * tan (w / 2) * r) * w / ((r * w) * (r * w))).
Proof.
  intros W P. unfold fov_gain. generalize (tan (w / 2)). intros k. auto_derive.
  - nra.
  - req. unfold Rsqr. field. assert (0 <= (2 * k * r) * (2 * k * r)) by nra. repeat split; try lra; nra.
Qed.
Lemma fov_J_algebra (w k a r x y dx dy : R) : r * r = x * x + y * y -> 0 < r -> 0 < w ->
  let g := a / (r * w) in
  let dg := 2 * k / (1 + (2 * k * r) * (2 * k * r)) / (r * w) - a * w / ((r * w) * (r * w)) in
  let dr := (x * dx + y * dy) / r in
  dx * g + x * (dr * dg) =
    (a / (w * r) - (x * x * a) / (w * (r * r * r)) + (2 * x * x * k) / (w * (x * x + y * y) * (4 * (k * k) * (x * x + y * y) + 1))) * dx
    + ((2 * x * y * k) / (w * (x * x + y * y) * (4 * (k * k) * (x * x + y * y) + 1)) - (x * y * a) / (w * (r * r * r))) * dy /\
  dy * g + y * (dr * dg) =
    ((2 * x * y * k) / (w * (x * x + y * y) * (4 * (k * k) * (x * x + y * y) + 1)) - (x * y * a) / (w * (r * r * r))) * dx
    + (a / (w * r) - (y * y * a) / (w * (r * r * r)) + (2 * y * y * k) / (w * (x * x + y * y) * (4 * (k * k) * (x * x + y * y) + 1))) * dy.
Proof.
  intros E H W. cbv zeta. rewrite <- E. assert (0 <= (2 * k * r) * (2 * k * r)) by nra.
  assert (4 * (k * k) * (r * r) + 1 <> 0) by nra. assert (1 + 2 * k * r * (2 * k * r) <> 0) by nra.
  split; field [E]; repeat split; try lra; nra.
Qed.

Lemma fov_jacobian w y : 1 / 2 <= w <= 3 / 2 -> radius y * radius y <> 1 / 10 ^ 5 ->
  jacobian (fov_distort w) y (fov_J w y).
Proof.
  intros W Ne c t d E H. subst y. destruct (fov_facts w W) as (_ & _ & NW). assert (F0 := five_pos).
  assert (R0 := radius_pos (c t)). destruct (Rlt_dec (radius (c t) * radius (c t)) (1 / 10 ^ 5)) as [L | L].
  - assert (EJ : fov_J w (c t) = m2_scale (2 * tan (w / 2) / w) m2_I).
    { unfold fov_J. rewrite radius_norm. destruct (Rlt_dec (w * w) (1 / 10 ^ 5)); [contradiction | ].
      destruct (Rlt_dec (radius (c t) * radius (c t)) (1 / 10 ^ 5)); [reflexivity | contradiction]. }
    rewrite EJ. destruct H as (A & B).
    apply (v2_derive_ext_loc (fun s => v2_scale (2 * tan (w / 2) / w) (c s))).
    + assert (C : continuous (fun s => u0 (c s) * u0 (c s) + u1 (c s) * u1 (c s)) t).
      { apply (continuous_plus (fun s => u0 (c s) * u0 (c s)) (fun s => u1 (c s) * u1 (c s)));
          [apply (continuous_mult (fun s => u0 (c s)) (fun s => u0 (c s))) | apply (continuous_mult (fun s => u1 (c s)) (fun s => u1 (c s)))];
          eapply derive_continuous; eassumption. }
      rewrite radius2 in L. eapply filter_imp; [ | exact (locally_lt _ t _ C L)]. cbv beta. intros s Ls.
      symmetry. apply fov_distort_close; [exact W | ]. rewrite radius2. exact Ls.
    + generalize (2 * tan (w / 2) / w). intros k. destruct d as [dx dy].
      unfold v2_derive, v2_scale, m2_scale, m2_I, m2_vec. cbn [u0 u1 n00 n01 n10 n11] in *. split.
      * eapply is_derive_eq; [ | exact (is_derive_scal (fun s => u0 (c s)) t k dx A)]. req. ring.
      * eapply is_derive_eq; [ | exact (is_derive_scal (fun s => u1 (c s)) t k dy B)]. req. ring.
  - assert (G : 1 / 10 ^ 5 < radius (c t) * radius (c t)) by lra.
    set (k := sqrt (1 / 10 ^ 5)). assert (K2 : k * k = 1 / 10 ^ 5) by (apply sqrt_sqrt; lra). assert (K0 : 0 < k) by (apply sqrt_lt_R0; exact F0).
    assert (Kr : k < radius (c t)) by nra.
    apply (v2_derive_ext_loc (fun s => V2 (u0 (c s) * fov_gain w (radius (c s))) (u1 (c s) * fov_gain w (radius (c s))))).
    { eapply filter_imp; [ | exact (radius_near c t d k H (Rlt_le _ _ K0) Kr)]. cbv beta. intros s Ls. symmetry.
      apply fov_distort_far; [exact W | nra]. }
    pose proof (proj1 H) as Hx. pose proof (proj2 H) as Hy.
    assert (P : 0 < radius (c t)) by lra.
    assert (HR := radius_curve c t d H P). assert (HG := fov_gain_derive w (radius (c t)) W P).
    eapply v2_derive_eq; [ | exact (radial_derive _ _ _ _ _ _ _ _ _ Hx Hy HR HG)].
    unfold fov_J. change (v2_norm (c t)) with (radius (c t)). destruct (Rlt_dec (w * w) (1 / 10 ^ 5)); [contradiction | ].
    destruct (Rlt_dec (radius (c t) * radius (c t)) (1 / 10 ^ 5)); [contradiction | ].
    assert (Q := radius2 (c t)). set (r := radius (c t)) in *. clearbody r. destruct d as [dx dy]. cbn [u0 u1] in *.
    unfold m2_vec, fov_gain. cbn [u0 u1 n00 n01 n10 n11].
    destruct (fov_J_algebra w (tan (w / 2)) (atan (2 * tan (w / 2) * r)) r (u0 (c t)) (u1 (c t)) dx dy Q P ltac:(lra)) as (E1 & E2).
    f_equal; [exact E1 | exact E2].
Qed.

(** Moving the parameter. *)
Lemma fov_pscalar (f : R -> R) (y r w df : R) : is_derive f w df -> 0 < w -> 0 < r ->
  is_derive (fun s => y * (atan (2 * f s * r) / (r * s))) w
    (y * ((2 * df * r / (1 + (2 * f w * r) * (2 * f w * r))) / (r * w) - atan (2 * f w * r) * r / ((r * w) * (r * w)))).
Proof.
  intros H W P. assert (K : 0 <= (2 * f w * r) * (2 * f w * r)) by nra. auto_derive.
  - split; [exact (ex_intro _ df H) | ]. split; [nra | exact I].
  - derive_sub H. req. unfold Rsqr. field. repeat split; try lra; nra.
Qed.
Lemma tan_half_derive w : 0 < cos (w / 2) -> is_derive (fun s => tan (s / 2)) w ((tan (w / 2) * tan (w / 2) + 1) / 2).
Proof.
  intros C. eapply is_derive_eq; [ | apply (is_derive_comp tan (fun s => s / 2) w);
      [apply is_derive_tan; lra | auto_derive; [tauto | reflexivity]]]. req. unfold scal; cbn; unfold mult; cbn. field.
Qed.
Lemma fov_param_jacobian w0 y : 1 / 2 < w0 < 3 / 2 -> 1 / 10 ^ 5 <= radius y * radius y ->
  parameter_jacobian 1 (fun p => fov_distort (nth 0 p 0) y) [w0] (fov_paramJ w0 y).
Proof.
  intros W Hr. assert (W' : 1 / 2 <= w0 <= 3 / 2) by lra. destruct (fov_facts w0 W') as (C & T & N).
  assert (F0 := five_pos). assert (R0 := radius_pos y). assert (P : 0 < radius y) by nra.
  unfold fov_paramJ. change (v2_norm y) with (radius y).
  destruct (Rlt_dec (w0 * w0) (1 / 10 ^ 5)); [contradiction | ].
  destruct (Rlt_dec (radius y * radius y) (1 / 10 ^ 5)); [lra | ].
  split; [reflexivity | ]. intros p t dp E (L & H).
  destruct dp as [ | d [ | ]]; try discriminate. specialize (H O ltac:(lia)). specialize (E O ltac:(lia)).
  cbn [nth] in H, E. assert (Cp := derive_continuous _ _ _ H).
  assert (G : is_derive (fun s => tan (nth 0 (p s) 0 / 2)) t (d * ((tan (w0 / 2) * tan (w0 / 2) + 1) / 2))).
  { apply (is_derive_comp (fun v => tan (v / 2)) (fun s => nth 0 (p s) 0)); [ | exact H]. rewrite E. apply tan_half_derive; exact C. }
  apply (v2_derive_ext_loc (fun s => V2 (u0 y * fov_gain (nth 0 (p s) 0) (radius y)) (u1 y * fov_gain (nth 0 (p s) 0) (radius y)))).
  { assert (A0 : 1 / 2 < nth 0 (p t) 0) by (rewrite E; lra). assert (B0 : nth 0 (p t) 0 < 3 / 2) by (rewrite E; lra).
    assert (A := locally_gt _ t _ Cp A0). assert (B := locally_lt _ t _ Cp B0).
    eapply filter_imp; [ | exact (filter_and _ _ A B)]. cbv beta. intros s (As & Bs). symmetry. apply fov_distort_far; lra. }
  assert (D : forall k, is_derive (fun s => k * fov_gain (nth 0 (p s) 0) (radius y)) t
     (d * (k * ((2 * ((tan (w0 / 2) * tan (w0 / 2) + 1) / 2) * radius y / (1 + (2 * tan (w0 / 2) * radius y) * (2 * tan (w0 / 2) * radius y))) / (radius y * w0)
        - atan (2 * tan (w0 / 2) * radius y) * radius y / ((radius y * w0) * (radius y * w0)))))).
  { intros k. apply (is_derive_comp (fun v => k * fov_gain v (radius y)) (fun s => nth 0 (p s) 0)); [ | exact H]. rewrite E.
    unfold fov_gain. apply (fov_pscalar (fun v => tan (v / 2))); [apply tan_half_derive; exact C | lra | exact P]. }
  assert (K : 0 <= (2 * tan (w0 / 2) * radius y) * (2 * tan (w0 / 2) * radius y)) by nra.
  unfold combine_cols, v2_add, v2_scale. cbn [u0 u1].
  split; cbn [u0 u1]; (eapply is_derive_eq; [ | apply D]); req; field; repeat split; try lra; nra.
Qed.

(** ** Undistortion of the field-of-view model *)
Lemma radius_scale k y : 0 <= k -> radius (v2_scale k y) = k * radius y.
Proof.
  intros K. unfold radius, v2_scale. cbn [u0 u1].
  replace (k * u0 y * (k * u0 y) + k * u1 y * (k * u1 y)) with ((k * k) * (u0 y * u0 y + u1 y * u1 y)) by ring.
  rewrite sqrt_mult by nra. rewrite sqrt_square by exact K. reflexivity.
Qed.
Lemma v2_scale_scale a b y : v2_scale a (v2_scale b y) = v2_scale (a * b) y.
Proof. unfold v2_scale. cbn [u0 u1]. f_equal; ring. Qed.
Lemma v2_scale_1 y : v2_scale 1 y = y.
Proof. unfold v2_scale. rewrite !Rmult_1_l. apply v2_eta. Qed.
Lemma max_angle_bounds : 0 < fov_max_angle < PI / 2.
Proof. unfold fov_max_angle. pose proof PI_bounds. lra. Qed.

Lemma fov_undistort_distort w y : 1 / 2 <= w <= 3 / 2 -> 1 / 10 ^ 5 <= radius y * radius y ->
  atan (2 * tan (w / 2) * radius y) <= fov_max_angle ->
  fov_undistort w (fov_distort w y) = Val y.
Proof.
  intros W Hr A. destruct (fov_facts w W) as (C & T & N). assert (F0 := five_pos). assert (R0 := radius_pos y).
  assert (P : 0 < radius y) by nra. rewrite (fov_distort_far w y W Hr).
  change (V2 (u0 y * fov_gain w (radius y)) (u1 y * fov_gain w (radius y))) with (V2 (u0 y * fov_gain w (radius y)) (u1 y * fov_gain w (radius y))).
  replace (V2 (u0 y * fov_gain w (radius y)) (u1 y * fov_gain w (radius y))) with (v2_scale (fov_gain w (radius y)) y) by (unfold v2_scale; f_equal; ring).
  assert (X : 0 < 2 * tan (w / 2) * radius y) by nra.
  assert (AP : 0 < atan (2 * tan (w / 2) * radius y)) by (rewrite <- atan_0; apply atan_increasing; exact X).
  assert (G : 0 < fov_gain w (radius y)) by (unfold fov_gain; apply Rdiv_lt_0_compat; nra).
  assert (RD : radius (v2_scale (fov_gain w (radius y)) y) = atan (2 * tan (w / 2) * radius y) / w).
  { rewrite radius_scale by lra. unfold fov_gain. field. lra. }
  unfold fov_undistort. change (v2_norm ?z) with (radius z). rewrite RD.
  destruct (Req_EM_T (tan (w / 2) * 2) 0); [lra | ].
  assert (RDP : 0 < atan (2 * tan (w / 2) * radius y) / w) by (apply Rdiv_lt_0_compat; lra).
  destruct (Req_EM_T (atan (2 * tan (w / 2) * radius y) / w) 0); [lra | ].
  replace (atan (2 * tan (w / 2) * radius y) / w * w) with (atan (2 * tan (w / 2) * radius y)) by (field; lra).
  destruct (Rle_dec (Rabs (atan (2 * tan (w / 2) * radius y))) fov_max_angle) as [_ | B]; [ | exfalso; apply B; rewrite Rabs_pos_eq; lra].
  rewrite v2_scale_scale, tan_atan. f_equal. transitivity (v2_scale 1 y); [ | apply v2_scale_1]. f_equal. unfold fov_gain.
  field. repeat split; lra.
Qed.
Lemma fov_undistort_beyond w y : 1 / 2 <= w <= 3 / 2 -> 1 / 10 ^ 5 <= radius y * radius y ->
  fov_max_angle < atan (2 * tan (w / 2) * radius y) ->
  fov_undistort w (fov_distort w y) = Val (fov_distort w y).
Proof.
  intros W Hr A. destruct (fov_facts w W) as (C & T & N). assert (F0 := five_pos). assert (R0 := radius_pos y).
  assert (M := max_angle_bounds).
  assert (P : 0 < radius y) by nra. rewrite (fov_distort_far w y W Hr).
  replace (V2 (u0 y * fov_gain w (radius y)) (u1 y * fov_gain w (radius y))) with (v2_scale (fov_gain w (radius y)) y) by (unfold v2_scale; f_equal; ring).
  assert (G : 0 < fov_gain w (radius y)) by (unfold fov_gain; apply Rdiv_lt_0_compat; nra).
  assert (RD : radius (v2_scale (fov_gain w (radius y)) y) = atan (2 * tan (w / 2) * radius y) / w).
  { rewrite radius_scale by lra. unfold fov_gain. field. lra. }
  unfold fov_undistort. change (v2_norm ?z) with (radius z). rewrite RD.
  destruct (Req_EM_T (tan (w / 2) * 2) 0); [lra | ].
  assert (RDP : 0 < atan (2 * tan (w / 2) * radius y) / w) by (apply Rdiv_lt_0_compat; lra).
  destruct (Req_EM_T (atan (2 * tan (w / 2) * radius y) / w) 0); [lra | ].
  replace (atan (2 * tan (w / 2) * radius y) / w * w) with (atan (2 * tan (w / 2) * radius y)) by (field; lra).
  destruct (Rle_dec (Rabs (atan (2 * tan (w / 2) * radius y))) fov_max_angle) as [B | _]; [ | reflexivity].
  rewrite Rabs_pos_eq in B; lra.
Qed.
Lemma fov_distort_undistort w y x : 1 / 2 <= w <= 3 / 2 -> radius y * w <= fov_max_angle ->
  fov_undistort w y = Val x -> 1 / 10 ^ 5 <= radius x * radius x -> fov_distort w x = y.
Proof.
  intros W A E Hx. destruct (fov_facts w W) as (C & T & N). assert (F0 := five_pos). assert (R0 := radius_pos y).
  assert (M := max_angle_bounds). unfold fov_undistort in E. change (v2_norm ?z) with (radius z) in E.
  destruct (Req_EM_T (tan (w / 2) * 2) 0); [lra | ].
  destruct (Req_EM_T (radius y) 0) as [Z | NZ].
  { assert (x = y) by congruence. subst x. rewrite Z in Hx. lra. }
  destruct (Rle_dec (Rabs (radius y * w)) fov_max_angle) as [_ | B]; [ | exfalso; apply B; rewrite Rabs_pos_eq; nra].
  assert (P : 0 < radius y) by lra. assert (WP : 0 < radius y * w) by nra.
  assert (TP : 0 < tan (radius y * w)) by (apply tan_gt_0; lra).
  set (k := tan (radius y * w) / (radius y * (tan (w / 2) * 2))) in *.
  assert (K : 0 < k) by (apply Rdiv_lt_0_compat; nra). assert (x = v2_scale k y) by congruence. subst x.
  rewrite (fov_distort_far w _ W Hx). rewrite radius_scale by lra.
  assert (KR : 2 * tan (w / 2) * (k * radius y) = tan (radius y * w)) by (unfold k; field; lra).
  assert (G : fov_gain w (k * radius y) = / k).
  { unfold fov_gain. rewrite KR, atan_tan by lra. field. lra. }
  rewrite G. transitivity (V2 (u0 y) (u1 y)); [ | apply v2_eta]. unfold v2_scale. cbn [u0 u1]. f_equal; field; lra.
Qed.
Lemma fov_small w y : Rabs w < 1 / 10 ^ 16 -> fov_distort w y = y /\ fov_J w y = m2_I.
Proof.
  intros W. assert (w * w < 1 / 10 ^ 5).
  { apply Rabs_def2 in W. assert (0 < 1 / 10 ^ 16 < 1 / 10 ^ 5).
    { cbn [pow]. lra. } nra. }
  unfold fov_distort, fov_J. destruct (Rlt_dec (w * w) (1 / 10 ^ 5)); [ | contradiction].
  split; [apply v2_scale_1 | reflexivity].
Qed.
Lemma fov_zero_undistort y : fov_undistort 0 y = Val y.
Proof. unfold fov_undistort. replace (0 / 2) with 0 by field. rewrite tan_0, Rmult_0_l. destruct (Req_EM_T 0 0); [reflexivity | lra]. Qed.

(** ** Five rounds are not always enough for the radial-tangential model *)
Lemma on_axis n x : rt_iterate (S n) (RT 1 0 0 0) (V2 10 0) (V2 x 0) =
  (if ltb ((10 - (x + x * x * x)) * (10 - (x + x * x * x))) (1 / 10 ^ 15)
   then Val (V2 ((10 + 2 * (x * x * x)) / (1 + 3 * (x * x))) 0)
   else rt_iterate n (RT 1 0 0 0) (V2 10 0) (V2 ((10 + 2 * (x * x * x)) / (1 + 3 * (x * x))) 0)).
Proof.
  assert (P : 0 < 1 + x * x) by nra. assert (Q : 0 < 1 + 3 * (x * x)) by nra.
  assert (EJ : rt_J (RT 1 0 0 0) (V2 x 0) = M2 (1 + 3 * (x * x)) 0 0 (1 + x * x)).
  { unfold rt_J. cbn [u0 u1 rk1 rk2 rp1 rp2]. f_equal; ring. }
  assert (ED : rt_distort (RT 1 0 0 0) (V2 x 0) = V2 (x + x * x * x) 0).
  { unfold rt_distort. cbn [u0 u1 rk1 rk2 rp1 rp2]. f_equal; ring. }
  cbn [rt_iterate]. rewrite EJ, ED.
  unfold m2_inverse. destruct (Req_EM_T _ 0) as [Z | N].
  - exfalso. unfold m2_det, m2_mul, m2_tr in Z. cbn [n00 n01 n10 n11] in Z.
    assert (Z' : ((1 + 3 * (x * x)) * (1 + x * x)) * ((1 + 3 * (x * x)) * (1 + x * x)) = 0) by (rewrite <- Z; ring).
    assert (0 < (1 + 3 * (x * x)) * (1 + x * x)) by (apply Rmult_lt_0_compat; assumption). nra.
  - clear N. cbn [rbind].
    match goal with |- (if _ then Val ?z else _) = _ => assert (EZ : z = V2 ((10 + 2 * (x * x * x)) / (1 + 3 * (x * x))) 0) end.
    { unfold v2_add, m2_vec, m2_mul, m2_scale, m2_tr, m2_det, v2_sub. cbn [u0 u1 n00 n01 n10 n11]. f_equal; field; lra. }
    rewrite EZ. unfold v2_dot, v2_sub. cbn [u0 u1]. replace ((10 - (x + x * x * x)) * (10 - (x + x * x * x)) + (0 - 0) * (0 - 0)) with ((10 - (x + x * x * x)) * (10 - (x + x * x * x))) by ring. reflexivity.
Qed.
Lemma on_axis_bound a b x : 0 <= b -> b <= a -> a <= x -> b * (1 + 3 * (a * a)) <= 10 + 2 * (a * a * a) ->
  b * (1 + 3 * (x * x)) <= 10 + 2 * (x * x * x).
Proof.
  intros B A X H. set (h := x - a). replace x with (a + h) by (unfold h; ring). assert (0 <= h) by (unfold h; lra). clearbody h.
  assert (E : 10 + 2 * ((a + h) * (a + h) * (a + h)) - b * (1 + 3 * ((a + h) * (a + h))) =
    (10 + 2 * (a * a * a) - b * (1 + 3 * (a * a))) + (6 * (a * (a - b))) * h + (3 * a + 3 * (a - b)) * (h * h) + 2 * (h * h * h)) by ring.
  assert (0 <= h * h) by nra. assert (0 <= h * h * h) by nra. assert (0 <= a * (a - b)) by nra.
  assert (0 <= (6 * (a * (a - b))) * h) by nra. assert (0 <= (3 * a + 3 * (a - b)) * (h * h)) by (apply Rmult_le_pos; lra). lra.
Qed.
Lemma on_axis_step a b n x : a <= x -> 203 / 100 <= b ->
  (forall x, a <= x -> b * (1 + 3 * (x * x)) <= 10 + 2 * (x * x * x)) ->
  (forall x, b <= x -> exists x', rt_iterate n (RT 1 0 0 0) (V2 10 0) (V2 x 0) = Val (V2 x' 0) /\ 203 / 100 <= x') ->
  exists x', rt_iterate (S n) (RT 1 0 0 0) (V2 10 0) (V2 x 0) = Val (V2 x' 0) /\ 203 / 100 <= x'.
Proof.
  intros A B H IH. assert (Q : 0 < 1 + 3 * (x * x)) by nra.
  assert (G : b <= (10 + 2 * (x * x * x)) / (1 + 3 * (x * x))) by (apply Rle_div_r; [exact Q | apply H; exact A]).
  rewrite on_axis. destruct (ltb _ _); [ | apply IH; exact G].
  eexists. split; [reflexivity | lra].
Qed.
Lemma on_axis_result : exists x', rt_undistort (RT 1 0 0 0) (V2 10 0) = Val (V2 x' 0) /\ 203 / 100 <= x'.
Proof.
  unfold rt_undistort.
  apply (on_axis_step 10 (667 / 100)); [lra | lra | intros x0 H0; eapply on_axis_bound; [ | | exact H0 | ]; lra | ]. intros x1 H1.
  apply (on_axis_step (667 / 100) (448 / 100)); [lra | lra | intros x0 H0; eapply on_axis_bound; [ | | exact H0 | ]; lra | ]. intros x2 H2.
  apply (on_axis_step (448 / 100) (310 / 100)); [lra | lra | intros x0 H0; eapply on_axis_bound; [ | | exact H0 | ]; lra | ]. intros x3 H3.
  apply (on_axis_step (310 / 100) (232 / 100)); [lra | lra | intros x0 H0; eapply on_axis_bound; [ | | exact H0 | ]; lra | ]. intros x4 H4.
  apply (on_axis_step (232 / 100) (203 / 100)); [lra | lra | intros x0 H0; eapply on_axis_bound; [ | | exact H0 | ]; lra | ]. intros x5 H5.
  exists x5. split; [reflexivity | exact H5].
Qed.

(** With all coefficients zero the radial-tangential model is the identity. *)
Lemma rt_zero y : rt_undistort (RT 0 0 0 0) y = Val y.
Proof.
  apply rt_fixed.
  - destruct y as [a b]. unfold rt_distort. cbn [rk1 rk2 rp1 rp2 u0 u1]. f_equal; ring.
  - unfold rt_J, m2_det. cbn [rk1 rk2 rp1 rp2 n00 n01 n10 n11].
    match goal with |- ?a <> 0 => replace a with 1 by ring end. lra.
Qed.
