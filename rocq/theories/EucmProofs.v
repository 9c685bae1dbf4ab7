(** * Proofs about the extended unified projection *)

From Coquelicot Require Import Coquelicot.
From Coq Require Import Reals List Psatz ZArith Bool.
From Verif Require Import KinModel KinSpec KinProofs KinExp KinCurve DistModel DistSpec DistProofs DistUndist PinModel CamSpec PinProofs OmniModel OmniSpec OmniProofs EucmModel EucmSpec.
Import ListNotations.
Local Open Scope R_scope.

Lemma en2 b p : 0 <= b -> ellipsoid_norm b p * ellipsoid_norm b p = b * (x0 p * x0 p + x1 p * x1 p) + x2 p * x2 p.
Proof. intros B. unfold ellipsoid_norm. apply sqrt_sqrt. assert (0 <= b * (x0 p * x0 p + x1 p * x1 p)) by (apply Rmult_le_pos; nra). nra. Qed.
Lemma en_pos b p : 0 <= ellipsoid_norm b p.
Proof. apply sqrt_pos. Qed.
Lemma en_z b p : 0 <= b -> x2 p <= ellipsoid_norm b p /\ - ellipsoid_norm b p <= x2 p.
Proof.
  intros B. assert (A := en2 b p B). assert (P := en_pos b p). assert (0 <= b * (x0 p * x0 p + x1 p * x1 p)) by (apply Rmult_le_pos; nra). split; nra.
Qed.
Lemma eucm_valid_pos a b p : 0 <= b -> eucm_valid a b p -> 0 < ellipsoid_norm b p.
Proof.
  intros B (V & W). destruct (en_z b p B) as (Z1 & Z2). assert (P := en_pos b p).
  destruct (Rle_lt_dec (ellipsoid_norm b p) 0) as [L | L]; [ | exact L]. assert (E : ellipsoid_norm b p = 0) by lra. rewrite E in *.
  assert (E2 : x2 p = 0) by lra. rewrite E2 in *. lra.
Qed.

(** The test of the field of view, for any depth and distance. *)
Lemma fov_test a d z : z <= d -> - d <= z ->
  (z <= - ((if Rle_dec a (1 / 2) then a / (1 - a) else (1 - a) / a) * d) <-> ~ (0 < a * d + (1 - a) * z /\ 0 < (1 - a) * d + a * z)).
Proof.
  intros Z1 Z2. destruct (Rle_dec a (1 / 2)) as [L | G].
  - assert (I : (1 - a) * (a / (1 - a)) = a) by (field; lra). set (w := a / (1 - a)) in *. clearbody w. split.
    + intros H (A & _). assert ((1 - a) * z <= (1 - a) * - (w * d)) by (apply Rmult_le_compat_l; lra).
      replace ((1 - a) * - (w * d)) with (- ((1 - a) * w * d)) in * by ring. rewrite I in *. lra.
    + intros H. apply Rnot_lt_le. intros C. apply H.
      assert (A : (1 - a) * z > (1 - a) * - (w * d)) by (apply Rmult_gt_compat_l; lra).
      replace ((1 - a) * - (w * d)) with (- ((1 - a) * w * d)) in A by ring. rewrite I in A. split; [lra | ].
      destruct (Rle_lt_dec 0 a) as [P | P].
      * assert (a * - d <= a * z) by (apply Rmult_le_compat_l; lra). assert (0 <= (1 - 2 * a) * d) by (apply Rmult_le_pos; lra).
        destruct (Rle_lt_dec ((1 - a) * d + a * z) 0) as [Q | Q]; [exfalso | exact Q]. nra.
      * assert (d > 0 \/ d = 0) as [D | D] by lra; [nra | ]. subst d. assert (z = 0) by lra. subst z. lra.
  - apply Rnot_le_lt in G. assert (I : a * ((1 - a) / a) = 1 - a) by (field; lra). set (w := (1 - a) / a) in *. clearbody w. split.
    + intros H (_ & A). assert (a * z <= a * - (w * d)) by (apply Rmult_le_compat_l; lra).
      replace (a * - (w * d)) with (- (a * w * d)) in * by ring. rewrite I in *. lra.
    + intros H. apply Rnot_lt_le. intros C. apply H.
      assert (A : a * z > a * - (w * d)) by (apply Rmult_gt_compat_l; lra).
      replace (a * - (w * d)) with (- (a * w * d)) in A by ring. rewrite I in A. split; [ | lra].
      destruct (Rle_lt_dec 0 (1 - a)) as [P | P].
      * destruct (Rle_lt_dec (a * d + (1 - a) * z) 0) as [Q | Q]; [exfalso | exact Q]. nra.
      * assert (d > 0 \/ d = 0) as [D | D] by lra; [nra | ]. subst d. assert (z = 0) by lra. subst z. lra.
Qed.
Lemma eucm_valid_dec a b p : eucm_valid a b p \/ ~ eucm_valid a b p.
Proof.
  unfold eucm_valid. destruct (Rlt_dec 0 (a * ellipsoid_norm b p + (1 - a) * x2 p)), (Rlt_dec 0 ((1 - a) * ellipsoid_norm b p + a * x2 p)); tauto.
Qed.
Lemma d2_pos M p : 0 < eb M -> ~ eucm_d2 M p < 0.
Proof. intros B. unfold eucm_d2. assert (0 <= eb M * (x0 p * x0 p + x1 p * x1 p)) by (apply Rmult_le_pos; nra). nra. Qed.

Definition eucm_point (a b : R) (p : v3) : v2 :=
  V2 (x0 p * (1 / (a * ellipsoid_norm b p + (1 - a) * x2 p))) (x1 p * (1 / (a * ellipsoid_norm b p + (1 - a) * x2 p))).
Lemma eucm_project_valid M p : eucm_sync M -> 0 < eb M -> eucm_valid (ea M) (eb M) p ->
  eucm_project M p = (Val (to_pixel (ei M) (eucm_point (ea M) (eb M) p)), on_sensor (ei M) (to_pixel (ei M) (eucm_point (ea M) (eb M) p))).
Proof.
  intros S B V. unfold eucm_project. destruct (Rlt_dec _ 0) as [N | _]; [exfalso; exact (d2_pos M p B N) | ].
  change (sqrt (eucm_d2 M p)) with (ellipsoid_norm (eb M) p). assert (F := proj2 (proj2 S)). destruct (en_z (eb M) p ltac:(lra)) as (Z1 & Z2).
  destruct (Rle_dec (x2 p) _) as [L | _]; [rewrite F in L; apply (fov_test (ea M) _ _ Z1 Z2) in L; contradiction | ].
  destruct (Req_EM_T _ 0) as [Z | _]; [exfalso; destruct V; lra | reflexivity].
Qed.
Lemma eucm_project_invalid M p : eucm_sync M -> 0 < eb M -> ~ eucm_valid (ea M) (eb M) p -> eucm_project M p = (Unset, false).
Proof.
  intros S B V. unfold eucm_project. destruct (Rlt_dec _ 0) as [N | _]; [exfalso; exact (d2_pos M p B N) | ].
  change (sqrt (eucm_d2 M p)) with (ellipsoid_norm (eb M) p). assert (F := proj2 (proj2 S)). destruct (en_z (eb M) p ltac:(lra)) as (Z1 & Z2).
  destruct (Rle_dec (x2 p) _) as [L | L]; [reflexivity | ]. exfalso. apply L. rewrite F. apply (fov_test (ea M) _ _ Z1 Z2). exact V.
Qed.
Lemma eucm_project_val M p k b : eucm_sync M -> 0 < eb M -> eucm_project M p = (Val k, b) ->
  eucm_valid (ea M) (eb M) p /\ k = to_pixel (ei M) (eucm_point (ea M) (eb M) p) /\ b = on_sensor (ei M) k.
Proof.
  intros S B E. destruct (eucm_valid_dec (ea M) (eb M) p) as [V | V].
  - rewrite (eucm_project_valid M p S B V) in E. assert (Ek : k = to_pixel (ei M) (eucm_point (ea M) (eb M) p)) by congruence.
    split; [exact V | ]. split; [exact Ek | congruence].
  - rewrite (eucm_project_invalid M p S B V) in E. discriminate.
Qed.
Lemma eucm_projectJ_valid M p : eucm_sync M -> 0 < eb M -> eucm_valid (ea M) (eb M) p ->
  let d := ellipsoid_norm (eb M) p in
  let norm := ea M * d + (1 - ea M) * x2 p in
  let denom := 1 / norm * (1 / norm) * (1 / d) in
  let mid := - (ea M * eb M * x0 p * x1 p) * denom in
  let addz := ea M * x2 p + (1 - ea M) * d in
  let k := to_pixel (ei M) (eucm_point (ea M) (eb M) p) in
  eucm_projectJ M p =
    ((Val k, Val (M23 (fu (ei M) * (norm * d - x0 p * x0 p * ea M * eb M) * denom) (fu (ei M) * mid) (- fu (ei M) * x0 p * addz * denom)
                     (fv (ei M) * mid) (fv (ei M) * (norm * d - x1 p * x1 p * ea M * eb M) * denom) (- fv (ei M) * x1 p * addz * denom))), on_sensor (ei M) k).
Proof.
  intros S B V. cbv zeta. unfold eucm_projectJ. destruct (Rlt_dec _ 0) as [N | _]; [exfalso; exact (d2_pos M p B N) | ].
  change (sqrt (eucm_d2 M p)) with (ellipsoid_norm (eb M) p). assert (F := proj2 (proj2 S)). destruct (en_z (eb M) p ltac:(lra)) as (Z1 & Z2).
  destruct (Rle_dec (x2 p) _) as [L | _]; [rewrite F in L; apply (fov_test (ea M) _ _ Z1 Z2) in L; contradiction | ].
  destruct (Req_EM_T _ 0) as [Z | _]; [exfalso; destruct V; lra | ].
  destruct (Req_EM_T _ 0) as [Z | _]; [exfalso; assert (X := eucm_valid_pos _ _ _ (Rlt_le _ _ B) V); lra | reflexivity].
Qed.
Lemma eucm_projectJ_invalid M p : eucm_sync M -> 0 < eb M -> ~ eucm_valid (ea M) (eb M) p -> eucm_projectJ M p = ((Unset, Val m23_0), false).
Proof.
  intros S B V. unfold eucm_projectJ. destruct (Rlt_dec _ 0) as [N | _]; [exfalso; exact (d2_pos M p B N) | ].
  change (sqrt (eucm_d2 M p)) with (ellipsoid_norm (eb M) p). assert (F := proj2 (proj2 S)). destruct (en_z (eb M) p ltac:(lra)) as (Z1 & Z2).
  destruct (Rle_dec (x2 p) _) as [L | L]; [reflexivity | ]. exfalso. apply L. rewrite F. apply (fov_test (ea M) _ _ Z1 Z2). exact V.
Qed.

(** Derivatives, with all quantities moving. *)
Lemma en_derive (x y z b : R -> R) (t dx dy dz db : R) :
  is_derive x t dx -> is_derive y t dy -> is_derive z t dz -> is_derive b t db ->
  0 < b t * (x t * x t + y t * y t) + z t * z t ->
  is_derive (fun s => sqrt (b s * (x s * x s + y s * y s) + z s * z s)) t
    ((b t * (x t * dx + y t * dy) + z t * dz + (1 / 2) * db * (x t * x t + y t * y t)) / sqrt (b t * (x t * x t + y t * y t) + z t * z t)).
Proof.
  intros X Y Z B P. derive_ex X. derive_ex Y. derive_ex Z. derive_ex B. auto_derive; [tauto | ].
  derive_sub X. derive_sub Y. derive_sub Z. derive_sub B. req.
  assert (0 < sqrt (b t * (x t * x t + y t * y t) + z t * z t)) by (apply sqrt_lt_R0; exact P). field. lra.
Qed.
Lemma ratio_derive (x y n : R -> R) (t dx dy dn : R) : is_derive x t dx -> is_derive y t dy -> is_derive n t dn -> n t <> 0 ->
  v2_derive (fun s => V2 (x s * (1 / n s)) (y s * (1 / n s))) t
    (V2 (dx * (1 / n t) - x t * dn * (1 / n t * (1 / n t))) (dy * (1 / n t) - y t * dn * (1 / n t * (1 / n t)))).
Proof.
  intros X Y D N. derive_ex X. derive_ex Y. derive_ex D. split; cbn [u0 u1]; auto_derive; try tauto;
    derive_sub X; derive_sub Y; derive_sub D; req; field; exact N.
Qed.
Lemma blend_derive (a d z : R -> R) (t da dd dz : R) : is_derive a t da -> is_derive d t dd -> is_derive z t dz ->
  is_derive (fun s => a s * d s + (1 - a s) * z s) t (da * (d t - z t) + a t * dd + (1 - a t) * dz).
Proof.
  intros A D Z. derive_ex A. derive_ex D. derive_ex Z. auto_derive; [tauto | ]. derive_sub A. derive_sub D. derive_sub Z. req. ring.
Qed.
Lemma blend2_derive (a d z : R -> R) (t da dd dz : R) : is_derive a t da -> is_derive d t dd -> is_derive z t dz ->
  is_derive (fun s => (1 - a s) * d s + a s * z s) t (da * (z t - d t) + (1 - a t) * dd + a t * dz).
Proof.
  intros A D Z. derive_ex A. derive_ex D. derive_ex Z. auto_derive; [tauto | ]. derive_sub A. derive_sub D. derive_sub Z. req. ring.
Qed.

Lemma en_radicand b p : 0 < ellipsoid_norm b p -> 0 < b * (x0 p * x0 p + x1 p * x1 p) + x2 p * x2 p.
Proof. intros P. unfold ellipsoid_norm in P. apply sqrt_lt_0_alt. rewrite sqrt_0. exact P. Qed.

Lemma eucm_point_jacobian M p k J b : eucm_sync M -> 0 < eb M ->
  eucm_projectJ M p = ((Val k, Val J), b) -> point_jacobian (fun q => fst (eucm_project M q)) p J.
Proof.
  intros S B E c t d Ec Hc. subst p.
  destruct (eucm_valid_dec (ea M) (eb M) (c t)) as [V | V]; [ | rewrite (eucm_projectJ_invalid M _ S B V) in E; discriminate].
  assert (P := eucm_valid_pos _ _ _ (Rlt_le _ _ B) V). pose proof Hc as (X & Y & Z).
  assert (DN := en_derive _ _ _ (fun _ => eb M) t _ _ _ _ X Y Z (@is_derive_const R_AbsRing R_NormedModule (eb M) t) (en_radicand _ _ P)).
  cbv beta in DN. change (@zero R_NormedModule) with 0 in DN.
  change (is_derive (fun s => ellipsoid_norm (eb M) (c s)) t ((eb M * (x0 (c t) * x0 d + x1 (c t) * x1 d) + x2 (c t) * x2 d + 1 / 2 * 0 * (x0 (c t) * x0 (c t) + x1 (c t) * x1 (c t))) / ellipsoid_norm (eb M) (c t))) in DN.
  assert (KA := @is_derive_const R_AbsRing R_NormedModule (ea M) t).
  assert (BD := blend_derive _ _ _ t _ _ _ KA DN Z). assert (BD2 := blend2_derive _ _ _ t _ _ _ KA DN Z). cbv beta in BD, BD2.
  change (@zero R_NormedModule) with 0 in BD, BD2.
  exists (fun s => to_pixel (ei M) (eucm_point (ea M) (eb M) (c s))). split.
  { pose proof V as (V1 & V2).
    eapply filter_imp; [ | exact (filter_and _ _ (locally_gt _ t _ (derive_continuous _ _ _ BD) V1) (locally_gt _ t _ (derive_continuous _ _ _ BD2) V2))].
    cbv beta. intros s Hs. rewrite (eucm_project_valid M (c s) S B Hs). reflexivity. }
  assert (Nd : ea M * ellipsoid_norm (eb M) (c t) + (1 - ea M) * x2 (c t) <> 0) by (destruct V; lra).
  assert (PD := ratio_derive _ _ _ t _ _ _ X Y BD Nd). cbv beta in PD.
  eapply v2_derive_eq; [ | exact (to_pixel_derive (ei M) _ t _ PD)].
  assert (EV := eucm_projectJ_valid M (c t) S B V). cbv zeta in EV. rewrite EV in E.
  match type of E with ((_, Val ?m), _) = _ => assert (EJ : J = m) by congruence end. subst J. clear E EV.
  unfold m23_vec. cbn [u0 u1 j00 j01 j02 j10 j11 j12]. set (n := ellipsoid_norm (eb M) (c t)) in *.
  f_equal; field; (split; [lra | exact Nd]).
Qed.

(** Rays. *)
Lemma en_ray b s p : 0 <= s -> 0 <= b -> ellipsoid_norm b (along_ray s p) = s * ellipsoid_norm b p.
Proof.
  intros P B. unfold ellipsoid_norm, along_ray. cbn [x0 x1 x2].
  replace (b * (s * x0 p * (s * x0 p) + s * x1 p * (s * x1 p)) + s * x2 p * (s * x2 p)) with ((s * s) * (b * (x0 p * x0 p + x1 p * x1 p) + x2 p * x2 p)) by ring.
  assert (0 <= b * (x0 p * x0 p + x1 p * x1 p)) by (apply Rmult_le_pos; nra). rewrite sqrt_mult by nra. rewrite sqrt_square by exact P. reflexivity.
Qed.
Lemma eucm_ray M p s : eucm_sync M -> 0 < eb M -> 0 < s -> eucm_project M (along_ray s p) = eucm_project M p.
Proof.
  intros S B P. assert (PN := en_ray (eb M) s p (Rlt_le _ _ P) (Rlt_le _ _ B)).
  assert (VV : eucm_valid (ea M) (eb M) (along_ray s p) <-> eucm_valid (ea M) (eb M) p).
  { unfold eucm_valid. rewrite PN. cbn [along_ray x2].
    replace (ea M * (s * ellipsoid_norm (eb M) p) + (1 - ea M) * (s * x2 p)) with (s * (ea M * ellipsoid_norm (eb M) p + (1 - ea M) * x2 p)) by ring.
    replace ((1 - ea M) * (s * ellipsoid_norm (eb M) p) + ea M * (s * x2 p)) with (s * ((1 - ea M) * ellipsoid_norm (eb M) p + ea M * x2 p)) by ring.
    split; intros (A1 & A2); split; nra. }
  destruct (eucm_valid_dec (ea M) (eb M) p) as [V | V].
  - assert (V' := proj2 VV V). rewrite (eucm_project_valid M _ S B V), (eucm_project_valid M _ S B V').
    replace (eucm_point (ea M) (eb M) (along_ray s p)) with (eucm_point (ea M) (eb M) p); [reflexivity | ].
    unfold eucm_point. rewrite PN. cbn [along_ray x0 x1 x2]. destruct V as (A & _).
    replace (ea M * (s * ellipsoid_norm (eb M) p) + (1 - ea M) * (s * x2 p)) with (s * (ea M * ellipsoid_norm (eb M) p + (1 - ea M) * x2 p)) by ring.
    f_equal; field; split; lra.
  - rewrite (eucm_project_invalid M _ S B V), (eucm_project_invalid M (along_ray s p) S B ltac:(tauto)). reflexivity.
Qed.

(** Lifting. *)
Lemma norm_pixel_pixel C y : in_sync C -> fu C <> 0 -> fv C <> 0 -> norm_pixel C (to_pixel C y) = Val y.
Proof.
  intros (S1 & S2) A B. unfold norm_pixel, to_pixel. destruct (Req_EM_T (fu C) 0); [contradiction | ].
  destruct (Req_EM_T (fv C) 0); [contradiction | ]. rewrite S1, S2. cbn [u0 u1]. f_equal. destruct y as [a b]. cbn [u0 u1]. f_equal; field; assumption.
Qed.
Lemma pixel_norm_pixel C k y : in_sync C -> norm_pixel C k = Val y -> to_pixel C y = k.
Proof.
  intros (S1 & S2). unfold norm_pixel, to_pixel. destruct (Req_EM_T (fu C) 0); [discriminate | ]. destruct (Req_EM_T (fv C) 0); [discriminate | ].
  rewrite S1, S2. intros E. assert (E' : y = V2 (1 / fu C * (u0 k - cu C)) (1 / fv C * (u1 k - cv C))) by congruence. subst y. cbn [u0 u1].
  destruct k as [a b]. cbn [u0 u1]. f_equal; field; assumption.
Qed.

(** The image of a point in the plane, seen from the lifting: with n the
    length of the point and g = 1 - a. *)
Lemma lift_root a b x y z n : n * n = b * (x * x + y * y) + z * z -> 0 < a * n + (1 - a) * z -> 0 < (1 - a) * n + a * z ->
  let N := a * n + (1 - a) * z in
  let r2 := x * (1 / N) * (x * (1 / N)) + y * (1 / N) * (y * (1 / N)) in
  1 - (a - (1 - a)) * b * r2 = ((1 - a) * n + a * z) / N * (((1 - a) * n + a * z) / N) /\
  sqrt (1 - (a - (1 - a)) * b * r2) = ((1 - a) * n + a * z) / N /\
  (0 <= a <= 1 -> 0 < a * sqrt (1 - (a - (1 - a)) * b * r2) + (1 - a)) /\
  (0 <= a <= 1 -> (1 - a * a * b * r2) / (a * sqrt (1 - (a - (1 - a)) * b * r2) + (1 - a)) = z / N).
Proof.
  intros Q V W. cbv zeta. set (N := a * n + (1 - a) * z) in *.
  assert (Q' : b * (x * x + y * y) = n * n - z * z) by lra.
  assert (R2 : b * (x * (1 / N) * (x * (1 / N)) + y * (1 / N) * (y * (1 / N))) = (n * n - z * z) / (N * N)).
  { transitivity (b * (x * x + y * y) / (N * N)); [field; lra | rewrite Q'; reflexivity]. }
  assert (E1 : 1 - (a - (1 - a)) * b * (x * (1 / N) * (x * (1 / N)) + y * (1 / N) * (y * (1 / N))) = ((1 - a) * n + a * z) / N * (((1 - a) * n + a * z) / N)).
  { rewrite Rmult_assoc, R2. unfold N. field. fold N. lra. }
  assert (S0 : 0 < ((1 - a) * n + a * z) / N) by (apply Rdiv_lt_0_compat; assumption).
  assert (E2 : sqrt (((1 - a) * n + a * z) / N * (((1 - a) * n + a * z) / N)) = ((1 - a) * n + a * z) / N) by (apply sqrt_square; lra).
  split; [exact E1 | ]. rewrite E1, E2. split; [reflexivity | ].
  assert (PZ : 0 <= a <= 1 -> 0 < a * (((1 - a) * n + a * z) / N) + (1 - a)).
  { intros A. replace (a * (((1 - a) * n + a * z) / N) + (1 - a)) with ((a * ((1 - a) * n + a * z) + (1 - a) * N) / N) by (field; lra).
    apply Rdiv_lt_0_compat; [ | exact V]. destruct (Rlt_dec 0 a); [assert (0 < a * ((1 - a) * n + a * z)) by (apply Rmult_lt_0_compat; lra); assert (0 <= (1 - a) * N) by (apply Rmult_le_pos; lra); lra | ].
    assert (a = 0) by lra. subst a. lra. }
  split; [exact PZ | ]. intros A. assert (PZ' := PZ A).
  replace (a * a * b * (x * (1 / N) * (x * (1 / N)) + y * (1 / N) * (y * (1 / N)))) with (a * a * ((n * n - z * z) / (N * N))) by (rewrite <- R2; ring).
  assert (NW : a * ((1 - a) * n + a * z) + (1 - a) * N <> 0).
  { replace (a * (((1 - a) * n + a * z) / N) + (1 - a)) with ((a * ((1 - a) * n + a * z) + (1 - a) * N) / N) in PZ' by (field; lra).
    intros Z. rewrite Z in PZ'. unfold Rdiv in PZ'. lra. }
  apply (Rmult_eq_reg_r (a * (((1 - a) * n + a * z) / N) + (1 - a))); [ | lra].
  unfold Rdiv at 1. rewrite Rmult_assoc, Rinv_l by lra. unfold N. field. fold N. lra.
Qed.

Lemma eucm_lift_project M p k b : eucm_sync M -> 0 < eb M -> 0 <= ea M <= 1 -> fu (ei M) <> 0 -> fv (ei M) <> 0 ->
  eucm_project M p = (Val k, b) -> eucm_lift M k = (Val (along_ray (1 / v3_norm p) p), true).
Proof.
  intros S B A F G E. destruct (eucm_project_val M p k b S B E) as (V & Ek & _). subst k.
  assert (EN := norm_pixel_pixel (ei M) (eucm_point (ea M) (eb M) p) (proj1 S) F G).
  unfold eucm_lift. rewrite EN. pose proof V as (V1 & V2).
  destruct (lift_root (ea M) (eb M) (x0 p) (x1 p) (x2 p) _ (en2 (eb M) p (Rlt_le _ _ B)) V1 V2) as (E1 & E2 & E3 & E4). cbv zeta in E1, E2, E3, E4.
  unfold eucm_point. cbn [u0 u1]. set (n := ellipsoid_norm (eb M) p) in *. set (N := ea M * n + (1 - ea M) * x2 p) in *.
  set (r2 := x0 p * (1 / N) * (x0 p * (1 / N)) + x1 p * (1 / N) * (x1 p * (1 / N))) in *.
  assert (R0 : 0 <= 1 - (ea M - (1 - ea M)) * eb M * r2) by (rewrite E1; apply Rle_0_sqr).
  assert (L : eucm_liftable2 M r2 = true).
  { unfold eucm_liftable2. apply orb_true_iff. rewrite !leb_spec. destruct (Rle_lt_dec (ea M) (1 / 2)) as [X | X]; [left; exact X | right].
    destruct S as (_ & O & _). rewrite O. assert (0 < eb M * (2 * ea M - 1)) by (apply Rmult_lt_0_compat; lra).
    apply (Rle_div_r r2 1 (eb M * (2 * ea M - 1))); lra. }
  rewrite L. destruct (Rlt_dec _ 0); [lra | ]. specialize (E3 A). specialize (E4 A). destruct (Req_EM_T _ 0); [lra | ]. rewrite E4.
  assert (PP := eucm_valid_pos _ _ _ (Rlt_le _ _ B) V). fold n in PP.
  assert (DP : 0 < v3_dot p p).
  { unfold v3_dot. assert (Q := en2 (eb M) p (Rlt_le _ _ B)). fold n in Q. assert (0 < n * n) by nra.
    destruct (Rle_lt_dec (x0 p * x0 p + x1 p * x1 p + x2 p * x2 p) 0); [ | assumption]. exfalso.
    assert (x2 p * x2 p = 0) by nra. assert (x0 p * x0 p + x1 p * x1 p = 0) by nra. rewrite H1 in Q. rewrite H0 in Q. lra. }
  assert (ES : r2 + x2 p / N * (x2 p / N) = (1 / N) * (1 / N) * v3_dot p p) by (unfold r2, v3_dot; field; lra).
  assert (NP : 0 < 1 / N) by (apply Rdiv_lt_0_compat; lra).
  assert (SQ : sqrt (r2 + x2 p / N * (x2 p / N)) = 1 / N * v3_norm p).
  { rewrite ES. rewrite sqrt_mult by nra. rewrite sqrt_square by lra. reflexivity. }
  assert (VP : 0 < v3_norm p) by (apply sqrt_lt_R0; exact DP).
  destruct (Req_EM_T _ 0) as [Z | _]; [exfalso; rewrite ES in Z; assert (0 < 1 / N * (1 / N) * v3_dot p p) by (apply Rmult_lt_0_compat; nra); lra | ].
  rewrite SQ. f_equal. f_equal. unfold along_ray. f_equal; field; split; lra.
Qed.

(** ... and back. *)
Lemma eucm_back a b y : let r2 := u0 y * u0 y + u1 y * u1 y in
  let s := sqrt (1 - (a - (1 - a)) * b * r2) in let k := (1 - a * a * b * r2) / (a * s + (1 - a)) in
  0 <= a <= 1 -> 0 < b -> 0 < 1 - (a - (1 - a)) * b * r2 ->
  0 < a * s + (1 - a) /\ a * ellipsoid_norm b (V3 (u0 y) (u1 y) k) + (1 - a) * k = 1 /\ eucm_valid a b (V3 (u0 y) (u1 y) k) /\ 0 < r2 + k * k.
Proof.
  cbv zeta. set (r2 := u0 y * u0 y + u1 y * u1 y). assert (R0 : 0 <= r2) by (unfold r2; nra).
  intros A B P. set (s := sqrt (1 - (a - (1 - a)) * b * r2)).
  assert (S2 : s * s = 1 - (a - (1 - a)) * b * r2) by (apply sqrt_sqrt; lra). assert (S0 : 0 < s) by (apply sqrt_lt_R0; exact P).
  assert (T : 0 < a * s + (1 - a)) by (assert (0 <= a * s) by (apply Rmult_le_pos; lra); destruct (Rlt_dec 0 a); [assert (0 < a * s) by (apply Rmult_lt_0_compat; lra); lra | lra]).
  set (k := (1 - a * a * b * r2) / (a * s + (1 - a))).
  assert (BR : 0 <= b * r2) by (apply Rmult_le_pos; lra).
  assert (ND : ellipsoid_norm b (V3 (u0 y) (u1 y) k) = (s + a * (1 - a) * (b * r2)) / (a * s + (1 - a))).
  { unfold ellipsoid_norm. cbn [x0 x1 x2]. fold r2. rewrite <- (sqrt_square ((s + a * (1 - a) * (b * r2)) / (a * s + (1 - a)))).
    - f_equal. unfold k. field_simplify_eq; [ | lra]. ring [S2].
    - apply Rlt_le, Rdiv_lt_0_compat; [ | exact T]. assert (0 <= a * (1 - a) * (b * r2)) by (apply Rmult_le_pos; nra). lra. }
  split; [exact T | ].
  assert (ONE : a * ellipsoid_norm b (V3 (u0 y) (u1 y) k) + (1 - a) * k = 1) by (rewrite ND; unfold k; field; lra).
  split; [exact ONE | ]. split.
  - unfold eucm_valid. cbn [x2]. rewrite ONE. split; [lra | ].
    replace ((1 - a) * ellipsoid_norm b (V3 (u0 y) (u1 y) k) + a * k) with s; [exact S0 | ].
    rewrite ND. unfold k. field_simplify_eq; [ | lra]. replace (s ^ 2) with (s * s) by ring. ring [S2].
  - destruct (Rle_lt_dec (r2 + k * k) 0) as [Z | Z]; [exfalso | exact Z]. assert (r2 = 0) by nra. assert (k = 0) by nra.
    unfold k in H0. rewrite H in H0. replace (1 - a * a * b * 0) with 1 in H0 by ring. assert (0 < 1 / (a * s + (1 - a))) by (apply Rdiv_lt_0_compat; lra). lra.
Qed.

Lemma eucm_project_lift M k p b : eucm_sync M -> 0 < eb M -> 0 <= ea M <= 1 -> eucm_lift M k = (Val p, b) ->
  (1 / 2 < ea M -> forall y, norm_pixel (ei M) k = Val y -> u0 y * u0 y + u1 y * u1 y <> 1 / (eb M * (2 * ea M - 1))) ->
  eucm_project M p = (Val k, on_sensor (ei M) k) /\ b = true /\ v3_norm p = 1.
Proof.
  intros S B A E NB. unfold eucm_lift in E. destruct (norm_pixel (ei M) k) as [y | | | ] eqn:EN; try discriminate.
  destruct (eucm_liftable2 M (u0 y * u0 y + u1 y * u1 y)) eqn:L; [ | discriminate].
  destruct (Rlt_dec _ 0) as [ | NN]; [discriminate | ].
  assert (P : 0 < 1 - (ea M - (1 - ea M)) * eb M * (u0 y * u0 y + u1 y * u1 y)).
  { apply Rnot_lt_le in NN. destruct NN as [ | Z]; [assumption | exfalso]. destruct (Rle_lt_dec (ea M) (1 / 2)) as [X | X].
    - assert (0 <= (1 - 2 * ea M) * eb M * (u0 y * u0 y + u1 y * u1 y)) by (repeat apply Rmult_le_pos; nra). lra.
    - apply (NB X y eq_refl). assert (Q : 0 < eb M * (2 * ea M - 1)) by (apply Rmult_lt_0_compat; lra).
      apply (Rmult_eq_reg_r (eb M * (2 * ea M - 1))); [ | lra]. unfold Rdiv. rewrite Rmult_1_l, Rinv_l by lra. lra. }
  destruct (eucm_back (ea M) (eb M) y A B P) as (T & ONE & V & PK). cbv zeta in T, ONE, V, PK.
  destruct (Req_EM_T _ 0); [discriminate | ]. set (K := (1 - ea M * ea M * eb M * (u0 y * u0 y + u1 y * u1 y)) / _) in *.
  destruct (Req_EM_T _ 0); [discriminate | ].
  match type of E with (Val ?q, _) = _ => assert (Ep : p = q) by congruence end. assert (Eb : b = true) by congruence. clear E. subst p b.
  set (SQ := sqrt (u0 y * u0 y + u1 y * u1 y + K * K)) in *. assert (SP : 0 < SQ) by (apply sqrt_lt_R0; exact PK).
  assert (IP : 0 < 1 / SQ) by (apply Rdiv_lt_0_compat; lra).
  replace (V3 (u0 y * (1 / SQ)) (u1 y * (1 / SQ)) (K * (1 / SQ))) with (along_ray (1 / SQ) (V3 (u0 y) (u1 y) K))
    by (unfold along_ray; cbn [x0 x1 x2]; f_equal; ring).
  split; [ | split; [reflexivity | ]].
  - rewrite (eucm_ray M _ _ S B IP), (eucm_project_valid M _ S B V).
    assert (EP : eucm_point (ea M) (eb M) (V3 (u0 y) (u1 y) K) = y).
    { unfold eucm_point. cbn [x0 x1 x2]. rewrite ONE. destruct y as [c d]. cbn [u0 u1]. f_equal; field. }
    rewrite EP, (pixel_norm_pixel (ei M) k y (proj1 S) EN). reflexivity.
  - assert (S2 : SQ * SQ = u0 y * u0 y + u1 y * u1 y + K * K) by (apply sqrt_sqrt; lra).
    unfold v3_norm, v3_dot, along_ray. cbn [x0 x1 x2].
    replace (1 / SQ * u0 y * (1 / SQ * u0 y) + 1 / SQ * u1 y * (1 / SQ * u1 y) + 1 / SQ * K * (1 / SQ * K)) with ((u0 y * u0 y + u1 y * u1 y + K * K) / (SQ * SQ)) by (field; lra).
    rewrite <- S2. replace (SQ * SQ / (SQ * SQ)) with 1 by (field; lra). apply sqrt_1.
Qed.

(** The Jacobian of the lifting. *)
Lemma r2_derive (a b : R -> R) t da db : is_derive a t da -> is_derive b t db ->
  is_derive (fun s => a s * a s + b s * b s) t (2 * a t * da + 2 * b t * db).
Proof. intros A B. derive_ex A. derive_ex B. auto_derive; [tauto | ]. derive_sub A. derive_sub B. req. ring. Qed.
Lemma lift_k_derive al be (r : R -> R) t dr : is_derive r t dr ->
  0 < 1 - (al - (1 - al)) * be * r t -> al * sqrt (1 - (al - (1 - al)) * be * r t) + (1 - al) <> 0 ->
  let S := sqrt (1 - (al - (1 - al)) * be * r t) in
  let T := al * S + (1 - al) in
  is_derive (fun s => (1 - al * al * be * r s) * (1 / (al * sqrt (1 - (al - (1 - al)) * be * r s) + (1 - al)))) t
    (1 / 2 * al * be * (-2 * al * T + (1 - al * al * be * r t) * (al - (1 - al)) / S) * (1 / T * (1 / T)) * dr).
Proof.
  intros H P N. cbv zeta. derive_ex H. auto_derive; [tauto | ]. derive_sub H. req.
  assert (0 < sqrt (1 - (al - (1 - al)) * be * r t)) by (apply sqrt_lt_R0; exact P).
  change (1 + - ((al - (1 - al)) * be * r t)) with (1 - (al - (1 - al)) * be * r t).
  set (q := sqrt (1 - (al - (1 - al)) * be * r t)) in *. field. first [split; [exact N | lra] | split; [lra | exact N]].
Qed.
Lemma inv_norm_derive (r k : R -> R) t dr dk : is_derive r t dr -> is_derive k t (dk * dr) -> 0 < r t + k t * k t ->
  let n := 1 / sqrt (r t + k t * k t) in
  is_derive (fun s => 1 / sqrt (r s + k s * k s)) t (- (1 / 2) * (1 + 2 * k t * dk) * n * n * n * dr).
Proof.
  intros H K P. cbv zeta. derive_ex H. derive_ex K. assert (SP : 0 < sqrt (r t + k t * k t)) by (apply sqrt_lt_R0; exact P).
  auto_derive; [repeat split; try assumption; try lra | ]. derive_sub H. derive_sub K. req.
  assert (Q : sqrt (r t + k t * k t) * sqrt (r t + k t * k t) = r t + k t * k t) by (apply sqrt_sqrt; lra).
  field. lra.
Qed.
Lemma mult_derive (a b : R -> R) t da db : is_derive a t da -> is_derive b t db -> is_derive (fun s => a s * b s) t (da * b t + a t * db).
Proof. intros A B. exact (is_derive_mult _ _ t _ _ A B Rmult_comm). Qed.
Lemma norm_pixel_derive C (c : R -> v2) t d : in_sync C -> fu C <> 0 -> fv C <> 0 -> v2_derive c t d ->
  exists g, (forall s, norm_pixel C (c s) = Val (g s)) /\ v2_derive g t (V2 (u0 d * recip_fu C) (u1 d * recip_fv C)).
Proof.
  intros (S1 & S2) A B (X & Y). exists (fun s => V2 (recip_fu C * (u0 (c s) - cu C)) (recip_fv C * (u1 (c s) - cv C))). split.
  - intros s. unfold norm_pixel. destruct (Req_EM_T (fu C) 0); [contradiction | ]. destruct (Req_EM_T (fv C) 0); [contradiction | reflexivity].
  - split; cbn [u0 u1].
    + eapply is_derive_eq; [ | exact (is_derive_scal _ t (recip_fu C) _ (is_derive_minus _ _ t _ _ X (@is_derive_const R_AbsRing R_NormedModule (cu C) t)))].
      req. unfold scal, minus, plus, opp, zero; cbn. ring.
    + eapply is_derive_eq; [ | exact (is_derive_scal _ t (recip_fv C) _ (is_derive_minus _ _ t _ _ Y (@is_derive_const R_AbsRing R_NormedModule (cv C) t)))].
      req. unfold scal, minus, plus, opp, zero; cbn. ring.
Qed.
Lemma eucm_liftable_root M r : eucm_sync M -> 0 < eb M -> 0 <= 1 - (ea M - (1 - ea M)) * eb M * r -> eucm_liftable2 M r = true.
Proof.
  intros (_ & O & _) B H. unfold eucm_liftable2. apply orb_true_iff. rewrite !leb_spec. destruct (Rle_lt_dec (ea M) (1 / 2)) as [X | X]; [left; exact X | right].
  rewrite O. assert (0 < eb M * (2 * ea M - 1)) by (apply Rmult_lt_0_compat; lra). apply (Rle_div_r r 1 (eb M * (2 * ea M - 1))); lra.
Qed.
Lemma eucm_lift_ok M k y : eucm_sync M -> 0 < eb M -> norm_pixel (ei M) k = Val y ->
  let r2 := u0 y * u0 y + u1 y * u1 y in
  let T := ea M * sqrt (1 - (ea M - (1 - ea M)) * eb M * r2) + (1 - ea M) in
  let K := (1 - ea M * ea M * eb M * r2) * (1 / T) in
  let n := 1 / sqrt (r2 + K * K) in
  0 < 1 - (ea M - (1 - ea M)) * eb M * r2 -> T <> 0 -> 0 < r2 + K * K ->
  fst (eucm_lift M k) = Val (V3 (u0 y * n) (u1 y * n) (K * n)).
Proof.
  intros S B E. cbv zeta. intros P N Q. unfold eucm_lift. rewrite E. rewrite (eucm_liftable_root M _ S B (Rlt_le _ _ P)).
  destruct (Rlt_dec _ 0); [lra | ]. destruct (Req_EM_T _ 0); [contradiction | ].
  match goal with |- context [Req_EM_T (_ + ?a * ?a) 0] => replace a with
    ((1 - ea M * ea M * eb M * (u0 y * u0 y + u1 y * u1 y)) * (1 / (ea M * sqrt (1 - (ea M - (1 - ea M)) * eb M * (u0 y * u0 y + u1 y * u1 y)) + (1 - ea M)))) by (field; assumption) end.
  destruct (Req_EM_T _ 0); [lra | reflexivity].
Qed.
Lemma eucm_pixel_jacobian M k p J b : eucm_sync M -> 0 < eb M -> eucm_liftJ M k = (Val (p, J), b) ->
  fst (eucm_lift M k) = Val p /\ pixel_jacobian (fun q => fst (eucm_lift M q)) k J.
Proof.
  intros S B E. unfold eucm_liftJ in E. destruct (norm_pixel (ei M) k) as [y | | | ] eqn:EN; try discriminate.
  assert (F : fu (ei M) <> 0) by (unfold norm_pixel in EN; destruct (Req_EM_T (fu (ei M)) 0); [discriminate | assumption]).
  assert (G : fv (ei M) <> 0) by (unfold norm_pixel in EN; destruct (Req_EM_T (fu (ei M)) 0); [discriminate | ]; destruct (Req_EM_T (fv (ei M)) 0); [discriminate | assumption]).
  destruct (eucm_liftable2 M _); [ | discriminate]. cbv zeta in E. set (r2 := u0 y * u0 y + u1 y * u1 y) in *.
  set (rad := 1 - (ea M - (1 - ea M)) * eb M * r2) in *. destruct (Rlt_dec rad 0) as [ | NN]; [discriminate | ].
  destruct (Req_EM_T _ 0) as [ | NT]; [discriminate | ]. destruct (Req_EM_T _ 0) as [ | NS]; [discriminate | ]. destruct (Req_EM_T _ 0) as [ | NK]; [discriminate | ].
  match type of E with (Val (?q, ?m), _) = _ => assert (EJ : J = m) by congruence; assert (Ep : p = q) by congruence end. clear E. subst J p.
  assert (P : 0 < rad). { apply Rnot_lt_le in NN. destruct NN as [ | Z]; [assumption | exfalso; apply NS; rewrite <- Z; apply sqrt_0]. }
  assert (R0 : 0 <= r2) by (unfold r2; nra).
  set (T := ea M * sqrt rad + (1 - ea M)) in *. set (K := (1 - ea M * ea M * eb M * r2) * (1 / T)) in *.
  assert (PK : 0 < r2 + K * K) by nra.
  split; [exact (eucm_lift_ok M k y S B EN P NT PK) | ].
  intros c t d Ec Hc. subst k. destruct (norm_pixel_derive (ei M) c t d (proj1 S) F G Hc) as (g & Eg & Hg).
  assert (Egt : g t = y) by (rewrite Eg in EN; congruence). pose proof Hg as (G1 & G2). cbn [u0 u1] in G1, G2.
  assert (HR := r2_derive _ _ t _ _ G1 G2). cbv beta in HR.
  assert (P' : 0 < 1 - (ea M - (1 - ea M)) * eb M * (u0 (g t) * u0 (g t) + u1 (g t) * u1 (g t))) by (rewrite Egt; exact P).
  assert (NT' : ea M * sqrt (1 - (ea M - (1 - ea M)) * eb M * (u0 (g t) * u0 (g t) + u1 (g t) * u1 (g t))) + (1 - ea M) <> 0) by (rewrite Egt; exact NT).
  assert (HK := lift_k_derive (ea M) (eb M) _ t _ HR P' NT'). cbv zeta beta in HK.
  match type of HK with is_derive ?f t (?q * _) => set (kf := f) in *; set (dk := q) in * end.
  assert (PK' : 0 < u0 (g t) * u0 (g t) + u1 (g t) * u1 (g t) + kf t * kf t) by (unfold kf; rewrite Egt; exact PK).
  assert (HN := inv_norm_derive _ kf t _ dk HR HK PK'). cbv zeta beta in HN.
  exists (fun s => V3 (u0 (g s) * (1 / sqrt (u0 (g s) * u0 (g s) + u1 (g s) * u1 (g s) + kf s * kf s)))
                      (u1 (g s) * (1 / sqrt (u0 (g s) * u0 (g s) + u1 (g s) * u1 (g s) + kf s * kf s)))
                      (kf s * (1 / sqrt (u0 (g s) * u0 (g s) + u1 (g s) * u1 (g s) + kf s * kf s)))).
  split.
  - assert (CR := derive_continuous _ _ _ HR). assert (CK := derive_continuous _ _ _ HK).
    assert (C1 : continuous (fun s => 1 - (ea M - (1 - ea M)) * eb M * (u0 (g s) * u0 (g s) + u1 (g s) * u1 (g s))) t).
    { apply (continuous_minus (fun _ => 1)); [apply continuous_const | ]. apply (continuous_mult (fun _ => (ea M - (1 - ea M)) * eb M)); [apply continuous_const | exact CR]. }
    assert (C2 : continuous (fun s => ea M * sqrt (1 - (ea M - (1 - ea M)) * eb M * (u0 (g s) * u0 (g s) + u1 (g s) * u1 (g s))) + (1 - ea M)) t).
    { apply (continuous_plus (fun s => ea M * sqrt (1 - (ea M - (1 - ea M)) * eb M * (u0 (g s) * u0 (g s) + u1 (g s) * u1 (g s))))); [ | apply continuous_const].
      apply (continuous_mult (fun _ => ea M)); [apply continuous_const | ].
      apply (continuous_comp (fun s => 1 - (ea M - (1 - ea M)) * eb M * (u0 (g s) * u0 (g s) + u1 (g s) * u1 (g s))) sqrt); [exact C1 | ].
      apply continuity_pt_filterlim. apply continuity_pt_sqrt. cbv beta. lra. }
    assert (C3 : continuous (fun s => u0 (g s) * u0 (g s) + u1 (g s) * u1 (g s) + kf s * kf s) t).
    { apply (continuous_plus (fun s => u0 (g s) * u0 (g s) + u1 (g s) * u1 (g s))); [exact CR | apply (continuous_mult kf kf); exact CK]. }
    eapply filter_imp; [ | exact (filter_and _ _ (locally_gt _ t _ C1 P') (filter_and _ _ (continuous_neq0 _ t C2 NT') (locally_gt _ t _ C3 PK')))].
    cbv beta. intros s (Q1 & Q2 & Q3). exact (eucm_lift_ok M (c s) (g s) S B (Eg s) Q1 Q2 Q3).
  - assert (D1 := mult_derive _ _ t _ _ G1 HN). assert (D2 := mult_derive _ _ t _ _ G2 HN). assert (D3 := mult_derive _ _ t _ _ HK HN). cbv beta in D1, D2, D3.
    assert (Ek : kf t = K) by (unfold kf, K, T, rad, r2; rewrite Egt; reflexivity).
    assert (Ed : dk = 1 / 2 * ea M * eb M * (-2 * ea M * T + (1 - ea M * ea M * eb M * r2) * (ea M - (1 - ea M)) / sqrt rad) * (1 / T * (1 / T)))
      by (unfold dk, T, rad, r2; rewrite Egt; reflexivity).
    rewrite Ek, Egt in D1, D2, D3. fold r2 in D1, D2, D3. rewrite <- Ed.
    split; [ | split]; cbn [x0 x1 x2 m32_vec l00 l01 l10 l11 l20 l21];
      [eapply is_derive_eq; [ | exact D1] | eapply is_derive_eq; [ | exact D2] | eapply is_derive_eq; [ | exact D3]]; req; ring.
Qed.

(** Parameters. *)
Lemma eucm_set_sync M v : eucm_sync (eucm_set M v).
Proof. split; [split; reflexivity | ]. split; reflexivity. Qed.
Lemma eucm_step_sync M o : eucm_sync (eucm_step M o).
Proof. destruct o; (split; [split; reflexivity | ]; split; reflexivity). Qed.
Lemma list6 (v : list R) : length v = 6%nat -> v = [nth 0 v 0; nth 1 v 0; nth 2 v 0; nth 3 v 0; nth 4 v 0; nth 5 v 0].
Proof. do 7 (destruct v as [ | ? v]; try discriminate). reflexivity. Qed.
(** What the Jacobian should be. *)
Definition eucm_columns (v : list R) (p : v3) : list v2 :=
  let d := ellipsoid_norm (nth 1 v 0) p in
  let N := nth 0 v 0 * d + (1 - nth 0 v 0) * x2 p in
  let tmp5 := (1 / 2) * nth 0 v 0 * (x0 p * x0 p + x1 p * x1 p) * (1 / d) in
  [V2 (- nth 2 v 0 * x0 p * (1 / N * (1 / N)) * (d - x2 p)) (- nth 3 v 0 * x1 p * (1 / N * (1 / N)) * (d - x2 p));
   V2 (- nth 2 v 0 * x0 p * (1 / N * (1 / N)) * tmp5) (- nth 3 v 0 * x1 p * (1 / N * (1 / N)) * tmp5);
   V2 (x0 p * (1 / N)) 0; V2 0 (x1 p * (1 / N)); V2 1 0; V2 0 1].
Lemma eucm_columns_jacobian M v p : 0 < nth 1 v 0 -> eucm_valid (nth 0 v 0) (nth 1 v 0) p ->
  image_param_jacobian 6 (fun w => fst (eucm_project (eucm_set M w) p)) v (eucm_columns v p).
Proof.
  intros B V. assert (P := eucm_valid_pos _ _ _ (Rlt_le _ _ B) V). assert (PR := en_radicand _ _ P).
  assert (Nd : nth 0 v 0 * ellipsoid_norm (nth 1 v 0) p + (1 - nth 0 v 0) * x2 p <> 0) by (destruct V; lra).
  split; [reflexivity | ]. intros q t dp Eq (L & H). rewrite (list6 dp L).
  assert (H0 := H 0%nat ltac:(lia)). assert (H1 := H 1%nat ltac:(lia)). assert (H2 := H 2%nat ltac:(lia)). assert (H3 := H 3%nat ltac:(lia)). assert (H4 := H 4%nat ltac:(lia)). assert (H5 := H 5%nat ltac:(lia)).
  assert (Q0 := Eq 0%nat ltac:(lia)). assert (Q1 := Eq 1%nat ltac:(lia)). assert (Q2 := Eq 2%nat ltac:(lia)). assert (Q3 := Eq 3%nat ltac:(lia)).
  assert (KX := @is_derive_const R_AbsRing R_NormedModule (x0 p) t). assert (KY := @is_derive_const R_AbsRing R_NormedModule (x1 p) t). assert (KZ := @is_derive_const R_AbsRing R_NormedModule (x2 p) t).
  assert (PR' : 0 < nth 1 (q t) 0 * (x0 p * x0 p + x1 p * x1 p) + x2 p * x2 p) by (rewrite Q1; exact PR).
  assert (DN := en_derive _ _ _ _ t _ _ _ _ KX KY KZ H1 PR'). cbv beta in DN. change (@zero R_NormedModule) with 0 in DN.
  match type of DN with is_derive _ t ?e => change (is_derive (fun s => ellipsoid_norm (nth 1 (q s) 0) p) t e) in DN end.
  assert (BD := blend_derive _ _ _ t _ _ _ H0 DN KZ). assert (BD2 := blend2_derive _ _ _ t _ _ _ H0 DN KZ). cbv beta in BD, BD2.
  change (@zero R_NormedModule) with 0 in BD, BD2.
  exists (fun s => to_pixel (ei (eucm_set M (q s))) (eucm_point (nth 0 (q s) 0) (nth 1 (q s) 0) p)). split.
  { pose proof V as (V1 & V2). rewrite <- Q0, <- Q1 in V1, V2. assert (B' : 0 < nth 1 (q t) 0) by (rewrite Q1; exact B).
    eapply filter_imp; [ | exact (filter_and _ _ (locally_gt _ t _ (derive_continuous _ _ _ H1) B') (filter_and _ _ (locally_gt _ t _ (derive_continuous _ _ _ BD) V1) (locally_gt _ t _ (derive_continuous _ _ _ BD2) V2)))].
    cbv beta. intros s (Hb & Hs). rewrite (eucm_project_valid (eucm_set M (q s)) p (eucm_set_sync M _) Hb Hs). reflexivity. }
  assert (Nd' : nth 0 (q t) 0 * ellipsoid_norm (nth 1 (q t) 0) p + (1 - nth 0 (q t) 0) * x2 p <> 0) by (rewrite Q0, Q1; exact Nd).
  assert (PD := ratio_derive _ _ _ t _ _ _ KX KY BD Nd'). cbv beta in PD. change (@zero R_NormedModule) with 0 in PD.
  unfold to_pixel. cbn [eucm_set make_eucm ei make_intr fu fv cu cv].
  eapply v2_derive_eq; [ | exact (pixel_set_derive _ _ _ _ _ t _ _ _ _ _ H2 H3 H4 H5 PD)].
  cbv beta. change (sqrt (nth 1 (q t) 0 * (x0 p * x0 p + x1 p * x1 p) + x2 p * x2 p)) with (ellipsoid_norm (nth 1 (q t) 0) p).
  rewrite Q0, Q1, Q2, Q3. unfold eucm_columns, combine_cols, v2_add, v2_scale. cbn [u0 u1]. set (en := ellipsoid_norm (nth 1 v 0) p) in *.
  f_equal; field; (split; [exact Nd | lra]).
Qed.

Lemma eucm_intrJ_columns M v p cols : eucm_intrJ (eucm_set M v) p = Val cols -> nth 2 v 0 = nth 3 v 0 -> cols = eucm_columns v p.
Proof.
  intros E F. unfold eucm_intrJ in E. destruct (Rle_dec _ 0) as [ | _]; [discriminate | ]. cbv zeta in E.
  change (sqrt (eucm_d2 (eucm_set M v) p)) with (ellipsoid_norm (nth 1 v 0) p) in E. cbn [eucm_set make_eucm ea ei make_intr fu fv] in E.
  destruct (Req_EM_T _ 0); [discriminate | ].
  match type of E with Val ?m = Val _ => assert (EC : cols = m) by congruence end. subst cols. unfold eucm_columns. rewrite <- F. reflexivity.
Qed.

(** A Jacobian is determined by its meaning. *)
Lemma param_jacobian_unique n f v c1 c2 dp : length dp = n ->
  image_param_jacobian n f v c1 -> image_param_jacobian n f v c2 -> combine_cols c1 dp = combine_cols c2 dp.
Proof.
  intros L (_ & H1) (_ & H2). set (q := fun s : R => map (fun i => nth i v 0 + s * nth i dp 0) (seq 0 n)).
  assert (NQ : forall i s, (i < n)%nat -> nth i (q s) 0 = nth i v 0 + s * nth i dp 0).
  { intros i s Hi. unfold q. rewrite (nth_indep _ 0 ((fun i => nth i v 0 + s * nth i dp 0) 0%nat)) by (rewrite map_length, seq_length; exact Hi).
    rewrite (map_nth (fun i => nth i v 0 + s * nth i dp 0)). rewrite seq_nth by exact Hi. reflexivity. }
  assert (Q0 : forall i, (i < n)%nat -> nth i (q 0) 0 = nth i v 0) by (intros i Hi; rewrite NQ by exact Hi; ring).
  assert (QD : list_derive n q 0 dp).
  { split; [exact L | ]. intros i Hi. apply (is_derive_ext (fun s => nth i v 0 + s * nth i dp 0)); [intros s; symmetry; apply NQ; exact Hi | ].
    auto_derive; [exact I | ]. req. ring. }
  destruct (H1 q 0 dp Q0 QD) as (g1 & L1 & D1). destruct (H2 q 0 dp Q0 QD) as (g2 & L2 & D2).
  apply (v2_derive_unique g1 0); [exact D1 | ]. apply (v2_derive_ext_loc g2); [ | exact D2].
  eapply filter_imp; [ | exact (filter_and _ _ L1 L2)]. cbv beta. intros s (A & B). congruence.
Qed.

(** Resizing. *)
Lemma resize_pixel C s y m n : 0 < s -> IZR (ru C) * s = IZR m -> IZR (rv C) * s = IZR n ->
  to_pixel (pin_resize C s) y = v2_scale s (to_pixel C y) /\
  on_sensor (pin_resize C s) (v2_scale s (to_pixel C y)) = on_sensor C (to_pixel C y).
Proof.
  intros P Em En. split.
  - unfold to_pixel, pin_resize, make_intr, v2_scale. cbn [fu fv cu cv u0 u1]. f_equal; ring.
  - apply bool_eq_iff. rewrite !on_sensor_spec. unfold in_image, pin_resize, make_intr, v2_scale.
    cbn [ru rv u0 u1]. rewrite Em, En, !trunc_int, <- Em, <- En. generalize (to_pixel C y). intros k.
    split; intros (A & B); (split; [split; [nra | ] | split; [nra | ]]); try nra.
Qed.
Lemma remake_pixel C y : to_pixel (make_intr (fu C) (fv C) (cu C) (cv C) (ru C) (rv C)) y = to_pixel C y.
Proof. reflexivity. Qed.
Lemma eucm_resize_project M s p m n : eucm_sync M -> 0 < eb M -> 0 < s -> IZR (ru (ei M)) * s = IZR m -> IZR (rv (ei M)) * s = IZR n ->
  eucm_project (eucm_resize M s) p =
    (rbind (fst (eucm_project M p)) (fun k => Val (v2_scale s k)), snd (eucm_project M p)).
Proof.
  intros S B P Em En. assert (S' : eucm_sync (eucm_resize M s)) by (split; [split; reflexivity | ]; split; reflexivity).
  destruct (eucm_valid_dec (ea M) (eb M) p) as [V | V].
  - rewrite (eucm_project_valid M p S B V), (eucm_project_valid (eucm_resize M s) p S' B V). cbn [rbind fst snd].
    destruct (resize_pixel (ei M) s (eucm_point (ea M) (eb M) p) m n P Em En) as (E1 & E2). unfold eucm_resize, make_eucm. cbn [ea eb ei].
    rewrite remake_pixel, E1. f_equal. exact E2.
  - rewrite (eucm_project_invalid M p S B V), (eucm_project_invalid (eucm_resize M s) p S' B V). reflexivity.
Qed.

(** The camera taken over from an omnidirectional one with xi = 1. *)
Lemma eucm_of_omni C p : eucm_project (eucm_from_omni (make_omni 1 C)) p = omni_project nodist (make_omni 1 C) p.
Proof.
  assert (S : eucm_sync (eucm_from_omni (make_omni 1 C))) by (split; [split; reflexivity | ]; split; reflexivity).
  assert (T : omni_sync (make_omni 1 C)) by (split; [split; reflexivity | ]; split; reflexivity).
  set (E := eucm_from_omni (make_omni 1 C)) in *. set (O := make_omni 1 C) in *.
  assert (B : 0 < eb E) by (cbn; lra).
  assert (EN : ellipsoid_norm 1 p = p_norm p) by (unfold ellipsoid_norm, p_norm; f_equal; ring).
  assert (EA : ea E = 1 / 2) by (cbn [ea E eucm_from_omni make_eucm xi O make_omni]; lra). assert (EB : eb E = 1) by reflexivity. assert (EX : xi O = 1) by reflexivity.
  assert (VV : eucm_valid (ea E) (eb E) p <-> omni_valid (xi O) p).
  { unfold eucm_valid, omni_valid. rewrite EA, EB, EX, EN. lra. }
  destruct (eucm_valid_dec (ea E) (eb E) p) as [V | V].
  - rewrite (eucm_project_valid E p S B V), (omni_project_valid nodist O p T (proj1 VV V)). cbn [distort nodist].
    assert (EP : to_pixel (ei E) (eucm_point (ea E) (eb E) p) = to_pixel (oi O) (omni_point (xi O) p)).
    { unfold eucm_point, omni_point. rewrite EA, EB, EX, EN. destruct V as (V1 & _). rewrite EA, EB, EN in V1.
      unfold to_pixel, E, O, eucm_from_omni, make_eucm, make_omni, make_intr. cbn [ei oi fu fv cu cv u0 u1]. f_equal; field; lra. }
    rewrite EP. reflexivity.
  - rewrite (eucm_project_invalid E p S B V), (omni_project_invalid nodist O p T); [reflexivity | tauto].
Qed.

(** Homogeneous points. *)
Lemma neg_point_jacobian f v J : point_jacobian f (neg3 v) J -> point_jacobian (fun q => f (neg3 q)) v (m23_opp J).
Proof.
  intros H c t d Ec (A & B & C).
  assert (Hn : v3_derive (fun s => neg3 (c s)) t (neg3 d)).
  { split; [ | split]; unfold neg3; cbn [x0 x1 x2]; [exact (is_derive_opp _ t _ A) | exact (is_derive_opp _ t _ B) | exact (is_derive_opp _ t _ C)]. }
  assert (Ec' : neg3 (c t) = neg3 v) by (rewrite Ec; reflexivity).
  destruct (H (fun s => neg3 (c s)) t (neg3 d) Ec' Hn) as (g & L & G). exists g. split; [exact L | ].
  eapply v2_derive_eq; [ | exact G]. unfold m23_vec, m23_opp, neg3. cbn [j00 j01 j02 j10 j11 j12 x0 x1 x2]. f_equal; ring.
Qed.
