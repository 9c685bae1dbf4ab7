(** * Rodrigues parameters and rotation vectors *)

From Coquelicot Require Import Coquelicot.
From Coq Require Import Reals Psatz Nsatz.
From Verif Require Import KinModel KinSpec KinProofs KinExp KinAxis KinCurve KinJac RotModel RotSpec RotEuler.
Local Open Scope R_scope.

Lemma m3_derive_ext_loc f g t d : locally t (fun s => f s = g s) -> m3_derive f t d -> m3_derive g t d.
Proof.
  intros H ((A & B & C) & (D & E & F) & (G & K & L)). unfold m3_derive.
  split; [split; [ | split] | split; [split; [ | split] | split; [ | split]]];
    (eapply is_derive_ext_loc; [ | eassumption]);
    (eapply filter_imp; [ | exact H]); intros s ->; reflexivity.
Qed.

(** ** Rodrigues parameters *)

Lemma one_plus_sq p : 0 < 1 + v3_dot p p.
Proof. pose proof (v3_dot_pos p). lra. Qed.

(** The quaternion of the parameters. *)
Definition er_quat (p : v3) : v4 :=
  let k := / sqrt (1 + v3_dot p p) in V4 (k * x0 p) (k * x1 p) (k * x2 p) k.

Lemma er_k p : let k := / sqrt (1 + v3_dot p p) in 0 < k /\ k * k * (1 + v3_dot p p) = 1 /\ 2 / (1 + v3_dot p p) = 2 * k * k.
Proof.
  pose proof (one_plus_sq p) as P. cbv zeta. pose proof (sqrt_lt_R0 _ P) as Q.
  pose proof (sqrt_sqrt _ (Rlt_le _ _ P)) as E. split; [apply Rinv_0_lt_compat, Q | ].
  rewrite <- E at 3 4. split; field; lra.
Qed.
Lemma er_quat_unit p : unit4 (er_quat p).
Proof.
  destruct (er_k p) as (_ & E & _). unfold er_quat, unit4. cbv zeta in *. cbn [q0 q1 q2 q3].
  set (k := / _) in *. unfold v3_dot in E. clearbody k. rewrite <- E. ring.
Qed.
Lemma er_is_quat p : er_C p = quat2r (er_quat p).
Proof.
  destruct (er_k p) as (_ & E & F). unfold er_quat, er_C. cbv zeta in *. rewrite F.
  set (k := / _) in *. unfold v3_dot in E. clearbody k. clear F. destruct p as [x y z]. kunf. cbn [x0 x1 x2] in E.
  f_equal; nsatz.
Qed.
Lemma er_SO3 p : SO3 (er_C p).
Proof. rewrite er_is_quat. apply quat2r_SO3, er_quat_unit. Qed.

Lemma er_params_quat q : unit4 q -> 0 <= q3 q ->
  1 / 10 ^ 14 <= rot_angle (quat2r q) -> 1 / 10 ^ 14 <= v3_norm (skew_part (quat2r q)) ->
  0 < q3 q /\ er_params (quat2r q) = v3_scale (/ q3 q) (qeps q).
Proof.
  intros U P H1 H2. pose proof (unit_split q U) as E. pose proof (v3_norm_pos (qeps q)) as NP.
  assert (Eb : 0 <= q3 q <= 1) by nra.
  destruct (R2_quat q U P) as (A & K & _).
  pose proof H2 as H2'. rewrite K, v3_norm_scale in H2'.
  assert (Hq : 0 < q3 q).
  { destruct Eb as [[? | Z] _]; [assumption | ]. rewrite <- Z in H2'.
    rewrite Rmult_0_r, Rabs_R0 in H2'. lra. }
  rewrite Rabs_left in H2' by lra.
  assert (Hn : 0 < v3_norm (qeps q)) by nra.
  split; [exact Hq | ].
  destruct (acos_ge_sin (q3 q) ltac:(lra) _ (Rlt_le _ _ Hn) E) as (S1 & _).
  unfold er_params. cbv zeta.
  replace ((m00 (quat2r q) + m11 (quat2r q) + m22 (quat2r q) - 1) * (1 / 2))
    with ((m3_trace (quat2r q) - 1) / 2) by (unfold m3_trace; field).
  fold (rot_angle (quat2r q)). rewrite A in *.
  change (V3 (m21 (quat2r q) - m12 (quat2r q)) (m02 (quat2r q) - m20 (quat2r q)) (m10 (quat2r q) - m01 (quat2r q)))
    with (skew_part (quat2r q)).
  destruct (ltb_spec (Rabs (2 * acos (q3 q))) (1 / 10 ^ 14)) as [L | _];
    [rewrite Rabs_right in L by lra; lra | ].
  destruct (ltb_spec (v3_norm (skew_part (quat2r q))) (1 / 10 ^ 14)) as [L | _]; [lra | ].
  rewrite K, v3_norm_scale, Rabs_left by lra.
  replace (1 / 2 * (2 * acos (q3 q))) with (acos (q3 q)) by field.
  unfold tan. rewrite S1, cos_acos by lra.
  destruct q as [a b c d]. unfold v3_scale, qeps in *. cbn [x0 x1 x2 q0 q1 q2 q3] in *.
  set (n := v3_norm _) in *. f_equal; field; lra.
Qed.

Lemma er_C_ratio q : unit4 q -> 0 < q3 q -> er_C (v3_scale (/ q3 q) (qeps q)) = quat2r q.
Proof.
  intros U P. unfold er_C, unit4 in *.
  assert (E : 2 / (1 + v3_dot (v3_scale (/ q3 q) (qeps q)) (v3_scale (/ q3 q) (qeps q))) = 2 * q3 q * q3 q).
  { replace (1 + v3_dot (v3_scale (/ q3 q) (qeps q)) (v3_scale (/ q3 q) (qeps q))) with (/ (q3 q * q3 q)).
    - field. lra.
    - destruct q as [a b c d]. unfold v3_dot, v3_scale, qeps. cbn [x0 x1 x2 q0 q1 q2 q3] in *.
      transitivity ((a * a + b * b + c * c + d * d) / (d * d)); [rewrite U; field; lra | field; lra]. }
  rewrite E. clear E. destruct q as [a b c d]. cbn [q0 q1 q2 q3] in *.
  assert (I : / d * d = 1) by (field; lra). kunf. set (k := / d) in *. clearbody k. clear P.
  f_equal; nsatz.
Qed.

Lemma er_of_params C : SO3 C ->
  1 / 10 ^ 14 <= rot_angle C -> 1 / 10 ^ 14 <= v3_norm (skew_part C) -> er_C (er_params C) = C.
Proof.
  intros H A K. destruct (r2quat_spec C H) as (U & E & P). rewrite <- E in A, K. rewrite <- E.
  destruct (er_params_quat _ U P A K) as (Q & ->). apply er_C_ratio; assumption.
Qed.

Lemma er_roundtrip p : 1 / 10 ^ 14 <= v3_norm p <= 10 ^ 14 -> er_params (er_C p) = p.
Proof.
  intros [L H]. pose proof (er_quat_unit p) as U. destruct (er_k p) as (KP & KE & _). cbv zeta in *.
  rewrite er_is_quat. rewrite <- v3_norm_sq in KE, KP.
  assert (Q3 : q3 (er_quat p) = / sqrt (1 + v3_norm p * v3_norm p)) by (unfold er_quat; rewrite v3_norm_sq; reflexivity).
  assert (Qe : qeps (er_quat p) = v3_scale (/ sqrt (1 + v3_norm p * v3_norm p)) p)
    by (unfold er_quat, qeps, v3_scale; rewrite v3_norm_sq; reflexivity).
  set (n := v3_norm p) in *. set (k := / sqrt (1 + n * n)) in *. clearbody k.
  assert (NP : 0 < n) by lra.
  assert (K1 : k <= 1) by nra.
  destruct (R2_quat (er_quat p) U ltac:(lra)) as (A & K & _).
  assert (Ne : v3_norm (qeps (er_quat p)) = k * n) by (rewrite Qe, v3_norm_scale, Rabs_right by lra; reflexivity).
  assert (KN : 2 / 10 ^ 14 <= 4 * k * k * n).
  { destruct (Rle_lt_dec n 1) as [N1 | N1].
    - assert (1 / 2 <= k * k) by nra. nra.
    - assert (k * k * (2 * n * n) >= 1) by nra.
      assert (2 * k * k * n * n >= 1) by nra.
      assert (2 * k * k * n * 10 ^ 14 >= 1).
      { assert (0 < 2 * k * k * n) by (repeat apply Rmult_lt_0_compat; lra). nra. }
      lra. }
  destruct (er_params_quat (er_quat p) U ltac:(lra)) as (_ & R2).
  - rewrite A, Q3. pose proof (unit_split _ U) as US. rewrite Ne, Q3 in US.
    destruct (acos_ge_sin k ltac:(lra) (k * n) ltac:(nra) US) as (_ & AG).
    assert (k * (k * n) <= k * n) by nra. lra.
  - rewrite K, v3_norm_scale, Ne, Q3, Rabs_left by lra. lra.
  - rewrite R2, Q3, Qe. unfold v3_scale. cbn [x0 x1 x2]. destruct p as [x y z]. cbn [x0 x1 x2].
    f_equal; field; lra.
Qed.

Lemma er_rates_scalar (x y z : R -> R) (t dx dy dz : R) :
  is_derive x t dx -> is_derive y t dy -> is_derive z t dz ->
  exists Cdot, m3_derive (fun s => er_C (V3 (x s) (y s) (z s))) t Cdot /\
    angular_velocity (er_C (V3 (x t) (y t) (z t))) Cdot (m3_vec (er_S (V3 (x t) (y t) (z t))) (V3 dx dy dz)).
Proof.
  intros X Y Z. derive_ex X. derive_ex Y. derive_ex Z.
  exists (m3_mul (m3_scale (-1) (crossMx (m3_vec (er_S (V3 (x t) (y t) (z t))) (V3 dx dy dz))))
            (er_C (V3 (x t) (y t) (z t)))).
  split; [ | reflexivity].
  assert (P : forall s, 1 + (x s * x s + y s * y s + z s * z s) <> 0) by (intros s; nra).
  unfold m3_derive, er_C, er_S. kunf.
  pose proof (P t) as Pt.
  split; [split; [ | split] | split; [split; [ | split] | split; [ | split]]];
    (auto_derive; [derive_side | derive_sub X; derive_sub Y; derive_sub Z; field; exact Pt]).
Qed.
Lemma er_rates : rates_to_velocity er_C er_S (fun _ => True).
Proof.
  intros p t pd (A & B & C) _.
  destruct (er_rates_scalar _ _ _ t _ _ _ A B C) as (D & D1 & D2). exists D.
  rewrite !v3_eta in D2. split; [exact D1 | exact D2].
Qed.

Lemma er_J_scalar (a b c u v w : R -> R) (t da db dc du dv dw : R) :
  is_derive a t da -> is_derive b t db -> is_derive c t dc ->
  is_derive u t du -> is_derive v t dv -> is_derive w t dw ->
  let J := er_J (V3 (a t) (b t) (c t)) (V3 (u t) (v t) (w t)) in
  v3_derive (fun s => er_omega (V3 (a s) (b s) (c s)) (V3 (u s) (v s) (w s))) t
    (v3_add (m3_vec (fst J) (V3 da db dc)) (m3_vec (snd J) (V3 du dv dw))).
Proof.
  intros A B C U V W. cbv zeta.
  derive_ex A. derive_ex B. derive_ex C. derive_ex U. derive_ex V. derive_ex W.
  assert (P : 1 + (a t * a t + b t * b t + c t * c t) <> 0) by nra.
  unfold v3_derive, er_omega, er_J. cbn [fst snd]. kunf.
  split; [ | split];
    (auto_derive; [derive_side | derive_sub A; derive_sub B; derive_sub C; derive_sub U; derive_sub V; derive_sub W; field; exact P]).
Qed.
Lemma er_jac : velocity_jacobian er_omega (fun p v J => J = er_J p v) (fun _ => True).
Proof.
  intros p v t pd vd J (A & B & C) (U & V & W) _ ->.
  pose proof (er_J_scalar _ _ _ _ _ _ t _ _ _ _ _ _ A B C U V W) as H.
  cbv zeta in H. rewrite !v3_eta in H. exact H.
Qed.

(** ** Rotation vectors *)

(** The exponential formula without its small-angle branch. *)
Definition expf (a : v3) : v4 :=
  let t := v3_norm a in
  V4 (sin (t / 2) / t * x0 a) (sin (t / 2) / t * x1 a) (sin (t / 2) / t * x2 a) (cos (t / 2)).
Definition expD (v : v3) : m3 :=
  let p := v3_norm v in
  m3_add (m3_sub m3_I (m3_scale (2 * sin (p / 2) * sin (p / 2) / (p * p)) (crossMx v)))
         (m3_mul (m3_scale ((1 - sin p / p) / (p * p)) (crossMx v)) (crossMx v)).

Lemma expf_unit a : unit4 (expf a).
Proof.
  unfold expf, unit4. cbv zeta. cbn [q0 q1 q2 q3].
  pose proof (sin2_cos2 (v3_norm a / 2)) as T. unfold Rsqr in T.
  destruct (Req_dec (v3_norm a) 0) as [Z | Z].
  - assert (E := v3_norm_0 a Z). rewrite Z, E. unfold v3_zero. cbn [x0 x1 x2].
    replace (0 / 2) with 0 by field. rewrite cos_0. ring.
  - replace (_ + _ + _ + _) with
      (sin (v3_norm a / 2) / v3_norm a * (sin (v3_norm a / 2) / v3_norm a) * v3_dot a a + cos (v3_norm a / 2) * cos (v3_norm a / 2))
      by (unfold v3_dot; ring).
    rewrite <- v3_norm_sq, <- T. field. exact Z.
Qed.

Lemma expf_derive (a : R -> v3) (t : R) (d : v3) :
  v3_derive a t d -> 0 < v3_norm (a t) ->
  v4_derive (fun s => expf (a s)) t
    (m43_vec (m43_mul3 (m4_mul43 (quatOPlus (expf (a t))) quatV) (expD (a t))) d).
Proof.
  intros H L.
  pose proof (norm_derive a t d H ltac:(lra)) as N. destruct H as (A & B & C).
  destruct (exp_derive_scalar _ _ t _ _ N A ltac:(lra)) as [D0 D3].
  destruct (exp_derive_scalar _ _ t _ _ N B ltac:(lra)) as [D1 _].
  destruct (exp_derive_scalar _ _ t _ _ N C ltac:(lra)) as [D2 _].
  set (n := v3_norm (a t)) in *.
  assert (E : m43_vec (m43_mul3 (m4_mul43 (quatOPlus (expf (a t))) quatV) (expD (a t))) d =
    V4 ((cos (n / 2) / 2 * (v3_dot (a t) d / n) / n - sin (n / 2) * (v3_dot (a t) d / n) / (n * n)) * x0 (a t) + sin (n / 2) / n * x0 d)
       ((cos (n / 2) / 2 * (v3_dot (a t) d / n) / n - sin (n / 2) * (v3_dot (a t) d / n) / (n * n)) * x1 (a t) + sin (n / 2) / n * x1 d)
       ((cos (n / 2) / 2 * (v3_dot (a t) d / n) / n - sin (n / 2) * (v3_dot (a t) d / n) / (n * n)) * x2 (a t) + sin (n / 2) / n * x2 d)
       (- sin (n / 2) / 2 * (v3_dot (a t) d / n))).
  { unfold expD, expf. cbv zeta. fold n.
    destruct (half_angle n) as [-> _].
    pose proof (sin2_cos2 (n / 2)) as T. unfold Rsqr in T.
    rewrite exp_jacobian_vec. cbv zeta. rewrite <- (v3_norm_sq (a t)). fold n.
    set (s := sin (n / 2)) in *. set (c := cos (n / 2)) in *.
    destruct (exp_coeffs n s c ltac:(lra) T) as (E1 & E2 & E3). cbv zeta in E1, E2, E3.
    rewrite E1, E2, E3. set (u := v3_dot (a t) d). f_equal; field; lra. }
  rewrite E. unfold v4_derive, expf. cbv zeta. cbn [q0 q1 q2 q3].
  split; [exact D0 | split; [exact D1 | split; [exact D2 | exact D3]]].
Qed.

Lemma expf_velocity q D d : unit4 q ->
  m34_vec (quatS q) (m43_vec (m43_mul3 (m4_mul43 (quatOPlus q) quatV) D) d) = m3_vec D d.
Proof.
  intros U. apply (proj1 (unit4_dot q)) in U.
  assert (E : m34_vec (quatS q) (m43_vec (m43_mul3 (m4_mul43 (quatOPlus q) quatV) D) d) =
              v3_scale (v4_dot q q) (m3_vec D d)) by kfield.
  rewrite E, U. kring.
Qed.

Lemma rv_is_expf p : 1 / 10 ^ 14 <= v3_norm p -> rv_C p = quat2r (expf p).
Proof.
  intros H. unfold rv_C, expf. cbv zeta.
  destruct (ltb_spec (v3_norm p) (1 / 10 ^ 14)) as [L | _]; [lra | ].
  pose proof (v3_norm_sq p) as N2. destruct (half_angle (v3_norm p)) as [-> ->].
  pose proof (sin2_cos2 (v3_norm p / 2)) as T. unfold Rsqr in T.
  assert (I : / v3_norm p * v3_norm p = 1) by (field; lra).
  unfold Rdiv. rewrite Rmult_1_l. fold (v3_norm p / 2) in *.
  set (n := v3_norm p) in *. set (s := sin _) in *. set (c := cos _) in *. set (k := / n) in *.
  clearbody k s c n. unfold v3_dot in N2. destruct p as [x y z]. cbn [x0 x1 x2] in N2. clear H. kunf.
  f_equal; nsatz.
Qed.

Lemma rv_SO3 p : SO3 (rv_C p).
Proof.
  destruct (Rlt_le_dec (v3_norm p) (1 / 10 ^ 14)) as [L | L].
  - unfold rv_C. destruct (ltb_spec (v3_norm p) (1 / 10 ^ 14)); [apply SO3_I | contradiction].
  - rewrite rv_is_expf by exact L. apply quat2r_SO3, expf_unit.
Qed.

Lemma rv_S_expD p : 1 / 10 ^ 14 <= v3_norm p -> rv_S p = expD p.
Proof.
  intros H. unfold rv_S, expD. cbv zeta.
  destruct (ltb_spec (v3_norm p) (1 / 10 ^ 14)) as [L | _]; [lra | ].
  replace (v3_norm p * (1 / 2)) with (v3_norm p / 2) by field.
  set (n := v3_norm p) in *. set (s := sin _) in *. set (c := sin _) in *.
  clearbody n. destruct p as [x y z]. kunf. f_equal; field; lra.
Qed.

Lemma rv_rates : rates_to_velocity rv_C rv_S (fun p => 1 / 10 ^ 14 < v3_norm p).
Proof.
  intros p t pd H L. pose proof (norm_derive p t pd H ltac:(lra)) as N.
  destruct (quatS_angular (fun s => expf (p s)) t _ (fun s => expf_unit (p s)) (expf_derive p t pd H ltac:(lra)))
    as (D & D1 & D2). exists D. split.
  - revert D1. apply m3_derive_ext_loc.
    apply (filter_imp (fun s => 1 / 10 ^ 14 < v3_norm (p s))).
    + intros s Hs. symmetry. apply rv_is_expf. lra.
    + apply (locally_gt (fun s => v3_norm (p s))); [eapply derive_continuous; exact N | exact L].
  - rewrite expf_velocity in D2 by apply expf_unit.
    rewrite rv_is_expf, rv_S_expD by lra. exact D2.
Qed.

(** *** Reading the rotation vector back *)

Lemma rv_params_quat q : unit4 q -> 0 <= q3 q ->
  1 / 10 ^ 14 <= rot_angle (quat2r q) -> 1 / 10 ^ 14 <= v3_norm (skew_part (quat2r q)) ->
  0 < q3 q /\ 0 < v3_norm (qeps q) /\
  rv_params (quat2r q) = v3_scale (2 * acos (q3 q) / v3_norm (qeps q)) (qeps q).
Proof.
  intros U P H1 H2. pose proof (unit_split q U) as E. pose proof (v3_norm_pos (qeps q)) as NP.
  assert (Eb : 0 <= q3 q <= 1) by nra.
  destruct (R2_quat q U P) as (A & K & _).
  assert (T : m3_trace (quat2r q) - 1 = 2 * (2 * q3 q * q3 q - 1)).
  { unfold unit4 in U. destruct q as [a b c d]. kunf. kunf in U. lra. }
  pose proof H2 as H2'. rewrite K, v3_norm_scale in H2'.
  assert (Hq : 0 < q3 q).
  { destruct Eb as [[? | Z] _]; [assumption | ]. rewrite <- Z in H2'.
    rewrite Rmult_0_r, Rabs_R0 in H2'. lra. }
  rewrite Rabs_left in H2' by lra.
  assert (Hn : 0 < v3_norm (qeps q)) by nra.
  split; [exact Hq | split; [exact Hn | ]].
  unfold rv_params.
  assert (M : Rmax (-1) (Rmin ((m00 (quat2r q) + m11 (quat2r q) + m22 (quat2r q) - 1) * (1/2)) 1) =
              (m3_trace (quat2r q) - 1) / 2).
  { assert (0 <= q3 q * q3 q <= 1) by nra.
    assert (-1 <= (m3_trace (quat2r q) - 1) / 2 <= 1) by (rewrite T; lra).
    unfold m3_trace in *. rewrite Rmin_left by lra. rewrite Rmax_right by lra. field. }
  rewrite M. fold (rot_angle (quat2r q)). rewrite A in *.
  change (V3 (m21 (quat2r q) - m12 (quat2r q)) (m02 (quat2r q) - m20 (quat2r q)) (m10 (quat2r q) - m01 (quat2r q)))
    with (skew_part (quat2r q)). cbv zeta.
  destruct (ltb_spec (Rabs (2 * acos (q3 q))) (1 / 10 ^ 14)) as [L | _];
    [rewrite Rabs_right in L by lra; lra | ].
  destruct (ltb_spec (Rabs (v3_norm (skew_part (quat2r q)))) (1 / 10 ^ 14)) as [L | _];
    [rewrite Rabs_right in L by lra; lra | ].
  rewrite K, v3_norm_scale, Rabs_left by lra.
  destruct q as [a b c d]. unfold v3_scale, qeps in *. cbn [x0 x1 x2 q0 q1 q2 q3] in *.
  set (n := v3_norm _) in *. f_equal; field; lra.
Qed.

Lemma rv_of_params C : SO3 C ->
  1 / 10 ^ 14 <= rot_angle C -> 1 / 10 ^ 14 <= v3_norm (skew_part C) ->
  rv_C (rv_params C) = C /\ v3_norm (rv_params C) = rot_angle C.
Proof.
  intros H A K. destruct (r2quat_spec C H) as (U & E & P). rewrite <- E in A, K. rewrite <- E.
  set (q := r2quat C) in *. clearbody q. clear E H C.
  destruct (rv_params_quat _ U P A K) as (Hq & Hn & ->).
  destruct (R2_quat q U P) as (A2 & _ & _). rewrite A2 in *.
  pose proof (unit_split q U) as E. assert (Eb : 0 <= q3 q <= 1) by nra.
  destruct (acos_ge_sin (q3 q) ltac:(lra) _ (Rlt_le _ _ Hn) E) as (S1 & _).
  set (n := v3_norm (qeps q)) in *.
  assert (Nl : v3_norm (v3_scale (2 * acos (q3 q) / n) (qeps q)) = 2 * acos (q3 q)).
  { rewrite v3_norm_scale. fold n. rewrite Rabs_right; [field; lra | ].
    apply Rle_ge, Rmult_le_pos; [lra | left; apply Rinv_0_lt_compat; lra]. }
  split; [ | exact Nl]. rewrite rv_is_expf by (rewrite Nl; exact A). f_equal.
  unfold expf. cbv zeta. rewrite Nl. replace (2 * acos (q3 q) / 2) with (acos (q3 q)) by field.
  rewrite S1, cos_acos by lra. clearbody n. destruct q as [a b c d].
  unfold v3_scale, qeps. cbn [x0 x1 x2 q0 q1 q2 q3] in *. f_equal; field; split; lra.
Qed.

Lemma rv_roundtrip p : 1 / 10 ^ 14 <= v3_norm p < PI -> 1 / 10 ^ 14 <= 2 * sin (v3_norm p) ->
  rv_params (rv_C p) = p.
Proof.
  intros [H0 H1] H2. rewrite rv_is_expf by exact H0.
  set (n := v3_norm p) in *.
  pose proof (cos_gt_0 (n / 2) ltac:(lra) ltac:(lra)) as CP.
  pose proof (sin_gt_0 (n / 2) ltac:(lra) ltac:(lra)) as SP.
  pose proof (expf_unit p) as U.
  assert (Q3 : q3 (expf p) = cos (n / 2)) by reflexivity.
  assert (Qe : qeps (expf p) = v3_scale (sin (n / 2) / n) p) by reflexivity.
  assert (KP : 0 < sin (n / 2) / n) by (apply Rdiv_lt_0_compat; lra).
  assert (Ne : v3_norm (qeps (expf p)) = sin (n / 2)).
  { rewrite Qe, v3_norm_scale, Rabs_right by lra. fold n. field. lra. }
  assert (AC : acos (cos (n / 2)) = n / 2) by (apply acos_cos; lra).
  destruct (R2_quat (expf p) U ltac:(lra)) as (A & K & _).
  destruct (rv_params_quat (expf p) U ltac:(lra)) as (_ & _ & ->).
  - rewrite A, Q3, AC. lra.
  - rewrite K, v3_norm_scale, Ne, Q3, Rabs_left by lra. destruct (half_angle n) as [E _]. lra.
  - rewrite Q3, AC, Ne, Qe. unfold v3_scale. cbn [x0 x1 x2]. clearbody n. destruct p as [x y z]. cbn [x0 x1 x2].
    f_equal; field; lra.
Qed.

(** *** The inverse of S *)

Lemma rv_invS_inverse p : 1 / 10 ^ 14 <= v3_norm p -> cos (v3_norm p) <> 1 ->
  exists Si, rv_invS p = Some Si /\ m3_mul (rv_S p) Si = m3_I /\ m3_mul Si (rv_S p) = m3_I.
Proof.
  intros H C1. rewrite rv_S_expD by exact H. unfold rv_invS. change (sqrt (v3_dot p p)) with (v3_norm p).
  destruct (eqb_spec (v3_norm p) 0) as [Z | _]; [lra | ].
  destruct (eqb_spec (cos (v3_norm p) - 1) 0) as [Z | _]; [exfalso; apply C1; lra | ].
  eexists. split; [reflexivity | ]. unfold expD. cbv zeta.
  set (n := v3_norm p) in *.
  pose proof (v3_norm_sq p) as N2. fold n in N2.
  destruct (half_angle n) as [Es Ec]. pose proof (sin2_cos2 (n / 2)) as T. unfold Rsqr in T.
  assert (Sn : sin (n / 2) <> 0).
  { intros Z. apply C1. rewrite Ec, Z. rewrite Z in T. lra. }
  set (s := sin (n / 2)) in *. set (c := cos (n / 2)) in *.
  assert (Ecot : - sin n / (cos n - 1) = c / s).
  { rewrite Es, Ec. replace (c * c - s * s - 1) with (- 2 * (s * s)) by lra. field. exact Sn. }
  rewrite Ecot, Es.
  assert (COMM : forall A B a v,
    m3_mul (m3_add (m3_add m3_I (m3_scale (1/2) (crossMx v))) (m3_mul (m3_scale a (crossMx v)) (crossMx v)))
      (m3_add (m3_sub m3_I (m3_scale A (crossMx v))) (m3_mul (m3_scale B (crossMx v)) (crossMx v))) =
    m3_mul (m3_add (m3_sub m3_I (m3_scale A (crossMx v))) (m3_mul (m3_scale B (crossMx v)) (crossMx v)))
      (m3_add (m3_add m3_I (m3_scale (1/2) (crossMx v))) (m3_mul (m3_scale a (crossMx v)) (crossMx v)))) by (intros; kfield).
  rewrite COMM, diff_product. cbv zeta. rewrite <- N2.
  set (A := 2 * s * s / (n * n)). set (B := (1 - 2 * s * c / n) / (n * n)). set (a := 1 / (n * n) * (1 - 1 / 2 * n * (c / s))).
  assert (Z1 : 1 / 2 - A + n * n * (A * a - B / 2) = 0).
  { unfold A, B, a. field. split; [lra | exact Sn]. }
  assert (Z2 : a + B - A / 2 - n * n * a * B = 0).
  { unfold A, B, a. apply (Rmult_eq_reg_l (n * n * s)); [ | apply Rmult_integral_contrapositive; split; [nra | exact Sn]].
    replace (n * n * s * _) with (s * (1 - s * s - c * c)); [replace (1 - s * s - c * c) with 0 by lra; ring | ].
    field. split; [lra | exact Sn]. }
  rewrite Z1, Z2. clear. split; kring.
Qed.

Lemma rv_rodrigues p : 1 / 10 ^ 14 <= v3_norm p ->
  forall v, m3_vec (rv_C p) v = rodrigues (v3_scale (/ v3_norm p) p) (v3_norm p) v.
Proof.
  intros H v. unfold rv_C, rodrigues. cbv zeta.
  destruct (ltb_spec (v3_norm p) (1 / 10 ^ 14)) as [L | _]; [lra | ].
  pose proof (normalized_unit p ltac:(lra)) as U. unfold unit3 in U.
  replace (1 / v3_norm p) with (/ v3_norm p) by (field; lra).
  set (e := v3_scale (/ v3_norm p) p) in *. set (s := sin _). set (c := cos _).
  clearbody e s c. destruct e as [x y z], v as [a b d]. cbn [x0 x1 x2] in U. kunf. f_equal; nsatz.
Qed.
Lemma er_omega_S p v : er_omega p v = m3_vec (er_S p) v.
Proof.
  unfold er_omega, er_S. cbv zeta. replace (2 * (1 / (1 + v3_dot p p))) with (2 / (1 + v3_dot p p)); [reflexivity | ].
  field. pose proof (one_plus_sq p). lra.
Qed.
