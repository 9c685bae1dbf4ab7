(** * Jacobians of the quaternion exponential, logarithm and update *)

From Coquelicot Require Import Coquelicot.
From Coq Require Import Reals Psatz Nsatz.
From Verif Require Import KinModel KinSpec KinProofs KinExp KinCurve.
Local Open Scope R_scope.

(** ** Quaternion rates and angular velocities *)

Lemma S_invS q : m34_mul43 (quatS q) (quatInvS q) = m3_scale (v4_dot q q) m3_I.
Proof. kfield. Qed.
Lemma jacobian_invS q : quatJacobian q = quatInvS q.
Proof. kring. Qed.

Lemma quat2r_derive_scalar (a b c d : R -> R) (t da db dc dd : R) :
  is_derive a t da -> is_derive b t db -> is_derive c t dc -> is_derive d t dd ->
  m3_derive (fun s => quat2r (V4 (a s) (b s) (c s) (d s))) t
    (M3 (2*(a t*da-b t*db-c t*dc+d t*dd)) (2*(a t*db+da*b t+c t*dd+dc*d t)) (2*(a t*dc+da*c t-b t*dd-db*d t))
        (2*(a t*db+da*b t-c t*dd-dc*d t)) (2*(- a t*da+b t*db-c t*dc+d t*dd)) (2*(a t*dd+da*d t+b t*dc+db*c t))
        (2*(a t*dc+da*c t+b t*dd+db*d t)) (2*(b t*dc+db*c t-a t*dd-da*d t)) (2*(- a t*da-b t*db+c t*dc+d t*dd))).
Proof.
  intros A B C D. derive_ex A. derive_ex B. derive_ex C. derive_ex D.
  unfold m3_derive, quat2r. cbn [q0 q1 q2 q3 m00 m01 m02 m10 m11 m12 m20 m21 m22].
  split; [split; [ | split] | split; [split; [ | split] | split; [ | split]]];
    auto_derive; try derive_side; derive_sub A; derive_sub B; derive_sub C; derive_sub D; ring.
Qed.

(** The rate of a quaternion that stays of length one is orthogonal to it. *)
Lemma unit_tangent (a b c d : R -> R) (t da db dc dd : R) :
  is_derive a t da -> is_derive b t db -> is_derive c t dc -> is_derive d t dd ->
  (forall s, a s * a s + b s * b s + c s * c s + d s * d s = 1) ->
  a t * da + b t * db + c t * dc + d t * dd = 0.
Proof.
  intros A B C D U. derive_ex A. derive_ex B. derive_ex C. derive_ex D.
  assert (E : is_derive (fun s => a s * a s + b s * b s + c s * c s + d s * d s) t
                (2 * (a t * da + b t * db + c t * dc + d t * dd))).
  { auto_derive; [derive_side | derive_sub A; derive_sub B; derive_sub C; derive_sub D; ring]. }
  apply is_derive_unique in E. rewrite (Derive_ext _ (fun _ => 1)), Derive_const in E by exact U.
  lra.
Qed.

(** A moving unit quaternion turns with angular velocity [quatS q * qdot]. *)
Lemma quatS_angular (q : R -> v4) (t : R) (qd : v4) :
  (forall s, unit4 (q s)) -> v4_derive q t qd ->
  exists Cdot, m3_derive (fun s => quat2r (q s)) t Cdot /\
    angular_velocity (quat2r (q t)) Cdot (m34_vec (quatS (q t)) qd).
Proof.
  intros U (A & B & C & D).
  pose proof (quat2r_derive_scalar _ _ _ _ t _ _ _ _ A B C D) as H. cbv beta in H.
  eexists. split; [exact H | ]. clear H.
  assert (T : q0 (q t) * q0 qd + q1 (q t) * q1 qd + q2 (q t) * q2 qd + q3 (q t) * q3 qd = 0).
  { apply (unit_tangent _ _ _ _ t _ _ _ _ A B C D). exact U. }
  unfold angular_velocity. pose proof (U t) as Ut. unfold unit4 in Ut.
  destruct (q t) as [a b c d]. destruct qd as [da db dc dd]. cbn [q0 q1 q2 q3] in *. kunf.
  f_equal; nsatz.
Qed.

Lemma half_angle t : sin t = 2 * sin (t / 2) * cos (t / 2) /\
  cos t = cos (t / 2) * cos (t / 2) - sin (t / 2) * sin (t / 2).
Proof.
  split; [rewrite <- sin_2a | rewrite <- cos_plus]; f_equal; field.
Qed.

Lemma exp_derive_scalar (n x : R -> R) (t dn dx : R) :
  is_derive n t dn -> is_derive x t dx -> 0 < n t ->
  is_derive (fun s => sin (n s / 2) / n s * x s) t
    ((cos (n t / 2) / 2 * dn / n t - sin (n t / 2) * dn / (n t * n t)) * x t + sin (n t / 2) / n t * dx) /\
  is_derive (fun s => cos (n s / 2)) t (- sin (n t / 2) / 2 * dn).
Proof.
  intros N X P. derive_ex N. derive_ex X. split.
  - auto_derive; [derive_side | derive_sub N; derive_sub X; unfold Rdiv; field; lra].
  - auto_derive; [derive_side | derive_sub N; unfold Rdiv; field].
Qed.

Lemma expDiffMat_big v : eps4 <= v3_norm v ->
  expDiffMat v =
  let p := v3_norm v in
  m3_add (m3_sub m3_I (m3_scale (2 * sin (p / 2) * sin (p / 2) / (p * p)) (crossMx v)))
         (m3_mul (m3_scale ((1 - sin p / p) / (p * p)) (crossMx v)) (crossMx v)).
Proof.
  intros H. unfold expDiffMat. cbv zeta. pose proof eps4_pos.
  destruct (eqb_spec (v3_norm v) 0) as [Z | _]; [lra | ].
  rewrite (Rabs_right (v3_norm v)) by lra. rewrite isSmall_false by exact H. reflexivity.
Qed.

(** The product in [quatExpJacobian] applied to a vector, for any coefficients. *)
Lemma exp_jacobian_vec m c A B a d :
  m43_vec (m43_mul3 (m4_mul43 (quatOPlus (V4 (m * x0 a) (m * x1 a) (m * x2 a) c)) quatV)
             (m3_add (m3_sub m3_I (m3_scale A (crossMx a))) (m3_mul (m3_scale B (crossMx a)) (crossMx a)))) d =
  let N := v3_dot a a in
  let u := v3_dot a d in
  let k1 := (c * (1 - B * N) + m * A * N) / 2 in
  let k2 := (c * B - m * A) / 2 in
  let k3 := (m * (1 - B * N) - c * A) / 2 in
  let w := v3_cross a d in
  V4 (k1 * x0 d + k2 * u * x0 a + k3 * x0 w) (k1 * x1 d + k2 * u * x1 a + k3 * x1 w)
     (k1 * x2 d + k2 * u * x2 a + k3 * x2 w) (- (m * u) / 2).
Proof. kfield. Qed.

Lemma exp_coeffs n s c : n <> 0 -> s * s + c * c = 1 ->
  let N := n * n in
  let m := s / n in
  let A := 2 * s * s / (n * n) in
  let B := (1 - 2 * s * c / n) / (n * n) in
  (c * (1 - B * N) + m * A * N) / 2 = s / n /\
  (c * B - m * A) / 2 = c / 2 / n / n - s / n / (n * n) /\
  m * (1 - B * N) - c * A = 0.
Proof.
  intros Hn T N m A B. subst N m A B. split; [ | split].
  - replace ((c * (1 - (1 - 2 * s * c / n) / (n * n) * (n * n)) + s / n * (2 * s * s / (n * n)) * (n * n)) / 2)
      with (s / n * (s * s + c * c)) by (field; exact Hn). rewrite T. ring.
  - replace ((c * ((1 - 2 * s * c / n) / (n * n)) - s / n * (2 * s * s / (n * n))) / 2)
      with (c / 2 / n / n - s / n / (n * n) * (s * s + c * c)) by (field; exact Hn). rewrite T. ring.
  - field. exact Hn.
Qed.

Lemma exp_derive (a : R -> v3) (t : R) (d : v3) :
  v3_derive a t d -> eps4 < v3_norm (a t) ->
  v4_derive (fun s => axisAngle2quat (a s)) t (m43_vec (quatExpJacobian (a t)) d).
Proof.
  intros H L. pose proof eps4_pos as P.
  pose proof (norm_derive a t d H ltac:(lra)) as N. destruct H as (A & B & C).
  apply (v4_derive_ext_loc (fun s => let t := v3_norm (a s) in
    V4 (sin (t / 2) / t * x0 (a s)) (sin (t / 2) / t * x1 (a s)) (sin (t / 2) / t * x2 (a s)) (cos (t / 2)))).
  { apply (filter_imp (fun s => eps4 < v3_norm (a s))).
    - intros s Hs. rewrite exp_big by lra. reflexivity.
    - apply (locally_gt (fun s => v3_norm (a s))); [eapply derive_continuous; exact N | exact L]. }
  unfold v4_derive. cbv zeta. cbn [q0 q1 q2 q3].
  destruct (exp_derive_scalar _ _ t _ _ N A ltac:(lra)) as [D0 D3].
  destruct (exp_derive_scalar _ _ t _ _ N B ltac:(lra)) as [D1 _].
  destruct (exp_derive_scalar _ _ t _ _ N C ltac:(lra)) as [D2 _].
  assert (E : m43_vec (quatExpJacobian (a t)) d =
    V4 ((cos (v3_norm (a t) / 2) / 2 * (v3_dot (a t) d / v3_norm (a t)) / v3_norm (a t) - sin (v3_norm (a t) / 2) * (v3_dot (a t) d / v3_norm (a t)) / (v3_norm (a t) * v3_norm (a t))) * x0 (a t) + sin (v3_norm (a t) / 2) / v3_norm (a t) * x0 d)
       ((cos (v3_norm (a t) / 2) / 2 * (v3_dot (a t) d / v3_norm (a t)) / v3_norm (a t) - sin (v3_norm (a t) / 2) * (v3_dot (a t) d / v3_norm (a t)) / (v3_norm (a t) * v3_norm (a t))) * x1 (a t) + sin (v3_norm (a t) / 2) / v3_norm (a t) * x1 d)
       ((cos (v3_norm (a t) / 2) / 2 * (v3_dot (a t) d / v3_norm (a t)) / v3_norm (a t) - sin (v3_norm (a t) / 2) * (v3_dot (a t) d / v3_norm (a t)) / (v3_norm (a t) * v3_norm (a t))) * x2 (a t) + sin (v3_norm (a t) / 2) / v3_norm (a t) * x2 d)
       (- sin (v3_norm (a t) / 2) / 2 * (v3_dot (a t) d / v3_norm (a t)))).
  { unfold quatExpJacobian. rewrite exp_big, expDiffMat_big by lra. cbv zeta.
    assert (N2 : v3_norm (a t) * v3_norm (a t) = x0 (a t) * x0 (a t) + x1 (a t) * x1 (a t) + x2 (a t) * x2 (a t))
      by (rewrite v3_norm_sq; reflexivity).
    destruct (half_angle (v3_norm (a t))) as [-> _].
    pose proof (sin2_cos2 (v3_norm (a t) / 2)) as T. unfold Rsqr in T.
    rewrite exp_jacobian_vec. cbv zeta. rewrite <- (v3_norm_sq (a t)).
    set (n := v3_norm (a t)) in *. set (s := sin (n / 2)) in *. set (c := cos (n / 2)) in *.
    destruct (exp_coeffs n s c ltac:(lra) T) as (E1 & E2 & E3). cbv zeta in E1, E2, E3.
    rewrite E1, E2, E3. set (u := v3_dot (a t) d). f_equal; field; lra. }
  rewrite E. cbn [q0 q1 q2 q3].
  split; [exact D0 | split; [exact D1 | split; [exact D2 | exact D3]]].
Qed.

(** ** expDiffMat and logDiffMat *)

Lemma logDiffMat_big v : eps4 <= v3_norm v ->
  logDiffMat v =
  let p := v3_norm v in
  m3_add (m3_add m3_I (m3_scale (1/2) (crossMx v)))
         (m3_mul (m3_scale ((1 - p / 2 / tan (p / 2)) / p / p) (crossMx v)) (crossMx v)).
Proof.
  intros H. unfold logDiffMat. cbv zeta. pose proof eps4_pos.
  destruct (eqb_spec (v3_norm v) 0) as [Z | _]; [lra | ].
  rewrite (Rabs_right (v3_norm v)) by lra. rewrite isSmall_false by exact H.
  replace (1/2 * v3_norm v) with (v3_norm v / 2) by field. reflexivity.
Qed.

Lemma diff_product A B a v :
  m3_mul (m3_add (m3_sub m3_I (m3_scale A (crossMx v))) (m3_mul (m3_scale B (crossMx v)) (crossMx v)))
         (m3_add (m3_add m3_I (m3_scale (1/2) (crossMx v))) (m3_mul (m3_scale a (crossMx v)) (crossMx v))) =
  let N := v3_dot v v in
  m3_add (m3_add m3_I (m3_scale (1/2 - A + N * (A * a - B / 2)) (crossMx v)))
         (m3_scale (a + B - A / 2 - N * a * B) (m3_mul (crossMx v) (crossMx v))).
Proof. kfield. Qed.

Lemma exp_log_diff v : eps4 <= v3_norm v ->
  sin (v3_norm v / 2) <> 0 -> cos (v3_norm v / 2) <> 0 ->
  m3_mul (expDiffMat v) (logDiffMat v) = m3_I.
Proof.
  intros H Hs Hc. rewrite expDiffMat_big, logDiffMat_big by exact H. cbv zeta.
  rewrite diff_product. cbv zeta. pose proof eps4_pos as P.
  rewrite <- (v3_norm_sq v). unfold tan.
  pose proof (sin2_cos2 (v3_norm v / 2)) as T. unfold Rsqr in T.
  destruct (half_angle (v3_norm v)) as [-> _].
  set (n := v3_norm v) in *. set (s := sin (n / 2)) in *. set (c := cos (n / 2)) in *.
  assert (Hn : n <> 0) by lra.
  assert (E1 : 1/2 - 2 * s * s / (n * n) +
     n * n * (2 * s * s / (n * n) * ((1 - n / 2 / (s / c)) / n / n) - (1 - 2 * s * c / n) / (n * n) / 2) = 0).
  { field. auto. }
  assert (E2 : (1 - n / 2 / (s / c)) / n / n + (1 - 2 * s * c / n) / (n * n) -
     2 * s * s / (n * n) / 2 - n * n * ((1 - n / 2 / (s / c)) / n / n) * ((1 - 2 * s * c / n) / (n * n)) = 0).
  { replace ((1 - n / 2 / (s / c)) / n / n + (1 - 2 * s * c / n) / (n * n) -
     2 * s * s / (n * n) / 2 - n * n * ((1 - n / 2 / (s / c)) / n / n) * ((1 - 2 * s * c / n) / (n * n)))
     with ((1 - (s * s + c * c)) / (n * n)) by (field; auto).
    rewrite T. field. lra. }
  rewrite E1, E2. kring.
Qed.

(** ** The logarithm along a curve of unit quaternions *)

Lemma acos_derive e : -1 < e < 1 -> is_derive acos e (- / sqrt (1 - e * e)).
Proof.
  intros H. apply is_derive_Reals.
  replace (- / sqrt (1 - e * e)) with (derive_pt acos e (derivable_pt_acos e H)).
  - apply (proj1 (derive_pt_eq acos e _ (derivable_pt_acos e H))). reflexivity.
  - rewrite derive_pt_acos. unfold Rsqr, Rdiv. ring.
Qed.

Lemma log_derive_scalar (w n x : R -> R) (t dw dn dx : R) :
  is_derive w t dw -> is_derive n t dn -> is_derive x t dx -> 0 < n t ->
  is_derive (fun s => 2 * (w s / n s) * x s) t
    (2 * (dw / n t - w t * dn / (n t * n t)) * x t + 2 * (w t / n t) * dx).
Proof.
  intros W N X P. derive_ex W. derive_ex N. derive_ex X.
  auto_derive; [derive_side | derive_sub W; derive_sub N; derive_sub X; field; lra].
Qed.

(** Rate of the logarithm: [2 acos(q3)/n * v] for q = (v, q3), |v| = n. *)
Definition log_rate (q qd : v4) : v3 :=
  let n := v3_norm (qeps q) in
  let w := acos (q3 q) in
  let vv := v3_dot (qeps q) (qeps qd) in
  v3_add (v3_scale (2 * (w / n)) (qeps qd))
         (v3_scale (2 * (- (q3 qd) / (n * n) - w * vv / (n * n * n))) (qeps q)).

Lemma log_derive (q : R -> v4) (t : R) (qd : v4) :
  (forall s, unit4 (q s)) -> v4_derive q t qd -> eps4 < v3_norm (qeps (q t)) ->
  exists l, locally t (fun s => quat2AxisAngle (q s) = Some (l s)) /\
            v3_derive l t (log_rate (q t) qd).
Proof.
  intros U (A & B & C & D) L. pose proof eps4_pos as P.
  assert (Hv : v3_derive (fun s => qeps (q s)) t (qeps qd)) by (split; [exact A | split; [exact B | exact C]]).
  pose proof (norm_derive _ _ _ Hv ltac:(lra)) as N.
  exists (fun s => v3_scale (2 * (acos (q3 (q s)) / v3_norm (qeps (q s)))) (qeps (q s))). split.
  - apply (filter_imp (fun s => eps4 < v3_norm (qeps (q s)))).
    + intros s Hs. apply log_big; [apply U | left; lra].
    + apply (locally_gt (fun s => v3_norm (qeps (q s)))); [eapply derive_continuous; exact N | exact L].
  - pose proof (unit_split _ (U t)) as E.
    assert (Eb : -1 < q3 (q t) < 1) by nra.
    pose proof (is_derive_comp (V := R_NormedModule) acos (fun s => q3 (q s)) t _ _ (acos_derive _ Eb) D) as W.
    assert (Sq : sqrt (1 - q3 (q t) * q3 (q t)) = v3_norm (qeps (q t))).
    { apply sqrt_lem_1; nra. }
    rewrite Sq in W. change (scal (q3 qd) (- / v3_norm (qeps (q t)))) with (q3 qd * - / v3_norm (qeps (q t))) in W.
    pose proof (log_derive_scalar _ _ _ t _ _ _ W N A ltac:(lra)) as D0.
    pose proof (log_derive_scalar _ _ _ t _ _ _ W N B ltac:(lra)) as D1.
    pose proof (log_derive_scalar _ _ _ t _ _ _ W N C ltac:(lra)) as D2.
    assert (E3 : log_rate (q t) qd =
      V3 (2 * (q3 qd * - / v3_norm (qeps (q t)) / v3_norm (qeps (q t)) - acos (q3 (q t)) * (v3_dot (qeps (q t)) (qeps qd) / v3_norm (qeps (q t))) / (v3_norm (qeps (q t)) * v3_norm (qeps (q t)))) * q0 (q t) + 2 * (acos (q3 (q t)) / v3_norm (qeps (q t))) * q0 qd)
         (2 * (q3 qd * - / v3_norm (qeps (q t)) / v3_norm (qeps (q t)) - acos (q3 (q t)) * (v3_dot (qeps (q t)) (qeps qd) / v3_norm (qeps (q t))) / (v3_norm (qeps (q t)) * v3_norm (qeps (q t)))) * q1 (q t) + 2 * (acos (q3 (q t)) / v3_norm (qeps (q t))) * q1 qd)
         (2 * (q3 qd * - / v3_norm (qeps (q t)) / v3_norm (qeps (q t)) - acos (q3 (q t)) * (v3_dot (qeps (q t)) (qeps qd) / v3_norm (qeps (q t))) / (v3_norm (qeps (q t)) * v3_norm (qeps (q t)))) * q2 (q t) + 2 * (acos (q3 (q t)) / v3_norm (qeps (q t))) * q2 qd)).
    { unfold log_rate. cbv zeta. set (vv := v3_dot _ _). set (n := v3_norm _) in *.
      unfold v3_add, v3_scale, qeps. cbn [x0 x1 x2]. f_equal; field; lra. }
    rewrite E3. split; [exact D0 | split; [exact D1 | exact D2]].
Qed.

(** Both Jacobians of the logarithm give this rate. *)
Lemma logJ1 q qd : unit4 q -> 0 < v3_norm (qeps q) ->
  m34_vec (quatLogJacobian q) qd = log_rate q qd.
Proof.
  intros U P. pose proof (unit_split q U) as E. unfold quatLogJacobian, log_rate.
  pose proof (v3_norm_sq (qeps q)) as N2.
  set (n := v3_norm (qeps q)) in *. set (w := acos (q3 q)). cbv zeta.
  assert (uw : sqrt (- (q3 q * q3 q - 1) * n * n) = n * n).
  { replace (- (q3 q * q3 q - 1) * n * n) with ((n * n) * (n * n)) by nra.
    apply sqrt_square. nra. }
  rewrite uw. clear uw U E. clearbody n w.
  assert (Hn : n <> 0) by lra. clear P.
  destruct q as [a b c d], qd as [da db dc dd]. unfold qeps, v3_dot in *. cbn [q0 q1 q2 q3 x0 x1 x2] in *.
  kunf.
  assert (Ea : a * a = n * n - b * b - c * c) by lra.
  assert (Eb : b * b = n * n - a * a - c * c) by lra.
  assert (Ec : c * c = n * n - a * a - b * b) by lra.
  f_equal.
  - replace (b * b + c * c) with (n * n - a * a) by lra. field. exact Hn.
  - replace (a * a + c * c) with (n * n - b * b) by lra. field. exact Hn.
  - replace (a * a + b * b) with (n * n - c * c) by lra. field. exact Hn.
Qed.

Lemma logJ2_vec m a q qd :
  let v := qeps q in let d := qeps qd in
  let N := v3_dot v v in let vv := v3_dot v d in
  let l := v3_scale m v in
  let Pc := a * (m * m) in
  m34_vec (m34_mul4 (m3_mul34 (m3_add (m3_add m3_I (m3_scale (1/2) (crossMx l)))
                       (m3_mul (m3_scale a (crossMx l)) (crossMx l))) (m43_tr (m43_scale 4 quatV)))
                    (quatOPlus (quatInv q))) qd =
  v3_add (v3_add (v3_scale (2 * q3 q * (1 - Pc * N) + m * N) d)
                 (v3_scale (-2 * q3 qd * (1 - Pc * N) - m * vv + 2 * Pc * (q3 q * vv - q3 qd * N)) v))
         (v3_scale (m * q3 q - 2 * (1 - Pc * N)) (v3_cross v d)).
Proof. cbv zeta. kfield. Qed.

Lemma logJ2 q qd : unit4 q -> v4_dot q qd = 0 -> eps4 <= v3_norm (qeps q) -> q3 q <> 0 ->
  exists J, quatLogJacobian2 q = Some J /\ m34_vec J qd = log_rate q qd.
Proof.
  intros U T P Hz. pose proof (unit_split q U) as E.
  destruct (exp_of_log q U (or_introl P)) as (Nl & _ & Big & _).
  unfold quatLogJacobian2. rewrite (log_big q U (or_introl P)).
  eexists. split; [reflexivity | ].
  rewrite logDiffMat_big by exact Big. cbv zeta. rewrite logJ2_vec. cbv zeta.
  cbv zeta in Nl. rewrite Nl. pose proof eps4_pos as EP.
  assert (Eb : -1 <= q3 q <= 1) by nra.
  destruct (acos_ge_sin (q3 q) Eb _ (v3_norm_pos (qeps q)) E) as (S1 & S2).
  assert (Wp : 0 < acos (q3 q)) by lra.
  replace (2 * acos (q3 q) / 2) with (acos (q3 q)) by field.
  unfold tan. rewrite S1, cos_acos by exact Eb.
  assert (VV : v3_dot (qeps q) (qeps qd) = - (q3 q * q3 qd)).
  { unfold v4_dot in T. unfold v3_dot, qeps. cbn [x0 x1 x2]. lra. }
  unfold log_rate. cbv zeta. rewrite <- (v3_norm_sq (qeps q)). rewrite VV.
  set (n := v3_norm (qeps q)) in *. set (w := acos (q3 q)) in *. set (e := q3 q) in *.
  set (k := (1 - w / (n / e)) / (2 * w) / (2 * w)).
  assert (K : k * (2 * (w / n) * (2 * (w / n))) = (1 - w * e / n) / (n * n)).
  { unfold k. assert (n <> 0) by lra. assert (w <> 0) by lra. field. auto. }
  rewrite K.
  assert (C1 : 2 * e * (1 - (1 - w * e / n) / (n * n) * (n * n)) + 2 * (w / n) * (n * n) = 2 * (w / n)).
  { replace (2 * e * (1 - (1 - w * e / n) / (n * n) * (n * n)) + 2 * (w / n) * (n * n))
      with (2 * (w / n) * (n * n + e * e)) by (field; lra). rewrite E. ring. }
  assert (C3 : 2 * (w / n) * e - 2 * (1 - (1 - w * e / n) / (n * n) * (n * n)) = 0) by (field; lra).
  assert (C2 : -2 * q3 qd * (1 - (1 - w * e / n) / (n * n) * (n * n)) - 2 * (w / n) * - (e * q3 qd) +
     2 * ((1 - w * e / n) / (n * n)) * (e * - (e * q3 qd) - q3 qd * (n * n)) =
     2 * (- q3 qd / (n * n) - w * - (e * q3 qd) / (n * n * n))).
  { replace (e * - (e * q3 qd) - q3 qd * (n * n)) with (- (q3 qd * (n * n + e * e))) by ring.
    rewrite E. field. lra. }
  rewrite C1, C2, C3. destruct (qeps q), (qeps qd). kunf. f_equal; ring.
Qed.

(** ** The update of a quaternion at a zero step *)

Lemma small_exp_line d s : Rabs s * v3_norm d < eps4 ->
  axisAngle2quat (v3_scale s d) =
  V4 ((1/2 + s * s * v3_dot d d / 48) * (s * x0 d)) ((1/2 + s * s * v3_dot d d / 48) * (s * x1 d))
     ((1/2 + s * s * v3_dot d d / 48) * (s * x2 d)) (cos (s * v3_norm d / 2)).
Proof.
  intros H. rewrite exp_small by (rewrite v3_norm_scale; exact H). cbv zeta. rewrite v3_norm_scale.
  rewrite <- (v3_norm_sq d). 
  assert (A : Rabs s * Rabs s = s * s) by (rewrite <- Rabs_mult; apply Rabs_right; nra).
  replace (Rabs s * v3_norm d * (Rabs s * v3_norm d)) with (s * s * (v3_norm d * v3_norm d))
    by (rewrite <- A; ring).
  assert (C : cos (Rabs s * v3_norm d / 2) = cos (s * v3_norm d / 2)).
  { unfold Rabs. destruct (Rcase_abs s); [ | reflexivity].
    replace (- s * v3_norm d / 2) with (- (s * v3_norm d / 2)) by field. apply cos_neg. }
  rewrite C. unfold v3_scale. cbn [x0 x1 x2]. reflexivity.
Qed.

Lemma update_derive_scalar (k n a b c d : R) (e0 e1 e2 e3 : R) :
  is_derive (fun s => a * cos (s * n / 2) * e0 + (1/2 + s * s * k / 48) * (s * b) * e1 +
                      (1/2 + s * s * k / 48) * (s * c) * e2 + (1/2 + s * s * k / 48) * (s * d) * e3) 0
    ((b * e1 + c * e2 + d * e3) / 2).
Proof.
  auto_derive; [exact I | ].
  replace (0 * n * / 2) with 0 by ring. rewrite sin_0. field.
Qed.

Lemma update_is_product q d : updateQuat q d = qplus (axisAngle2quat d) q.
Proof. unfold updateQuat, qplus. cbv zeta. f_equal; ring. Qed.

Lemma update_derive q d :
  v4_derive (fun s => updateQuat q (v3_scale s d)) 0 (m43_vec (quatJacobian q) d).
Proof.
  set (f := fun s => qplus
     (V4 ((1/2 + s * s * v3_dot d d / 48) * (s * x0 d)) ((1/2 + s * s * v3_dot d d / 48) * (s * x1 d))
         ((1/2 + s * s * v3_dot d d / 48) * (s * x2 d)) (cos (s * v3_norm d / 2))) q).
  apply (v4_derive_ext_loc f).
  - apply (filter_imp (fun s => Rabs s * v3_norm d < eps4)).
    + intros s Hs. rewrite update_is_product, (small_exp_line d s Hs). reflexivity.
    + apply (locally_lt (fun s => Rabs s * v3_norm d)).
      * apply (continuous_mult Rabs (fun _ => v3_norm d)); [apply continuous_Rabs | apply continuous_const].
      * rewrite Rabs_R0. pose proof eps4_pos. lra.
  - unfold f. clear f. set (k := v3_dot d d). set (n := v3_norm d). clearbody k n.
    destruct q as [a b c e], d as [u v w]. unfold v4_derive, qplus. cbn [q0 q1 q2 q3 x0 x1 x2]. kunf.
    split; [ | split; [ | split]].
    + eapply is_derive_ext; [ | replace (1 / 2 * e * u + 1 / 2 * - c * v + 1 / 2 * b * w) with ((u * e + v * - c + w * b) / 2) by field; apply (update_derive_scalar k n a u v w 1 e (- c) b)]. intros s. cbv beta. match goal with |- @eq _ ?l ?r => change (@eq R l r) end. ring.
    + eapply is_derive_ext; [ | replace (1 / 2 * c * u + 1 / 2 * e * v + 1 / 2 * - a * w) with ((u * c + v * e + w * - a) / 2) by field; apply (update_derive_scalar k n b u v w 1 c e (- a))]. intros s. cbv beta. match goal with |- @eq _ ?l ?r => change (@eq R l r) end. ring.
    + eapply is_derive_ext; [ | replace (1 / 2 * - b * u + 1 / 2 * a * v + 1 / 2 * e * w) with ((u * - b + v * a + w * e) / 2) by field; apply (update_derive_scalar k n c u v w 1 (- b) a e)]. intros s. cbv beta. match goal with |- @eq _ ?l ?r => change (@eq R l r) end. ring.
    + eapply is_derive_ext; [ | replace (1 / 2 * - a * u + 1 / 2 * - b * v + 1 / 2 * - c * w) with ((u * - a + v * - b + w * - c) / 2) by field; apply (update_derive_scalar k n e u v w 1 (- a) (- b) (- c))]. intros s. cbv beta. match goal with |- @eq _ ?l ?r => change (@eq R l r) end. ring.
Qed.
