(** * The derivative of the quaternion logarithm off the unit sphere

    Updating a quaternion by a small step leaves the unit sphere slightly, so
    the derivative along updates needs the logarithm near, not only on, the
    sphere. *)

From Coquelicot Require Import Coquelicot.
From Coq Require Import Reals Psatz List Arith Bool Lia.
From Verif Require Import Base KinModel KinSpec KinProofs KinExp KinAxis KinCurve KinJac KinProps DvModel DvSpec DvProofs.
Import ListNotations.
Local Close Scope Z_scope.
Local Open Scope R_scope.

(** Gluing two functions with the same value and derivative at a point. *)
Lemma derive_glue (f g h : R -> R) (t l : R) :
  is_derive f t l -> is_derive g t l -> f t = g t -> h t = f t ->
  locally t (fun s => h s = f s \/ h s = g s) -> is_derive h t l.
Proof.
  intros F G E H [d L]. apply is_derive_Reals in F. apply is_derive_Reals in G. apply is_derive_Reals.
  intros eps P. destruct (F eps P) as [d1 F1]. destruct (G eps P) as [d2 G1].
  assert (M : 0 < Rmin d (Rmin d1 d2)).
  { apply Rmin_glb_lt; [apply cond_pos | apply Rmin_glb_lt; apply cond_pos]. }
  exists (mkposreal _ M). intros k Nk Lk. cbn [pos] in Lk.
  assert (K0 : Rabs k < d) by (eapply Rlt_le_trans; [exact Lk | apply Rmin_l]).
  assert (K1 : Rabs k < d1).
  { eapply Rlt_le_trans; [exact Lk | ]. eapply Rle_trans; [apply Rmin_r | apply Rmin_l]. }
  assert (K2 : Rabs k < d2).
  { eapply Rlt_le_trans; [exact Lk | ]. eapply Rle_trans; [apply Rmin_r | apply Rmin_r]. }
  assert (B : ball t d (t + k)).
  { unfold ball. cbn. unfold AbsRing_ball, abs, minus, plus, opp. cbn.
    replace (t + k + - t) with k by ring. exact K0. }
  destruct (L _ B) as [X | X]; rewrite X, H.
  - apply F1; assumption.
  - rewrite E. apply G1; assumption.
Qed.

Lemma asin_derive x : -1 < x < 1 -> is_derive asin x (/ sqrt (1 - x * x)).
Proof.
  intros H. apply is_derive_Reals.
  replace (/ sqrt (1 - x * x)) with (derive_pt asin x (derivable_pt_asin x H)).
  - apply (proj1 (derive_pt_eq asin x _ (derivable_pt_asin x H))). reflexivity.
  - rewrite derive_pt_asin. unfold Rsqr, Rdiv. ring.
Qed.

(** The angle that quat2AxisAngle computes, by its three branches. *)
Definition half_angle_of (q : v4) : R :=
  let n := v3_norm (qeps q) in
  if ltb (Rabs (q3 q)) n then acos (q3 q) else if ltb 0 (q3 q) then asin n else PI - asin n.

Lemma log_is q : eps4 < v3_norm (qeps q) ->
  quat2AxisAngle q = Some (v3_scale (2 * (half_angle_of q / v3_norm (qeps q))) (qeps q)).
Proof.
  intros H. pose proof eps4_pos as P. unfold quat2AxisAngle, half_angle_of. cbv zeta. unfold qeta.
  destruct (ltb (Rabs (q3 q)) (v3_norm (qeps q))); [reflexivity | ].
  destruct (ltb 0 (q3 q)).
  - unfold arcSinXOverX. rewrite Rabs_right by lra. rewrite isSmall_false by lra. reflexivity.
  - destruct (eqb_spec (v3_norm (qeps q)) 0) as [Z | _]; [lra | reflexivity].
Qed.

Lemma half_angle_derive (q : R -> v4) (t : R) (qd : v4) (dn : R) :
  unit4 (q t) -> v4_dot (q t) qd = 0 -> v4_derive q t qd -> 0 < v3_norm (qeps (q t)) ->
  is_derive (fun s => v3_norm (qeps (q s))) t dn -> dn = v3_dot (qeps (q t)) (qeps qd) / v3_norm (qeps (q t)) ->
  is_derive (fun s => half_angle_of (q s)) t (q3 qd * - / v3_norm (qeps (q t))) /\
  half_angle_of (q t) = acos (q3 (q t)).
Proof.
  intros U T (A & B & C & D) P N Edn. pose proof (unit_split _ U) as E.
  set (n := fun s => v3_norm (qeps (q s))) in *. fold (n t) in E, P, Edn |- *.
  assert (Eb : -1 < q3 (q t) < 1) by nra.
  pose proof (is_derive_comp (V := R_NormedModule) acos (fun s => q3 (q s)) t _ _ (acos_derive _ Eb) D) as W.
  assert (Sq : sqrt (1 - q3 (q t) * q3 (q t)) = n t) by (apply sqrt_lem_1; nra).
  rewrite Sq in W. change (scal (q3 qd) (- / n t)) with (q3 qd * - / n t) in W.
  assert (Cn : continuous n t) by (eapply derive_continuous; exact N).
  assert (Ca : continuous (fun s => Rabs (q3 (q s))) t).
  { apply (continuous_comp (fun s => q3 (q s)) Rabs); [eapply derive_continuous; exact D | apply continuous_Rabs]. }
  destruct (Rlt_dec (Rabs (q3 (q t))) (n t)) as [Lt | Ge].
  - (* the arc cosine, nearby too *)
    assert (V : half_angle_of (q t) = acos (q3 (q t))).
    { unfold half_angle_of. cbv zeta. fold (n t). destruct (ltb_spec (Rabs (q3 (q t))) (n t)); [reflexivity | lra]. }
    split; [ | exact V].
    apply (is_derive_ext_loc (V := R_NormedModule) (fun s => acos (q3 (q s)))); [ | exact W].
    pose proof (locally_gt (fun s => n s - Rabs (q3 (q s))) t 0
      (continuous_minus n (fun s => Rabs (q3 (q s))) t Cn Ca) ltac:(lra)) as G.
    revert G. apply filter_imp. intros s Hs. unfold half_angle_of. cbv zeta. fold (n s).
    destruct (ltb_spec (Rabs (q3 (q s))) (n s)); [reflexivity | lra].
  - assert (Nz : q3 (q t) <> 0).
    { intros Z. rewrite Z, Rabs_R0 in Ge. lra. }
    assert (N1 : -1 < n t < 1) by nra.
    pose proof (is_derive_comp (V := R_NormedModule) asin n t _ _ (asin_derive _ N1) N) as S1.
    change (scal dn (/ sqrt (1 - n t * n t))) with (dn * / sqrt (1 - n t * n t)) in S1.
    assert (Sq2 : sqrt (1 - n t * n t) = Rabs (q3 (q t))).
    { rewrite <- sqrt_Rsqr_abs. f_equal. unfold Rsqr. lra. }
    rewrite Sq2 in S1.
    assert (Tn : n t * dn = - (q3 (q t) * q3 qd)).
    { rewrite Edn. replace (n t * (v3_dot (qeps (q t)) (qeps qd) / n t)) with (v3_dot (qeps (q t)) (qeps qd)) by (field; lra).
      revert T. unfold v4_dot, v3_dot, qeps. cbn [x0 x1 x2]. lra. }
    destruct (Rlt_dec 0 (q3 (q t))) as [Pos | Neg].
    + assert (AE : asin (n t) = acos (q3 (q t))).
      { pose proof (acos_half (q3 (q t)) ltac:(lra)) as Hh. rewrite <- (asin_sin (acos (q3 (q t)))) by lra.
        f_equal. rewrite sin_acos by lra. rewrite <- Sq. f_equal; unfold Rsqr; ring. }
      assert (V : half_angle_of (q t) = acos (q3 (q t))).
      { unfold half_angle_of. cbv zeta. fold (n t). destruct (ltb_spec (Rabs (q3 (q t))) (n t)); [reflexivity | ].
        destruct (ltb_spec 0 (q3 (q t))); [exact AE | lra]. }
      split; [ | exact V].
      apply (derive_glue (fun s => acos (q3 (q s))) (fun s => asin (n s))); [exact W | | symmetry; exact AE | exact V | ].
      * replace (q3 qd * - / n t) with (dn * / Rabs (q3 (q t))); [exact S1 | ].
        rewrite Rabs_right by lra.
        assert (dn = - (q3 (q t) * q3 qd) / n t) by (rewrite <- Tn; field; lra).
        rewrite H. field. lra.
      * pose proof (locally_gt (fun s => q3 (q s)) t 0 ltac:(eapply derive_continuous; exact D) Pos) as G.
        revert G. apply filter_imp. intros s Hs. unfold half_angle_of. cbv zeta. fold (n s).
        destruct (ltb_spec (Rabs (q3 (q s))) (n s)); [left; reflexivity | right].
        destruct (ltb_spec 0 (q3 (q s))); [reflexivity | lra].
    + assert (NegS : q3 (q t) < 0) by lra.
      assert (AE : PI - asin (n t) = acos (q3 (q t))).
      { pose proof (acos_half (- q3 (q t)) ltac:(lra)) as Hh.
        assert (X : asin (n t) = acos (- q3 (q t))).
        { rewrite <- (asin_sin (acos (- q3 (q t)))) by lra.
          f_equal. rewrite sin_acos by lra. rewrite <- Sq. f_equal; unfold Rsqr; ring. }
        rewrite X, acos_opp. ring. }
      assert (V : half_angle_of (q t) = acos (q3 (q t))).
      { unfold half_angle_of. cbv zeta. fold (n t). destruct (ltb_spec (Rabs (q3 (q t))) (n t)); [reflexivity | ].
        destruct (ltb_spec 0 (q3 (q t))); [lra | exact AE]. }
      split; [ | exact V].
      apply (derive_glue (fun s => acos (q3 (q s))) (fun s => PI - asin (n s))); [exact W | | symmetry; exact AE | exact V | ].
      * pose proof (is_derive_minus (V := R_NormedModule) (fun _ => PI) (fun s => asin (n s)) t _ _ (is_derive_const (V := R_NormedModule) PI t) S1) as S2.
        replace (q3 qd * - / n t) with (minus (zero : R) (dn * / Rabs (q3 (q t)))); [exact S2 | ].
        unfold minus, plus, opp, zero. cbn. rewrite Rabs_left by lra.
        assert (H : dn = - (q3 (q t) * q3 qd) / n t) by (rewrite <- Tn; field; lra).
        rewrite H. field. lra.
      * pose proof (locally_lt (fun s => q3 (q s)) t 0 ltac:(eapply derive_continuous; exact D) NegS) as G.
        revert G. apply filter_imp. intros s Hs. unfold half_angle_of. cbv zeta. fold (n s).
        destruct (ltb_spec (Rabs (q3 (q s))) (n s)); [left; reflexivity | right].
        destruct (ltb_spec 0 (q3 (q s))); [lra | reflexivity].
Qed.

(** As [log_derive], for curves that only touch the unit sphere at [t]. *)
Lemma log_derive_touch (q : R -> v4) (t : R) (qd : v4) :
  unit4 (q t) -> v4_dot (q t) qd = 0 -> v4_derive q t qd -> eps4 < v3_norm (qeps (q t)) ->
  exists l, locally t (fun s => quat2AxisAngle (q s) = Some (l s)) /\
            v3_derive l t (log_rate (q t) qd).
Proof.
  intros U T HD L. pose proof eps4_pos as P. pose proof HD as (A & B & C & D).
  assert (Hv : v3_derive (fun s => qeps (q s)) t (qeps qd)) by (split; [exact A | split; [exact B | exact C]]).
  pose proof (norm_derive _ _ _ Hv ltac:(lra)) as N.
  destruct (half_angle_derive q t qd _ U T HD ltac:(lra) N eq_refl) as [W V].
  exists (fun s => v3_scale (2 * (half_angle_of (q s) / v3_norm (qeps (q s)))) (qeps (q s))). split.
  - apply (filter_imp (fun s => eps4 < v3_norm (qeps (q s)))).
    + intros s Hs. apply log_is, Hs.
    + apply (locally_gt (fun s => v3_norm (qeps (q s)))); [eapply derive_continuous; exact N | exact L].
  - pose proof (log_derive_scalar _ _ _ t _ _ _ W N A ltac:(lra)) as D0.
    pose proof (log_derive_scalar _ _ _ t _ _ _ W N B ltac:(lra)) as D1.
    pose proof (log_derive_scalar _ _ _ t _ _ _ W N C ltac:(lra)) as D2.
    cbv beta in D0, D1, D2. rewrite V in D0, D1, D2.
    assert (E3 : log_rate (q t) qd =
      V3 (2 * (q3 qd * - / v3_norm (qeps (q t)) / v3_norm (qeps (q t)) - acos (q3 (q t)) * (v3_dot (qeps (q t)) (qeps qd) / v3_norm (qeps (q t))) / (v3_norm (qeps (q t)) * v3_norm (qeps (q t)))) * q0 (q t) + 2 * (acos (q3 (q t)) / v3_norm (qeps (q t))) * q0 qd)
         (2 * (q3 qd * - / v3_norm (qeps (q t)) / v3_norm (qeps (q t)) - acos (q3 (q t)) * (v3_dot (qeps (q t)) (qeps qd) / v3_norm (qeps (q t))) / (v3_norm (qeps (q t)) * v3_norm (qeps (q t)))) * q1 (q t) + 2 * (acos (q3 (q t)) / v3_norm (qeps (q t))) * q1 qd)
         (2 * (q3 qd * - / v3_norm (qeps (q t)) / v3_norm (qeps (q t)) - acos (q3 (q t)) * (v3_dot (qeps (q t)) (qeps qd) / v3_norm (qeps (q t))) / (v3_norm (qeps (q t)) * v3_norm (qeps (q t)))) * q2 (q t) + 2 * (acos (q3 (q t)) / v3_norm (qeps (q t))) * q2 qd)).
    { unfold log_rate. cbv zeta. set (vv := v3_dot _ _). set (n := v3_norm _) in *.
      unfold v3_add, v3_scale, qeps. cbn [x0 x1 x2]. f_equal; field; lra. }
    rewrite E3. split; [exact D0 | split; [exact D1 | exact D2]].
Qed.

(** The difference of an updated quaternion to a reference, as a function of
    the step size. *)
Lemma difference_derive q r d :
  unit4 q -> unit4 r -> let e := qplus q (quatInv r) in eps4 < v3_norm (qeps e) ->
  let rate := log_rate e (m43_vec (quatJacobian e) d) in
  (exists l, locally 0 (fun s => quat2AxisAngle (qplus (updateQuat q (v3_scale s d)) (quatInv r)) = Some (l s)) /\
             v3_derive l 0 rate) /\
  m3_vec (m34_mul43 (quatLogJacobian e) (quatJacobian e)) d = rate /\
  (q3 e <> 0 -> exists J, quatLogJacobian2 e = Some J /\ m3_vec (m34_mul43 J (quatJacobian e)) d = rate).
Proof.
  intros Uq Ur e L rate. pose proof eps4_pos as P.
  assert (Ue : unit4 e) by (apply qplus_unit; [exact Uq | apply quatInv_unit, Ur]).
  assert (T : v4_dot e (m43_vec (quatJacobian e) d) = 0) by (rewrite jacobian_invS; apply C54_angular_velocity, Ue).
  assert (Z : updateQuat e (v3_scale 0 d) = e).
  { rewrite update_is_product. replace (v3_scale 0 d) with v3_zero by kring. rewrite exp_zero. apply qplus_id_l. }
  assert (MV : forall A : m34, m3_vec (m34_mul43 A (quatJacobian e)) d = m34_vec A (m43_vec (quatJacobian e) d)).
  { intros A. generalize (quatJacobian e). clear. intros B. kring. }
  split; [ | split].
  - pose proof (log_derive_touch (fun s => updateQuat e (v3_scale s d)) 0 (m43_vec (quatJacobian e) d)) as H.
    cbv beta in H. rewrite Z in H. destruct (H Ue T (update_derive e d) L) as (l & Hl & Dl).
    exists l. split; [ | exact Dl]. revert Hl. apply filter_imp. intros s Hs. rewrite <- Hs. f_equal.
    rewrite !update_is_product. symmetry. apply qplus_assoc.
  - rewrite MV. apply logJ1; [exact Ue | lra].
  - intros N. destruct (logJ2 e (m43_vec (quatJacobian e) d) Ue T ltac:(lra) N) as (J & HJ & E).
    exists J. split; [exact HJ | ]. rewrite MV. exact E.
Qed.

(** At the reference itself. *)
Lemma log_small_line d : 
  locally 0 (fun s => quat2AxisAngle (axisAngle2quat (v3_scale s d)) =
    Some (v3_scale ((1 + s * s * v3_dot d d / 24) * s) d)).
Proof.
  pose proof eps4_pos as EP. pose proof (v3_norm_pos d) as NP.
  assert (G : locally 0 (fun s => Rabs s * (v3_norm d + 1) < eps4)).
  { apply (locally_lt (fun s => Rabs s * (v3_norm d + 1))).
    - apply (continuous_mult (K := R_AbsRing)); [apply continuous_Rabs | apply continuous_const].
    - rewrite Rabs_R0. lra. }
  revert G. apply filter_imp. intros s Hs. pose proof (Rabs_pos s) as As.
  assert (L : Rabs s * v3_norm d < eps4) by nra.
  rewrite (small_exp_line d s L). set (k := 1/2 + s * s * v3_dot d d / 48).
  assert (Q : s * s * v3_dot d d = (Rabs s * v3_norm d) * (Rabs s * v3_norm d)).
  { rewrite <- (v3_norm_sq d). replace (s * s) with (Rabs s * Rabs s); [ring | ].
    rewrite <- Rabs_mult. apply Rabs_right. nra. }
  assert (Ks : 1/2 <= k <= 1/2 + 1/48).
  { unfold k. rewrite Q. assert (Z0 : 0 <= Rabs s * v3_norm d) by nra.
    revert L Z0. generalize (Rabs s * v3_norm d). unfold eps4. intros z L Z0. split; nra. }
  assert (E : qeps (V4 (k * (s * x0 d)) (k * (s * x1 d)) (k * (s * x2 d)) (cos (s * v3_norm d / 2))) = v3_scale (k * s) d) by kring.
  assert (Nn : v3_norm (v3_scale (k * s) d) < eps4).
  { rewrite v3_norm_scale, Rabs_mult, (Rabs_right k) by lra. nra. }
  assert (Cp : 1/2 < cos (s * v3_norm d / 2)).
  { rewrite <- cos_PI3. apply Rlt_le_trans with (cos (Rabs (s * v3_norm d / 2))).
    - pose proof PI2_1. pose proof PI_4. apply cos_decreasing_1; try lra.
      + apply Rabs_pos.
      + unfold Rdiv. rewrite !Rabs_mult. rewrite (Rabs_right (/ 2)) by lra.
        rewrite (Rabs_right (v3_norm d)) by lra. unfold eps4 in *. lra.
      + unfold Rdiv. rewrite !Rabs_mult. rewrite (Rabs_right (/ 2)) by lra.
        rewrite (Rabs_right (v3_norm d)) by lra. unfold eps4 in *. lra.
    - right. unfold Rabs. destruct (Rcase_abs _); [apply cos_neg | reflexivity]. }
  rewrite log_small.
  - rewrite E. f_equal. unfold k. clear. generalize (v3_dot d d). intros D. kfield.
  - cbn [q3]. lra.
  - rewrite E. cbn [q3]. unfold eps4 in *. lra.
  - rewrite E. exact Nn.
Qed.

Lemma log_line_derive d k : v3_derive (fun s => v3_scale ((1 + s * s * k / 24) * s) d) 0 d.
Proof.
  unfold v3_derive, v3_scale. cbn [x0 x1 x2].
  split; [ | split]; (auto_derive; [exact I | match goal with |- ?a = ?b => change (@eq R a b) end; field]).
Qed.

Lemma jacobian2_identity :
  exists J, quatLogJacobian2 quatIdentity = Some J /\ m34_mul43 J (quatJacobian quatIdentity) = m3_I.
Proof.
  assert (Z : v3_norm (qeps quatIdentity) = 0) by (exact v3_norm_zero).
  assert (L : quat2AxisAngle quatIdentity = Some v3_zero).
  { unfold quat2AxisAngle. cbv zeta. rewrite Z. unfold qeta, quatIdentity. cbn [q3].
    destruct (ltb_spec (Rabs 1) 0) as [X | _]; [rewrite Rabs_R1 in X; lra | ].
    destruct (ltb_spec 0 1) as [_ | X]; [ | lra]. f_equal. kring. }
  unfold quatLogJacobian2. rewrite L. eexists. split; [reflexivity | ].
  assert (D : logDiffMat v3_zero = m3_I).
  { unfold logDiffMat. cbv zeta. rewrite v3_norm_zero. destruct (eqb_spec 0 0); [reflexivity | lra]. }
  rewrite D. unfold quatIdentity. kfield.
Qed.
