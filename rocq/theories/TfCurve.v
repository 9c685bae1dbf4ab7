(** * Perturbed inverses and updates; covariance laws; interpolation *)

From Coquelicot Require Import Coquelicot.
From Coq Require Import Reals Psatz Nsatz.
From Verif Require Import KinModel KinSpec KinProofs KinExp KinCurve KinJac RotEuler RotVec TfModel TfSpec TfProofs.
Local Open Scope R_scope.

(** ** Inverse *)

Lemma dot3_derive (a b c e f g : R -> R) (t a' b' c' e' f' g' : R) :
  is_derive a t a' -> is_derive b t b' -> is_derive c t c' ->
  is_derive e t e' -> is_derive f t f' -> is_derive g t g' ->
  is_derive (fun s => - (a s * e s + b s * f s + c s * g s)) t
    (- (a' * e t + b' * f t + c' * g t + (a t * e' + b t * f' + c t * g'))).
Proof.
  intros A B C E F G. derive_ex A. derive_ex B. derive_ex C. derive_ex E. derive_ex F. derive_ex G.
  auto_derive.
  - tauto.
  - derive_sub A. derive_sub B. derive_sub C. derive_sub E. derive_sub F. derive_sub G. ring.
Qed.

(** The rate of [inverseTransform M] in terms of the rate of [M]. *)
Definition inv_rate (M D : m4) : m4 :=
  let C := m3_tr (topLeft M) in
  let C' := m3_tr (topLeft D) in
  let t' := v3_neg (v3_add (m3_vec C' (topRight M)) (m3_vec C (topRight D))) in
  M4 (V4 (m00 C') (m01 C') (m02 C') (x0 t')) (V4 (m10 C') (m11 C') (m12 C') (x1 t'))
     (V4 (m20 C') (m21 C') (m22 C') (x2 t')) (V4 0 0 0 0).

Lemma inverse_derive (M : R -> m4) t D : m4_derive M t D ->
  m4_derive (fun s => inverseTransform (M s)) t (inv_rate (M t) D).
Proof.
  intros ((A0 & A1 & A2 & A3) & (B0 & B1 & B2 & B3) & (C0 & C1 & C2 & C3) & _).
  unfold m4_derive, v4_derive, inv_rate. tunf.
  split; [ | split; [ | split]]; (split; [ | split; [ | split]]); try assumption;
    try (exact (@is_derive_const _ R_NormedModule _ t)).
  - exact (dot3_derive _ _ _ _ _ _ _ _ _ _ _ _ _ A0 B0 C0 A3 B3 C3).
  - exact (dot3_derive _ _ _ _ _ _ _ _ _ _ _ _ _ A1 B1 C1 A3 B3 C3).
  - exact (dot3_derive _ _ _ _ _ _ _ _ _ _ _ _ _ A2 B2 C2 A3 B3 C3).
Qed.

Definition v6_neg (d : v6) : v6 := V6 (v3_neg (hd3 d)) (v3_neg (tl3 d)).

(** The matrix of a twist. *)
Lemma twist_matrix d p : twist d p = m4_vec (m4_scale (-1) (boxPlus d)) p.
Proof. tring. Qed.

Lemma perturbed_inverse M t d : SE3 (M t) -> perturbed M t d ->
  perturbed (fun s => inverseTransform (M s)) t (m6_vec (boxTimes (inverseTransform (M t))) (v6_neg d)).
Proof.
  intros S (D & H & E). exists (inv_rate (M t) D). split; [apply inverse_derive; exact H | ].
  assert (F : D = m4_mul (m4_scale (-1) (boxPlus d)) (M t)).
  { apply m4_ext. intros p. rewrite m4_vec_mul, <- twist_matrix. apply E. }
  pose proof (SE3_inverse _ S) as SI.
  intros p. rewrite <- twist_adjoint by exact SI.
  destruct S as (C & v & K). pose proof (inverse_rigid _ _ _ K) as (I1 & I2 & _).
  apply rigid_rt in K. destruct K as (_ & K). rewrite F, twist_matrix, <- !m4_vec_mul. f_equal. clear E F H SI.
  rewrite K in *. clear K M t D p.
  unfold inv_rate, v6_neg. clear. tring.
Qed.

(** Both Jacobians of the point transformations. *)
Lemma inverse_point_derive M t d v : SE3 (M t) -> perturbed M t d ->
  v4_derive (fun s => fst (inverseTransformJ (M s) v)) t (m46_vec (snd (inverseTransformJ (M t) v)) d).
Proof.
  intros S P. pose proof (perturbed_inverse M t d S P) as Q.
  pose proof (perturbed_point _ t _ v Q) as X. cbv beta in X.
  eapply v4_derive_eq; [exact X | ]. clear X Q P.
  destruct S as (C & w & K). apply rigid_rt in K. destruct K as (S & ->).
  pose proof (SE3_inverse (rt C w)) as SI.
  assert (SE : SE3 (rt C w)) by (exists C, w; apply rigid_rt; auto).
  specialize (SI SE).
  assert (B : forall p d', m46_vec (boxMinus p) d' = twist d' p) by tring.
  rewrite B, <- (twist_adjoint _ _ _ SI), inverse_rt. unfold inverseTransformJ, v6_neg.
  rewrite inverse_rt, topLeft_rt. clear. tring.
Qed.

(** ** The update *)

(** The rate of [quat2r] of a moving quaternion. *)
Definition quat2r_rate (q q' : v4) : m3 :=
  M3 (2*(q0 q*q0 q'-q1 q*q1 q'-q2 q*q2 q'+q3 q*q3 q')) (2*(q0 q*q1 q'+q0 q'*q1 q+q2 q*q3 q'+q2 q'*q3 q)) (2*(q0 q*q2 q'+q0 q'*q2 q-q1 q*q3 q'-q1 q'*q3 q))
     (2*(q0 q*q1 q'+q0 q'*q1 q-q2 q*q3 q'-q2 q'*q3 q)) (2*(- q0 q*q0 q'+q1 q*q1 q'-q2 q*q2 q'+q3 q*q3 q')) (2*(q0 q*q3 q'+q0 q'*q3 q+q1 q*q2 q'+q1 q'*q2 q))
     (2*(q0 q*q2 q'+q0 q'*q2 q+q1 q*q3 q'+q1 q'*q3 q)) (2*(q1 q*q2 q'+q1 q'*q2 q-q0 q*q3 q'-q0 q'*q3 q)) (2*(- q0 q*q0 q'-q1 q*q1 q'+q2 q*q2 q'+q3 q*q3 q')).
Lemma v4_eta p : V4 (q0 p) (q1 p) (q2 p) (q3 p) = p.
Proof. destruct p. reflexivity. Qed.
Lemma quat2r_derive (q : R -> v4) t q' : v4_derive q t q' ->
  m3_derive (fun s => quat2r (q s)) t (quat2r_rate (q t) q').
Proof.
  intros (A & B & C & D).
  apply (m3_derive_ext_loc (fun s => quat2r (V4 (q0 (q s)) (q1 (q s)) (q2 (q s)) (q3 (q s))))).
  - apply filter_forall. intros s. rewrite v4_eta. reflexivity.
  - exact (quat2r_derive_scalar _ _ _ _ t _ _ _ _ A B C D).
Qed.
Lemma quat2r_update_rate q phi :
  quat2r_rate q (m43_vec (quatJacobian q) phi) = m3_neg (m3_mul (crossMx phi) (quat2r q)).
Proof. unfold quat2r_rate, m3_neg. destruct q, phi. kunf. f_equal; field. Qed.

(** A transformation with moving rotation and translation. *)
Lemma rt_derive (C : R -> m3) (v : R -> v3) t C' v' : m3_derive C t C' -> v3_derive v t v' ->
  m4_derive (fun s => rt (C s) (v s)) t
    (M4 (V4 (m00 C') (m01 C') (m02 C') (x0 v')) (V4 (m10 C') (m11 C') (m12 C') (x1 v'))
        (V4 (m20 C') (m21 C') (m22 C') (x2 v')) (V4 0 0 0 0)).
Proof.
  intros ((C00 & C01 & C02) & (C10 & C11 & C12) & (C20 & C21 & C22)) (V0 & V1 & V2).
  unfold m4_derive, v4_derive, rt. cbn [r40 r41 r42 r43 q0 q1 q2 q3].
  split; [ | split; [ | split]]; (split; [ | split; [ | split]]); try assumption;
    exact (@is_derive_const _ R_NormedModule _ t).
Qed.
Lemma line_derive a b : v3_derive (fun s => v3_add a (v3_scale s b)) 0 b.
Proof.
  assert (L : forall a b : R, is_derive (fun s => a + s * b) 0 b).
  { intros c d. auto_derive; [exact I | ring]. }
  unfold v3_derive, v3_add, v3_scale. cbn [x0 x1 x2]. split; [ | split]; apply L.
Qed.
Lemma update_zero q phi : updateQuat q (v3_scale 0 phi) = q.
Proof.
  rewrite update_is_product. rewrite (small_exp_line phi 0).
  2:{ rewrite Rabs_R0. pose proof eps4_pos. lra. }
  replace (0 * v3_norm phi / 2) with 0 by field. rewrite cos_0. destruct q, phi. kunf. f_equal; field.
Qed.

Lemma update_perturbs A d :
  perturbed (fun s => tf_T (tf_oplus A (V6 (v3_scale s (hd3 d)) (v3_scale s (tl3 d))))) 0 (m6_vec (tf_S A) d).
Proof.
  destruct A as [q t], d as [rho phi].
  pose proof (quat2r_derive _ 0 _ (update_derive q phi)) as H. cbv beta in H.
  rewrite update_zero, quat2r_update_rate in H.
  pose proof (rt_derive _ _ 0 _ _ H (line_derive t rho)) as K. cbv beta in K.
  eexists. split; [exact K | ]. clear H K.
  intros p. unfold tf_T, tf_oplus. cbn [tq tt hd3 tl3]. rewrite update_zero.
  replace (v3_add t (v3_scale 0 rho)) with t by (destruct t, rho; kunf; f_equal; ring).
  unfold tf_S. cbn [tt]. generalize (quat2r q). intros C. tring.
Qed.

(** ** Covariance laws *)

Lemma tf_inverse_inverse A : good A -> tf_inverse (tf_inverse A) = A.
Proof.
  intros H. pose proof (good_inverse A H) as K. pose proof (good_inverse _ K) as L.
  rewrite <- (tf_id_r (tf_inverse (tf_inverse A)) L), <- (tf_inverse_l A H).
  rewrite tf_mul_assoc by assumption. rewrite (tf_inverse_l _ K). apply tf_id_l. exact H.
Qed.
Lemma tf_inverse_mul A B : good A -> good B -> tf_inverse (tf_mul A B) = tf_mul (tf_inverse B) (tf_inverse A).
Proof.
  intros H K. pose proof (good_inverse A H) as HI. pose proof (good_inverse B K) as KI.
  pose proof (good_mul A B H K) as HK. pose proof (good_inverse _ HK) as HKI.
  pose proof (good_mul _ _ KI HI) as G.
  rewrite <- (tf_id_l (tf_mul (tf_inverse B) (tf_inverse A)) G), <- (tf_inverse_l _ HK).
  rewrite <- tf_mul_assoc by assumption.
  assert (E : tf_mul (tf_mul A B) (tf_mul (tf_inverse B) (tf_inverse A)) = tf_identity).
  { rewrite <- tf_mul_assoc by assumption. rewrite (tf_mul_assoc B) by assumption.
    rewrite tf_inverse_r, tf_id_l, tf_inverse_r by assumption. reflexivity. }
  rewrite E. symmetry. apply tf_id_r. exact HKI.
Qed.

Definition Ad (A : tf) : m6 := boxTimes (tf_T A).
Lemma Ad_mul A B : good A -> good B -> Ad (tf_mul A B) = m6_mul (Ad A) (Ad B).
Proof. intros H K. unfold Ad. rewrite T_mul by assumption. apply boxTimes_mul; apply SE3_T; assumption. Qed.
Lemma Ad_id : Ad tf_identity = m6_I.
Proof. unfold Ad. rewrite T_identity. apply boxTimes_I. Qed.

Lemma utf_mul_assoc A B C : good (ut A) -> good (ut B) -> good (ut C) ->
  utf_mul A (utf_mul B C) = utf_mul (utf_mul A B) C.
Proof.
  intros HA HB HC. unfold utf_mul. cbn [ut uU]. f_equal.
  - apply tf_mul_assoc; assumption.
  - fold (Ad (ut A)) (Ad (ut B)) (Ad (tf_mul (ut A) (ut B))).
    rewrite Ad_mul, sandwich_mul, sandwich_add, m6_add_assoc by assumption. reflexivity.
Qed.
Lemma utf_inverse_inverse A : good (ut A) -> utf_inverse (utf_inverse A) = A.
Proof.
  intros H. destruct A as [A U]. cbn [ut] in H. unfold utf_inverse. cbv zeta. cbn [ut uU].
  rewrite tf_inverse_inverse by exact H. f_equal.
  fold (Ad A) (Ad (tf_inverse A)).
  rewrite <- sandwich_mul, <- Ad_mul, tf_inverse_r, Ad_id by (try assumption; apply good_inverse; assumption).
  apply sandwich_I.
Qed.
Lemma utf_inverse_mul A B : good (ut A) -> good (ut B) ->
  utf_inverse (utf_mul A B) = utf_mul (utf_inverse B) (utf_inverse A).
Proof.
  intros H K. pose proof (good_inverse _ H) as HI. pose proof (good_inverse _ K) as KI.
  destruct A as [A U], B as [B V]. cbn [ut] in *. unfold utf_inverse, utf_mul. cbv zeta. cbn [ut uU].
  rewrite tf_inverse_mul by assumption. f_equal.
  fold (Ad (tf_mul (tf_inverse B) (tf_inverse A))) (Ad A) (Ad B) (Ad (tf_inverse A)) (Ad (tf_inverse B)).
  rewrite Ad_mul by assumption. rewrite sandwich_mul, !sandwich_add.
  rewrite <- (sandwich_mul (Ad (tf_inverse A)) (Ad A)), <- Ad_mul, tf_inverse_l, Ad_id, sandwich_I by assumption.
  apply m6_add_comm.
Qed.
Lemma S_inverse_l A : m6_mul (S_inverse (tt A)) (tf_S A) = m6_I.
Proof. tring. Qed.
Lemma S_inverse_r A : m6_mul (tf_S A) (S_inverse (tt A)) = m6_I.
Proof. tring. Qed.

(** ** Interpolation *)

Lemma exp_not_zero a : 0 < v4_dot (axisAngle2quat a) (axisAngle2quat a).
Proof.
  destruct (Rle_lt_dec eps4 (v3_norm a)) as [B | B].
  - pose proof (exp_unit_big a B) as U. apply (proj1 (unit4_dot _)) in U. lra.
  - rewrite (exp_small a B). unfold v4_dot. cbn [q0 q1 q2 q3].
    pose proof (v3_norm_pos a) as P. pose proof eps4_lt_1. pose proof PI2_1.
    assert (C : 0 < cos (v3_norm a / 2)) by (apply cos_gt_0; lra).
    match goal with |- 0 < ?x*?x + ?y*?y + ?z*?z + ?w*?w =>
      pose proof (Rle_0_sqr x) as X; pose proof (Rle_0_sqr y) as Y; pose proof (Rle_0_sqr z) as Z;
      assert (0 < w * w) by (apply Rmult_lt_0_compat; exact C); unfold Rsqr in X, Y, Z; lra end.
Qed.
Lemma mk_good q t : 0 < v4_dot q q -> good (mk_tf q t).
Proof.
  intros P. unfold good, mk_tf. cbn [tq]. apply unit4_dot.
  assert (S : v4_norm q * v4_norm q = v4_dot q q) by (unfold v4_norm; apply sqrt_sqrt; lra).
  assert (N : v4_norm q <> 0) by (intros E; rewrite E in S; lra).
  replace (v4_dot (v4_scale (1 / v4_norm q) q) (v4_scale (1 / v4_norm q) q)) with (v4_dot q q / (v4_norm q * v4_norm q)).
  - rewrite S. field. lra.
  - revert N. generalize (v4_norm q). intros n N. destruct q. kunf. field. exact N.
Qed.
