(** * Transformations: the group, its perturbations and their covariances *)

From Coquelicot Require Import Coquelicot.
From Coq Require Import Reals Psatz.
From Verif Require Import KinModel KinSpec KinProofs KinExp KinCurve KinJac RotEuler TfModel TfSpec.
Local Open Scope R_scope.

Ltac tdestruct := repeat match goal with
  | v : v6 |- _ => destruct v
  | A : m6 |- _ => destruct A
  | A : m46 |- _ => destruct A
  | A : tf |- _ => destruct A
  end; kdestruct.
Ltac tunf := cbv beta iota zeta delta [hd3 tl3 c00 c01 c10 c11 l43 r43' v6_add v6_dot m6_I m6_zero m6_add m6_mul
  m6_tr m6_vec m43_add m46_vec m46_mul6 m46_mul_tr m3_neg m4_scale tq tt rt topLeft topRight tf_T tf_S
  boxPlus boxMinus inverseTransform transformJ inverseTransformJ boxTimes S_inverse m4_sub v4_outer
  fromHomogeneous hPlus hMinus hp_add hp_sub hp_scale hp_euclid hp_J4 hp_J3 twist fst snd]; kunf.
Ltac q4c := cbn [q0 q1 q2 q3 r40 r41 r42 r43].
Ltac m6c := cbn [c00 c01 c10 c11 hd3 tl3].
Ltac tring := intros; tdestruct; tunf; repeat first [ring | f_equal; ring | apply f_equal2 | f_equal].

(** ** Blocks *)

Lemma m3_distr_l A B C : m3_mul A (m3_add B C) = m3_add (m3_mul A B) (m3_mul A C).
Proof. kring. Qed.
Lemma m3_distr_r A B C : m3_mul (m3_add A B) C = m3_add (m3_mul A C) (m3_mul B C).
Proof. kring. Qed.
Lemma m3_add_4 A B C D : m3_add (m3_add A B) (m3_add C D) = m3_add (m3_add A C) (m3_add B D).
Proof. kring. Qed.
Lemma m3_tr_add A B : m3_tr (m3_add A B) = m3_add (m3_tr A) (m3_tr B).
Proof. kring. Qed.
Lemma m3_vec_addm A B v : m3_vec (m3_add A B) v = v3_add (m3_vec A v) (m3_vec B v).
Proof. kring. Qed.
Lemma m3_vec_addv A u v : m3_vec A (v3_add u v) = v3_add (m3_vec A u) (m3_vec A v).
Proof. kring. Qed.
Lemma v3_add_4 (a b c d : v3) : v3_add (v3_add a b) (v3_add c d) = v3_add (v3_add a c) (v3_add b d).
Proof. kring. Qed.
Lemma m3_add_0_l A : m3_add m3_zero A = A.
Proof. kring. Qed.
Lemma m3_add_0_r A : m3_add A m3_zero = A.
Proof. kring. Qed.
Lemma m3_mul_0_l A : m3_mul m3_zero A = m3_zero.
Proof. kring. Qed.
Lemma m3_mul_0_r A : m3_mul A m3_zero = m3_zero.
Proof. kring. Qed.

Lemma m6_mul_assoc A B C : m6_mul A (m6_mul B C) = m6_mul (m6_mul A B) C.
Proof.
  destruct A, B, C. unfold m6_mul. m6c.
  f_equal; rewrite !m3_distr_l, !m3_distr_r, !m3_mul_assoc; apply m3_add_4.
Qed.
Lemma m6_distr_l A B C : m6_mul A (m6_add B C) = m6_add (m6_mul A B) (m6_mul A C).
Proof.
  destruct A, B, C. unfold m6_mul, m6_add. m6c.
  f_equal; rewrite !m3_distr_l; apply m3_add_4.
Qed.
Lemma m6_distr_r A B C : m6_mul (m6_add A B) C = m6_add (m6_mul A C) (m6_mul B C).
Proof.
  destruct A, B, C. unfold m6_mul, m6_add. m6c.
  f_equal; rewrite !m3_distr_r; apply m3_add_4.
Qed.
Lemma m6_tr_mul A B : m6_tr (m6_mul A B) = m6_mul (m6_tr B) (m6_tr A).
Proof.
  destruct A, B. unfold m6_mul, m6_tr. m6c.
  f_equal; rewrite !m3_tr_add, !m3_tr_mul; reflexivity.
Qed.
Lemma m6_mul_I_l A : m6_mul m6_I A = A.
Proof.
  destruct A. unfold m6_mul, m6_I. m6c.
  f_equal; rewrite ?m3_mul_0_l, ?m3_mul_I_l, ?m3_add_0_l, ?m3_add_0_r; reflexivity.
Qed.
Lemma m6_mul_I_r A : m6_mul A m6_I = A.
Proof.
  destruct A. unfold m6_mul, m6_I. m6c.
  f_equal; rewrite ?m3_mul_0_r, ?m3_mul_I_r, ?m3_add_0_l, ?m3_add_0_r; reflexivity.
Qed.
Lemma m6_tr_I : m6_tr m6_I = m6_I.
Proof. tring. Qed.
Lemma m6_add_assoc A B C : m6_add A (m6_add B C) = m6_add (m6_add A B) C.
Proof. tring. Qed.
Lemma m6_add_comm A B : m6_add A B = m6_add B A.
Proof. tring. Qed.
Lemma m6_vec_mul A B v : m6_vec (m6_mul A B) v = m6_vec A (m6_vec B v).
Proof.
  destruct A, B, v. unfold m6_mul, m6_vec. m6c.
  f_equal; rewrite !m3_vec_addm, !m3_vec_addv, !m3_vec_mul; apply v3_add_4.
Qed.
Lemma m6_dot_tr A u v : v6_dot u (m6_vec A v) = v6_dot (m6_vec (m6_tr A) u) v.
Proof. tring. Qed.
Lemma m6_vec_add A B v : m6_vec (m6_add A B) v = v6_add (m6_vec A v) (m6_vec B v).
Proof. tring. Qed.
Lemma v6_dot_add u v w : v6_dot u (v6_add v w) = v6_dot u v + v6_dot u w.
Proof. tring. Qed.
Lemma v6_dot_comm u v : v6_dot u v = v6_dot v u.
Proof. tring. Qed.

Lemma sandwich_mul A B U : m6_sandwich (m6_mul A B) U = m6_sandwich A (m6_sandwich B U).
Proof. unfold m6_sandwich. rewrite m6_tr_mul, !m6_mul_assoc. reflexivity. Qed.
Lemma sandwich_add A U V : m6_sandwich A (m6_add U V) = m6_add (m6_sandwich A U) (m6_sandwich A V).
Proof. unfold m6_sandwich. rewrite m6_distr_l, m6_distr_r. reflexivity. Qed.
Lemma sandwich_I U : m6_sandwich m6_I U = U.
Proof. unfold m6_sandwich. rewrite m6_tr_I, m6_mul_I_l, m6_mul_I_r. reflexivity. Qed.
Lemma sandwich_propagates A U : propagates66 (m6_vec A) U (m6_sandwich A U).
Proof.
  exists (m6_vec (m6_tr A)). split; intros.
  - apply m6_dot_tr.
  - unfold m6_sandwich. rewrite !m6_vec_mul, m6_dot_tr. reflexivity.
Qed.

Lemma propagates66_cov J U V : propagates66 J U V -> cov6 U -> cov6 V.
Proof.
  intros (JT & _ & H) (S1 & P). split; intros.
  - rewrite !H. apply S1.
  - rewrite H. apply P.
Qed.
Lemma cov6_add U V : cov6 U -> cov6 V -> cov6 (m6_add U V).
Proof.
  intros (S1 & P1) (S2 & P2). split; intros; rewrite !m6_vec_add, !v6_dot_add.
  - rewrite S1, S2. reflexivity.
  - specialize (P1 v). specialize (P2 v). lra.
Qed.

Lemma m4_vec_mul A B v : m4_vec (m4_mul A B) v = m4_vec A (m4_vec B v).
Proof. kring. Qed.
Lemma m4_dot_tr A u v : v4_dot u (m4_vec A v) = v4_dot (m4_vec (m4_tr A) u) v.
Proof. kring. Qed.
Lemma m4_vec_addm A B v : m4_vec (m4_add A B) v = v4_add (m4_vec A v) (m4_vec B v).
Proof. kring. Qed.
Lemma v4_dot_add u v w : v4_dot u (v4_add v w) = v4_dot u v + v4_dot u w.
Proof. kring. Qed.
Lemma m4_ext A B : (forall p, m4_vec A p = m4_vec B p) -> A = B.
Proof.
  intros H.
  pose proof (H (V4 1 0 0 0)) as H0. pose proof (H (V4 0 1 0 0)) as H1.
  pose proof (H (V4 0 0 1 0)) as H2. pose proof (H (V4 0 0 0 1)) as H3. clear H.
  revert H0 H1 H2 H3. destruct A as [[] [] [] []], B as [[] [] [] []].
  unfold m4_vec, v4_dot. q4c. intros H0 H1 H2 H3.
  injection H0; injection H1; injection H2; injection H3; intros.
  f_equal; f_equal; lra.
Qed.
Lemma sandwich4_propagates A U : propagates44 (m4_vec A) U (m4_sandwich A U).
Proof.
  exists (m4_vec (m4_tr A)). split; intros.
  - apply m4_dot_tr.
  - unfold m4_sandwich. rewrite !m4_vec_mul, m4_dot_tr. reflexivity.
Qed.
Lemma propagates44_cov J U V : propagates44 J U V -> cov4 U -> cov4 V.
Proof.
  intros (JT & _ & H) (S1 & P). split; intros.
  - rewrite !H. apply S1.
  - rewrite H. apply P.
Qed.
Lemma propagates64_cov J U V : propagates64 J U V -> cov6 U -> cov4 V.
Proof.
  intros (JT & _ & H) (S1 & P). split; intros.
  - rewrite !H. apply S1.
  - rewrite H. apply P.
Qed.
Lemma cov4_add U V : cov4 U -> cov4 V -> cov4 (m4_add U V).
Proof.
  intros (S1 & P1) (S2 & P2). split; intros; rewrite !m4_vec_addm, !v4_dot_add.
  - rewrite S1, S2. reflexivity.
  - specialize (P1 v). specialize (P2 v). lra.
Qed.
Definition m46_trvec (J : m46) (u : v4) : v6 :=
  V6 (m34_vec (m43_tr (l43 J)) u) (m34_vec (m43_tr (r43' J)) u).
Lemma m46_dot_tr J u d : v4_dot u (m46_vec J d) = v6_dot (m46_trvec J u) d.
Proof. unfold m46_trvec. tring. Qed.
Lemma m46_vec_mul J U d : m46_vec (m46_mul6 J U) d = m46_vec J (m6_vec U d).
Proof. tring. Qed.
Lemma m46_mul_tr_vec A B v : m4_vec (m46_mul_tr A B) v = m46_vec A (m46_trvec B v).
Proof. unfold m46_trvec. tring. Qed.
Lemma sandwich46_propagates J U : propagates64 (m46_vec J) U (m46_mul_tr (m46_mul6 J U) J).
Proof.
  exists (m46_trvec J). split; intros.
  - apply m46_dot_tr.
  - rewrite m46_mul_tr_vec, m46_vec_mul, m46_dot_tr. reflexivity.
Qed.

(** ** The group *)

Definition good (A : tf) : Prop := unit4 (tq A).

Lemma unit_norm4 q : unit4 q -> v4_norm q = 1.
Proof.
  intros H. apply (proj1 (unit4_dot q)) in H. unfold v4_norm. rewrite H. apply sqrt_1.
Qed.
Lemma mk_unit q t : unit4 q -> mk_tf q t = TF q t.
Proof.
  intros H. unfold mk_tf. rewrite (unit_norm4 q H). f_equal.
  replace (1 / 1) with 1 by field. destruct q. unfold v4_scale. q4c. f_equal; ring.
Qed.
Lemma unit_qplus a b : unit4 a -> unit4 b -> unit4 (qplus a b).
Proof.
  intros H K. apply unit4_dot. rewrite v4_dot_qplus.
  apply (proj1 (unit4_dot a)) in H. apply (proj1 (unit4_dot b)) in K. rewrite H, K. ring.
Qed.
Lemma unit_inv q : unit4 q -> unit4 (quatInv q).
Proof. unfold unit4, quatInv. cbn [q0 q1 q2 q3]. intros <-. ring. Qed.

Lemma rt_vec C t p : m4_vec (rt C t) p =
  let h := v3_add (m3_vec C (V3 (q0 p) (q1 p) (q2 p))) (v3_scale (q3 p) t) in V4 (x0 h) (x1 h) (x2 h) (q3 p).
Proof. tring. Qed.
Lemma rt_mul A a B b : m4_mul (rt A a) (rt B b) = rt (m3_mul A B) (v3_add (m3_vec A b) a).
Proof. tring. Qed.
Lemma rt_I : rt m3_I v3_zero = m4_I.
Proof. tring. Qed.
Lemma topLeft_rt C t : topLeft (rt C t) = C.
Proof. destruct C; reflexivity. Qed.
Lemma topRight_rt C t : topRight (rt C t) = t.
Proof. destruct t; reflexivity. Qed.
Lemma rigid_rt M C t : rigid M C t <-> SO3 C /\ M = rt C t.
Proof.
  unfold rigid. split; intros (S & H); split; try assumption.
  - apply m4_ext. intros p. rewrite H, rt_vec. reflexivity.
  - intros p. rewrite H, rt_vec. reflexivity.
Qed.

Lemma good_mul A B : good A -> good B -> good (tf_mul A B).
Proof.
  intros H K. unfold good, tf_mul. rewrite mk_unit by (apply unit_qplus; assumption).
  apply unit_qplus; assumption.
Qed.
Lemma good_inverse A : good A -> good (tf_inverse A).
Proof.
  intros H. unfold good, tf_inverse. rewrite mk_unit by (apply unit_inv; assumption).
  apply unit_inv; assumption.
Qed.
Lemma T_rigid A : good A -> rigid (tf_T A) (quat2r (tq A)) (tt A).
Proof. intros H. apply rigid_rt. split; [apply quat2r_SO3; exact H | reflexivity]. Qed.
Lemma T_mul A B : good A -> good B -> tf_T (tf_mul A B) = m4_mul (tf_T A) (tf_T B).
Proof.
  intros H K. unfold tf_T, tf_mul. rewrite mk_unit by (apply unit_qplus; assumption).
  cbn [tq tt]. rewrite rt_mul, quat2r_mul, quatRotate_correct by exact H. reflexivity.
Qed.
Lemma T_identity : tf_T tf_identity = m4_I.
Proof. unfold tf_T, tf_identity. tring. Qed.
Lemma m3_vec_neg C t : m3_vec C (v3_neg t) = v3_neg (m3_vec C t).
Proof. kring. Qed.
Lemma T_inverse_matrix A : good A -> tf_T (tf_inverse A) = inverseTransform (tf_T A).
Proof.
  intros H. pose proof (unit_inv _ H) as K. unfold tf_T, tf_inverse, inverseTransform.
  rewrite mk_unit by exact K. cbn [tq tt].
  rewrite topLeft_rt, topRight_rt, quatRotate_correct by exact K.
  rewrite quat2r_inv. cbv zeta. rewrite m3_vec_neg. reflexivity.
Qed.
Lemma inverse_rt C t : inverseTransform (rt C t) = rt (m3_tr C) (v3_neg (m3_vec (m3_tr C) t)).
Proof. unfold inverseTransform. rewrite topLeft_rt, topRight_rt. reflexivity. Qed.
Lemma v3_add_neg v : v3_add v (v3_neg v) = v3_zero.
Proof. kring. Qed.
Lemma v3_neg_add v : v3_add (v3_neg v) v = v3_zero.
Proof. kring. Qed.
Lemma inverse_rigid M C t : rigid M C t ->
  m4_mul M (inverseTransform M) = m4_I /\ m4_mul (inverseTransform M) M = m4_I /\
  rigid (inverseTransform M) (m3_tr C) (v3_neg (m3_vec (m3_tr C) t)).
Proof.
  intros H. apply rigid_rt in H. destruct H as (S & ->). pose proof (SO3_tr_l C S) as L.
  rewrite inverse_rt, !rt_mul, <- rt_I, (proj1 S), L, v3_add_neg. split; [ | split].
  - f_equal. rewrite m3_vec_neg, <- m3_vec_mul, (proj1 S), m3_vec_I. apply v3_neg_add.
  - reflexivity.
  - apply rigid_rt. split; [apply SO3_tr; exact S | reflexivity].
Qed.

(** Equality of transformations: the same translation and, up to sign, the
    same quaternion; products are exact. *)
Lemma qplus_assoc a b c : qplus a (qplus b c) = qplus (qplus a b) c.
Proof. kring. Qed.
Lemma qplus_inv_l q : unit4 q -> qplus (quatInv q) q = quatIdentity.
Proof.
  unfold unit4. destruct q as [a b c d]. cbn [q0 q1 q2 q3]. intros H. kunf.
  f_equal; try ring. rewrite <- H. ring.
Qed.
Lemma qplus_inv_r q : unit4 q -> qplus q (quatInv q) = quatIdentity.
Proof.
  unfold unit4. destruct q as [a b c d]. cbn [q0 q1 q2 q3]. intros H. kunf.
  f_equal; try ring. rewrite <- H. ring.
Qed.
Lemma quatInv_inv q : quatInv (quatInv q) = q.
Proof. kring. Qed.

Lemma tf_ext A B : tq A = tq B -> tf_T A = tf_T B -> A = B.
Proof.
  destruct A as [q t], B as [p s]. cbn [tq]. intros -> H. f_equal.
  unfold tf_T in H. cbn [tq tt] in H.
  rewrite <- (topRight_rt (quat2r p) t), H. apply topRight_rt.
Qed.
Lemma tq_mul A B : good A -> good B -> tq (tf_mul A B) = qplus (tq A) (tq B).
Proof. intros H K. unfold tf_mul. rewrite mk_unit by (apply unit_qplus; assumption). reflexivity. Qed.
Lemma tq_inverse A : good A -> tq (tf_inverse A) = quatInv (tq A).
Proof. intros H. unfold tf_inverse. rewrite mk_unit by (apply unit_inv; assumption). reflexivity. Qed.
Lemma m4_mul_assoc A B C : m4_mul A (m4_mul B C) = m4_mul (m4_mul A B) C.
Proof. apply m4_ext. intros p. rewrite !m4_vec_mul. reflexivity. Qed.

Lemma tf_mul_assoc A B C : good A -> good B -> good C ->
  tf_mul A (tf_mul B C) = tf_mul (tf_mul A B) C.
Proof.
  intros HA HB HC. pose proof (good_mul A B HA HB). pose proof (good_mul B C HB HC).
  apply tf_ext.
  - rewrite !tq_mul by assumption. apply qplus_assoc.
  - rewrite !T_mul by assumption. apply m4_mul_assoc.
Qed.
Lemma good_identity : good tf_identity.
Proof. unfold good, tf_identity, unit4, quatIdentity. cbn [tq q0 q1 q2 q3]. ring. Qed.
Lemma tf_inverse_l A : good A -> tf_mul (tf_inverse A) A = tf_identity.
Proof.
  intros H. pose proof (good_inverse A H) as K. apply tf_ext.
  - rewrite tq_mul, tq_inverse by assumption. apply qplus_inv_l. exact H.
  - rewrite T_mul, T_inverse_matrix, T_identity by assumption.
    exact (proj1 (proj2 (inverse_rigid _ _ _ (T_rigid A H)))).
Qed.
Lemma tf_inverse_r A : good A -> tf_mul A (tf_inverse A) = tf_identity.
Proof.
  intros H. pose proof (good_inverse A H) as K. apply tf_ext.
  - rewrite tq_mul, tq_inverse by assumption. apply qplus_inv_r. exact H.
  - rewrite T_mul, T_inverse_matrix, T_identity by assumption.
    exact (proj1 (inverse_rigid _ _ _ (T_rigid A H))).
Qed.
Lemma tf_id_l A : good A -> tf_mul tf_identity A = A.
Proof.
  intros H. pose proof good_identity as I0. apply tf_ext.
  - rewrite tq_mul by assumption. destruct A as [q t]. cbn [tq tf_identity]. kring.
  - rewrite T_mul, T_identity by assumption. generalize (tf_T A). intros M. kring.
Qed.
Lemma tf_id_r A : good A -> tf_mul A tf_identity = A.
Proof.
  intros H. pose proof good_identity as I0. apply tf_ext.
  - rewrite tq_mul by assumption. destruct A as [q t]. cbn [tq tf_identity]. kring.
  - rewrite T_mul, T_identity by assumption. generalize (tf_T A). intros M. kring.
Qed.

(** ** Points *)

Lemma tf_hpoint_correct A p : good A -> tf_hpoint A p = m4_vec (tf_T A) p.
Proof.
  intros H. unfold tf_hpoint, tf_T. rewrite rt_vec, quatRotate_correct by exact H. reflexivity.
Qed.
Lemma tf_point_correct A p : good A -> tf_point A p = v3_add (m3_vec (quat2r (tq A)) p) (tt A).
Proof. intros H. unfold tf_point. rewrite quatRotate_correct by exact H. reflexivity. Qed.

(** ** The adjoint *)

Lemma SO3_cross C v : SO3 C -> m3_mul C (crossMx v) = m3_mul (crossMx (m3_vec C v)) C.
Proof.
  intros H. pose proof (SO3_adj C H) as E.
  assert (G : m3_mul (m3_tr (m3_adj C)) (crossMx v) = m3_mul (crossMx (m3_vec C v)) C).
  { unfold m3_adj. destruct C, v. kunf. f_equal; ring. }
  rewrite <- G, E, m3_tr_tr. reflexivity.
Qed.
Lemma boxTimes_rt C t : boxTimes (rt C t) = M6 C (m3_mul (m3_neg (crossMx t)) C) m3_zero C.
Proof. unfold boxTimes. rewrite topLeft_rt, topRight_rt. reflexivity. Qed.
Lemma crossMx_add a b : crossMx (v3_add a b) = m3_add (crossMx a) (crossMx b).
Proof. kring. Qed.
Lemma m3_neg_add A B : m3_neg (m3_add A B) = m3_add (m3_neg A) (m3_neg B).
Proof. unfold m3_neg. kring. Qed.
Lemma m3_neg_mul_l A B : m3_mul (m3_neg A) B = m3_neg (m3_mul A B).
Proof. unfold m3_neg. kring. Qed.
Lemma m3_neg_mul_r A B : m3_mul A (m3_neg B) = m3_neg (m3_mul A B).
Proof. unfold m3_neg. kring. Qed.
Lemma boxTimes_mul A B : SE3 A -> SE3 B -> boxTimes (m4_mul A B) = m6_mul (boxTimes A) (boxTimes B).
Proof.
  intros (C & t & H) (D & s & K). apply rigid_rt in H, K.
  destruct H as (SC & ->), K as (SD & ->). rewrite rt_mul, !boxTimes_rt.
  unfold m6_mul. m6c.
  rewrite !m3_mul_0_l, !m3_mul_0_r, !m3_add_0_l, !m3_add_0_r. f_equal.
  rewrite !m3_neg_mul_l, m3_neg_mul_r, crossMx_add, m3_distr_r, !m3_mul_assoc.
  rewrite (SO3_cross C s SC), m3_neg_add. reflexivity.
Qed.
Lemma boxTimes_I : boxTimes m4_I = m6_I.
Proof. tring. Qed.
Lemma SE3_T A : good A -> SE3 (tf_T A).
Proof. intros H. eexists. eexists. exact (T_rigid A H). Qed.
Lemma SE3_inverse M : SE3 M -> SE3 (inverseTransform M).
Proof. intros (C & t & H). eexists. eexists. exact (proj2 (proj2 (inverse_rigid M C t H))). Qed.

(** ** Curves *)

Lemma dot4_derive (a b c d e f g h : R -> R) (t a' b' c' d' e' f' g' h' : R) :
  is_derive a t a' -> is_derive b t b' -> is_derive c t c' -> is_derive d t d' ->
  is_derive e t e' -> is_derive f t f' -> is_derive g t g' -> is_derive h t h' ->
  is_derive (fun s => a s * e s + b s * f s + c s * g s + d s * h s) t
    (a' * e t + b' * f t + c' * g t + d' * h t + (a t * e' + b t * f' + c t * g' + d t * h')).
Proof.
  intros A B C D E F G H. derive_ex A. derive_ex B. derive_ex C. derive_ex D. derive_ex E. derive_ex F. derive_ex G. derive_ex H.
  auto_derive.
  - tauto.
  - derive_sub A. derive_sub B. derive_sub C. derive_sub D. derive_sub E. derive_sub F. derive_sub G. derive_sub H. ring.
Qed.

Lemma v4_dot_derive (a b : R -> v4) t a' b' : v4_derive a t a' -> v4_derive b t b' ->
  is_derive (fun s => v4_dot (a s) (b s)) t (v4_dot a' (b t) + v4_dot (a t) b').
Proof.
  intros (A0 & A1 & A2 & A3) (B0 & B1 & B2 & B3).
  exact (dot4_derive _ _ _ _ _ _ _ _ _ _ _ _ _ _ _ _ _ A0 A1 A2 A3 B0 B1 B2 B3).
Qed.
Lemma v4_const_derive p t : v4_derive (fun _ => p) t v4_zero.
Proof. unfold v4_derive, v4_zero. cbn [q0 q1 q2 q3]. split; [ | split; [ | split]]; apply @is_derive_const. Qed.

Lemma m4_vec_derive (M : R -> m4) (p : R -> v4) t D d : m4_derive M t D -> v4_derive p t d ->
  v4_derive (fun s => m4_vec (M s) (p s)) t (v4_add (m4_vec D (p t)) (m4_vec (M t) d)).
Proof.
  intros (H0 & H1 & H2 & H3) P.
  unfold v4_derive, v4_add, m4_vec. cbn [q0 q1 q2 q3]. split; [ | split; [ | split]].
  - exact (v4_dot_derive _ _ _ _ _ H0 P).
  - exact (v4_dot_derive _ _ _ _ _ H1 P).
  - exact (v4_dot_derive _ _ _ _ _ H2 P).
  - exact (v4_dot_derive _ _ _ _ _ H3 P).
Qed.
Lemma v4_derive_eq f t d d' : v4_derive f t d -> d = d' -> v4_derive f t d'.
Proof. intros H <-. exact H. Qed.
Lemma point_derive M p t D : m4_derive M t D -> v4_derive (fun s => m4_vec (M s) p) t (m4_vec D p).
Proof.
  intros H. eapply v4_derive_eq; [exact (m4_vec_derive M (fun _ => p) t D v4_zero H (v4_const_derive p t)) | ].
  generalize (M t). intros. kring.
Qed.

Lemma m4_col_derive (M : R -> m4) t D : m4_derive M t D <->
  v4_derive (fun s => m4_vec (M s) (V4 1 0 0 0)) t (m4_vec D (V4 1 0 0 0)) /\
  v4_derive (fun s => m4_vec (M s) (V4 0 1 0 0)) t (m4_vec D (V4 0 1 0 0)) /\
  v4_derive (fun s => m4_vec (M s) (V4 0 0 1 0)) t (m4_vec D (V4 0 0 1 0)) /\
  v4_derive (fun s => m4_vec (M s) (V4 0 0 0 1)) t (m4_vec D (V4 0 0 0 1)).
Proof.
  split.
  - intros H. split; [ | split; [ | split]]; apply point_derive; exact H.
  - intros ((A0 & A1 & A2 & A3) & (B0 & B1 & B2 & B3) & (C0 & C1 & C2 & C3) & (D0 & D1 & D2 & D3)).
    unfold m4_derive, v4_derive.
    split; [ | split; [ | split]]; (split; [ | split; [ | split]]);
    match goal with |- is_derive (fun s => ?g (?r (M s))) ?t ?d =>
      match r with
      | r40 => match g with q0 => revert A0 | q1 => revert B0 | q2 => revert C0 | q3 => revert D0 end
      | r41 => match g with q0 => revert A1 | q1 => revert B1 | q2 => revert C1 | q3 => revert D1 end
      | r42 => match g with q0 => revert A2 | q1 => revert B2 | q2 => revert C2 | q3 => revert D2 end
      | r43 => match g with q0 => revert A3 | q1 => revert B3 | q2 => revert C3 | q3 => revert D3 end
      end end;
    (unfold m4_vec, v4_dot; cbn [q0 q1 q2 q3]; intros H; eapply is_derive_ext; [ | match type of H with is_derive ?f ?t ?d => match goal with |- is_derive _ _ ?e => replace e with d by ring end end; exact H]);
    intros s; match goal with |- @eq _ ?l ?r => change (@eq R l r) end; cbv beta; ring.
Qed.
Lemma points_derive (M : R -> m4) t D :
  (forall p, v4_derive (fun s => m4_vec (M s) p) t (m4_vec D p)) -> m4_derive M t D.
Proof. intros H. apply m4_col_derive. split; [ | split; [ | split]]; apply H. Qed.

(** The image of a fixed point, and a product, of moving transformations. *)
Lemma v4_add_comm a b : v4_add a b = v4_add b a.
Proof. kring. Qed.

Lemma perturbed_point M t d p : perturbed M t d ->
  v4_derive (fun s => m4_vec (M s) p) t (m46_vec (boxMinus (m4_vec (M t) p)) d).
Proof.
  intros (D & H & E). eapply v4_derive_eq; [exact (point_derive M p t D H) | ].
  rewrite E. generalize (m4_vec (M t) p). tring.
Qed.

Lemma twist_adjoint A db p : SE3 A -> m4_vec A (twist db p) = twist (m6_vec (boxTimes A) db) (m4_vec A p).
Proof.
  intros (C & t & H). apply rigid_rt in H. destruct H as (S & ->).
  rewrite boxTimes_rt, !rt_vec. unfold m6_vec, twist. cbn [hd3 tl3 c00 c01 c10 c11 q0 q1 q2 q3].
  rewrite v3_eta. rewrite m3_neg_mul_l.
  assert (X : forall v w, m3_vec C (v3_cross v w) = v3_cross (m3_vec C v) (m3_vec C w)).
  { intros v w. assert (F : forall a b, v3_cross a b = m3_vec (crossMx a) b) by kring.
    rewrite !F, <- !m3_vec_mul, (SO3_cross C v S). reflexivity. }
  assert (E : m3_vec C (v3_sub (v3_scale (q3 p) (hd3 db)) (v3_cross (tl3 db) (V3 (q0 p) (q1 p) (q2 p))))
    = v3_sub (v3_scale (q3 p) (m3_vec C (hd3 db))) (v3_cross (m3_vec C (tl3 db)) (m3_vec C (V3 (q0 p) (q1 p) (q2 p))))).
  { rewrite <- X. generalize (v3_cross (tl3 db) (V3 (q0 p) (q1 p) (q2 p))). generalize (q3 p), (hd3 db). kring. }
  rewrite E. rewrite v3_eta.
  assert (F : m3_vec (m3_neg (m3_mul (crossMx t) C)) (tl3 db) = v3_neg (v3_cross t (m3_vec C (tl3 db)))).
  { unfold m3_neg. generalize (tl3 db). tring. }
  rewrite F. clear. 
  assert (Z : m3_vec m3_zero (hd3 db) = v3_zero) by (generalize (hd3 db); kring). rewrite Z.
  generalize (m3_vec C (hd3 db)), (m3_vec C (tl3 db)), (m3_vec C (V3 (q0 p) (q1 p) (q2 p))), (q3 p). kring.
Qed.

Lemma twist_add a b p : twist (v6_add a b) p = v4_add (twist a p) (twist b p).
Proof. tring. Qed.

Lemma perturbed_product A B t da db : SE3 (A t) -> perturbed A t da -> perturbed B t db ->
  perturbed (fun s => m4_mul (A s) (B s)) t (v6_add da (m6_vec (boxTimes (A t)) db)).
Proof.
  intros S (DA & HA & EA) (DB & HB & EB).
  exists (m4_add (m4_mul DA (B t)) (m4_mul (A t) DB)). split.
  - apply points_derive. intros p. rewrite m4_vec_addm, !m4_vec_mul.
    apply (v4_derive_ext_loc (fun s => m4_vec (A s) (m4_vec (B s) p))).
    { apply filter_forall. intros s. symmetry. apply m4_vec_mul. }
    exact (m4_vec_derive A (fun s => m4_vec (B s) p) t DA _ HA (point_derive B p t DB HB)).
  - intros p. rewrite m4_vec_addm, !m4_vec_mul, EA, EB, (twist_adjoint (A t) db _ S), twist_add. reflexivity.
Qed.
