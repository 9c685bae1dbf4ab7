From Coquelicot Require Import Coquelicot.
From Coq Require Import Reals List Arith Lia Psatz FunctionalExtensionality.
From Verif Require Import KinModel KinSpec KinProofs KinExp KinCurve KinJac RotModel RotSpec RotEuler RotVec
  TfModel TfSpec TfProofs TfCurve BpModel BpProofs ExprModel ExprSpec.
Import ListNotations.
Local Open Scope R_scope.

Ltac eunf := cbv beta iota zeta delta [rows3 rows36 rows63 rows66 rows34 rows43 rows46 rows4 row_m36 row_m63 row_m6
  row_m46 row_m39 v3_diag I43 m6_neg row_m3 row_m43 row_m4 row_m34 v3_at v6_at v4_at v3_list nth Nat.ltb Nat.leb Nat.sub
  v6_scale zero6 direction_row direction_value]; tunf.
Ltac ering := intros; tdestruct; eunf; repeat first [ring | f_equal; ring | apply f_equal2 | f_equal].

(** ** Sums of contributions *)
Lemma applied_app L L' d r : applied (L ++ L') d r = applied L d r + applied L' d r.
Proof.
  induction L as [ | [i row] L IH]; cbn [applied app].
  - ring.
  - rewrite IH. ring.
Qed.
Lemma ldot3 v w : ldot (v3_list v) [x0 w; x1 w; x2 w] = v3_dot v w.
Proof. destruct v as [a b c], w as [e f g]. unfold v3_list, ldot, v3_dot. cbn [x0 x1 x2]. ring. Qed.
Lemma v3_at_row (w : v3) r : v3_dot (rows3 m3_I r) w = v3_at w r.
Proof. destruct w as [a b c], r as [ | [ | [ | r ] ] ]; eunf; try ring. destruct r; ring. Qed.

(** ** Derivatives *)
Lemma scatter_scale sel : forall d s k, scatter sel (map (Rmult s) d) k = s * scatter sel d k.
Proof.
  induction sel as [ | p sel IH]; intros d s k; cbn [scatter]; [ ring | ].
  destruct d as [ | x d]; cbn [map]; [ ring | ]. rewrite IH. destruct (p =? k)%nat; ring.
Qed.
Lemma ypr_zero : ypr_C (V3 0 0 0) = m3_I.
Proof. unfold ypr_C. kunf. rewrite ?cos_0, ?sin_0. f_equal; ring. Qed.
Lemma moved_0 th d : moved th d 0 = th.
Proof.
  unfold moved, update, along. destruct th as [a b c e f g h]. cbn [vq vp vh vs vd vm vsel dq dp dh ds dd dm].
  f_equal; apply functional_extensionality; intros i.
  - apply update_zero.
  - generalize (b i), (dp d i). kring.
  - apply update_zero.
  - ring.
  - unfold direction_update. cbn [fst snd]. rewrite !Rmult_0_l, ypr_zero. destruct (f i) as [m C].
    cbn [fst snd]. f_equal. destruct C. kunf. f_equal; ring.
  - unfold matrix_update. cbv zeta. rewrite !scatter_scale. destruct (g i). kunf. f_equal; ring.
Qed.
Lemma moved_sel th d s : vsel (moved th d s) = vsel th.
Proof. reflexivity. Qed.

Lemma v3_derive_add f g t a b : v3_derive f t a -> v3_derive g t b ->
  v3_derive (fun s => v3_add (f s) (g s)) t (v3_add a b).
Proof.
  intros (A & B & C) (D & E & F). unfold v3_derive, v3_add. cbn [x0 x1 x2].
  split; [ | split]; apply (@is_derive_plus R_AbsRing R_NormedModule); assumption.
Qed.
Lemma v3_derive_const p t : v3_derive (fun _ => p) t v3_zero.
Proof.
  unfold v3_derive, v3_zero. cbn [x0 x1 x2]. split; [ | split]; exact (@is_derive_const _ R_NormedModule _ t).
Qed.
Lemma v3_derive_sub f g t a b : v3_derive f t a -> v3_derive g t b ->
  v3_derive (fun s => v3_sub (f s) (g s)) t (v3_sub a b).
Proof.
  intros (A & B & C) (D & E & F). unfold v3_derive, v3_sub. cbn [x0 x1 x2].
  split; [ | split]; apply (@is_derive_minus R_AbsRing R_NormedModule); assumption.
Qed.
Lemma v3_derive_scale (c : R -> R) f t c' a : is_derive c t c' -> v3_derive f t a ->
  v3_derive (fun s => v3_scale (c s) (f s)) t (v3_add (v3_scale c' (f t)) (v3_scale (c t) a)).
Proof.
  intros K (A & B & C).
  assert (L : forall g g', is_derive g t g' -> is_derive (fun s => c s * g s) t (c' * g t + c t * g')).
  { intros g g' G. exact (is_derive_mult c g t c' g' K G Rmult_comm). }
  unfold v3_derive, v3_add, v3_scale. cbn [x0 x1 x2]. split; [ | split]; apply L; assumption.
Qed.
Lemma m3_rows_derive (A : R -> m3) t D : m3_derive A t D <->
  v3_derive (fun s => m3_row0 (A s)) t (m3_row0 D) /\ v3_derive (fun s => m3_row1 (A s)) t (m3_row1 D) /\
  v3_derive (fun s => m3_row2 (A s)) t (m3_row2 D).
Proof. unfold m3_derive, v3_derive, m3_row0, m3_row1, m3_row2. cbn [x0 x1 x2]. tauto. Qed.
Lemma m3_cols_derive (A : R -> m3) t D : m3_derive A t D <->
  v3_derive (fun s => m3_col0 (A s)) t (m3_col0 D) /\ v3_derive (fun s => m3_col1 (A s)) t (m3_col1 D) /\
  v3_derive (fun s => m3_col2 (A s)) t (m3_col2 D).
Proof. unfold m3_derive, v3_derive, m3_col0, m3_col1, m3_col2. cbn [x0 x1 x2]. tauto. Qed.
Lemma m3_mul_col0 A B : m3_col0 (m3_mul A B) = m3_vec A (m3_col0 B).
Proof. reflexivity. Qed.
Lemma m3_mul_col1 A B : m3_col1 (m3_mul A B) = m3_vec A (m3_col1 B).
Proof. reflexivity. Qed.
Lemma m3_mul_col2 A B : m3_col2 (m3_mul A B) = m3_vec A (m3_col2 B).
Proof. reflexivity. Qed.
Lemma m3_derive_eq f t d d' : m3_derive f t d -> d = d' -> m3_derive f t d'.
Proof. intros H <-. exact H. Qed.
Lemma m3_mul_derive (A B : R -> m3) t A' B' : m3_derive A t A' -> m3_derive B t B' ->
  m3_derive (fun s => m3_mul (A s) (B s)) t (m3_add (m3_mul A' (B t)) (m3_mul (A t) B')).
Proof.
  intros HA HB. pose proof (proj1 (m3_cols_derive _ _ _) HB) as (B0 & B1 & B2).
  apply m3_cols_derive. split; [ | split].
  - eapply v3_derive_eq; [ exact (m3_vec_derive _ _ _ _ _ HA B0) | reflexivity ].
  - eapply v3_derive_eq; [ exact (m3_vec_derive _ _ _ _ _ HA B1) | reflexivity ].
  - eapply v3_derive_eq; [ exact (m3_vec_derive _ _ _ _ _ HA B2) | reflexivity ].
Qed.
Lemma m3_derive_const (A : m3) t : m3_derive (fun _ => A) t m3_zero.
Proof.
  apply m3_rows_derive. split; [ | split]; apply v3_derive_const.
Qed.

(** ** The design variables *)
Lemma quaternion_turns q phi :
  m3_derive (fun s => quat2r (updateQuat q (v3_scale s phi))) 0 (m3_mul (m3_scale (-1) (crossMx phi)) (quat2r q)).
Proof.
  pose proof (quat2r_derive _ 0 _ (update_derive q phi)) as H. cbv beta in H.
  rewrite update_zero, quat2r_update_rate in H. eapply m3_derive_eq; [ exact H | ].
  generalize (quat2r q). intros C. unfold m3_neg. kring.
Qed.
Lemma direction_moves m C a b :
  v3_derive (fun s => direction_value (m, direction_update C (s * a, s * b))) 0
    (v3_scale m (v3_sub (v3_scale b (m3_col1 C)) (v3_scale a (m3_col0 C)))).
Proof.
  assert (L : forall x y z, is_derive (fun s => m * (x * - sin (s * a) + y * (cos (s * a) * sin (s * b)) +
      z * (cos (s * a) * cos (s * b)))) 0 (m * (b * y - a * x))).
  { intros x y z. auto_derive; [ tauto | ]. rewrite !Rmult_0_l, sin_0, cos_0. ring. }
  destruct C as [c00 c01 c02 c10 c11 c12 c20 c21 c22].
  unfold direction_value, direction_update, ypr_C, v3_derive. cbn [fst snd]. kunf. cbv zeta. cbn [x0 x1 x2].
  split; [ | split].
  - eapply is_derive_ext; [ | exact (L c00 c01 c02) ]. intros s. cbv beta.
    match goal with |- ?a = ?b => change (@eq R a b) end. rewrite ?cos_0, ?sin_0. ring.
  - eapply is_derive_ext; [ | exact (L c10 c11 c12) ]. intros s. cbv beta.
    match goal with |- ?a = ?b => change (@eq R a b) end. rewrite ?cos_0, ?sin_0. ring.
  - eapply is_derive_ext; [ | exact (L c20 c21 c22) ]. intros s. cbv beta.
    match goal with |- ?a = ?b => change (@eq R a b) end. rewrite ?cos_0, ?sin_0. ring.
Qed.
(** The step of a matrix. *)
Definition matrix_step (sel : list nat) (d : list R) : m3 :=
  let v := scatter sel d in (M3 (v 0) (v 3) (v 6) (v 1) (v 4) (v 7) (v 2) (v 5) (v 8))%nat.
Lemma matrix_moves A sel d :
  m3_derive (fun s => matrix_update A sel (map (Rmult s) d)) 0 (matrix_step sel d).
Proof.
  assert (L : forall a k, is_derive (fun s => a + scatter sel (map (Rmult s) d) k) 0 (scatter sel d k)).
  { intros a k. apply (is_derive_ext (fun s => a + s * scatter sel d k)).
    - intros s. rewrite scatter_scale. reflexivity.
    - auto_derive; [ tauto | ring ]. }
  unfold m3_derive, matrix_update, matrix_step, m3_add. cbv zeta. cbn [m00 m01 m02 m10 m11 m12 m20 m21 m22].
  split; [ | split ]; (split; [ | split ]); apply L.
Qed.
Definition v9_dot (u : v9) (A : m3) : R :=
  v3_dot (g0 u) (m3_col0 A) + v3_dot (g1 u) (m3_col1 A) + v3_dot (g2 u) (m3_col2 A).
Lemma picked_columns u : forall sel d, ldot (map (v9_at u) sel) d = v9_dot u (matrix_step sel d).
Proof.
  induction sel as [ | p sel IH]; intros d; cbn [map ldot].
  - unfold v9_dot, matrix_step. destruct u as [ [ a b c ] [ e f g ] [ h i j ] ]. cbn [scatter g0 g1 g2]. kunf. ring.
  - destruct d as [ | x d].
    + unfold v9_dot, matrix_step. destruct u as [ [ a b c ] [ e f g ] [ h i j ] ]. cbn [scatter g0 g1 g2]. kunf. ring.
    + rewrite IH. clear IH. unfold v9_dot, matrix_step. cbv zeta.
      destruct u as [ [ a b c ] [ e f g ] [ h i j ] ].
      unfold v9_at, v3_list. cbn [scatter g0 g1 g2 x0 x1 x2 app].
      do 9 (destruct p as [ | p ]; [ cbn [Nat.eqb nth]; kunf; ring | ]).
      replace (nth _ _ 0) with 0. 2:{ cbn [nth]. destruct p; reflexivity. }
      cbn [Nat.eqb]. kunf. ring.
Qed.
Lemma jac_m_applied th e M d r :
  applied (jac_m th e M) d r =
  v9_dot (M r) (match e with MDv i => matrix_step (vsel th i) (dm d i) end).
Proof.
  destruct e as [i]. cbn [jac_m]. destruct (vsel th i) as [ | p sel ] eqn:E.
  - cbn [applied]. unfold v9_dot, matrix_step. destruct (M r) as [ [ a b c ] [ f g h ] [ j k l ] ].
    cbn [scatter g0 g1 g2]. kunf. ring.
  - cbn [applied coords]. rewrite picked_columns. ring.
Qed.

(** ** Inverses *)
Definition affine (M : m4) : Prop := r43 M = V4 0 0 0 1.
Lemma affine_rt M : affine M -> M = rt (topLeft M) (topRight M).
Proof. unfold affine. destruct M as [ [ ] [ ] [ ] l ]. cbn [r43]. intros ->. reflexivity. Qed.
Lemma SE3_affine M : SE3 M -> affine M.
Proof. intros (C & t & H). apply rigid_rt in H. destruct H as [_ ->]. reflexivity. Qed.
Lemma affine_mul A B : affine A -> affine B -> affine (m4_mul A B).
Proof. intros HA HB. rewrite (affine_rt _ HA), (affine_rt _ HB), rt_mul. reflexivity. Qed.

Definition adj3 (A : m3) : m3 :=
  M3 (m11 A*m22 A-m12 A*m21 A) (m02 A*m21 A-m01 A*m22 A) (m01 A*m12 A-m02 A*m11 A)
     (m12 A*m20 A-m10 A*m22 A) (m00 A*m22 A-m02 A*m20 A) (m02 A*m10 A-m00 A*m12 A)
     (m10 A*m21 A-m11 A*m20 A) (m01 A*m20 A-m00 A*m21 A) (m00 A*m11 A-m01 A*m10 A).
Definition minv (A : m3) : m3 := m3_scale (/ m3_det A) (adj3 A).
Lemma minv_r A : m3_det A <> 0 -> m3_mul A (minv A) = m3_I.
Proof.
  intros H. transitivity (m3_scale (/ m3_det A * m3_det A) m3_I).
  - unfold minv. destruct A as [a b c e f g h i j]. generalize (/ m3_det (M3 a b c e f g h i j)). intros x.
    unfold adj3. kunf. f_equal; ring.
  - rewrite Rinv_l by exact H. kring.
Qed.
Lemma minv_l A : m3_det A <> 0 -> m3_mul (minv A) A = m3_I.
Proof.
  intros H. transitivity (m3_scale (/ m3_det A * m3_det A) m3_I).
  - unfold minv. destruct A as [a b c e f g h i j]. generalize (/ m3_det (M3 a b c e f g h i j)). intros x.
    unfold adj3. kunf. f_equal; ring.
  - rewrite Rinv_l by exact H. kring.
Qed.
Definition ainv (A : m3) (t : v3) : m4 := rt (minv A) (v3_neg (m3_vec (minv A) t)).
Lemma m4_I_l M : m4_mul m4_I M = M.
Proof. kring. Qed.
Lemma m4_I_r M : m4_mul M m4_I = M.
Proof. kring. Qed.
Lemma ainv_r A t : m3_det A <> 0 -> m4_mul (rt A t) (ainv A t) = m4_I.
Proof.
  intros H. unfold ainv. rewrite rt_mul, (minv_r A H), <- rt_I. f_equal.
  transitivity (v3_add (v3_neg (m3_vec (m3_mul A (minv A)) t)) t).
  - generalize (minv A). kring.
  - rewrite (minv_r A H). kring.
Qed.
Lemma inv4_is inv4 A t : inverts4 inv4 -> m3_det A <> 0 -> inv4 (rt A t) = ainv A t.
Proof.
  intros HI H. destruct (HI A t H) as [_ L].
  rewrite <- (m4_I_r (inv4 (rt A t))), <- (ainv_r A t H), m4_mul_assoc, L. apply m4_I_l.
Qed.
Lemma SO3_minv C : SO3 C -> minv C = m3_tr C.
Proof.
  intros [H D]. assert (N : m3_det C <> 0) by (rewrite D; lra).
  assert (A : m3_mul (minv C) (m3_mul C (m3_tr C)) = m3_tr C).
  { transitivity (m3_mul (m3_mul (minv C) C) (m3_tr C)); [ generalize (minv C), (m3_tr C); kring | ].
    rewrite (minv_l C N). generalize (m3_tr C). kring. }
  rewrite H in A. rewrite <- A. generalize (minv C). kring.
Qed.
Lemma inv4_rigid inv4 M : inverts4 inv4 -> SE3 M -> inv4 M = inverseTransform M.
Proof.
  intros HI (C & t & H). apply rigid_rt in H. destruct H as [H ->].
  rewrite (inv4_is inv4 C t HI) by (rewrite (proj2 H); lra).
  unfold ainv. rewrite (SO3_minv C H), inverse_rt. reflexivity.
Qed.

Lemma v4_derive_unique f t a b : v4_derive f t a -> v4_derive f t b -> a = b.
Proof.
  intros (A0 & A1 & A2 & A3) (B0 & B1 & B2 & B3).
  rewrite <- (v4_eta a), <- (v4_eta b).
  rewrite <- (is_derive_unique _ _ _ A0), <- (is_derive_unique _ _ _ A1), <- (is_derive_unique _ _ _ A2), <- (is_derive_unique _ _ _ A3).
  rewrite (is_derive_unique _ _ _ B0), (is_derive_unique _ _ _ B1), (is_derive_unique _ _ _ B2), (is_derive_unique _ _ _ B3).
  reflexivity.
Qed.
Lemma ex_minor (f g h k : R -> R) t : ex_derive f t -> ex_derive g t -> ex_derive h t -> ex_derive k t ->
  ex_derive (fun s => f s * g s - h s * k s) t.
Proof.
  intros F G H K. apply (ex_derive_minus (V := R_NormedModule) (fun s => f s * g s) (fun s => h s * k s)).
  - exact (ex_derive_mult f g t F G).
  - exact (ex_derive_mult h k t H K).
Qed.
Lemma det_derive (A : R -> m3) t D : m3_derive A t D -> ex_derive (fun s => m3_det (A s)) t.
Proof.
  intros ((A00 & A01 & A02) & (A10 & A11 & A12) & (A20 & A21 & A22)). unfold m3_det.
  pose proof (ex_intro (is_derive _ t) _ A00 : ex_derive (fun s => m00 (A s)) t) as E00.
  pose proof (ex_intro (is_derive _ t) _ A01 : ex_derive (fun s => m01 (A s)) t) as E01.
  pose proof (ex_intro (is_derive _ t) _ A02 : ex_derive (fun s => m02 (A s)) t) as E02.
  pose proof (ex_intro (is_derive _ t) _ A10 : ex_derive (fun s => m10 (A s)) t) as E10.
  pose proof (ex_intro (is_derive _ t) _ A11 : ex_derive (fun s => m11 (A s)) t) as E11.
  pose proof (ex_intro (is_derive _ t) _ A12 : ex_derive (fun s => m12 (A s)) t) as E12.
  pose proof (ex_intro (is_derive _ t) _ A20 : ex_derive (fun s => m20 (A s)) t) as E20.
  pose proof (ex_intro (is_derive _ t) _ A21 : ex_derive (fun s => m21 (A s)) t) as E21.
  pose proof (ex_intro (is_derive _ t) _ A22 : ex_derive (fun s => m22 (A s)) t) as E22.
  pose proof (ex_derive_mult _ _ t E00 (ex_minor _ _ _ _ t E11 E22 E12 E21)) as P0.
  pose proof (ex_derive_mult _ _ t E01 (ex_minor _ _ _ _ t E10 E22 E12 E20)) as P1.
  pose proof (ex_derive_mult _ _ t E02 (ex_minor _ _ _ _ t E10 E21 E11 E20)) as P2.
  exact (ex_derive_plus (V := R_NormedModule) _ _ t (ex_derive_minus (V := R_NormedModule) _ _ t P0 P1) P2).
Qed.
Lemma minv_derive (A : R -> m3) t D : m3_derive A t D -> m3_det (A t) <> 0 ->
  exists D', m3_derive (fun s => minv (A s)) t D'.
Proof.
  intros H N. pose proof (det_derive A t D H) as Hc.
  destruct H as ((A00 & A01 & A02) & (A10 & A11 & A12) & (A20 & A21 & A22)).
  assert (L : forall f g h k : R -> R, ex_derive f t -> ex_derive g t -> ex_derive h t -> ex_derive k t ->
    exists c, is_derive (fun s => / m3_det (A s) * (f s * g s - h s * k s)) t c).
  { intros f g h k F G H K. apply (ex_derive_mult (fun s => / m3_det (A s)) (fun s => f s * g s - h s * k s)).
    - exact (ex_derive_inv _ t Hc N).
    - exact (ex_minor f g h k t F G H K). }
  pose proof (ex_intro (is_derive _ t) _ A00 : ex_derive (fun s => m00 (A s)) t) as E00.
  pose proof (ex_intro (is_derive _ t) _ A01 : ex_derive (fun s => m01 (A s)) t) as E01.
  pose proof (ex_intro (is_derive _ t) _ A02 : ex_derive (fun s => m02 (A s)) t) as E02.
  pose proof (ex_intro (is_derive _ t) _ A10 : ex_derive (fun s => m10 (A s)) t) as E10.
  pose proof (ex_intro (is_derive _ t) _ A11 : ex_derive (fun s => m11 (A s)) t) as E11.
  pose proof (ex_intro (is_derive _ t) _ A12 : ex_derive (fun s => m12 (A s)) t) as E12.
  pose proof (ex_intro (is_derive _ t) _ A20 : ex_derive (fun s => m20 (A s)) t) as E20.
  pose proof (ex_intro (is_derive _ t) _ A21 : ex_derive (fun s => m21 (A s)) t) as E21.
  pose proof (ex_intro (is_derive _ t) _ A22 : ex_derive (fun s => m22 (A s)) t) as E22.
  destruct (L _ _ _ _ E11 E22 E12 E21) as [d0 H0]. destruct (L _ _ _ _ E02 E21 E01 E22) as [d1 H1].
  destruct (L _ _ _ _ E01 E12 E02 E11) as [d2 H2]. destruct (L _ _ _ _ E12 E20 E10 E22) as [d3 H3].
  destruct (L _ _ _ _ E00 E22 E02 E20) as [d4 H4]. destruct (L _ _ _ _ E02 E10 E00 E12) as [d5 H5].
  destruct (L _ _ _ _ E10 E21 E11 E20) as [d6 H6]. destruct (L _ _ _ _ E01 E20 E00 E21) as [d7 H7].
  destruct (L _ _ _ _ E00 E11 E01 E10) as [d8 H8].
  exists (M3 d0 d1 d2 d3 d4 d5 d6 d7 d8).
  unfold m3_derive, minv, adj3, m3_scale. cbn [m00 m01 m02 m10 m11 m12 m20 m21 m22].
  split; [ | split ]; (split; [ | split ]); assumption.
Qed.
Lemma topLeft_derive M t D : m4_derive M t D -> m3_derive (fun s => topLeft (M s)) t (topLeft D).
Proof.
  intros ((A & B & C & _) & (E & F & G & _) & (H & I & J & _) & _).
  unfold m3_derive, topLeft. cbn [m00 m01 m02 m10 m11 m12 m20 m21 m22]. tauto.
Qed.
Lemma topRight_derive M t D : m4_derive M t D -> v3_derive (fun s => topRight (M s)) t (topRight D).
Proof.
  intros ((_ & _ & _ & A) & (_ & _ & _ & B) & (_ & _ & _ & C) & _).
  unfold v3_derive, topRight. cbn [x0 x1 x2]. tauto.
Qed.
Lemma m4_derive_ext_loc f g t d : locally t (fun s => f s = g s) -> m4_derive f t d -> m4_derive g t d.
Proof.
  intros L (A & B & C & E). unfold m4_derive.
  split; [ | split; [ | split]].
  - eapply v4_derive_ext_loc; [ | exact A]. eapply filter_imp; [ | exact L]. cbv beta. intros s ->. reflexivity.
  - eapply v4_derive_ext_loc; [ | exact B]. eapply filter_imp; [ | exact L]. cbv beta. intros s ->. reflexivity.
  - eapply v4_derive_ext_loc; [ | exact C]. eapply filter_imp; [ | exact L]. cbv beta. intros s ->. reflexivity.
  - eapply v4_derive_ext_loc; [ | exact E]. eapply filter_imp; [ | exact L]. cbv beta. intros s ->. reflexivity.
Qed.
Lemma locally_ne (f : R -> R) t : continuous f t -> f t <> 0 -> locally t (fun s => f s <> 0).
Proof.
  intros C N. destruct (Rdichotomy _ _ N) as [H | H].
  - eapply filter_imp; [ | exact (locally_lt f t 0 C H) ]. cbv beta. intros s Hs. lra.
  - eapply filter_imp; [ | exact (locally_gt f t 0 C H) ]. cbv beta. intros s Hs. lra.
Qed.
Lemma twist_neg A d p : v4_scale (-1) (twist (m6_vec A d) p) = twist (m6_vec (m6_neg A) d) p.
Proof. unfold m6_neg. tring. Qed.

Lemma inverse_moves inv4 (M : R -> m4) D d : inverts4 inv4 -> SE3 (M 0) -> locally 0 (fun s => affine (M s)) ->
  m4_derive M 0 D -> (forall p, m4_vec D p = twist d (m4_vec (M 0) p)) ->
  SE3 (inv4 (M 0)) /\ locally 0 (fun s => affine (inv4 (M s))) /\
  exists D', m4_derive (fun s => inv4 (M s)) 0 D' /\
    forall p, m4_vec D' p = twist (m6_vec (m6_neg (boxTimes (inv4 (M 0)))) d) (m4_vec (inv4 (M 0)) p).
Proof.
  intros HI HR HL HD HP.
  pose proof (topLeft_derive _ _ _ HD) as DA. pose proof (topRight_derive _ _ _ HD) as DT.
  assert (N0 : m3_det (topLeft (M 0)) <> 0).
  { destruct HR as (C & t & H). apply rigid_rt in H. destruct H as [H ->]. rewrite topLeft_rt, (proj2 H). lra. }
  assert (LN : locally 0 (fun s => m3_det (topLeft (M s)) <> 0)).
  { apply (locally_ne (fun s => m3_det (topLeft (M s)))); [ | exact N0 ].
    apply (ex_derive_continuous (V := R_NormedModule)). exact (det_derive _ _ _ DA). }
  assert (LE : locally 0 (fun s => ainv (topLeft (M s)) (topRight (M s)) = inv4 (M s))).
  { eapply filter_imp; [ | exact (filter_and _ _ HL LN) ]. cbv beta. intros s [A N].
    rewrite <- (inv4_is inv4 _ _ HI N), <- (affine_rt _ A). reflexivity. }
  assert (S1 : SE3 (inv4 (M 0))). { rewrite (inv4_rigid inv4 _ HI HR). apply SE3_inverse. exact HR. }
  split; [ exact S1 | ]. split.
  { eapply filter_imp; [ | exact LE ]. cbv beta. intros s <-. reflexivity. }
  destruct (minv_derive _ 0 _ DA N0) as [DI HDI].
  pose proof (v3_derive_neg _ _ _ (m3_vec_derive _ _ _ _ _ HDI DT)) as DV.
  pose proof (m4_derive_ext_loc _ _ _ _ LE (rt_derive _ _ 0 _ _ HDI DV)) as HX. clear DV.
  match type of HX with m4_derive _ _ ?X => set (D' := X) in HX end. clearbody D'.
  exists D'. split; [ exact HX | ]. intros p.
  set (X := fun s => inv4 (M s)) in *.
  assert (MX : forall s, affine (M s) -> m3_det (topLeft (M s)) <> 0 -> m4_mul (M s) (X s) = m4_I).
  { intros s A N. unfold X. rewrite (affine_rt _ A). apply HI. exact N. }
  assert (A0 : affine (M 0)) by (apply SE3_affine; exact HR).
  assert (XM : m4_mul (X 0) (M 0) = m4_I).
  { unfold X. rewrite (affine_rt _ A0). apply HI. exact N0. }
  pose proof (m4_vec_derive M (fun s => m4_vec (X s) p) 0 D _ HD (point_derive X p 0 D' HX)) as HZ.
  assert (HZ' : v4_derive (fun s => m4_vec (M s) (m4_vec (X s) p)) 0 v4_zero).
  { eapply v4_derive_ext_loc; [ | exact (v4_const_derive p 0) ].
    eapply filter_imp; [ | exact (filter_and _ _ HL LN) ]. cbv beta. intros s [A N].
    rewrite <- m4_vec_mul, (MX s A N). kring. }
  pose proof (v4_derive_unique _ _ _ _ HZ HZ') as E. clear HZ HZ'. cbv beta in E.
  rewrite HP in E. change (inv4 (M 0)) with (X 0).
  rewrite <- (m4_vec_mul (M 0) (X 0)), (MX 0 A0 N0) in E.
  rewrite <- twist_neg, <- (twist_adjoint (X 0) d p S1).
  assert (P1 : m4_vec D' p = m4_vec (X 0) (m4_vec (M 0) (m4_vec D' p))).
  { rewrite <- m4_vec_mul, XM. kring. }
  rewrite P1. assert (m4_vec (M 0) (m4_vec D' p) = v4_scale (-1) (twist d p)) as ->.
  { revert E. replace (m4_vec m4_I p) with p by kring.
    generalize (m4_vec (M 0) (m4_vec D' p)), (twist d p). intros u v.
    destruct u as [a b c e], v as [f g h i]. kunf. intros E.
    pose proof (f_equal q0 E) as E0. pose proof (f_equal q1 E) as E1. pose proof (f_equal q2 E) as E2.
    pose proof (f_equal q3 E) as E3. cbn [q0 q1 q2 q3] in *. f_equal; lra. }
  generalize (X 0), (twist d p). kring.
Qed.
