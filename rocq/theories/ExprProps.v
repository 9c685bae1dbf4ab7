(** * C70: derivatives of expressions over rotations, points and transformations *)
From Coquelicot Require Import Coquelicot.
From Coq Require Import Reals List Arith Lia Psatz.
From Verif Require Import KinModel KinSpec KinProofs KinExp KinCurve KinAxis KinJac RotModel RotSpec RotEuler RotVec
  TfModel TfSpec TfProofs TfCurve BpModel BpProofs ExprModel ExprSpec ExprProofs ExprMain ExprChart ExprDv ExprErr.
Import ListNotations.
Local Open Scope R_scope.

(** Whatever the tree, and whatever the design variables do at once: the sum of
    the Jacobians times the steps is the rate of the value, and with a chain rule
    it is the chain rule's row times that rate. *)
Theorem C70_rotation inv3 inv4 th d e : inverts3 inv3 -> inverts4 inv4 -> ok_r inv4 th e ->
  SO3 (value_r inv4 th e) /\
  exists w, turning (fun s => value_r inv4 (moved th d s) e) w /\
    (forall M r, applied (jac_r inv3 inv4 th th e M) d r = v3_dot (M r) w) /\
    forall r, applied (jac0_r inv3 inv4 th th e) d r = v3_at w r.
Proof.
  intros I3 I4 H. destruct (proj1 (expressions inv3 inv4 I3 I4 th d) e H) as (S & w & D & J).
  split; [ exact S | exists w ]. split; [ unfold turning; rewrite moved_0; exact D | exact J ].
Qed.
Theorem C70_euclidean inv3 inv4 th d e : inverts3 inv3 -> inverts4 inv4 -> ok_e inv4 th e ->
  exists w, v3_derive (fun s => value_e inv4 (moved th d s) e) 0 w /\
    (forall M r, applied (jac_e inv3 inv4 th th e M) d r = v3_dot (M r) w) /\
    forall r, applied (jac0_e inv3 inv4 th th e) d r = v3_at w r.
Proof. intros I3 I4 H. exact (proj1 (proj2 (expressions inv3 inv4 I3 I4 th d)) e H). Qed.
Theorem C70_transformation inv3 inv4 th d e : inverts3 inv3 -> inverts4 inv4 -> ok_t inv4 th e ->
  SE3 (value_t inv4 th e) /\
  exists w, perturbed (fun s => value_t inv4 (moved th d s) e) 0 w /\
    (forall M r, applied (jac_t inv3 inv4 th th e M) d r = v6_dot (M r) w) /\
    forall r, applied (jac0_t inv3 inv4 th th e) d r = v6_at w r.
Proof.
  intros I3 I4 H. destruct (proj1 (proj2 (proj2 (expressions inv3 inv4 I3 I4 th d))) e H) as (S & _ & w & D & HD & HP & J).
  split; [ exact S | exists w ]. split; [ exists D; rewrite moved_0; split; assumption | exact J ].
Qed.
Theorem C70_homogeneous inv3 inv4 th d e : inverts3 inv3 -> inverts4 inv4 -> ok_h inv4 th e ->
  exists w, v4_derive (fun s => value_h inv4 (moved th d s) e) 0 w /\
    (forall M r, applied (jac_h inv3 inv4 th th e M) d r = v4_dot (M r) w) /\
    forall r, applied (jac0_h inv3 inv4 th th e) d r = v4_at w r.
Proof. intros I3 I4 H. exact (proj2 (proj2 (proj2 (expressions inv3 inv4 I3 I4 th d))) e H). Qed.
Theorem C70_scalar th d e : ok_s th e ->
  exists w, is_derive (fun s => value_s (moved th d s) e) 0 w /\
    (forall M r, applied (jac_s th e M) d r = M r * w) /\
    applied (jac0_s th e) d 0 = w.
Proof.
  intros H. destruct (scalars th d e H) as (w & D & J & J0). exists w. split; [ exact D | split; [ exact J | exact (J0 0%nat) ] ].
Qed.

(** The rotation parameters may be used wherever the angles do not jump and are
    not at gimbal lock, and the vectors are neither near zero nor near a half turn. *)
Theorem C70_parameters C : SO3 C ->
  (-1 < m20 C < 1 -> off_cut (m10 C) (m00 C) -> off_cut (m21 C) (m22 C) -> chart k_ypr C /\ chart k_zyx C) /\
  (-1 < m21 C < 1 -> off_cut (- m01 C) (m11 C) -> off_cut (- m20 C) (m22 C) -> chart k_zxy C) /\
  (1 / 10 ^ 14 < rot_angle C -> 1 / 10 ^ 14 < v3_norm (skew_part C) -> chart k_rv C /\ chart k_er C).
Proof.
  intros H. split; [ | split ].
  - intros A B E. split; [ exact (ypr_chart C H A B E) | exact (zyx_chart C H A B E) ].
  - intros A B E. exact (zxy_chart C H A B E).
  - intros A B. split; [ exact (rv_chart C H A B) | exact (er_chart C H A B) ].
Qed.

(** The error terms: difference to a point, and difference to a transformation. *)
Theorem C70_error_terms inv3 inv4 th d : inverts3 inv3 -> inverts4 inv4 ->
  (forall e prior, ok_e inv4 th e ->
     exists w, v3_derive (fun s => error_e inv4 (moved th d s) e prior) 0 w /\
       forall r, applied (jac0_e inv3 inv4 th th e) d r = v3_at w r) /\
  (forall e prior, ok_t inv4 th e -> unit4 (tq prior) ->
     let C := topLeft (m4_mul (value_t inv4 th e) (tf_T (tf_inverse prior))) in
     1 / 10 ^ 10 < rot_angle C -> 1 / 10 ^ 10 < v3_norm (skew_part C) ->
     exists L rate, error_t_jac inv3 inv4 th th e prior = Some L /\
       v3_derive (fun s => hd3 (error_t inv4 (moved th d s) e prior)) 0 (hd3 rate) /\
       v3_derive (fun s => tl3 (error_t inv4 (moved th d s) e prior)) 0 (tl3 rate) /\
       forall r, applied L d r = v6_at rate r).
Proof.
  intros I3 I4. split.
  - intros e prior H. destruct (C70_euclidean inv3 inv4 th d e I3 I4 H) as (w & D & _ & J). exists w. split; [ | exact J ].
    eapply v3_derive_eq; [ exact (v3_derive_sub _ _ 0 _ _ D (v3_derive_const prior 0)) | kring ].
  - intros e prior. exact (transformation_error inv3 inv4 I3 I4 th d e prior).
Qed.

(** Jacobians are added only for the design variables the expression reports, and
    with as many columns as they have; the value depends on no others. *)
Theorem C70_design_variables inv3 inv4 tc th :
  (forall e, (forall M i row, In (i, row) (jac_r inv3 inv4 tc th e M) \/ In (i, row) (jac0_r inv3 inv4 tc th e) ->
      In i (dvs_r th e) /\ forall r, length (row r) = dim th i) /\
    forall th', agree (dvs_r th e) th th' -> value_r inv4 th e = value_r inv4 th' e) /\
  (forall e, (forall M i row, In (i, row) (jac_e inv3 inv4 tc th e M) \/ In (i, row) (jac0_e inv3 inv4 tc th e) ->
      In i (dvs_e th e) /\ forall r, length (row r) = dim th i) /\
    forall th', agree (dvs_e th e) th th' -> value_e inv4 th e = value_e inv4 th' e) /\
  (forall e, (forall M i row, In (i, row) (jac_t inv3 inv4 tc th e M) \/ In (i, row) (jac0_t inv3 inv4 tc th e) ->
      In i (dvs_t th e) /\ forall r, length (row r) = dim th i) /\
    forall th', agree (dvs_t th e) th th' -> value_t inv4 th e = value_t inv4 th' e) /\
  (forall e, (forall M i row, In (i, row) (jac_h inv3 inv4 tc th e M) \/ In (i, row) (jac0_h inv3 inv4 tc th e) ->
      In i (dvs_h th e) /\ forall r, length (row r) = dim th i) /\
    forall th', agree (dvs_h th e) th th' -> value_h inv4 th e = value_h inv4 th' e).
Proof.
  destruct (dv_all inv3 inv4 tc th) as (HR & HE & HT & HH).
  split; [ | split; [ | split ] ].
  - intros e. destruct (HR e) as (J & Z & V). split; [ intros M i row [H | H]; [ exact (J M i row H) | exact (Z i row H) ] | exact (V th) ].
  - intros e. destruct (HE e) as (J & Z & V). split; [ intros M i row [H | H]; [ exact (J M i row H) | exact (Z i row H) ] | exact (V th) ].
  - intros e. destruct (HT e) as (J & Z & V). split; [ intros M i row [H | H]; [ exact (J M i row H) | exact (Z i row H) ] | exact (V th) ].
  - intros e. destruct (HH e) as (J & Z & V). split; [ intros M i row [H | H]; [ exact (J M i row H) | exact (Z i row H) ] | exact (V th) ].
Qed.

(** A direction starts as the vector it is made of, and keeps its length. *)
Theorem C70_direction v a b : v <> v3_zero ->
  exists C, direction v = Some (v3_norm v, C) /\ SO3 C /\ direction_value (v3_norm v, C) = v /\
    SO3 (direction_update C (a, b)) /\ v3_norm (direction_value (v3_norm v, direction_update C (a, b))) = v3_norm v.
Proof.
  intros N. destruct (direction_constructed v N) as (C & E & S & V). exists C.
  assert (S' : SO3 (direction_update C (a, b))) by (apply SO3_mul; [ exact S | apply SO3_tr, ypr_SO3 ]).
  split; [ exact E | split; [ exact S | split; [ exact V | split; [ exact S' | ] ] ] ].
  unfold direction_value. cbn [fst snd]. rewrite v3_norm_scale, Rabs_pos_eq by apply v3_norm_pos.
  assert (U : v3_norm (m3_col2 (direction_update C (a, b))) = 1).
  { destruct (SO3_tr _ S') as [Q _]. revert Q. generalize (direction_update C (a, b)). intros A Q.
    pose proof (f_equal m22 Q) as Q2. destruct A as [ a0 a1 a2 b0 b1 b2 c0 c1 c2 ]. revert Q2. kunf. intros Q2.
    unfold v3_norm. kunf. rewrite <- sqrt_1. f_equal. lra. }
  rewrite U. ring.
Qed.

(** A matrix changes in the coefficients of its pattern and nowhere else, each by
    its own number of the step. *)
Definition coefficient (A : m3) (row col : nat) : R := v3_at (match row with 0%nat => m3_row0 A | 1%nat => m3_row1 A | _ => m3_row2 A end) col.
Theorem C70_matrix A pattern d row col : (row < 3)%nat -> (col < 3)%nat ->
  let sel := matrix_basic_sel pattern in
  length d = length sel ->
  (pattern row col = false -> coefficient (matrix_update A sel d) row col = coefficient A row col) /\
  (pattern row col = true -> exists j, (j < length d)%nat /\ nth j sel 0%nat = (col * 3 + row)%nat /\
     coefficient (matrix_update A sel d) row col = coefficient A row col + nth j d 0).
Proof.
  intros HR HC sel HL. destruct (selected pattern) as [ND IN].
  assert (E : coefficient (matrix_update A sel d) row col = coefficient A row col + scatter sel d (col * 3 + row)%nat).
  { destruct row as [ | [ | [ | row ] ] ]; try lia; destruct col as [ | [ | [ | col ] ] ]; try lia; reflexivity. }
  rewrite E. split; intros P.
  - rewrite scatter_other; [ ring | ]. intros Q. apply (IN row col HR HC) in Q. congruence.
  - apply (IN row col HR HC) in P. destruct (In_nth _ _ 0%nat P) as (j & Hj & Ej).
    exists j. split; [ rewrite HL; exact Hj | split; [ exact Ej | ] ]. rewrite <- Ej. unfold sel.
    rewrite (scatter_own _ ND d j Hj HL). reflexivity.
Qed.

(** The rotation of a unit quaternion that moves on the unit sphere. *)
Theorem C70_quaternion_adapter q qd : (forall s, unit4 (q s)) -> v4_derive q 0 qd ->
  turning (fun s => quat_adapter_value (q s)) (m34_vec (quat_adapter_matrix (q 0)) qd).
Proof.
  intros U D. destruct (quatS_angular q 0 qd U D) as (Cd & D1 & D2). red in D2. unfold turning, quat_adapter_value.
  replace (quat_adapter_matrix (q 0)) with (quatS (q 0)) by (generalize (q 0); unfold quat_adapter_matrix; kring).
  rewrite <- D2. exact D1.
Qed.

(** The products remember what they were last evaluated at: when the design
    variables have changed since, their Jacobians are those of the old state. *)
Definition rest : env := Env (fun _ => V4 0 0 0 1) (fun _ => V3 1 0 0) (fun _ => V4 0 0 0 1) (fun _ => 1) (fun _ => (1, m3_I)) (fun _ => m3_I) (fun _ => []).
Definition before : env := Env (fun _ => V4 0 0 0 1) (fun _ => V3 0 0 0) (fun _ => V4 0 0 0 1) (fun _ => 1) (fun _ => (1, m3_I)) (fun _ => m3_I) (fun _ => []).
Definition turn : steps := Steps (fun _ => V3 0 0 1) (fun _ => V3 0 0 0) (fun _ => V3 0 0 0) (fun _ => 0) (fun _ => (0, 0)) (fun _ => []).
Definition minv4 (T : m4) : m4 := ainv (topLeft T) (topRight T).
Lemma minv_inverts : inverts3 minv.
Proof. intros A H. split; [ exact (minv_r A H) | exact (minv_l A H) ]. Qed.
Lemma minv4_inverts : inverts4 minv4.
Proof.
  intros A t H. unfold minv4. rewrite topLeft_rt, topRight_rt. split; [ exact (ainv_r A t H) | ].
  unfold ainv. rewrite rt_mul, (minv_l A H), <- rt_I. f_equal. generalize (minv A). intros B.
  unfold v3_zero. destruct B as [ a b c e f g h i j ], t as [ u v w ]. kunf. f_equal; ring.
Qed.
Theorem C70_stale_refuted : exists inv3 inv4 tc th d e w,
  inverts3 inv3 /\ inverts4 inv4 /\ ok_e inv4 th e /\ v3_derive (fun s => value_e inv4 (moved th d s) e) 0 w /\
  applied (jac0_e inv3 inv4 tc th e) d 1 <> v3_at w 1.
Proof.
  exists minv, minv4, before, rest, turn, (EMul (RDv 0) (EDv 0)).
  assert (H : ok_e minv4 rest (EMul (RDv 0) (EDv 0))) by (split; [ unfold unit4; kunf; cbn; ring | exact I ]).
  destruct (C70_euclidean minv minv4 rest turn _ minv_inverts minv4_inverts H) as (w & D & _ & J).
  exists w. split; [ exact minv_inverts | split; [ exact minv4_inverts | split; [ exact H | split; [ exact D | ] ] ] ].
  rewrite <- (J 1%nat). unfold jac0_e, jac_r, jac_e. cbn [app applied ldot coords v3_list rows3]. unfold before, rest, turn.
  cbn [value_r value_e vq vp dq dp]. kunf. lra.
Qed.
(** The Jacobian of a matrix without a chain rule is three columns wide, whatever
    the number of its coefficients. *)
Theorem C70_matrix_refuted : exists th i row, In (IM i, row) (jac0_m th (MDv i)) /\
  vsel th i = matrix_basic_sel (fun _ _ => true) /\ dim th (IM i) = 9%nat /\ forall r, length (row r) = 3%nat.
Proof.
  exists (Env (fun _ => V4 0 0 0 1) (fun _ => V3 0 0 0) (fun _ => V4 0 0 0 1) (fun _ => 1) (fun _ => (1, m3_I)) (fun _ => m3_I)
    (fun _ => matrix_basic_sel (fun _ _ => true))), 0%nat, (fun r => v3_list (rows3 m3_I r)).
  split; [ left; reflexivity | split; [ reflexivity | split; reflexivity ] ].
Qed.

(** ** The hypotheses are met *)
Example C70_ex_ok : ok_e minv4 rest (EAdd (EHom (HMul (TInv (TBasic (RMul (RDv 0) (RInv (RDv 1))) (EDv 0))) (HEuc (EDir 0)))) (EPar k_ypr (RDv 0))).
Proof.
  assert (U : unit4 (V4 0 0 0 1)) by (unfold unit4; kunf; ring).
  assert (E : quat2r (V4 0 0 0 1) = m3_I) by (kunf; f_equal; ring).
  split; [ split | split ].
  - split; [ | exact I ]. split; [ | exact I ]. split; exact U.
  - change (q3 (m4_vec (minv4 (rt (m3_mul (quat2r (V4 0 0 0 1)) (m3_tr (quat2r (V4 0 0 0 1)))) (V3 1 0 0))) (V4 (1 * 0) (1 * 0) (1 * 1) 1)) <> 0).
    unfold minv4, ainv. generalize (minv (topLeft (rt (m3_mul (quat2r (V4 0 0 0 1)) (m3_tr (quat2r (V4 0 0 0 1)))) (V3 1 0 0)))).
    intros A. rewrite rt_vec. cbv zeta. cbn [q3]. lra.
  - exact U.
  - change (chart k_ypr (quat2r (V4 0 0 0 1))). rewrite E. apply ypr_chart.
    + rewrite <- E. apply quat2r_SO3. exact U.
    + cbn [m20 m3_I]. lra.
    + right. cbn [m00 m3_I]. lra.
    + right. cbn [m22 m3_I]. lra.
Qed.
Example C70_ex_direction : V3 0 3 4 <> v3_zero.
Proof. intros E. pose proof (f_equal x1 E) as Q. cbn in Q. lra. Qed.

Print Assumptions C70_rotation.
Print Assumptions C70_euclidean.
Print Assumptions C70_transformation.
Print Assumptions C70_homogeneous.
Print Assumptions C70_scalar.
Print Assumptions C70_parameters.
Print Assumptions C70_error_terms.
Print Assumptions C70_design_variables.
Print Assumptions C70_direction.
Print Assumptions C70_matrix.
Print Assumptions C70_quaternion_adapter.
Print Assumptions C70_stale_refuted.
Print Assumptions C70_matrix_refuted.
