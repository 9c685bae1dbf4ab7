(** * Properties of design variables (C71) *)

From Coquelicot Require Import Coquelicot.
From Coq Require Import Reals Psatz List Arith Bool Lia.
From Verif Require Import Base KinModel KinSpec KinProofs KinExp KinAxis KinCurve KinJac KinProps
  DvModel DvSpec DvProofs DvDerive.
Import ListNotations.
Local Close Scope Z_scope.
Local Open Scope R_scope.

(** Vectors, points, scalars and homogeneous points: after any history of
    steps, reverts and parameter assignments of the right sizes, the value
    (which getParameters reports) is the one the history determines, with
    exactly one level of undo; a step that is too short and parameters of
    another shape are undefined behaviour. *)
Theorem C71_history : forall (K : kind) (v0 : kval K) (l : list op),
  Forall (well_sized (kdim K) (kpar K)) l ->
  exists x, run (make v0) l = Ok x /\
    cur x = value_after v0 (kstep K) (kput K) (rev l) /\
    get_parameters x = column_vector (kget K (cur x)) /\
    (forall d, (length d < kdim K)%nat -> update x d = UB) /\
    (forall m, mrows m <> kpar K \/ mcols m <> 1%nat -> set_parameters x m = UB).
Proof.
  intros K v0 l H. eexists. split; [apply history, H | ]. split; [reflexivity | ].
  split; [reflexivity | split].
  - intros d L. unfold update. rewrite (proj2 (Nat.ltb_lt _ _) L). reflexivity.
  - intros m N. unfold set_parameters. destruct (is_column (kpar K) m) eqn:E; [ | reflexivity].
    apply is_column_true in E. destruct E as [A B]. destruct N as [N | N]; contradiction.
Qed.
Print Assumptions C71_history.

(** Undo in plain words, for a variable in any state. *)
Theorem C71_undo : forall (K : kind) (x y : dv K) d m,
  (update x d = Ok y \/ set_parameters x m = Ok y) ->
  cur (revert y) = cur x /\ cur (revert (revert y)) = cur x.
Proof.
  intros K x y d m [H | H].
  - unfold update in H. destruct (length d <? kdim K)%nat; [discriminate | ].
    assert (y = Dv (kstep K (cur x) (firstn (kdim K) d)) (cur x)) by congruence. subst y. split; reflexivity.
  - unfold set_parameters in H. destruct (is_column (kpar K) m); [ | discriminate].
    assert (y = Dv (kput K (mdata m)) (cur x)) by congruence. subst y. split; reflexivity.
Qed.
Print Assumptions C71_undo.

(** Rotations: the same, and the rotation matrix is always the one of the
    quaternion; if the assigned quaternions have unit length and the steps
    are zero or at least 2^-13, both stay proper rotations. *)
Theorem C71_rotation_history : forall (x : rot) (q : v4) (l : list op),
  (x = rot_of_q q \/ exists C, SO3 C /\ x = rot_of_C C /\ q = r2quat C) ->
  Forall (well_sized 3 4) l ->
  exists y, rot_run x l = Ok y /\
    rq y = value_after q (fun p d => updateQuat p (v3_of d)) v4_of (rev l) /\
    rot_get_parameters y = column_vector [q0 (rq y); q1 (rq y); q2 (rq y); q3 (rq y)] /\
    rot_matrix y = quat2r (rq y) /\
    (unit4 q -> Forall unit_op l -> unit4 (rq y) /\ SO3 (rot_matrix y)).
Proof.
  intros x q l Hx H.
  assert (E : exists C, x = Rot q q C /\ C = quat2r q).
  { destruct Hx as [-> | (C & S & -> & ->)].
    - exists (quat2r q). split; reflexivity.
    - exists C. split; [reflexivity | ]. symmetry. apply C52_roundtrip, S. }
  destruct E as (C & -> & HC). eexists. split; [apply (rot_history q C l HC H) | ].
  split; [reflexivity | ]. split; [reflexivity | ]. split; [reflexivity | ].
  intros U Ho. assert (V : unit4 (value_after q rot_apply v4_of (rev l))).
  { apply value_unit; [exact U | ]. apply Forall_rev, Ho. }
  split; [exact V | apply quat2r_SO3, V].
Qed.
Print Assumptions C71_rotation_history.

(** A step turns the rotation matrix by the rotation of the step. *)
Theorem C71_rotation_step : forall x y d, length d = 3%nat -> rot_update x d = Ok y ->
  unit4 (rq x) -> exact_step (v3_of d) -> rot_matrix x = quat2r (rq x) ->
  rot_matrix y = m3_mul (quat2r (axisAngle2quat (v3_of d))) (rot_matrix x) /\
  rot_matrix (rot_revert y) = rot_matrix x.
Proof.
  intros x y d L H U E M. unfold rot_update in H. rewrite L in H. cbn [Nat.ltb Nat.leb] in H. cbv zeta in H.
  assert (Hy : y = Rot (updateQuat (rq x) (v3_of d)) (rq x) (quat2r (updateQuat (rq x) (v3_of d)))) by congruence.
  subst y. unfold rot_matrix, rot_revert in *. cbn [rC rp]. rewrite M. split; [ | reflexivity].
  rewrite update_is_product. apply quat2r_mul.
Qed.
Print Assumptions C71_rotation_step.

(** [set] changes the quaternion but not the matrix: until the next step,
    revert or assignment the variable reports two different rotations. *)
Theorem C71_set_refuted : exists q p, unit4 q /\ unit4 p /\
  let x := rot_set (rot_of_q q) p in
  rq x = p /\ rot_matrix x <> quat2r (rq x) /\ rot_matrix x = quat2r q /\
  rot_matrix (rot_revert x) = quat2r p.
Proof.
  exists quatIdentity, (V4 1 0 0 0). split; [unfold unit4, quatIdentity; cbn [q0 q1 q2 q3]; ring | ].
  split; [unfold unit4; cbn [q0 q1 q2 q3]; ring | ]. cbv zeta. split; [reflexivity | ].
  split; [ | split; reflexivity].
  intros E. apply (f_equal m11) in E. unfold rot_matrix, rot_set, rot_of_q in E. cbn [rC rq] in E.
  unfold quat2r, quatIdentity in E. cbn [q0 q1 q2 q3 m11] in E. lra.
Qed.
Print Assumptions C71_set_refuted.

(** The same happens when the storage of a mapped rotation is written. *)
Theorem C71_mapped_write_refuted : exists q p, unit4 q /\ unit4 p /\
  let x := rot_write (rot_of_q q) p in rq x = p /\ rot_matrix x <> quat2r (rq x).
Proof.
  destruct C71_set_refuted as (q & p & A & B & H). exists q, p. split; [exact A | split; [exact B | ]].
  cbv zeta in *. split; [reflexivity | ]. destruct H as (_ & H & _). exact H.
Qed.
Print Assumptions C71_mapped_write_refuted.

(** Homogeneous points are normalised on construction, not on assignment. *)
Theorem C71_homogeneous : forall p,
  (p <> v4_zero -> exists x, make_homogeneous p = Some x /\ unit4 (cur x) /\
     exists k, 0 < k /\ p = v4_scale k (cur x)) /\
  (p = v4_zero -> make_homogeneous p = None).
Proof.
  intros p. assert (Q : v4_norm p * v4_norm p = v4_dot p p).
  { apply sqrt_sqrt. unfold v4_dot. nra. }
  split.
  - intros N. assert (P : 0 < v4_norm p).
    { apply sqrt_lt_R0. destruct p as [a b c d]. unfold v4_dot. cbn [q0 q1 q2 q3].
      destruct (Req_dec a 0) as [-> | ?]; [ | nra]. destruct (Req_dec b 0) as [-> | ?]; [ | nra].
      destruct (Req_dec c 0) as [-> | ?]; [ | nra]. destruct (Req_dec d 0) as [-> | ?]; [ | nra].
      exfalso. apply N. reflexivity. }
    unfold make_homogeneous. cbv zeta. destruct (eqb_spec (v4_norm p) 0) as [Z | _]; [lra | ].
    eexists. split; [reflexivity | ]. cbn [cur]. split.
    + unfold unit4, v4_scale. cbn [q0 q1 q2 q3].
      transitivity (v4_dot p p / (v4_norm p * v4_norm p)); [unfold v4_dot; field; lra | ].
      rewrite Q. field. rewrite <- Q. nra.
    + exists (v4_norm p). split; [exact P | ]. destruct p as [a b c d]. unfold v4_scale at 1.
      set (n := v4_norm _) in *. unfold v4_scale. cbn [q0 q1 q2 q3]. f_equal; field; lra.
  - intros ->. unfold make_homogeneous. cbv zeta. destruct (eqb_spec (v4_norm v4_zero) 0) as [_ | N]; [reflexivity | ].
    exfalso. apply N. unfold v4_norm. replace (v4_dot v4_zero v4_zero) with 0 by (unfold v4_dot, v4_zero; cbn [q0 q1 q2 q3]; ring).
    apply sqrt_0.
Qed.
Print Assumptions C71_homogeneous.

Theorem C71_homogeneous_assign_refuted : exists (x : dv k_homogeneous) m (y : dv k_homogeneous), unit4 (cur x) /\
  set_parameters (K := k_homogeneous) x m = Ok y /\ ~ unit4 (cur y).
Proof.
  exists (make (K := k_homogeneous) quatIdentity), (column_vector [0; 0; 0; 2]). eexists.
  split; [unfold unit4, quatIdentity; cbn [cur make q0 q1 q2 q3]; ring | ]. split; [reflexivity | ].
  unfold unit4. cbn. lra.
Qed.
Print Assumptions C71_homogeneous_assign_refuted.

(** Vectors and points: the difference to a reference of the right shape is
    the step from the reference to the value; other shapes throw. *)
Theorem C71_vector_difference : forall (D : nat) (x : dv (k_vector D)) (r : list R),
  length r = D -> length (cur x) = D ->
  exists d, difference x (column_vector r) = Ok d /\
    update (make (K := k_vector D) r) d = Ok (Dv (K := k_vector D) (cur x) r) /\
    (forall e y, length e = D -> update (make (K := k_vector D) r) e = Ok y ->
       difference y (column_vector r) = Ok e) /\
    (forall m, mrows m <> D \/ mcols m <> 1%nat -> difference x m = Throw).
Proof.
  intros D x r Lr Lx. eexists. split; [ | split; [ | split]].
  - unfold difference. rewrite (proj2 (is_column_true (kpar (k_vector D)) (column_vector r)));
      [reflexivity | split; [exact Lr | reflexivity]].
  - cbn [k_vector kget mdata column_vector]. unfold update.
    assert (Ls : length (list_sub (cur x) r) = D).
    { assert (E : forall a b : list R, length (list_sub a b) = Nat.min (length a) (length b)).
      { induction a as [ | u a IH]; intros [ | w b]; cbn [list_sub length]; try reflexivity. rewrite IH. reflexivity. }
      rewrite E. lia. }
    cbn [kdim k_vector]. rewrite Ls, Nat.ltb_irrefl.
    rewrite firstn_all2 by lia. cbn [kstep k_vector make cur].
    rewrite list_add_sub by lia. reflexivity.
  - intros e y Le H. unfold update in H. cbn [kdim k_vector] in H. rewrite Le, Nat.ltb_irrefl in H.
    rewrite firstn_all2 in H by lia. cbn [kstep k_vector make cur] in H.
    assert (Hy : y = Dv (K := k_vector D) (list_add r e) r) by congruence. subst y.
    unfold difference. rewrite (proj2 (is_column_true (kpar (k_vector D)) (column_vector r)));
      [ | split; [exact Lr | reflexivity]].
    cbn [kget k_vector cur mdata column_vector]. rewrite list_sub_add by lia. reflexivity.
  - intros m N. unfold difference. destruct (is_column (kpar (k_vector D)) m) eqn:E; [ | reflexivity].
    apply is_column_true in E. destruct E as [A B]. destruct N as [N | N]; contradiction.
Qed.
Print Assumptions C71_vector_difference.

(** Points and scalars. *)
Theorem C71_point_difference : forall (x : dv k_euclidean) (r d : v3) (s : dv k_scalar) (a : R),
  difference x (column_vector (v3_to r)) = Ok (v3_to (v3_sub (cur x) r)) /\
  kstep k_euclidean r (v3_to (v3_sub (cur x) r)) = cur x /\
  difference s (column_vector [a]) = Ok [cur s - a] /\
  kstep k_scalar a [cur s - a] = cur s.
Proof.
  intros [[x0 x1 x2] p] [r0 r1 r2] d s a. cbn [cur].
  split; [reflexivity | ]. split; [ | split; [reflexivity | ]].
  - unfold k_euclidean, kstep, v3_add, v3_of, v3_to, v3_sub. cbn [nth KinModel.x0 KinModel.x1 KinModel.x2]. f_equal; ring.
  - generalize (cur s). intros c. change (@eq R (a + (c - a)) c). ring.
Qed.
Print Assumptions C71_point_difference.

(** Rotations and homogeneous points of unit length: the difference to a unit
    reference exists unless the two are opposite quaternions; it is the step
    from the reference to the value as soon as their relative rotation has a
    vector part of 2^-13 (an angle of about 2^-12) or is obtuse; and a step
    from the reference is reported back. *)
Theorem C71_rotation_difference : forall q r, unit4 q -> unit4 r ->
  let x := rot_of_q q in let h := make (K := k_homogeneous) q in
  let ref := column_vector (v4_to r) in let e := qplus q (quatInv r) in
  rot_difference x ref = hom_difference h ref /\
  (rot_difference x ref = Ok None <-> q = v4_neg r) /\
  (q = r -> rot_difference x ref = Ok (Some v3_zero)) /\
  (eps4 <= v3_norm (qeps e) \/ (q3 e < 0 /\ 0 < v3_norm (qeps e)) ->
     exists d, rot_difference x ref = Ok (Some d) /\ updateQuat r d = q /\ v3_norm d < 2 * PI) /\
  (forall d, eps4 <= v3_norm d < 2 * PI -> eps4 <= sin (v3_norm d / 2) \/ PI < v3_norm d ->
     q = updateQuat r d -> rot_difference x ref = Ok (Some d)) /\
  (forall m, mrows m <> 4%nat \/ mcols m <> 1%nat -> rot_difference x m = Throw /\ hom_difference h m = Throw).
Proof.
  intros q r Uq Ur. cbv zeta. set (e := qplus q (quatInv r)).
  assert (Ue : unit4 e) by (apply qplus_unit; [exact Uq | apply quatInv_unit, Ur]).
  assert (V : forall p, unit4 p -> rot_difference (rot_of_q p) (column_vector (v4_to r)) = Ok (quat2AxisAngle (qplus p (quatInv r)))).
  { intros p _. unfold rot_difference, q_difference. cbn [is_column column_vector v4_to length mrows mcols Nat.eqb andb].
    unfold is_column. cbn [mrows mcols Nat.eqb andb mdata rq rot_of_q]. rewrite <- (v4_of_to r) at 1. reflexivity. }
  split; [reflexivity | ]. split; [ | split; [ | split; [ | split]]].
  - rewrite V by exact Uq. fold e. split.
    + intros H. assert (H1 : quat2AxisAngle e = None) by congruence.
      apply (proj1 C53_log e Ue) in H1.
      transitivity (qplus e r).
      * unfold e. rewrite <- qplus_assoc, (proj2 (qplus_inv r Ur)). symmetry. apply qplus_id_r.
      * rewrite H1. clear. kring.
    + intros H. f_equal. apply (proj1 C53_log e Ue). unfold e. rewrite H.
      transitivity (v4_neg (qplus r (quatInv r))); [clear; kring | ].
      rewrite (proj1 (qplus_inv r Ur)). reflexivity.
  - intros H. rewrite V by exact Uq. subst q. rewrite (proj1 (qplus_inv r Ur)).
    assert (Z : v3_norm (qeps quatIdentity) = 0) by exact v3_norm_zero.
    unfold quat2AxisAngle. cbv zeta. rewrite Z. unfold qeta, quatIdentity. cbn [q3].
    destruct (ltb_spec (Rabs 1) 0) as [X | _]; [rewrite Rabs_R1 in X; lra | ].
    destruct (ltb_spec 0 1) as [_ | X]; [ | lra]. do 2 f_equal. clear. kring.
  - intros H. rewrite V by exact Uq. fold e.
    destruct (proj1 (proj2 C53_log) e Ue H) as (l & L & X & _ & B).
    exists l. split; [rewrite L; reflexivity | ]. split; [ | exact B].
    apply (difference_step q r l Ur L X).
  - intros d B1 B2 H. rewrite V by exact Uq. rewrite H, step_difference by exact Ur.
    rewrite (proj2 (proj2 C53_log) d B1 B2). reflexivity.
  - intros m N. unfold rot_difference, hom_difference, q_difference.
    destruct (is_column 4 m) eqn:E; [ | split; reflexivity].
    apply is_column_true in E. destruct E as [A B]. destruct N as [N | N]; contradiction.
Qed.
Print Assumptions C71_rotation_difference.

(** The Jacobian of the difference is its derivative with respect to a step of
    the variable, in every direction (for rotations away from a relative half
    turn, where a tangent is infinite). *)
Theorem C71_difference_jacobian : forall q r, unit4 q -> unit4 r ->
  let ref := column_vector (v4_to r) in let e := qplus q (quatInv r) in
  eps4 < v3_norm (qeps e) ->
  exists Jh, hom_jacobian (make (K := k_homogeneous) q) ref = Ok (Some Jh) /\
    (q3 e <> 0 -> exists Jr, rot_jacobian (rot_of_q q) ref = Ok (Some Jr) /\
       forall d, m3_vec Jr d = m3_vec Jh d) /\
    forall d, exists l,
      locally 0 (fun s => exists y, rot_update (rot_of_q q) (v3_to (v3_scale s d)) = Ok y /\
                                    rot_difference y ref = Ok (Some (l s))) /\
      v3_derive l 0 (m3_vec Jh d).
Proof.
  intros q r Uq Ur. cbv zeta. set (e := qplus q (quatInv r)). intros L. pose proof eps4_pos as P.
  exists (m34_mul43 (quatLogJacobian e) (quatJacobian e)).
  assert (Er : v4_of (mdata (column_vector (v4_to r))) = r) by apply v4_of_to.
  split; [ | split].
  - unfold hom_jacobian, q_jacobian1. rewrite Er. unfold is_column. cbn [column_vector v4_to length mrows mcols Nat.eqb andb cur make].
    fold e. destruct (eqb_spec (v3_norm (qeps e)) 0) as [Z | _]; [lra | reflexivity].
  - intros N. destruct (difference_derive q r v3_zero Uq Ur L) as (_ & _ & H). destruct (H N) as (J & HJ & _).
    exists (m34_mul43 J (quatJacobian e)). split.
    + unfold rot_jacobian. rewrite Er. unfold is_column. cbn [column_vector v4_to length mrows mcols Nat.eqb andb rq rot_of_q].
      fold e. fold e in HJ. rewrite HJ. reflexivity.
    + intros d. destruct (difference_derive q r d Uq Ur L) as (_ & E1 & H2). destruct (H2 N) as (J' & HJ' & E2).
      fold e in E1, E2, HJ, HJ'. assert (J' = J) by congruence. subst J'. rewrite E1, E2. reflexivity.
  - intros d. destruct (difference_derive q r d Uq Ur L) as ((l & Hl & Dl) & E1 & _). fold e in E1, Dl.
    exists l. split; [ | rewrite E1; exact Dl].
    revert Hl. apply filter_imp. intros s Hs. eexists. split; [reflexivity | ].
    unfold rot_difference, q_difference. rewrite Er. unfold is_column.
    cbn [column_vector v4_to length mrows mcols Nat.eqb andb rq rot_of_q]. rewrite v3_of_to, Hs. reflexivity.
Qed.
Print Assumptions C71_difference_jacobian.

(** At the reference itself, where a prior is linearised, the rotation's
    Jacobian is the identity and right; the one of a homogeneous point (and of
    both mapped classes) divides zero by zero. *)
Theorem C71_jacobian_at_reference : forall q, unit4 q ->
  let ref := column_vector (v4_to q) in
  rot_jacobian (rot_of_q q) ref = Ok (Some m3_I) /\
  (forall d, exists l,
     locally 0 (fun s => exists y, rot_update (rot_of_q q) (v3_to (v3_scale s d)) = Ok y /\
                                   rot_difference y ref = Ok (Some (l s))) /\
     v3_derive l 0 (m3_vec m3_I d)) /\
  hom_jacobian (make (K := k_homogeneous) q) ref = Ok None /\
  mapped_rot_jacobian (rot_of_q q) ref = Ok None /\
  mapped_hom_jacobian (make (K := k_homogeneous) q) ref = Ok None.
Proof.
  intros q U. cbv zeta.
  assert (Er : v4_of (mdata (column_vector (v4_to q))) = q) by apply v4_of_to.
  assert (Nn : q_jacobian1 q (column_vector (v4_to q)) = Ok None).
  { unfold q_jacobian1. rewrite Er. unfold is_column. cbn [column_vector v4_to length mrows mcols Nat.eqb andb].
    rewrite (proj1 (qplus_inv q U)).
    assert (Z : v3_norm (qeps quatIdentity) = 0) by exact v3_norm_zero.
    cbv zeta. rewrite Z. destruct (eqb_spec 0 0); [reflexivity | lra]. }
  split; [ | split; [ | split; [exact Nn | split; exact Nn]]].
  - unfold rot_jacobian. rewrite Er. unfold is_column. cbn [column_vector v4_to length mrows mcols Nat.eqb andb rq rot_of_q].
    cbv zeta. rewrite (proj1 (qplus_inv q U)). destruct jacobian2_identity as (J & HJ & E). rewrite HJ, E. reflexivity.
  - intros d. exists (fun s => v3_scale ((1 + s * s * v3_dot d d / 24) * s) d). split.
    + generalize (log_small_line d). apply filter_imp. intros s Hs. eexists. split; [reflexivity | ].
      unfold rot_difference, q_difference. rewrite Er. unfold is_column.
      cbn [column_vector v4_to length mrows mcols Nat.eqb andb rq rot_of_q].
      rewrite v3_of_to, step_difference by exact U. rewrite Hs. reflexivity.
    + replace (m3_vec m3_I d) with d by (clear; kring). apply log_line_derive.
Qed.
Print Assumptions C71_jacobian_at_reference.

(** The mapped classes compute the difference from the value before the last
    change: right after a step from the reference it is zero, whatever the
    step was. *)
Theorem C71_mapped_difference_refuted :
  (forall q d y, unit4 q -> rot_update (rot_of_q q) d = Ok y ->
     mapped_rot_difference y (column_vector (v4_to q)) = Ok (Some v3_zero)) /\
  (forall D (r d : list R) y, length r = D -> update (make (K := k_vector D) r) d = Ok y ->
     mapped_difference y (column_vector r) = Ok (repeat 0 D)) /\
  (forall (r : v3) d y, update (make (K := k_euclidean) r) d = Ok y ->
     mapped_difference y (column_vector (v3_to r)) = Ok [0; 0; 0]) /\
  (exists r d y, update (make (K := k_euclidean) r) (v3_to d) = Ok y /\
     mapped_difference y (column_vector (v3_to r)) <> Ok (v3_to d) /\
     difference y (column_vector (v3_to r)) = Ok (v3_to d)).
Proof.
  assert (W : forall (r : v3) d y, update (make (K := k_euclidean) r) d = Ok y ->
     mapped_difference y (column_vector (v3_to r)) = Ok [0; 0; 0]).
  { intros r d y H. unfold update in H. destruct (length d <? kdim k_euclidean)%nat; [discriminate | ].
    assert (Hp : prev y = r) by (injection H as H; rewrite <- H; reflexivity).
    unfold mapped_difference. rewrite Hp. destruct r as [a b c]. unfold is_column.
    cbn [k_euclidean kpar kget column_vector v3_to length mrows mcols mdata Nat.eqb andb list_sub x0 x1 x2].
    replace (a - a) with 0 by ring. replace (b - b) with 0 by ring. replace (c - c) with 0 by ring. reflexivity. }
  split; [ | split; [ | split; [exact W | ]]].
  - intros q d y U H. unfold rot_update in H. destruct (length d <? 3)%nat; [discriminate | ]. cbv zeta in H.
    assert (Hp : rp y = q) by (injection H as H; rewrite <- H; reflexivity).
    pose proof (proj1 (proj2 (proj2 (C71_rotation_difference q q U U))) eq_refl) as E.
    unfold mapped_rot_difference. rewrite Hp. exact E.
  - intros D r d y L H. unfold update in H. destruct (length d <? kdim (k_vector D))%nat; [discriminate | ].
    assert (Hp : prev y = r) by (injection H as H; rewrite <- H; reflexivity).
    unfold mapped_difference. rewrite Hp.
    rewrite (proj2 (is_column_true (kpar (k_vector D)) (column_vector r)));
      [ | split; [exact L | reflexivity]].
    cbn [kget k_vector mdata column_vector]. rewrite list_sub_self, L. reflexivity.
  - exists v3_zero, (V3 1 0 0). eexists. split; [reflexivity | ]. split.
    + rewrite (W v3_zero (v3_to (V3 1 0 0))) by reflexivity. unfold v3_to. cbn [x0 x1 x2]. intros E. injection E as E. lra.
    + unfold difference, is_column.
      cbn [k_euclidean kpar kget kstep kdim column_vector v3_to v3_zero length mrows mcols mdata Nat.eqb andb list_sub x0 x1 x2 cur make firstn].
      unfold v3_add, v3_of, v3_zero. cbn [nth x0 x1 x2].
      replace (0 + 1 - 0) with 1 by ring. replace (0 + 0 - 0) with 0 by ring. reflexivity.
Qed.
Print Assumptions C71_mapped_difference_refuted.

(** Generic vectors: steps and reverts behave like the others as long as the
    first change is a step ... *)
Theorem C71_generic_vector : forall (D : nat) (v0 d : list R) (l : list op),
  length d = D -> Forall (well_sized D D) l -> Forall (fun o => match o with OSet _ => False | _ => True end) l ->
  exists x, gv_run D (gv_make v0) (OUpdate d :: l) = Ok x /\
    gcur x = value_after v0 list_add (fun v => v) (rev (OUpdate d :: l)).
Proof.
  intros D v0 d l Ld Hs Hn.
  assert (A : forall l1 l2 x, gv_run D x (l1 ++ l2) = do y <- gv_run D x l1; gv_run D y l2).
  { induction l1 as [ | o l1 IH]; intros l2 x; cbn [gv_run app]; [reflexivity | ].
    destruct (gv_step D x o); cbn [obind]; [apply IH | reflexivity..]. }
  assert (G : gv_run D (gv_make v0) (OUpdate d :: l) =
    Ok (Gvec (value_after v0 list_add (fun v => v) (rev (OUpdate d :: l)))
             (Some (undone v0 list_add (fun v => v) (rev (OUpdate d :: l)))))).
  { induction l as [ | o l IH] using rev_ind.
    - cbn [gv_run gv_step]. unfold gv_update. rewrite Ld, Nat.eqb_refl. reflexivity.
    - apply Forall_app in Hs. destruct Hs as [Hs Ho]. apply Forall_inv in Ho.
      apply Forall_app in Hn. destruct Hn as [Hn Hk]. apply Forall_inv in Hk.
      change (OUpdate d :: l ++ [o]) with ((OUpdate d :: l) ++ [o]). rewrite A, (IH Hs Hn).
      cbn [obind gv_run]. rewrite rev_app_distr. set (h := rev (OUpdate d :: l)). cbn [rev app].
      destruct o as [e | | m]; [ | reflexivity | contradiction].
      cbn [gv_step]. unfold gv_update. cbn [well_sized] in Ho. rewrite Ho, Nat.eqb_refl. reflexivity. }
  eexists. split; [exact G | reflexivity].
Qed.
Print Assumptions C71_generic_vector.

(** ... but a revert with no step before it reads an uninitialised vector, and
    one after an assignment goes back past the value that was assigned over. *)
Theorem C71_generic_vector_refuted :
  (forall D v, gv_run D (gv_make v) [ORevert] = UB) /\
  (forall D v m, is_column D m = true -> gv_run D (gv_make v) [OSet m; ORevert] = UB) /\
  (exists x, gv_run 1 (gv_make [1]) [OUpdate [1]; OSet (column_vector [7]); ORevert] = Ok x /\ gcur x = [1] /\
     value_after [1] list_add (fun v => v) [ORevert; OSet (column_vector [7]); OUpdate [1]] = [1 + 1] /\ [1] <> [1 + 1]).
Proof.
  split; [reflexivity | split].
  - intros D v m H. cbn [gv_run gv_step]. unfold gv_set_parameters. rewrite H. reflexivity.
  - eexists. split; [reflexivity | ]. split; [reflexivity | ]. split; [reflexivity | ].
    intros E. injection E as E. lra.
Qed.
Print Assumptions C71_generic_vector_refuted.

(** Concrete cases. *)
Example C71_ex_history :
  Forall (well_sized 3 4) [OUpdate [1; 0; 0]; ORevert; OSet (column_vector [0; 0; 0; 1]); OUpdate [0; 0; 2]] /\
  Forall unit_op [OUpdate [1; 0; 0]; ORevert; OSet (column_vector [0; 0; 0; 1]); OUpdate [0; 0; 2]].
Proof.
  assert (N : forall a, 0 <= a -> v3_norm (V3 a 0 0) = a /\ v3_norm (V3 0 0 a) = a).
  { intros a Ha. unfold v3_norm, v3_dot. cbn [x0 x1 x2]. split; apply sqrt_lem_1; nra. }
  split.
  - apply Forall_cons; [reflexivity | ]. apply Forall_cons; [exact I | ].
    apply Forall_cons; [split; [reflexivity | split; reflexivity] | ]. apply Forall_cons; [reflexivity | apply Forall_nil].
  - apply Forall_cons.
    { right. change (v3_of [1; 0; 0]) with (V3 1 0 0). rewrite (proj1 (N 1 ltac:(lra))). unfold eps4. lra. }
    apply Forall_cons; [exact I | ]. apply Forall_cons.
    { unfold unit_op, unit4. cbn. ring. }
    apply Forall_cons; [ | apply Forall_nil].
    right. change (v3_of [0; 0; 2]) with (V3 0 0 2). rewrite (proj2 (N 2 ltac:(lra))). unfold eps4. lra.
Qed.
Example C71_ex_undo : value_after 5 (fun v d => v + nth 0 d 0) (fun l => nth 0 l 0)
  (rev [OUpdate [1]; OUpdate [2]; ORevert; ORevert]) = 5 + 1.
Proof. reflexivity. Qed.
Example C71_ex_relative : let e := qplus (V4 1 0 0 0) (quatInv quatIdentity) in
  unit4 (V4 1 0 0 0) /\ unit4 quatIdentity /\ eps4 < v3_norm (qeps e).
Proof.
  cbv zeta. split; [unfold unit4; cbn [q0 q1 q2 q3]; ring | ].
  split; [unfold unit4, quatIdentity; cbn [q0 q1 q2 q3]; ring | ].
  replace (qeps (qplus (V4 1 0 0 0) (quatInv quatIdentity))) with (V3 1 0 0).
  - unfold v3_norm, v3_dot. cbn [x0 x1 x2]. replace (1 * 1 + 0 * 0 + 0 * 0) with 1 by ring. rewrite sqrt_1. unfold eps4. lra.
  - unfold quatIdentity. kring.
Qed.
