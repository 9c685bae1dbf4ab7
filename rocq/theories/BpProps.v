(** * C69: pose curves *)
From Coquelicot Require Import Coquelicot.
From Coq Require Import Reals List Arith ZArith Bool Lia Lra.
From Verif Require Import Base KinModel KinSpec KinProofs KinCurve RotModel RotSpec RotVec RotProps
  TfModel TfSpec TfProofs TfCurve BsplModel BsplSpec BsplProofs BsdProofs BsplProps BsdProps
  BshModel BsfProps BsfProofs BshProps BpModel BpSpec BpProofs.
Import ListNotations.
Local Open Scope R_scope.

(** The five kinds of rotation parameters; rotation vectors away from zero. *)
Theorem C69_kinds :
  parametrises k_zyx (fun _ => True) /\ parametrises k_ypr (fun _ => True) /\ parametrises k_zxy (fun _ => True) /\
  parametrises k_er (fun _ => True) /\ parametrises k_rv (fun p => 1 / 10 ^ 14 < v3_norm p).
Proof.
  destruct C56_rates as (R1 & R2 & R3 & R4 & R5). destruct C56_jacobians as (W & J1 & J2 & J3 & J4 & J5).
  assert (ADAPT : forall w j dom, velocity_jacobian w (fun p v J => J = j p v) dom ->
    velocity_jacobian w (fun p v J => Some (j p v) = Some J) dom).
  { intros w j dom H p v t pd vd JJ P V D E. apply H; [ exact P | exact V | exact D | congruence ]. }
  split; [ | split; [ | split; [ | split ] ] ].
  - split; [ intros p; apply (C55_euler_rotations p) | ]. split; [ exact R1 | ].
    split; [ intros p v; apply (W p v) | ]. split; [ exact (ADAPT _ _ _ J1) | intros p v _; eexists; reflexivity ].
  - split; [ intros p; apply (C55_euler_rotations p) | ]. split; [ exact R2 | ].
    split; [ intros p v; apply (W p v) | ]. split; [ exact (ADAPT _ _ _ J2) | intros p v _; eexists; reflexivity ].
  - split; [ intros p; apply (C55_euler_rotations p) | ]. split; [ exact R3 | ].
    split; [ intros p v; apply (W p v) | ]. split; [ exact (ADAPT _ _ _ J3) | intros p v _; eexists; reflexivity ].
  - split; [ intros p; exact (proj1 (C55_vectors p m3_I)) | ]. split; [ exact R4 | ].
    split; [ intros p v; apply (W p v) | ]. split; [ exact (ADAPT _ _ _ J4) | intros p v _; eexists; reflexivity ].
  - split; [ intros p; exact (proj1 (proj2 (C55_vectors p m3_I))) | ]. split; [ exact R5 | ].
    split; [ intros p v; apply (W p v) | ]. split; [ exact J5 | ].
    intros p v N. cbn [kJ k_rv]. destruct (rv_J p v) as [ JJ | ] eqn:E; [ exists JJ; reflexivity | ].
    apply C56_rotation_vector_defined in E. subst p. exfalso. revert N. unfold v3_norm, v3_zero, v3_dot. cbn [x0 x1 x2].
    replace (0 * 0 + 0 * 0 + 0 * 0) with 0 by ring. rewrite sqrt_0. lra.
Qed.
Print Assumptions C69_kinds.

Lemma invert_is T : invert T = inverseTransform T.
Proof. unfold invert, inverseTransform. cbv zeta. f_equal. destruct T as [a b c d]. unfold m3_neg. kring. Qed.

(** At every time of the interval there is one pose: a rigid motion, which
    position, orientation and the inverses agree with. *)
Theorem C69_pose : forall K dom k l C c b t, parametrises K dom ->
  built k l 6 C c b -> nondecreasing l -> long_end k l -> first_time k l <= t <= last_time k l ->
  exists T R x Ti, transformation K b t = Ok T /\ rigid T R x /\ orientation K b t = Ok R /\ position b t = Ok x /\
    inverse_orientation K b t = Ok (m3_tr R) /\ inverse_transformation K b t = Ok Ti /\ SE3 Ti /\
    m4_mul T Ti = m4_I /\ m4_mul Ti T = m4_I.
Proof.
  intros K dom k l C c b t (SO & _) H ND LE I.
  destruct (C65_jacobian k l 6 C c b 0 t H ND LE I ltac:(lia) ltac:(lia)) as (v & J & idx & lc & _ & EV & _).
  change (eval_D b t 0) with (eval b t) in EV.
  assert (RG : rigid (curve_to_T K v) (kC K (tail3 v)) (head3 v)).
  { apply rigid_rt. split; [ apply SO | reflexivity ]. }
  destruct (inverse_rigid _ _ _ RG) as (I1 & I2 & I3).
  exists (curve_to_T K v), (kC K (tail3 v)), (head3 v), (inverseTransform (curve_to_T K v)).
  unfold transformation, orientation, position, inverse_orientation, inverse_transformation. rewrite EV. cbn [obind].
  rewrite invert_is. split; [ reflexivity | ]. split; [ exact RG | ]. split; [ reflexivity | ]. split; [ reflexivity | ].
  split; [ reflexivity | ]. split; [ reflexivity | ]. split; [ eexists; eexists; exact I3 | ]. split; [ exact I1 | exact I2 ].
Qed.
Print Assumptions C69_pose.

(** Jacobians of the pose: for every motion of the coefficients, the Jacobian
    times the rates of the coefficients it names is the motion of the pose, of
    its inverse, of a transformed point and of the rotation. *)
Theorem C69_pose_jacobians : forall K dom k l C c b t y yd bs, parametrises K dom ->
  built k l 6 C c b -> nondecreasing l -> long_end k l -> first_time k l <= t <= last_time k l ->
  rotation_ok dom b t -> moving b (6 * C) y yd bs ->
  exists idx (M Mi : R -> m4) (Q Qi : R -> m3) J Ji Jq Jqi,
    (forall s, transformation K (bs s) t = Ok (M s) /\ inverse_transformation K (bs s) t = Ok (Mi s) /\
       orientation K (bs s) t = Ok (Q s) /\ inverse_orientation K (bs s) t = Ok (Qi s)) /\
    transformation_J K b t = Ok (M 0, J, idx) /\ perturbed M 0 (times6 (k * 6) J (picked yd idx)) /\
    inverse_transformation_J K b t = Ok (Mi 0, Ji, idx) /\ perturbed Mi 0 (times6 (k * 6) Ji (picked yd idx)) /\
    (forall p, exists Jp, transform_vector_J K b t p = Ok (m4_vec (M 0) p, Jp, idx) /\
       v4_derive (fun s => m4_vec (M s) p) 0 (times4 (k * 6) Jp (picked yd idx))) /\
    orientation_J K b t = Ok (Q 0, Jq, idx) /\
    (exists Qd, m3_derive Q 0 Qd /\ angular_velocity (Q 0) Qd (times3 (k * 6) Jq (picked yd idx))) /\
    inverse_orientation_J K b t = Ok (Qi 0, Jqi, idx) /\
    (exists Qd, m3_derive Qi 0 Qd /\ angular_velocity (Qi 0) Qd (times3 (k * 6) Jqi (picked yd idx))).
Proof.
  intros K dom k l C c b t y yd bs PK H ND LE I RO MV.
  destruct (curve_moves k l C c b 0 t y yd bs H ND LE I ltac:(lia) MV)
    as (v & js & idx & V & EJ & EV & EI & ES & V0 & V0' & DH & DT).
  set (u := picked yd idx) in *. set (n := (k * 6)%nat) in *.
  change (eval_D b t 0) with (eval b t) in EV. pose proof (RO v EV) as DO.
  change (V3 (v 3%nat) (v 4%nat) (v 5%nat)) with (tail3 v) in DO. rewrite <- V0' in DO.
  set (jt := M6 m3_I (m3_mul (m3_neg (crossMx (head3 v))) (kS K (tail3 v))) m3_zero (kS K (tail3 v))).
  set (M := fun s => curve_to_T K (V s)).
  assert (MR : forall s, rigid (M s) (kC K (tail3 (V s))) (head3 (V s))).
  { intros s. apply rigid_rt. split; [ apply PK | reflexivity ]. }
  assert (M0 : M 0 = curve_to_T K v) by (unfold M, curve_to_T; rewrite V0, V0'; reflexivity).
  assert (PM : perturbed M 0 (times6 n (fun m => m6_vec jt (column js m)) u)).
  { rewrite <- m6_times. pose proof (pose_moves K dom PK _ _ 0 _ _ DH DT DO) as X. cbv beta in X.
    rewrite V0, V0' in X. exact X. }
  destruct (rotation_moves K dom PK _ 0 _ DT DO) as (Cd & Ad & HC & AC & HA & AA). cbv beta in AC, AA.
  assert (TL : tl3 (times6 n (column js) u) = times3 n (fun m => tl3 (column js m)) u) by reflexivity.
  rewrite TL, m3_times, V0' in AC, AA.
  assert (PI : perturbed (fun s => inverseTransform (M s)) 0
     (times6 n (fun m => m6_vec (m6_mul (m6_neg (boxTimes (inverseTransform (M 0)))) jt) (column js m)) u)).
  { pose proof (perturbed_inverse M 0 _ ltac:(eexists; eexists; exact (MR 0)) PM) as X.
    rewrite <- m6_times. rewrite m6_vec_mul, m6_times.
    replace (m6_vec (m6_neg (boxTimes (inverseTransform (M 0)))) (times6 n (fun m => m6_vec jt (column js m)) u))
      with (m6_vec (boxTimes (inverseTransform (M 0))) (v6_neg (times6 n (fun m => m6_vec jt (column js m)) u))); [ exact X | ].
    generalize (boxTimes (inverseTransform (M 0))) (times6 n (fun m => m6_vec jt (column js m)) u).
    clear. unfold m6_neg, v6_neg, m3_neg. tring. }
  exists idx, M, (fun s => inverseTransform (M s)), (fun s => kC K (tail3 (V s))), (fun s => m3_tr (kC K (tail3 (V s)))).
  exists (fun m => m6_vec jt (column js m)).
  exists (fun m => m6_vec (m6_mul (m6_neg (boxTimes (inverseTransform (M 0)))) jt) (column js m)).
  exists (fun m => m3_vec (kS K (tail3 v)) (tl3 (column js m))).
  exists (fun m => m3_vec (m3_mul (m3_neg (m3_tr (kC K (tail3 v)))) (kS K (tail3 v))) (tl3 (column js m))).
  assert (ET : transformation_J K b t = Ok (M 0, fun m => m6_vec jt (column js m), idx)).
  { unfold transformation_J. rewrite EJ. cbn [obind]. rewrite M0. reflexivity. }
  split.
  { intros s. specialize (ES s). change (eval_D (bs s) t 0) with (eval (bs s) t) in ES.
    unfold transformation, inverse_transformation, orientation, inverse_orientation. rewrite ES. cbn [obind].
    rewrite invert_is. split; [ reflexivity | ]. split; [ reflexivity | ]. split; reflexivity. }
  split; [ exact ET | ]. split; [ exact PM | ].
  split. { unfold inverse_transformation_J. rewrite EJ. cbn [obind]. rewrite EI. unfold curve_to_T_J. cbn [obind].
           rewrite invert_is, M0. reflexivity. }
  split; [ exact PI | ].
  split. { intros p. exists (fun m => m46_vec (boxMinus (m4_vec (M 0) p)) (m6_vec jt (column js m))).
    split. { unfold transform_vector_J. rewrite ET. cbn [obind]. reflexivity. }
    rewrite <- m46_times. exact (perturbed_point M 0 _ p PM). }
  rewrite V0'.
  split. { unfold orientation_J. rewrite EJ. cbn [obind]. reflexivity. }
  split; [ exists Cd; split; [ exact HC | exact AC ] | ].
  split. { unfold inverse_orientation_J. rewrite EJ. cbn [obind]. reflexivity. }
  exists Ad; split; [ exact HA | exact AA ].
Qed.
Print Assumptions C69_pose_jacobians.

(** ** Velocities *)

(** Between two neighbouring knots: the linear velocity and acceleration are
    the derivatives of the position; angularVelocity is the w with
    dC/dt = [w]x C, angularVelocityBodyFrame the one with dC/dt = C [w]x. *)
Theorem C69_velocities : forall K dom k l C c b t j, parametrises K dom ->
  built k l 6 C c b -> nondecreasing l -> long_end k l -> (k - 1 <= j < C)%nat -> knot l j < t < knot l (j + 1) ->
  rotation_ok dom b t ->
  exists (P LV : R -> v3) (Q : R -> m3) a w wb Qd,
    (forall s, first_time k l <= s <= last_time k l ->
       position b s = Ok (P s) /\ orientation K b s = Ok (Q s) /\ linear_velocity b s = Ok (LV s)) /\
    linear_acceleration b t = Ok a /\ v3_derive P t (LV t) /\ v3_derive LV t a /\
    linear_velocity_body K b t = Ok (m3_vec (m3_tr (Q t)) (LV t)) /\
    linear_acceleration_body K b t = Ok (m3_vec (m3_tr (Q t)) a) /\
    angular_velocity_w K b t = Ok w /\ angular_velocity_body K b t = Ok wb /\
    m3_derive Q t Qd /\ Qd = m3_mul (crossMx w) (Q t) /\ Qd = m3_mul (Q t) (crossMx wb) /\ wb = m3_vec (m3_tr (Q t)) w.
Proof.
  intros K dom k l C c b t j PK H ND LE J I RO.
  destruct (C65_total k l 6 C c b 0 H ND LE) as (F0 & H0). destruct (C65_total k l 6 C c b 1 H ND LE) as (F1 & H1).
  destruct (C65_total k l 6 C c b 2 H ND LE) as (F2 & H2).
  assert (D0 : forall r, is_derive (F0 r) t (F1 r t)).
  { intros r. exact (C65_derivative k l 6 C c b 0 r _ _ t j H ND LE (H0 r) (H1 r) J I). }
  assert (D1 : forall r, is_derive (F1 r) t (F2 r t)).
  { intros r. exact (C65_derivative k l 6 C c b 1 r _ _ t j H ND LE (H1 r) (H2 r) J I). }
  assert (VAL : forall d (F : nat -> R -> R), (forall r, is_evalD b (first_time k l) (last_time k l) d r (F r)) ->
    forall s, first_time k l <= s <= last_time k l -> exists v, eval_D b s (Z.of_nat d) = Ok v /\
      head3 v = head3 (fun r => F r s) /\ tail3 v = tail3 (fun r => F r s)).
  { intros d F HF s Is. destruct (HF 0%nat s Is) as (v & E & _). exists v. split; [ exact E | ].
    assert (X : forall r, v r = F r s). { intros r. destruct (HF r s Is) as (v' & E' & <-). congruence. }
    unfold head3, tail3. rewrite !X. split; reflexivity. }
  assert (IT : first_time k l <= t <= last_time k l).
  { destruct (built_wf _ _ _ _ _ _ H ND) as [W [_ [_ [_ [_ [_ [K2 [CC LL]]]]]]]].
    assert (X1 : knot l (k - 1) <= knot l j) by (apply ND; lia).
    assert (X2 : knot l (j + 1) <= knot l C) by (apply ND; lia).
    assert (X3 : last_time k l = knot l C) by (unfold last_time; f_equal; lia).
    unfold first_time. lra. }
  destruct (VAL _ _ H0 t IT) as (v0 & E0 & A0 & B0). destruct (VAL _ _ H1 t IT) as (v1 & E1 & A1 & B1).
  destruct (VAL _ _ H2 t IT) as (v2 & E2 & A2 & B2).
  cbn [Z.of_nat Pos.of_succ_nat Pos.succ] in E0, E1, E2.
  pose proof (RO v0 E0) as DO. change (V3 (v0 3%nat) (v0 4%nat) (v0 5%nat)) with (tail3 v0) in DO. rewrite B0 in DO.
  assert (DT : v3_derive (fun s => tail3 (fun r => F0 r s)) t (tail3 (fun r => F1 r t))).
  { unfold v3_derive, tail3. cbn [x0 x1 x2]. split; [ apply D0 | split; apply D0 ]. }
  destruct (rotation_moves K dom PK _ t _ DT DO) as (Cd & _ & HC & AC & _). cbv beta in AC.
  pose proof (proj1 PK (tail3 (fun r => F0 r t))) as SO.
  set (Q := fun s => kC K (tail3 (fun r => F0 r s))). set (w := m3_vec (m3_neg (kS K (tail3 (fun r => F0 r t)))) (tail3 (fun r => F1 r t))).
  assert (WC : Cd = m3_mul (crossMx w) (Q t)).
  { unfold angular_velocity in AC. rewrite AC. unfold w, Q. generalize (kC K (tail3 (fun r => F0 r t))).
    generalize (kS K (tail3 (fun r => F0 r t))) (tail3 (fun r => F1 r t)). clear. unfold m3_neg. kring. }
  exists (fun s => head3 (fun r => F0 r s)), (fun s => head3 (fun r => F1 r s)), Q, (head3 (fun r => F2 r t)), w,
    (m3_vec (m3_tr (Q t)) w), Cd.
  split.
  { intros s Is. destruct (VAL _ _ H0 s Is) as (u0 & G0 & L0 & N0). destruct (VAL _ _ H1 s Is) as (u1 & G1 & L1 & N1).
    cbn [Z.of_nat Pos.of_succ_nat] in G0, G1.
    unfold position, orientation, linear_velocity, eval. rewrite G0, G1. cbn [obind]. rewrite L0, N0, L1.
    split; [ reflexivity | split; reflexivity ]. }
  split. { unfold linear_acceleration. rewrite E2. cbn [obind]. rewrite A2. reflexivity. }
  split. { unfold v3_derive, head3. cbn [x0 x1 x2]. split; [ apply D0 | split; apply D0 ]. }
  split. { unfold v3_derive, head3. cbn [x0 x1 x2]. split; [ apply D1 | split; apply D1 ]. }
  split. { unfold linear_velocity_body. rewrite E0, E1. cbn [obind]. rewrite B0, A1. reflexivity. }
  split. { unfold linear_acceleration_body. rewrite E0, E2. cbn [obind]. rewrite B0, A2. reflexivity. }
  split. { unfold angular_velocity_w. rewrite E0, E1. cbn [obind]. rewrite B0, B1. reflexivity. }
  split. { unfold angular_velocity_body, angular_rate_body. rewrite E0, E1. cbn [obind]. rewrite B0, B1. f_equal.
    unfold w, Q. generalize (kC K (tail3 (fun r => F0 r t))).
    generalize (kS K (tail3 (fun r => F0 r t))) (tail3 (fun r => F1 r t)). clear. unfold m3_neg. kring. }
  split; [ exact HC | ]. split; [ exact WC | ]. split; [ | reflexivity ].
  rewrite WC. change (SO3 (Q t)) in SO. rewrite (SO3_cross (Q t) _ SO), <- m3_vec_mul, (proj1 SO), m3_vec_I. reflexivity.
Qed.
Print Assumptions C69_velocities.

(** Jacobians of the rates.  [d] = 1 gives the velocities, [d] = 2 what the
    code calls accelerations. *)
Theorem C69_rate_jacobians : forall K dom k l C c b t d y yd bs, parametrises K dom ->
  built k l 6 C c b -> nondecreasing l -> long_end k l -> first_time k l <= t <= last_time k l ->
  rotation_ok dom b t -> moving b (6 * C) y yd bs -> (0 <= d)%Z ->
  exists idx W J Wb Jb A Ja,
    (forall s, (exists Js, angular_rate_J d K (bs s) t = Ok (W s, Js, idx)) /\
       angular_rate_body d K (bs s) t = Ok (Wb s) /\ linear_acceleration (bs s) t = Ok (A s)) /\
    angular_rate_J d K b t = Ok (W 0, Some J, idx) /\ v3_derive W 0 (times3 (k * 6) J (picked yd idx)) /\
    angular_rate_body d K b t = Ok (Wb 0) /\
    angular_rate_body_J d K b t = Ok (Wb 0, Some Jb, idx) /\ v3_derive Wb 0 (times3 (k * 6) Jb (picked yd idx)) /\
    linear_acceleration_J b t = Ok (A 0, Ja, idx) /\ v3_derive A 0 (times3 (k * 6) Ja (picked yd idx)).
Proof.
  intros K dom k l C c b t d y yd bs PK H ND LE I RO MV PD.
  destruct (curve_moves k l C c b 0 t y yd bs H ND LE I ltac:(lia) MV)
    as (v & js & idx & V & EJ & EV & EI & ES & V0 & V0' & DH & DT).
  destruct (curve_moves k l C c b d t y yd bs H ND LE I PD MV)
    as (v1 & js1 & idx1 & V1 & EJ1 & EV1 & EI1 & ES1 & V10 & V10' & DH1 & DT1).
  destruct (curve_moves k l C c b 2 t y yd bs H ND LE I ltac:(lia) MV)
    as (v2 & js2 & idx2 & V2 & EJ2 & EV2 & EI2 & ES2 & V20 & V20' & DH2 & DT2).
  assert (idx1 = idx) by congruence. assert (idx2 = idx) by congruence. subst idx1 idx2.
  set (u := picked yd idx) in *. set (n := (k * 6)%nat) in *.
  pose proof (RO v EV) as DO.
  change (V3 (v 3%nat) (v 4%nat) (v 5%nat)) with (tail3 v) in DO.
  pose proof PK as (SO & RV & WS & VJ & EX). destruct (EX (tail3 v) (tail3 v1) DO) as (jo & EO).
  rewrite <- V0' in DO. rewrite <- V0', <- V10' in EO.
  pose proof (VJ _ _ 0 _ _ jo DT DT1 DO EO) as DW. cbv beta in DW.
  pose proof (body_moves K dom PK _ _ 0 _ _ jo DT DT1 DO EO) as DB. cbv beta zeta in DB.
  (* the Jacobian of a spline with other coefficients has the same indices *)
  assert (BS : forall s, bs s = BSp (order b) (knots b) (dim b) (ncols b) (coef (bs s)) (bases b)).
  { intros s. destruct MV as (MV & _). specialize (MV s). unfold set_coef_vector in MV.
    destruct (Nat.eqb (6 * C) (dim b * ncols b)); [ | discriminate ]. injection MV as <-. reflexivity. }
  assert (OTHER : forall s e x, (0 <= e)%Z -> eval_D (bs s) t e = Ok x ->
    exists j, eval_D_and_jacobian (bs s) t e = Ok (x, j, idx)).
  { intros s e x Pe Ex.
    destruct (C65_jacobian k l 6 C c b e t H ND LE I Pe ltac:(lia)) as (a0 & a1 & a2 & a3 & F & _ & _ & F1 & _).
    assert (a2 = idx) by congruence. subst a2. clear F1. revert F Ex.
    unfold eval_D, eval_D_and_jacobian. rewrite (BS s).
    assert (SW : weights (BSp (order b) (knots b) (dim b) (ncols b) (coef (bs s)) (bases b)) t e = weights b t e) by reflexivity.
    rewrite SW. destruct (weights b t e) as [ [bi w] | | | ]; cbn [obind]; try discriminate.
    unfold coef_block. cbn [order ncols coef dim]. destruct (Nat.leb (bi + order b) (ncols b)); cbn [obind]; [ | discriminate ].
    intros F G. eexists. assert (F2 : index_range (bi * dim b) (order b * dim b) = idx) by congruence.
    rewrite F2. assert (G2 : forall p q : vec, Ok p = Ok q -> p = q) by congruence. rewrite (G2 _ _ G). reflexivity. }
  exists idx, (fun s => kW K (tail3 (V s)) (tail3 (V1 s))), (fun m => m36_vec jo (stacked js js1 m)).
  exists (fun s => m3_vec (m3_neg (m3_tr (kC K (tail3 (V s))))) (kW K (tail3 (V s)) (tail3 (V1 s)))).
  exists (fun m => v3_add (m36_vec (m3_mul (m3_neg (m3_tr (kC K (tail3 v)))) (fst jo), m3_mul (m3_neg (m3_tr (kC K (tail3 v)))) (snd jo)) (stacked js js1 m))
     (m3_vec (crossMx (m3_vec (m3_neg (m3_tr (kC K (tail3 v)))) (kW K (tail3 v) (tail3 v1))))
        (m3_vec (m3_mul (m3_neg (m3_tr (kC K (tail3 v)))) (kS K (tail3 v))) (tl3 (column js m))))).
  exists (fun s => head3 (V2 s)), (fun m => hd3 (column js2 m)).
  assert (STK : forall J0 : m3 * m3, times3 n (fun m => m36_vec J0 (stacked js js1 m)) u =
    m36_vec J0 (V6 (tl3 (times6 n (column js) u)) (tl3 (times6 n (column js1) u)))).
  { intros J0. unfold m36_vec, stacked. cbn [hd3 tl3]. rewrite <- times3_add, <- !m3_times. reflexivity. }
  split.
  { intros s. destruct (OTHER s 0%Z (V s) ltac:(lia) (ES s)) as (g & G).
    destruct (OTHER s d (V1 s) PD (ES1 s)) as (g1 & G1).
    split; [ | split ].
    - eexists. unfold angular_rate_J. rewrite G, G1. cbn [obind]. reflexivity.
    - unfold angular_rate_body. rewrite (ES s), (ES1 s). cbn [obind]. rewrite WS, <- m3_vec_mul. reflexivity.
    - unfold linear_acceleration. rewrite (ES2 s). reflexivity. }
  split. { unfold angular_rate_J. rewrite EJ, EJ1. cbn [obind]. rewrite <- V0', <- V10', EO. reflexivity. }
  split. { rewrite STK. exact DW. }
  split. { unfold angular_rate_body. rewrite EV, EV1. cbn [obind]. rewrite WS, <- m3_vec_mul, V0', V10'. reflexivity. }
  split. { unfold angular_rate_body_J, inverse_orientation_J. rewrite EJ, EJ1. cbn [obind]. rewrite <- V0', <- V10', EO. reflexivity. }
  split.
  { rewrite <- times3_add, STK, <- m3_times, <- m3_times. rewrite V0', V10' in DB. exact DB. }
  split. { unfold linear_acceleration_J. rewrite EJ2. cbn [obind]. rewrite V20. reflexivity. }
  exact DH2.
Qed.
Print Assumptions C69_rate_jacobians.

(** The two world-frame angular velocities have opposite signs. *)
Theorem C69_world_sign : forall K dom k l C c b t, parametrises K dom ->
  built k l 6 C c b -> nondecreasing l -> long_end k l -> first_time k l <= t <= last_time k l ->
  exists w w' J idx, angular_velocity_w K b t = Ok w /\ angular_velocity_w_J K b t = Ok (w', J, idx) /\ w' = v3_neg w.
Proof.
  intros K dom k l C c b t PK H ND LE I. pose proof PK as (_ & _ & WS & _).
  destruct (C65_jacobian k l 6 C c b 0 t H ND LE I ltac:(lia) ltac:(lia)) as (v & js & idx & _ & EJ & EV & _).
  destruct (C65_jacobian k l 6 C c b 1 t H ND LE I ltac:(lia) ltac:(lia)) as (v1 & js1 & idx1 & _ & EJ1 & EV1 & _).
  eexists. eexists. eexists. eexists.
  split. { unfold angular_velocity_w. rewrite EV, EV1. cbn [obind]. reflexivity. }
  split. { unfold angular_velocity_w_J, angular_rate_J. rewrite EJ, EJ1. cbn [obind]. reflexivity. }
  rewrite WS. unfold m3_neg. kring.
Qed.
Print Assumptions C69_world_sign.

(** ** Poses in, poses out *)
Theorem C69_roundtrip : forall K Q x, kC K (kP K Q) = Q ->
  curve_to_T K (T_to_curve K (rt Q x)) = rt Q x.
Proof.
  intros K Q x E. unfold curve_to_T, T_to_curve, head3, tail3. rewrite topLeft_rt, topRight_rt.
  destruct x as [xa xb xc]. destruct (kP K Q) as [p0 p1 p2] eqn:EP. cbn [x0 x1 x2]. rewrite E. reflexivity.
Qed.
Print Assumptions C69_roundtrip.

(** addPoseSegment: the longer curve still has the old end pose and ends in the
    given pose. *)
Theorem C69_add_pose : forall solve junk K dom k l C c b t Q x, solver_ok solve -> parametrises K dom ->
  built k l 6 C c b -> nondecreasing l -> last_knot k l < last_time k l -> last_time k l < t ->
  kC K (kP K Q) = Q ->
  exists b' l' c' T0, add_pose_segment solve junk K b t (rt Q x) = Ok b' /\ built k l' 6 (C + 1) c' b' /\ nondecreasing l' /\
    first_time k l' = first_time k l /\ last_time k l' = t /\
    transformation K b (last_time k l) = Ok T0 /\ transformation K b' (last_time k l) = Ok T0 /\
    transformation K b' t = Ok (rt Q x).
Proof.
  intros solve junk K dom k l C c b t Q x SO PK H ND LK LT RTP.
  destruct (C68_add solve junk k l 6 C c b t (T_to_curve K (rt Q x)) SO H ND LK LT)
    as (b' & l' & c' & v & v0 & v1 & E & BU & ND' & _ & _ & _ & F1 & F2 & _ & E0 & E1 & E2 & VV).
  assert (SAME : forall p q : vec, (forall r, (r < 6)%nat -> p r = q r) -> curve_to_T K p = curve_to_T K q).
  { intros p q X. unfold curve_to_T, head3, tail3. rewrite !X by lia. reflexivity. }
  exists b', l', c', (curve_to_T K v). split; [ exact E | ]. split; [ exact BU | ]. split; [ exact ND' | ].
  split; [ exact F1 | ]. split; [ exact F2 | ]. unfold transformation. rewrite E0, E1, E2. cbn [obind].
  split; [ reflexivity | ]. split.
  - f_equal. apply SAME. intros r Lr. apply (proj1 (VV r Lr)).
  - f_equal. rewrite <- (C69_roundtrip K Q x RTP). apply SAME. intros r Lr. apply (proj2 (VV r Lr)).
Qed.
Print Assumptions C69_add_pose.

(** ** A turning body: order 2, one segment, yaw and pitch both t - 1 *)
Definition knots4 : list R := [0; 1; 2; 3].
Definition turning : nat -> nat -> R := fun r j =>
  match j with 1%nat => match r with 3%nat | 4%nat => 1 | _ => 0 end | _ => 0 end.
Lemma knots4_nd : nondecreasing knots4.
Proof.
  apply nd_list. intros i Hi. cbn [length knots4] in Hi.
  do 3 (destruct i as [ | i ]; [ unfold knot, knots4; cbn [nth]; lra | ]). lia.
Qed.
Lemma knots4_times : first_time 2 knots4 = 1 /\ last_time 2 knots4 = 2 /\ last_knot 2 knots4 = 1 /\ long_end 2 knots4.
Proof.
  unfold long_end, first_time, last_time, last_knot, knot, knots4. cbn [nth length Nat.sub].
  split; [ reflexivity | ]. split; [ reflexivity | ]. split; [ reflexivity | lra ].
Qed.
Lemma turning_built : exists b, built 2 knots4 6 2 turning b.
Proof.
  destruct (C64_set_knots new2 knots4 6 2 turning) as [H _];
    [ cbn [order new2]; lia | cbn [knots new2 length]; lia | exact knots4_nd | ].
  destruct H as [b [E _]]; [ cbn; lia | cbn; lia | ]. exists b.
  exists new2. split; [ reflexivity | ]. split; [ lia | ]. split; [ cbn; lia | exact E ].
Qed.
Lemma turning_value b s : built 2 knots4 6 2 turning b -> 1 < s < 2 ->
  exists v v1 v2, eval_D b s 0 = Ok v /\ eval_D b s 1 = Ok v1 /\ eval_D b s 2 = Ok v2 /\
    tail3 v = V3 (s - 1) (s - 1) 0 /\ tail3 v1 = V3 1 1 0 /\ tail3 v2 = V3 0 0 0.
Proof.
  intros H I. destruct knots4_times as (T1 & T2 & T3 & LE).
  destruct (C65_total 2 knots4 6 2 turning b 0 H knots4_nd LE) as (F0 & H0).
  destruct (C65_total 2 knots4 6 2 turning b 1 H knots4_nd LE) as (F1 & H1).
  destruct (C65_total 2 knots4 6 2 turning b 2 H knots4_nd LE) as (F2 & H2).
  assert (VAL : forall r z, 1 < z < 2 -> F0 r z = turning r 1 * (z - 1)).
  { intros r z Iz. destruct (H0 r z ltac:(rewrite T1, T2; lra)) as (w & EW & <-).
    destruct (C64_value 2 knots4 6 2 turning b z H knots4_nd) as (v & EV & V).
    { rewrite T1, T2. lra. }
    { right. rewrite T3. lra. }
    change (eval b z) with (eval_D b z (Z.of_nat 0)) in EV. assert (w = v) by congruence. subst w. rewrite V.
    unfold curve, knots4, knot. cbn [total cox nth Nat.add]. unfold ratio, indicator.
    repeat match goal with
    | |- context [Req_EM_T ?a ?b] => destruct (Req_EM_T a b); try lra
    | |- context [Rle_dec ?a ?b] => destruct (Rle_dec a b); try lra
    | |- context [Rlt_dec ?a ?b] => destruct (Rlt_dec a b); try lra
    end. unfold turning at 1. field. }
  assert (DER : forall r, F1 r s = turning r 1).
  { intros r.
    pose proof (C65_derivative 2 knots4 6 2 turning b 0 r _ _ s 1 H knots4_nd LE (H0 r) (H1 r) ltac:(lia)
      ltac:(unfold knot, knots4; cbn [nth Nat.add]; lra)) as D.
    assert (D' : is_derive (F0 r) s (turning r 1%nat)).
    { apply (is_derive_ext_loc (fun z => turning r 1 * (z - 1))).
      - assert (P : 0 < Rmin (s - 1) (2 - s)) by (apply Rmin_glb_lt; lra).
        exists (mkposreal _ P). intros z Bz. symmetry. apply VAL.
        unfold ball in Bz. cbn in Bz. unfold AbsRing_ball, abs, minus, plus, opp in Bz. cbn in Bz.
        pose proof (Rmin_l (s - 1) (2 - s)). pose proof (Rmin_r (s - 1) (2 - s)).
        apply Rabs_def2 in Bz. lra.
      - auto_derive; [ exact Logic.I | unfold zero, one; cbn; lra ]. }
    apply is_derive_unique in D, D'. congruence. }
  destruct (H0 0%nat s ltac:(rewrite T1, T2; lra)) as (v & E0 & _).
  destruct (H1 0%nat s ltac:(rewrite T1, T2; lra)) as (v1 & E1 & _).
  destruct (H2 0%nat s ltac:(rewrite T1, T2; lra)) as (v2 & E2 & _).
  exists v, v1, v2. split; [ exact E0 | ]. split; [ exact E1 | ]. split; [ exact E2 | ].
  assert (X0 : forall r, v r = turning r 1 * (s - 1)).
  { intros r. destruct (H0 r s ltac:(rewrite T1, T2; lra)) as (w & EW & Q). assert (w = v) by congruence. subst w.
    rewrite Q. apply VAL. exact I. }
  assert (X1 : forall r, v1 r = turning r 1).
  { intros r. destruct (H1 r s ltac:(rewrite T1, T2; lra)) as (w & EW & Q). assert (w = v1) by congruence. subst w.
    rewrite Q. apply DER. }
  assert (X2 : forall r, v2 r = 0).
  { intros r. apply (C65_high_order 2 knots4 6 2 turning b 2 s v2 r H knots4_nd LE); [ rewrite T1, T2; lra | lia | exact E2 ]. }
  unfold tail3. rewrite !X0, !X1, !X2. cbn [turning]. split; [ f_equal; ring | ]. split; reflexivity.
Qed.

(** angularVelocity and angularVelocityAndJacobian, documented as the same
    quantity, return different values. *)
Theorem C69_world_velocity_refuted : exists b t w w' J idx, built 2 knots4 6 2 turning b /\
  first_time 2 knots4 < t < last_time 2 knots4 /\
  angular_velocity_w k_ypr b t = Ok w /\ angular_velocity_w_J k_ypr b t = Ok (w', J, idx) /\ w <> w'.
Proof.
  destruct turning_built as (b & H). destruct knots4_times as (T1 & T2 & T3 & LE).
  destruct (C69_world_sign k_ypr _ 2 knots4 2 turning b (3 / 2) (proj1 (proj2 C69_kinds)) H knots4_nd LE)
    as (w & w' & J & idx & E & E' & N); [ rewrite T1, T2; lra | ].
  exists b, (3 / 2), w, w', J, idx. split; [ exact H | ]. split; [ rewrite T1, T2; lra | ].
  split; [ exact E | ]. split; [ exact E' | ]. rewrite N. clear E' N.
  destruct (turning_value b (3 / 2) H ltac:(lra)) as (v & v1 & v2 & E0 & E1 & _ & X0 & X1 & _).
  unfold angular_velocity_w in E. rewrite E0, E1 in E. cbn [obind] in E. rewrite X0, X1 in E.
  assert (Z : x2 w = 1).
  { assert (w = m3_vec (m3_neg (kS k_ypr (V3 (3 / 2 - 1) (3 / 2 - 1) 0))) (V3 1 1 0)) as -> by congruence.
    cbn [kS k_ypr]. unfold ypr_S, ypr_buildS, m3_neg. kunf. ring. }
  intros Q. assert (x2 w = x2 (v3_neg w)) by congruence. unfold v3_neg in *. cbn [x2] in *. lra.
Qed.
Print Assumptions C69_world_velocity_refuted.

(** angularAccelerationBodyFrame is not the derivative of
    angularVelocityBodyFrame: here it is zero while the velocity changes. *)
Theorem C69_angular_acceleration_refuted : exists b t a (W : R -> v3), built 2 knots4 6 2 turning b /\
  first_time 2 knots4 < t < last_time 2 knots4 /\
  (forall s, first_time 2 knots4 < s < last_time 2 knots4 -> angular_velocity_body k_ypr b s = Ok (W s)) /\
  angular_acceleration_body k_ypr b t = Ok a /\ ~ v3_derive W t a.
Proof.
  destruct turning_built as (b & H). destruct knots4_times as (T1 & T2 & T3 & LE). rewrite T1, T2.
  exists b, (3 / 2), (V3 0 0 0).
  exists (fun s => m3_vec (m3_mul (m3_neg (m3_tr (ypr_C (V3 (s - 1) (s - 1) 0)))) (ypr_S (V3 (s - 1) (s - 1) 0))) (V3 1 1 0)).
  split; [ exact H | ]. split; [ lra | ]. split.
  { intros s I. destruct (turning_value b s H I) as (v & v1 & v2 & E0 & E1 & _ & X0 & X1 & _).
    unfold angular_velocity_body, angular_rate_body. rewrite E0, E1. cbn [obind]. rewrite X0, X1. reflexivity. }
  split.
  { destruct (turning_value b (3 / 2) H ltac:(lra)) as (v & v1 & v2 & E0 & _ & E2 & X0 & _ & X2).
    unfold angular_acceleration_body, angular_rate_body. rewrite E0, E2. cbn [obind]. rewrite X0, X2. f_equal.
    generalize (m3_mul (m3_neg (m3_tr (kC k_ypr (V3 (3 / 2 - 1) (3 / 2 - 1) 0)))) (kS k_ypr (V3 (3 / 2 - 1) (3 / 2 - 1) 0))).
    clear. kring. }
  intros (D & _). cbn [x0] in D.
  assert (D' : is_derive (fun s => - sin (s - 1)) (3 / 2) 0).
  { eapply is_derive_ext; [ | exact D ]. intros s. cbv beta. unfold ypr_C, ypr_S, ypr_buildS, m3_neg. kunf. match goal with |- ?a = ?b => change (@eq R a b) end. ring. }
  assert (D2 : is_derive (fun s => - sin (s - 1)) (3 / 2) (- cos (3 / 2 - 1))) by (auto_derive; [ exact Logic.I | unfold Rminus; ring ]).
  apply is_derive_unique in D', D2. pose proof (cos_gt_0 (3 / 2 - 1)) as P.
  pose proof PI_RGT_0. assert (2 < PI) by (pose proof PI2_3_2; unfold PI2 in *; lra). specialize (P ltac:(lra) ltac:(lra)). lra.
Qed.
Print Assumptions C69_angular_acceleration_refuted.

(** ** The theorems apply *)
Example C69_ex : exists b y yd bs, built 2 knots4 6 2 turning b /\ nondecreasing knots4 /\ long_end 2 knots4 /\
  first_time 2 knots4 <= 3 / 2 <= last_time 2 knots4 /\ rotation_ok (fun _ => True) b (3 / 2) /\
  knot knots4 1 < 3 / 2 < knot knots4 (1 + 1) /\ moving b (6 * 2) y yd bs /\ yd 9%nat = 1.
Proof.
  destruct turning_built as (b & H). destruct knots4_times as (T1 & T2 & T3 & LE).
  destruct (built_wf _ _ _ _ _ _ H knots4_nd) as [W [O [K [DD [NC _]]]]].
  exists b, (fun s i => coef_vector b i + s * INR (i - 8)), (fun i => INR (i - 8)).
  exists (fun s => BSp (order b) (knots b) (dim b) (ncols b) (fun r c => coef_vector b (c * dim b + r)%nat + s * INR (c * dim b + r - 8)) (bases b)).
  split; [ exact H | ]. split; [ exact knots4_nd | ]. split; [ exact LE | ]. split; [ rewrite T1, T2; lra | ].
  split; [ intros c _; exact Logic.I | ]. split; [ unfold knot, knots4; cbn [nth Nat.add]; lra | ]. split.
  - split; [ intros s; unfold set_coef_vector; rewrite DD, NC; reflexivity | ].
    split; intros i _; [ ring | ]. auto_derive; [ exact Logic.I | ring ].
  - cbn. ring.
Qed.
Example C69_ex_roundtrip : kC k_ypr (kP k_ypr m3_I) = m3_I.
Proof. apply (proj2 (C55_euler_roundtrip v3_zero m3_I)); [ apply SO3_I | cbn; lra ]. Qed.
