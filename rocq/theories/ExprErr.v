(** * Error terms, directions and matrices *)
From Coquelicot Require Import Coquelicot.
From Coq Require Import Reals List Arith Lia Psatz Bool.
From Verif Require Import KinModel KinSpec KinProofs KinExp KinCurve KinAxis KinJac RotModel RotSpec RotEuler RotVec RotVecJ
  TfModel TfSpec TfProofs TfCurve HpProofs BpModel BpProofs ExprModel ExprSpec ExprProofs ExprMain ExprChart.
Import ListNotations.
Local Open Scope R_scope.

Lemma rigid_parts M D w : affine M -> (forall p, m4_vec D p = twist w (m4_vec M p)) ->
  topRight D = v3_add (hd3 w) (m3_vec (crossMx (topRight M)) (tl3 w)) /\
  topLeft D = m3_mul (m3_scale (-1) (crossMx (tl3 w))) (topLeft M).
Proof.
  intros Af Pt. rewrite (affine_rt _ Af) in Pt.
  revert Pt. generalize (topLeft M), (topRight M). clear. intros A p Pt.
  pose proof (Pt (V4 0 0 0 1)) as P3.
  pose proof (Pt (V4 1 0 0 0)) as P0. pose proof (Pt (V4 0 1 0 0)) as P1. pose proof (Pt (V4 0 0 1 0)) as P2. clear Pt.
  destruct D as [ [ a0 b0 c0 d0 ] [ a1 b1 c1 d1 ] [ a2 b2 c2 d2 ] [ a3 b3 c3 d3 ] ], A as [ A00 A01 A02 A10 A11 A12 A20 A21 A22 ],
    p as [ u v z ], w as [ [ r0 r1 r2 ] [ f0 f1 f2 ] ].
  revert P0 P1 P2 P3. tunf. intros P0 P1 P2 P3.
  pose proof (f_equal q0 P0) as E00. pose proof (f_equal q1 P0) as E01. pose proof (f_equal q2 P0) as E02.
  pose proof (f_equal q0 P1) as E10. pose proof (f_equal q1 P1) as E11. pose proof (f_equal q2 P1) as E12.
  pose proof (f_equal q0 P2) as E20. pose proof (f_equal q1 P2) as E21. pose proof (f_equal q2 P2) as E22.
  pose proof (f_equal q0 P3) as E30. pose proof (f_equal q1 P3) as E31. pose proof (f_equal q2 P3) as E32.
  clear P0 P1 P2 P3. cbn [q0 q1 q2 q3] in *. split; f_equal; lra.
Qed.

Lemma axis_angle_vector C : 1 / 10 ^ 10 < rot_angle C -> 1 / 10 ^ 10 < v3_norm (skew_part C) -> -1 < half_trace C < 1 ->
  R2AxisAngle C = rv_params C.
Proof.
  intros A N I. assert (P : 0 < 1 / 10 ^ 14 < 1 / 10 ^ 10) by lra.
  rewrite rv_params_vector by (try assumption; lra). rewrite rot_angle_half in A.
  unfold R2AxisAngle. cbv zeta. fold (half_trace C) (skew_part C). rewrite (clamp _ I).
  rewrite !Rabs_pos_eq by lra.
  destruct (ltb_spec (acos (half_trace C)) (1 / 10 ^ 10)) as [L | _]; [ lra | ].
  destruct (ltb_spec (v3_norm (skew_part C)) (1 / 10 ^ 10)) as [L | _]; [ lra | ]. reflexivity.
Qed.

Section Errors.
Variables (inv3 : m3 -> m3) (inv4 : m4 -> m4).
Hypothesis I3 : inverts3 inv3.
Hypothesis I4 : inverts4 inv4.
Variables (th : env) (d : steps).

Lemma transformation_error e prior : ok_t inv4 th e -> unit4 (tq prior) ->
  let C := topLeft (m4_mul (value_t inv4 th e) (tf_T (tf_inverse prior))) in
  1 / 10 ^ 10 < rot_angle C -> 1 / 10 ^ 10 < v3_norm (skew_part C) ->
  exists L rate, error_t_jac inv3 inv4 th th e prior = Some L /\
    v3_derive (fun s => hd3 (error_t inv4 (moved th d s) e prior)) 0 (hd3 rate) /\
    v3_derive (fun s => tl3 (error_t inv4 (moved th d s) e prior)) 0 (tl3 rate) /\
    forall r, applied L d r = v6_at rate r.
Proof using I3 I4.
  intros H U C A N. destruct (expressions inv3 inv4 I3 I4 th d) as (_ & _ & HT & _).
  destruct (HT e H) as (ST & LT & w & D & DT & PT & JT & _).
  set (P := tf_T (tf_inverse prior)) in *.
  assert (SP : SE3 P) by (apply SE3_T; apply good_inverse; exact U).
  destruct (HT (TMul e (TConst P)) (conj H SP)) as (SE & LE & _).
  change (value_t inv4 th (TMul e (TConst P))) with (m4_mul (value_t inv4 th e) P) in SE.
  set (M := fun s => m4_mul (value_t inv4 (moved th d s) e) P).
  assert (M0 : M 0 = m4_mul (value_t inv4 th e) P) by (unfold M; rewrite moved_0; reflexivity).
  assert (QA : perturbed (fun s => value_t inv4 (moved th d s) e) 0 w).
  { exists D. split; [ exact DT | ]. rewrite moved_0. exact PT. }
  assert (QB : perturbed (fun _ : R => P) 0 (V6 v3_zero v3_zero)).
  { destruct (good_tconst inv3 inv4 th d P SP) as (_ & _ & w0 & D0 & A0 & _).
    exists (M4 v4_zero v4_zero v4_zero v4_zero). split.
    - split; [ exact (v4_const_derive (r40 P) 0) | split; [ exact (v4_const_derive (r41 P) 0) | split;
        [ exact (v4_const_derive (r42 P) 0) | exact (v4_const_derive (r43 P) 0) ] ] ].
    - intros p. generalize (m4_vec P p). intros [ a0 a1 a2 a3 ]. destruct p as [ p0 p1 p2 p3 ]. unfold v3_zero, v4_zero. tunf. f_equal; ring. }
  assert (S0 : SE3 (value_t inv4 (moved th d 0) e)) by (rewrite moved_0; exact ST).
  destruct (perturbed_product _ _ 0 w _ S0 QA QB) as (DE & DD & PD).
  replace (v6_add w (m6_vec (boxTimes (value_t inv4 (moved th d 0) e)) (V6 v3_zero v3_zero))) with w in PD.
  2:{ generalize (boxTimes (value_t inv4 (moved th d 0) e)). intros B. destruct w as [ [ r0 r1 r2 ] [ f0 f1 f2 ] ],
        B as [ [ a00 a01 a02 a10 a11 a12 a20 a21 a22 ] [ b00 b01 b02 b10 b11 b12 b20 b21 b22 ]
               [ e00 e01 e02 e10 e11 e12 e20 e21 e22 ] [ g00 g01 g02 g10 g11 g12 g20 g21 g22 ] ]. unfold v3_zero. tunf.
      f_equal; f_equal; ring. }
  fold M in DD. change (forall p, m4_vec DE p = twist w (m4_vec (M 0) p)) in PD. rewrite M0 in PD.
  destruct (rigid_parts _ _ _ (SE3_affine _ SE) PD) as [PR PL].
  assert (SC : SO3 C).
  { destruct SE as (C' & t' & HC). apply rigid_rt in HC. destruct HC as [HC EC].
    unfold C. rewrite EC, topLeft_rt. exact HC. }
  pose proof (topLeft_derive _ _ _ DD) as DC. rewrite PL in DC. fold C in DC.
  assert (P14 : 1 / 10 ^ 14 < 1 / 10 ^ 10) by lra. assert (P10 : 0 < 1 / 10 ^ 10) by lra.
  destruct (rv_chart C SC ltac:(lra) ltac:(lra)) as [_ CH].
  assert (C0 : topLeft (M 0) = C) by (rewrite M0; reflexivity).
  destruct (CH (fun s => topLeft (M s)) (tl3 w) C0) as (pd & DP & SPd).
  { unfold turning. rewrite C0. exact DC. }
  cbn [kP kS k_rv] in DP, SPd.
  assert (HI : -1 < half_trace C < 1) by (apply skew_inside; [ exact SC | lra ]).
  assert (RA : R2AxisAngle C = rv_params C) by (apply axis_angle_vector; assumption).
  destruct (rv_of_params C SC ltac:(lra) ltac:(lra)) as [_ NA].
  assert (Cn : cos (v3_norm (rv_params C)) <> 1).
  { rewrite NA, rot_angle_half, cos_acos by lra. lra. }
  destruct (rv_invS_inverse (rv_params C) ltac:(rewrite NA; lra) Cn) as (Si & ESi & _ & LSi).
  assert (Ipd : m3_vec Si (tl3 w) = pd).
  { rewrite <- SPd. revert LSi. generalize (rv_S (rv_params C)). intros B LSi.
    transitivity (m3_vec (m3_mul Si B) pd); [ | rewrite LSi ]; kring. }
  exists (jac_t inv3 inv4 th th e (rows66 (M6 m3_I (crossMx (topRight (m4_mul (value_t inv4 th e) P))) m3_zero Si))).
  exists (V6 (v3_add (hd3 w) (m3_vec (crossMx (topRight (m4_mul (value_t inv4 th e) P))) (tl3 w))) pd).
  cbn [hd3 tl3]. split; [ | split; [ | split ] ].
  - unfold error_t_jac. fold P. fold C. rewrite RA, ESi. reflexivity.
  - rewrite <- PR. exact (topRight_derive _ _ _ DD).
  - eapply v3_derive_ext_loc; [ | exact DP ].
    rewrite <- C0 in SC, A, N.
    eapply filter_imp; [ | exact (big_near (fun s => topLeft (M s)) _ _ P10 SC (topLeft_derive _ _ _ DD) A N) ].
    cbv beta. intros s (A' & N' & I'). symmetry. exact (axis_angle_vector _ A' N' I').
  - intros r. rewrite JT, rows66_at. f_equal. unfold m6_vec. cbn [c00 c01 c10 c11]. rewrite <- Ipd.
    unfold m3_zero. f_equal; generalize (hd3 w), (tl3 w), (topRight (m4_mul (value_t inv4 th e) P)); kring.
Qed.
End Errors.

(** ** EuclideanDirection *)
Lemma direction_constructed v : v <> v3_zero ->
  exists C, direction v = Some (v3_norm v, C) /\ SO3 C /\ direction_value (v3_norm v, C) = v.
Proof.
  intros N. assert (P : 0 < v3_norm v).
  { destruct (v3_norm_pos v) as [P | P]; [ exact P | ]. exfalso. apply N. symmetry in P.
    unfold v3_norm in P. apply sqrt_eq_0 in P; [ | unfold v3_dot; nra ].
    destruct v as [ a b c ]. unfold v3_zero. revert P. kunf. intros P. f_equal; nra. }
  unfold direction. destruct (ltb_spec 0 (v3_norm v)) as [_ | L]; [ | lra ].
  eexists. split; [ reflexivity | split; [ apply SO3_tr, ypr_SO3 | ] ].
  set (n := v3_norm v) in *.
  assert (S : x0 v * x0 v + x1 v * x1 v + x2 v * x2 v = n * n).
  { unfold n, v3_norm. rewrite sqrt_sqrt; [ destruct v; kunf; ring | destruct v; kunf; nra ]. }
  set (u := v3_scale (/ n) v).
  assert (Su : x0 u * x0 u + x1 u * x1 u + x2 u * x2 u = 1).
  { unfold u. cbn [v3_scale x0 x1 x2]. replace (/ n * x0 v * (/ n * x0 v) + / n * x1 v * (/ n * x1 v) + / n * x2 v * (/ n * x2 v))
      with ((x0 v * x0 v + x1 v * x1 v + x2 v * x2 v) / (n * n)) by (field; lra). rewrite S. field. lra. }
  assert (V : v = v3_scale n u).
  { unfold u. destruct v as [ a b c ]. kunf. f_equal; field; lra. }
  assert (Hu : -1 <= - x0 u <= 1) by nra.
  rewrite V at 1. clearbody u. destruct u as [ ua ub uc ]. cbn [x0 x1 x2] in *. unfold direction_value. cbn [fst snd]. f_equal.
  unfold ypr_C, m3_tr, m3_col2. cbn [x0 x1 x2 m00 m01 m02 m10 m11 m12 m20 m21 m22].
  rewrite sin_asin, cos_asin by exact Hu. unfold Rsqr.
  destruct (Req_dec (ub * ub + uc * uc) 0) as [Z | NZ].
  - assert (ub = 0) by nra. assert (uc = 0) by nra.
    replace (1 - - ua * - ua) with 0 by lra. rewrite sqrt_0.
    f_equal; [ ring | lra | lra ].
  - assert (PZ : 0 < uc * uc + ub * ub) by nra.
    destruct (atan2_coords (uc) (ub) PZ) as (Cc & Sc).
    replace (1 - - ua * - ua) with (uc * uc + ub * ub) by lra. rewrite Sc, Cc.
    f_equal. ring.
Qed.

(** ** MatrixBasic *)
Lemma scatter_other sel : forall d k, ~ In k sel -> scatter sel d k = 0.
Proof.
  induction sel as [ | p sel IH ]; intros d k H; cbn [scatter]; [ reflexivity | ].
  destruct d as [ | x d ]; [ reflexivity | ]. rewrite IH by (intros Q; apply H; right; exact Q).
  destruct (Nat.eqb_spec p k) as [E | E]; [ exfalso; apply H; left; exact E | ring ].
Qed.
Lemma scatter_own sel : NoDup sel -> forall d j, (j < length sel)%nat -> length d = length sel ->
  scatter sel d (nth j sel 0%nat) = nth j d 0.
Proof.
  induction 1 as [ | p sel NI ND IH ]; intros d j Hj Hd; [ inversion Hj | ].
  destruct d as [ | x d ]; [ discriminate | ]. cbn [scatter length] in *. destruct j as [ | j ]; cbn [nth].
  - rewrite Nat.eqb_refl, scatter_other by exact NI. ring.
  - rewrite IH by lia. destruct (Nat.eqb_spec p (nth j sel 0%nat)) as [E | E]; [ | ring ].
    exfalso. apply NI. rewrite E. apply nth_In. lia.
Qed.
Lemma selected pattern : NoDup (matrix_basic_sel pattern) /\
  forall row col, (row < 3)%nat -> (col < 3)%nat ->
    In (col * 3 + row)%nat (matrix_basic_sel pattern) <-> pattern row col = true.
Proof.
  assert (E : matrix_basic_sel pattern = filter (fun k => pattern (k mod 3)%nat (k / 3)%nat) [0; 3; 6; 1; 4; 7; 2; 5; 8]%nat).
  { unfold matrix_basic_sel. cbn -[Nat.div Nat.modulo].
    change (0 mod 3)%nat with 0%nat. change (3 mod 3)%nat with 0%nat. change (6 mod 3)%nat with 0%nat.
    change (1 mod 3)%nat with 1%nat. change (4 mod 3)%nat with 1%nat. change (7 mod 3)%nat with 1%nat.
    change (2 mod 3)%nat with 2%nat. change (5 mod 3)%nat with 2%nat. change (8 mod 3)%nat with 2%nat.
    change (0 / 3)%nat with 0%nat. change (3 / 3)%nat with 1%nat. change (6 / 3)%nat with 2%nat.
    change (1 / 3)%nat with 0%nat. change (4 / 3)%nat with 1%nat. change (7 / 3)%nat with 2%nat.
    change (2 / 3)%nat with 0%nat. change (5 / 3)%nat with 1%nat. change (8 / 3)%nat with 2%nat.
    destruct (pattern 0 0)%nat, (pattern 0 1)%nat, (pattern 0 2)%nat, (pattern 1 0)%nat, (pattern 1 1)%nat,
      (pattern 1 2)%nat, (pattern 2 0)%nat, (pattern 2 1)%nat, (pattern 2 2)%nat; reflexivity. }
  rewrite E. split.
  - apply NoDup_filter. repeat (apply NoDup_cons; [ cbn [In]; lia | ]). apply NoDup_nil.
  - intros row col HR HC. rewrite filter_In.
    assert (M : ((col * 3 + row) mod 3 = row)%nat).
    { rewrite Nat.add_comm, Nat.mod_add by lia. apply Nat.mod_small. exact HR. }
    assert (Q : ((col * 3 + row) / 3 = col)%nat).
    { rewrite Nat.add_comm, Nat.div_add by lia. rewrite Nat.div_small by exact HR. reflexivity. }
    rewrite M, Q. split; [ tauto | ]. intros P. split; [ cbn [In]; lia | exact P ].
Qed.
