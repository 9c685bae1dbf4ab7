(** * Lemmas about quaternions and rotation matrices *)

From Coq Require Import Reals Psatz Nsatz.
From Verif Require Import KinModel KinSpec.
Local Open Scope R_scope.

(** Break every vector and matrix into coefficients and expose them. *)
Ltac kdestruct :=
  repeat match goal with
  | v : v3 |- _ => destruct v
  | v : v4 |- _ => destruct v
  | A : m3 |- _ => destruct A
  | A : m4 |- _ => destruct A
  | A : m43 |- _ => destruct A
  | A : m34 |- _ => destruct A
  end.
Ltac kunf :=
  cbv beta iota zeta delta
    [ x0 x1 x2 q0 q1 q2 q3 m00 m01 m02 m10 m11 m12 m20 m21 m22
      r40 r41 r42 r43 a0 a1 a2 a3 b0 b1 b2
      v3_zero v3_add v3_sub v3_neg v3_scale v3_dot v3_cross
      v4_zero v4_add v4_sub v4_neg v4_scale v4_dot
      m3_row0 m3_row1 m3_row2 m3_col0 m3_col1 m3_col2 m3_I m3_zero m3_add m3_sub
      m3_scale m3_mul m3_vec m3_tr m3_outer m3_det m3_trace
      m4_vec m43_vec m34_vec row_m3 row_m43 row_m4 row_m34 m3_of_rows m4_mul m4_add
      m4_tr m4_I m43_tr m34_tr m43_mul3 m4_mul43 m34_mul43 m43_mul34 m34_mul4
      m3_mul34 m43_scale
      Rx Ry Rz Cx Cy Cz rph2R rph2C crossMx quat2r quatPlus quatOPlus qplus qoplus
      quatInv qeps qeta quatIdentity quatJacobian quatRotate quatS quatInvS quatV
      rodrigues quat_mult ].
Tactic Notation "kunf" "in" hyp(H) :=
  cbv beta iota zeta delta
    [ x0 x1 x2 q0 q1 q2 q3 m00 m01 m02 m10 m11 m12 m20 m21 m22
      r40 r41 r42 r43 a0 a1 a2 a3 b0 b1 b2
      v3_zero v3_add v3_sub v3_neg v3_scale v3_dot v3_cross
      v4_zero v4_add v4_sub v4_neg v4_scale v4_dot
      m3_row0 m3_row1 m3_row2 m3_col0 m3_col1 m3_col2 m3_I m3_zero m3_add m3_sub
      m3_scale m3_mul m3_vec m3_tr m3_outer m3_det m3_trace
      m4_vec m43_vec m34_vec row_m3 row_m43 row_m4 row_m34 m3_of_rows m4_mul m4_add
      m4_tr m4_I m43_tr m34_tr m43_mul3 m4_mul43 m34_mul43 m43_mul34 m34_mul4
      m3_mul34 m43_scale
      Rx Ry Rz Cx Cy Cz rph2R rph2C crossMx quat2r quatPlus quatOPlus qplus qoplus
      quatInv qeps qeta quatIdentity quatJacobian quatRotate quatS quatInvS quatV
      rodrigues quat_mult ] in H.
Ltac kring := intros; kdestruct; kunf; repeat first [ring | f_equal; ring | apply f_equal2 | f_equal].
Ltac kfield := intros; kdestruct; kunf; f_equal; field.

Lemma ltb_spec a b : reflect (a < b) (ltb a b).
Proof. unfold ltb. destruct (Rlt_dec a b); constructor; assumption. Qed.
Lemma eqb_spec a b : reflect (a = b) (eqb a b).
Proof. unfold eqb. destruct (Req_EM_T a b); constructor; assumption. Qed.

(** ** Matrix algebra *)

Lemma m3_mul_assoc A B C : m3_mul A (m3_mul B C) = m3_mul (m3_mul A B) C.
Proof. kring. Qed.
Lemma m3_mul_I_l A : m3_mul m3_I A = A.
Proof. kring. Qed.
Lemma m3_mul_I_r A : m3_mul A m3_I = A.
Proof. kring. Qed.
Lemma m3_vec_mul A B v : m3_vec (m3_mul A B) v = m3_vec A (m3_vec B v).
Proof. kring. Qed.
Lemma m3_vec_I v : m3_vec m3_I v = v.
Proof. kring. Qed.
Lemma m3_tr_mul A B : m3_tr (m3_mul A B) = m3_mul (m3_tr B) (m3_tr A).
Proof. kring. Qed.
Lemma m3_tr_tr A : m3_tr (m3_tr A) = A.
Proof. kring. Qed.
Lemma m3_det_mul A B : m3_det (m3_mul A B) = m3_det A * m3_det B.
Proof. kring. Qed.
Lemma m3_det_tr A : m3_det (m3_tr A) = m3_det A.
Proof. kring. Qed.

(** The adjugate, used to derive the cofactor identities of rotations. *)
Definition m3_adj (A : m3) : m3 :=
  M3 (m11 A * m22 A - m12 A * m21 A) (m02 A * m21 A - m01 A * m22 A) (m01 A * m12 A - m02 A * m11 A)
     (m12 A * m20 A - m10 A * m22 A) (m00 A * m22 A - m02 A * m20 A) (m02 A * m10 A - m00 A * m12 A)
     (m10 A * m21 A - m11 A * m20 A) (m01 A * m20 A - m00 A * m21 A) (m00 A * m11 A - m01 A * m10 A).
Lemma m3_adj_mul A : m3_mul (m3_adj A) A = m3_scale (m3_det A) m3_I.
Proof. unfold m3_adj. kring. Qed.

Lemma SO3_adj C : SO3 C -> m3_adj C = m3_tr C.
Proof.
  intros [H D].
  rewrite <- (m3_mul_I_r (m3_adj C)), <- H, m3_mul_assoc, m3_adj_mul, D.
  replace (m3_scale 1 m3_I) with m3_I by kring. apply m3_mul_I_l.
Qed.
Lemma SO3_tr_l C : SO3 C -> m3_mul (m3_tr C) C = m3_I.
Proof.
  intros H. rewrite <- (SO3_adj _ H), m3_adj_mul. destruct H as [_ ->]. kring.
Qed.
Lemma SO3_tr C : SO3 C -> SO3 (m3_tr C).
Proof.
  intros H. split; [rewrite m3_tr_tr; apply SO3_tr_l, H | rewrite m3_det_tr; apply H].
Qed.
Lemma SO3_mul A B : SO3 A -> SO3 B -> SO3 (m3_mul A B).
Proof.
  intros [H1 D1] [H2 D2]. split.
  - rewrite m3_tr_mul, m3_mul_assoc, <- (m3_mul_assoc A), H2, m3_mul_I_r. exact H1.
  - rewrite m3_det_mul, D1, D2. ring.
Qed.
Lemma SO3_I : SO3 m3_I.
Proof. split; kring. Qed.

Lemma dot_tr A u v : v3_dot (m3_vec A u) v = v3_dot u (m3_vec (m3_tr A) v).
Proof. kring. Qed.
Lemma SO3_dot C : SO3 C -> preserves_dot C.
Proof.
  intros H u v. rewrite dot_tr, <- m3_vec_mul, (SO3_tr_l _ H), m3_vec_I. reflexivity.
Qed.

(** Two matrices acting alike on vectors are equal. *)
Lemma m3_ext A B : (forall v, m3_vec A v = m3_vec B v) -> A = B.
Proof.
  intros H.
  pose proof (H (V3 1 0 0)) as H0. pose proof (H (V3 0 1 0)) as H1. pose proof (H (V3 0 0 1)) as H2.
  clear H. kdestruct. kunf in H0. kunf in H1. kunf in H2.
  injection H0 as ? ? ?. injection H1 as ? ? ?. injection H2 as ? ? ?. f_equal; lra.
Qed.

(** ** Quaternions *)

Lemma quat2r_mul q p : quat2r (qplus q p) = m3_mul (quat2r q) (quat2r p).
Proof. kring. Qed.
Lemma quat2r_inv q : quat2r (quatInv q) = m3_tr (quat2r q).
Proof. kring. Qed.
Lemma quat2r_neg q : quat2r (v4_neg q) = quat2r q.
Proof. kring. Qed.
Lemma unit4_dot q : unit4 q <-> v4_dot q q = 1.
Proof. unfold unit4, v4_dot. reflexivity. Qed.
Lemma v4_dot_qplus q p : v4_dot (qplus q p) (qplus q p) = v4_dot q q * v4_dot p p.
Proof. kring. Qed.
Lemma quat2r_tr q :
  m3_mul (quat2r q) (m3_tr (quat2r q)) = m3_scale (v4_dot q q * v4_dot q q) m3_I.
Proof. kring. Qed.
Lemma quat2r_det q : m3_det (quat2r q) = v4_dot q q * v4_dot q q * v4_dot q q.
Proof. kring. Qed.
Lemma quat2r_SO3 q : unit4 q -> SO3 (quat2r q).
Proof.
  intros H. apply (proj1 (unit4_dot q)) in H. split.
  - rewrite quat2r_tr, H. kring.
  - rewrite quat2r_det, H. ring.
Qed.
Lemma quatRotate_correct q v : unit4 q -> quatRotate q v = m3_vec (quat2r q) v.
Proof.
  intros H. unfold unit4 in H. kdestruct. kunf in H. kunf. f_equal; nsatz.
Qed.

(** ** r2quat *)

Lemma argmax4_spec d :
  let i := argmax4 d in
  (i = 0%nat /\ q1 d <= q0 d /\ q2 d <= q0 d /\ q3 d <= q0 d) \/
  (i = 1%nat /\ q0 d <= q1 d /\ q2 d <= q1 d /\ q3 d <= q1 d) \/
  (i = 2%nat /\ q0 d <= q2 d /\ q1 d <= q2 d /\ q3 d <= q2 d) \/
  (i = 3%nat /\ q0 d <= q3 d /\ q1 d <= q3 d /\ q2 d <= q3 d).
Proof.
  unfold argmax4. cbv zeta.
  destruct (ltb_spec (q0 d) (q1 d)); cbn iota;
    [destruct (ltb_spec (q1 d) (q2 d)) | destruct (ltb_spec (q0 d) (q2 d))]; cbn iota;
    match goal with |- context [ltb ?a ?b] => destruct (ltb_spec a b) end;
    [right; right; right | right; right; left | right; right; right | right; left
     | right; right; right | right; right; left | right; right; right | left];
    (split; [reflexivity | ]); lra.
Qed.

(** The four combinations of diagonal entries of a rotation. *)
Definition diag (C : m3) : v4 :=
  V4 (1 + m00 C - m11 C - m22 C) (1 - m00 C + m11 C - m22 C)
     (1 - m00 C - m11 C + m22 C) (1 + m00 C + m11 C + m22 C).

Lemma SO3_facts C : SO3 C ->
  let d := diag C in
  let c1 := m00 C in let c2 := m10 C in let c3 := m20 C in
  let c4 := m01 C in let c5 := m11 C in let c6 := m21 C in
  let c7 := m02 C in let c8 := m12 C in let c9 := m22 C in
  (q0 d * q1 d = (c4+c2)*(c4+c2) /\ q0 d * q2 d = (c7+c3)*(c7+c3) /\ q0 d * q3 d = (c8-c6)*(c8-c6)) /\
  (q1 d * q2 d = (c6+c8)*(c6+c8) /\ q1 d * q3 d = (c3-c7)*(c3-c7) /\ q2 d * q3 d = (c4-c2)*(c4-c2)) /\
  (q0 d * (c6+c8) = (c4+c2)*(c7+c3) /\ q0 d * (c3-c7) = (c4+c2)*(c8-c6) /\ q0 d * (c4-c2) = (c7+c3)*(c8-c6)) /\
  (q1 d * (c7+c3) = (c4+c2)*(c6+c8) /\ q1 d * (c8-c6) = (c4+c2)*(c3-c7) /\ q1 d * (c4-c2) = (c6+c8)*(c3-c7)) /\
  (q2 d * (c4+c2) = (c7+c3)*(c6+c8) /\ q2 d * (c8-c6) = (c7+c3)*(c4-c2) /\ q2 d * (c3-c7) = (c6+c8)*(c4-c2)) /\
  (q3 d * (c4+c2) = (c8-c6)*(c3-c7) /\ q3 d * (c7+c3) = (c8-c6)*(c4-c2) /\ q3 d * (c6+c8) = (c3-c7)*(c4-c2)).
Proof.
  intros H. pose proof (SO3_adj _ H) as A. pose proof (SO3_tr_l _ H) as B.
  destruct H as [H _]. unfold diag. kdestruct. unfold m3_adj in A.
  kunf in A. kunf in B. kunf in H. kunf.
  injection A as A1 A2 A3 A4 A5 A6 A7 A8 A9.
  injection B as B1 B2 B3 B4 B5 B6 B7 B8 B9.
  injection H as H1 H2 H3 H4 H5 H6 H7 H8 H9.
  clear B2 B3 B6 H2 H3 H6.
  split; [split; [ | split]; nsatz | ].
  split; [split; [ | split]; nsatz | ].
  split; [split; [ | split]; nsatz | ].
  split; [split; [ | split]; nsatz | ].
  split; [split; [ | split]; nsatz | ].
  split; [ | split]; nsatz.
Qed.

Lemma diag_sum C : q0 (diag C) + q1 (diag C) + q2 (diag C) + q3 (diag C) = 4.
Proof. unfold diag. kring. Qed.

Lemma sq_pos a b : b = a * a -> 0 <= b.
Proof. intros ->. nra. Qed.

Lemma max_pos a b c d : a + b + c + d = 4 ->
  Rabs b <= Rabs a -> Rabs c <= Rabs a -> Rabs d <= Rabs a ->
  0 <= a * b -> 0 <= a * c -> 0 <= a * d -> 0 < a.
Proof.
  intros Hs Hb Hc Hd Pb Pc Pd.
  destruct (Rtotal_order a 0) as [L | [E | G]]; [exfalso | exfalso | exact G].
  - assert (b <= 0) by nra. assert (c <= 0) by nra. assert (d <= 0) by nra. lra.
  - subst a. rewrite Rabs_R0 in *.
    pose proof (Rabs_pos b). pose proof (Rabs_pos c). pose proof (Rabs_pos d).
    assert (Rabs b = 0) as Eb by lra. assert (Rabs c = 0) as Ec by lra.
    assert (Rabs d = 0) as Ed by lra.
    pose proof (Rabs_no_R0 b). pose proof (Rabs_no_R0 c). pose proof (Rabs_no_R0 d).
    assert (b = 0) by (destruct (Req_EM_T b 0); tauto).
    assert (c = 0) by (destruct (Req_EM_T c 0); tauto).
    assert (d = 0) by (destruct (Req_EM_T d 0); tauto). lra.
Qed.

Lemma half_root d : 0 < d ->
  exists r k, 1 / 2 * sqrt (Rabs d) = r /\ 1/4 / r = k /\ 4 * (r * r) = d /\ 4 * (r * k) = 1 /\ 0 < r.
Proof.
  intros H. exists (1 / 2 * sqrt (Rabs d)), (1/4 / (1 / 2 * sqrt (Rabs d))).
  rewrite (Rabs_right d) by lra.
  pose proof (sqrt_lt_R0 d H). pose proof (sqrt_sqrt d (Rlt_le _ _ H)).
  split; [reflexivity | split; [reflexivity | split; [nra | split; [field; lra | lra]]]].
Qed.

(** The quaternion before its sign is normalised. *)
Definition r2quat_raw (C : m3) : v4 :=
  let c1 := m00 C in let c2 := m10 C in let c3 := m20 C in
  let c4 := m01 C in let c5 := m11 C in let c6 := m21 C in
  let c7 := m02 C in let c8 := m12 C in let c9 := m22 C in
  let dc := V4 (Rabs (1+c1-c5-c9)) (Rabs (1-c1+c5-c9))
               (Rabs (1-c1-c5+c9)) (Rabs (1+c1+c5+c9)) in
    match argmax4 dc with
    | 0%nat => let r := 1/2 * sqrt (q0 dc) in let c := 1/4 / r in
               V4 r (c*(c4+c2)) (c*(c7+c3)) (c*(c8-c6))
    | 1%nat => let r := 1/2 * sqrt (q1 dc) in let c := 1/4 / r in
               V4 (c*(c4+c2)) r (c*(c6+c8)) (c*(c3-c7))
    | 2%nat => let r := 1/2 * sqrt (q2 dc) in let c := 1/4 / r in
               V4 (c*(c3+c7)) (c*(c6+c8)) r (c*(c4-c2))
    | _ => let r := 1/2 * sqrt (q3 dc) in let c := 1/4 / r in
               V4 (c*(c8-c6)) (c*(c3-c7)) (c*(c4-c2)) r
    end.
Lemma r2quat_raw_eq C :
  r2quat C = if ltb (q3 (r2quat_raw C)) 0 then v4_neg (r2quat_raw C) else r2quat_raw C.
Proof. reflexivity. Qed.

Lemma r2quat_raw_spec C : SO3 C -> unit4 (r2quat_raw C) /\ quat2r (r2quat_raw C) = C.
Proof.
  intros H. pose proof (SO3_facts C H) as F. cbv zeta in F.
  pose proof (diag_sum C) as HS. clear H.
  destruct F as ((F1 & F2 & F3) & (F4 & F5 & F6) & (G1 & G2 & G3) & (G4 & G5 & G6) & (G7 & G8 & G9) & (G10 & G11 & G12)).
  unfold r2quat_raw. cbv zeta.
  pose proof (argmax4_spec (V4 (Rabs (q0 (diag C))) (Rabs (q1 (diag C))) (Rabs (q2 (diag C))) (Rabs (q3 (diag C))))) as A.
  cbv zeta in A. cbn [q0 q1 q2 q3] in A.
  pose proof (sq_pos _ _ F1). pose proof (sq_pos _ _ F2). pose proof (sq_pos _ _ F3).
  pose proof (sq_pos _ _ F4). pose proof (sq_pos _ _ F5). pose proof (sq_pos _ _ F6).
  destruct A as [(E & L1 & L2 & L3) | [(E & L1 & L2 & L3) | [(E & L1 & L2 & L3) | (E & L1 & L2 & L3)]]];
    unfold diag in E; cbn [q0 q1 q2 q3] in E; rewrite E; cbn [q0 q1 q2 q3].
  - assert (P : 0 < q0 (diag C)) by (eapply (max_pos (q0 (diag C)) (q1 (diag C)) (q2 (diag C)) (q3 (diag C))); try assumption; nra).
    destruct (half_root _ P) as (r & k & R1 & R2 & R3 & R4 & R5).
    change (Rabs (1 + m00 C - m11 C - m22 C)) with (Rabs (q0 (diag C))).
    rewrite R1, R2. clear - F1 F2 F3 F4 F5 F6 G1 G2 G3 R3 R4. unfold diag in *. destruct C as [c1 c4 c7 c2 c5 c8 c3 c6 c9]. unfold unit4. kunf in R3. cbn [q0 q1 q2 q3 m00 m01 m02 m10 m11 m12 m20 m21 m22] in *. split; [nsatz | kunf; f_equal; nsatz].
  - assert (P : 0 < q1 (diag C)) by (eapply (max_pos (q1 (diag C)) (q0 (diag C)) (q2 (diag C)) (q3 (diag C))); try assumption; nra).
    destruct (half_root _ P) as (r & k & R1 & R2 & R3 & R4 & R5).
    change (Rabs (1 - m00 C + m11 C - m22 C)) with (Rabs (q1 (diag C))).
    rewrite R1, R2. clear - F1 F2 F3 F4 F5 F6 G4 G5 G6 R3 R4. unfold diag in *. destruct C as [c1 c4 c7 c2 c5 c8 c3 c6 c9]. unfold unit4. kunf in R3. cbn [q0 q1 q2 q3 m00 m01 m02 m10 m11 m12 m20 m21 m22] in *. split; [nsatz | kunf; f_equal; nsatz].
  - assert (P : 0 < q2 (diag C)) by (eapply (max_pos (q2 (diag C)) (q0 (diag C)) (q1 (diag C)) (q3 (diag C))); try assumption; nra).
    destruct (half_root _ P) as (r & k & R1 & R2 & R3 & R4 & R5).
    change (Rabs (1 - m00 C - m11 C + m22 C)) with (Rabs (q2 (diag C))).
    rewrite R1, R2. clear - F1 F2 F3 F4 F5 F6 G7 G8 G9 R3 R4. unfold diag in *. destruct C as [c1 c4 c7 c2 c5 c8 c3 c6 c9]. unfold unit4. kunf in R3. cbn [q0 q1 q2 q3 m00 m01 m02 m10 m11 m12 m20 m21 m22] in *. split; [nsatz | kunf; f_equal; nsatz].
  - assert (P : 0 < q3 (diag C)) by (eapply (max_pos (q3 (diag C)) (q0 (diag C)) (q1 (diag C)) (q2 (diag C))); try assumption; nra).
    destruct (half_root _ P) as (r & k & R1 & R2 & R3 & R4 & R5).
    change (Rabs (1 + m00 C + m11 C + m22 C)) with (Rabs (q3 (diag C))).
    rewrite R1, R2. clear - F1 F2 F3 F4 F5 F6 G10 G11 G12 R3 R4. unfold diag in *. destruct C as [c1 c4 c7 c2 c5 c8 c3 c6 c9]. unfold unit4. kunf in R3. cbn [q0 q1 q2 q3 m00 m01 m02 m10 m11 m12 m20 m21 m22] in *. split; [nsatz | kunf; f_equal; nsatz].
Qed.

Lemma unit4_neg q : unit4 q -> unit4 (v4_neg q).
Proof. unfold unit4, v4_neg. cbn [q0 q1 q2 q3]. intros H. rewrite <- H. ring. Qed.

Lemma r2quat_spec C : SO3 C ->
  unit4 (r2quat C) /\ quat2r (r2quat C) = C /\ 0 <= q3 (r2quat C).
Proof.
  intros H. destruct (r2quat_raw_spec C H) as (U & E). rewrite r2quat_raw_eq.
  destruct (ltb_spec (q3 (r2quat_raw C)) 0) as [L | L].
  - split; [apply unit4_neg, U | split; [rewrite quat2r_neg; exact E | ]].
    unfold v4_neg. cbn [q3]. lra.
  - split; [exact U | split; [exact E | lra]].
Qed.

(** Two unit quaternions give the same rotation only if they agree up to sign. *)
Lemma quat2r_inj q p : unit4 q -> unit4 p -> quat2r q = quat2r p -> q = p \/ q = v4_neg p.
Proof.
  intros Uq Up E.
  assert (Ei : quat2r (qplus (quatInv q) p) = m3_I).
  { rewrite quat2r_mul, quat2r_inv, <- E. apply SO3_tr_l, quat2r_SO3, Uq. }
  set (s := qplus (quatInv q) p) in *.
  assert (Es : qplus q s = p).
  { unfold s. unfold unit4 in Uq. clear - Uq. kdestruct. kunf in Uq. kunf. f_equal; nsatz. }
  assert (Us : unit4 s).
  { apply unit4_dot. unfold s. rewrite v4_dot_qplus.
    assert (v4_dot (quatInv q) (quatInv q) = 1) as -> by (rewrite <- Uq; kring).
    assert (v4_dot p p = 1) as -> by exact Up. ring. }
  assert (Hs : s = quatIdentity \/ s = v4_neg quatIdentity).
  { clear - Ei Us. unfold unit4 in Us. destruct s as [a b c d]. kunf in Ei. kunf in Us.
    injection Ei as E1 E2 E3 E4 E5 E6 E7 E8 E9.
    assert (a * a = 0) by lra. assert (b * b = 0) by lra. assert (c * c = 0) by lra.
    assert (a = 0) by nra. assert (b = 0) by nra. assert (c = 0) by nra. subst a b c.
    assert ((d - 1) * (d + 1) = 0) as Hd by lra.
    unfold quatIdentity, v4_neg. cbn [q0 q1 q2 q3].
    destruct (Rmult_integral _ _ Hd) as [Hd' | Hd']; [left | right]; f_equal; lra. }
  destruct Hs as [-> | ->]; rewrite <- Es; [left | right]; kring.
Qed.

Lemma r2quat_quat2r q : unit4 q ->
  (r2quat (quat2r q) = q \/ r2quat (quat2r q) = v4_neg q) /\ 0 <= q3 (r2quat (quat2r q)).
Proof.
  intros U. destruct (r2quat_spec _ (quat2r_SO3 _ U)) as (U' & E & P).
  split; [ | exact P]. apply quat2r_inj; assumption.
Qed.
