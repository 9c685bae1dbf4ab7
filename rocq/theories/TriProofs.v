(** * Lemmas about the closest points of two lines *)
From Coq Require Import Reals Lra.
From Verif Require Import KinModel TriModel TriSpec.
Local Open Scope R_scope.

Lemma v3_ext a b : x0 a = x0 b -> x1 a = x1 b -> x2 a = x2 b -> a = b.
Proof. destruct a as [a0 a1 a2], b as [b0 b1 b2]; cbn [x0 x1 x2]. intros -> -> ->. reflexivity. Qed.
Lemma sq3_nonneg a b c : 0 <= a ^ 2 + b ^ 2 + c ^ 2.
Proof. pose proof (pow2_ge_0 a). pose proof (pow2_ge_0 b). pose proof (pow2_ge_0 c). lra. Qed.
Lemma sq3_zero a b c : a ^ 2 + b ^ 2 + c ^ 2 = 0 -> a = 0 /\ b = 0 /\ c = 0.
Proof.
  intros H. pose proof (pow2_ge_0 a). pose proof (pow2_ge_0 b). pose proof (pow2_ge_0 c).
  assert (Z : forall t, t ^ 2 = 0 -> t = 0) by (intros t T; apply Rsqr_0_uniq; unfold Rsqr; lra).
  split; [ apply Z; lra | split; apply Z; lra ].
Qed.
Lemma sq_dist_nonneg a b : 0 <= sq_dist a b.
Proof. apply sq3_nonneg. Qed.
Lemma sq_dist_zero a b : sq_dist a b = 0 -> a = b.
Proof. intros H. destruct (sq3_zero _ _ _ H) as (A & B & C). apply v3_ext; lra. Qed.
Definition cross_sq (a b : v3) : R := (x1 a * x2 b - x2 a * x1 b) ^ 2 + (x2 a * x0 b - x0 a * x2 b) ^ 2 + (x0 a * x1 b - x1 a * x0 b) ^ 2.
Lemma det_cross a b : v3_dot a a * - v3_dot b b - v3_dot a b * - v3_dot a b = - cross_sq a b.
Proof. unfold v3_dot, cross_sq. ring. Qed.
Lemma cross_sq_pos a b : independent a b -> 0 < cross_sq a b.
Proof.
  intros I. destruct (Rle_lt_or_eq_dec 0 (cross_sq a b)) as [ H | H ]; [ apply sq3_nonneg | exact H | ]. exfalso. apply I. symmetry in H. unfold cross_sq in H.
  destruct (sq3_zero _ _ _ H) as (A & B & C).
  destruct (Req_dec (x0 a) 0) as [ A0 | A0 ].
  - destruct (Req_dec (x1 a) 0) as [ A1 | A1 ].
    + destruct (Req_dec (x2 a) 0) as [ A2 | A2 ].
      * exists 0. right. apply v3_ext; cbn [x0 x1 x2]; lra.
      * exists (x2 b / x2 a). left. rewrite A0, A1 in *. apply v3_ext; cbn [x0 x1 x2]; [ nra | nra | field; exact A2 ].
    + exists (x1 b / x1 a). left. rewrite A0 in *. apply v3_ext; cbn [x0 x1 x2]; [ nra | field; exact A1 | ].
      apply (Rmult_eq_reg_l (x1 a)); [ | exact A1 ]. replace (x1 a * (x1 b / x1 a * x2 a)) with (x1 b * x2 a) by (field; exact A1). lra.
  - exists (x0 b / x0 a). left. apply v3_ext; cbn [x0 x1 x2]; [ field; exact A0 | | ]; apply (Rmult_eq_reg_l (x0 a)); try exact A0.
    + replace (x0 a * (x0 b / x0 a * x1 a)) with (x0 b * x1 a) by (field; exact A0). lra.
    + replace (x0 a * (x0 b / x0 a * x2 a)) with (x0 b * x2 a) by (field; exact A0). lra.
Qed.
Lemma cross_sq_dep a b : ~ independent a b -> cross_sq a b = 0.
Proof.
  intros N. destruct (Req_dec (cross_sq a b) 0) as [ E | E ]; [ exact E | ]. exfalso. apply N. intros (k & [ -> | -> ]); apply E; unfold cross_sq; cbn [x0 x1 x2]; ring.
Qed.

Lemma triangulate_some p1 r1 p2 r2 : independent r1 r2 -> exists r, triangulate p1 r1 p2 r2 = Some r /\
  v3_dot (v3_sub (along p1 r1 (s1 r)) (along p2 r2 (s2 r))) r1 = 0 /\
  v3_dot (v3_sub (along p1 r1 (s1 r)) (along p2 r2 (s2 r))) r2 = 0 /\
  gap r = dist (along p1 r1 (s1 r)) (along p2 r2 (s2 r)) /\
  point r = along (along p1 r1 (s1 r)) (v3_sub (along p2 r2 (s2 r)) (along p1 r1 (s1 r))) (1 / 2).
Proof.
  intros I. pose proof (cross_sq_pos _ _ I) as P. unfold triangulate. cbv zeta. rewrite det_cross.
  destruct (Req_EM_T (- cross_sq r1 r2) 0) as [ E | NE ]; [ lra | ]. eexists. split; [ reflexivity | ]. cbn [s1 s2 gap point].
  set (l0 := - v3_dot r2 r2 / - cross_sq r1 r2 * v3_dot (v3_sub p2 p1) r1 + - - v3_dot r1 r2 / - cross_sq r1 r2 * v3_dot (v3_sub p2 p1) r2).
  set (l1 := - v3_dot r1 r2 / - cross_sq r1 r2 * v3_dot (v3_sub p2 p1) r1 + v3_dot r1 r1 / - cross_sq r1 r2 * v3_dot (v3_sub p2 p1) r2).
  assert (C : cross_sq r1 r2 = v3_dot r1 r1 * v3_dot r2 r2 - v3_dot r1 r2 * v3_dot r1 r2) by (unfold v3_dot, cross_sq; ring).
  assert (E0 : l0 * v3_dot r1 r1 - l1 * v3_dot r1 r2 = v3_dot (v3_sub p2 p1) r1).
  { unfold l0, l1. rewrite C. field. rewrite <- C. lra. }
  assert (E1 : l0 * v3_dot r1 r2 - l1 * v3_dot r2 r2 = v3_dot (v3_sub p2 p1) r2).
  { unfold l0, l1. rewrite C. field. rewrite <- C. lra. }
  split; [ | split; [ | split ] ].
  - replace (v3_dot (v3_sub (along p1 r1 l0) (along p2 r2 l1)) r1) with (l0 * v3_dot r1 r1 - l1 * v3_dot r1 r2 - v3_dot (v3_sub p2 p1) r1); [ lra | ].
    unfold v3_dot, v3_sub, along. cbn [x0 x1 x2]. ring.
  - replace (v3_dot (v3_sub (along p1 r1 l0) (along p2 r2 l1)) r2) with (l0 * v3_dot r1 r2 - l1 * v3_dot r2 r2 - v3_dot (v3_sub p2 p1) r2); [ lra | ].
    unfold v3_dot, v3_sub, along. cbn [x0 x1 x2]. ring.
  - unfold v3_norm, dist. f_equal. unfold v3_dot, v3_sub, v3_add, v3_scale, along, sq_dist. cbn [x0 x1 x2]. ring.
  - apply v3_ext; unfold v3_sub, v3_add, v3_scale, along; cbn [x0 x1 x2]; field.
Qed.
(** The squared distance of any two points of the lines. *)
Lemma split_dist p1 r1 p2 r2 a b a' b' :
  v3_dot (v3_sub (along p1 r1 a) (along p2 r2 b)) r1 = 0 -> v3_dot (v3_sub (along p1 r1 a) (along p2 r2 b)) r2 = 0 ->
  sq_dist (along p1 r1 a') (along p2 r2 b') = sq_dist (along p1 r1 a) (along p2 r2 b) +
    ((a' - a) * x0 r1 - (b' - b) * x0 r2) ^ 2 + ((a' - a) * x1 r1 - (b' - b) * x1 r2) ^ 2 + ((a' - a) * x2 r1 - (b' - b) * x2 r2) ^ 2.
Proof.
  intros E0 E1.
  replace (sq_dist (along p1 r1 a') (along p2 r2 b')) with (sq_dist (along p1 r1 a) (along p2 r2 b) +
    ((a' - a) * x0 r1 - (b' - b) * x0 r2) ^ 2 + ((a' - a) * x1 r1 - (b' - b) * x1 r2) ^ 2 + ((a' - a) * x2 r1 - (b' - b) * x2 r2) ^ 2 +
    2 * (a' - a) * v3_dot (v3_sub (along p1 r1 a) (along p2 r2 b)) r1 - 2 * (b' - b) * v3_dot (v3_sub (along p1 r1 a) (along p2 r2 b)) r2).
  - rewrite E0, E1. ring.
  - unfold v3_dot, v3_sub, along, sq_dist. cbn [x0 x1 x2]. ring.
Qed.
Lemma indep_zero r1 r2 a b : independent r1 r2 ->
  (a * x0 r1 - b * x0 r2) ^ 2 + (a * x1 r1 - b * x1 r2) ^ 2 + (a * x2 r1 - b * x2 r2) ^ 2 = 0 -> a = 0 /\ b = 0.
Proof.
  intros I H. pose proof (cross_sq_pos _ _ I) as P.
  destruct (sq3_zero _ _ _ H) as (X & Y & Z). clear H.
  assert (C : a * a * cross_sq r1 r2 = 0).
  { replace (a * a * cross_sq r1 r2) with (((a * x1 r1 - b * x1 r2) * x2 r2 - (a * x2 r1 - b * x2 r2) * x1 r2) ^ 2 + ((a * x2 r1 - b * x2 r2) * x0 r2 - (a * x0 r1 - b * x0 r2) * x2 r2) ^ 2 + ((a * x0 r1 - b * x0 r2) * x1 r2 - (a * x1 r1 - b * x1 r2) * x0 r2) ^ 2) by (unfold cross_sq; ring).
    rewrite X, Y, Z. ring. }
  assert (D : b * b * cross_sq r1 r2 = 0).
  { replace (b * b * cross_sq r1 r2) with (((a * x1 r1 - b * x1 r2) * x2 r1 - (a * x2 r1 - b * x2 r2) * x1 r1) ^ 2 + ((a * x2 r1 - b * x2 r2) * x0 r1 - (a * x0 r1 - b * x0 r2) * x2 r1) ^ 2 + ((a * x0 r1 - b * x0 r2) * x1 r1 - (a * x1 r1 - b * x1 r2) * x0 r1) ^ 2) by (unfold cross_sq; ring).
    rewrite X, Y, Z. ring. }
  split; [ destruct (Rmult_integral _ _ C) as [ H | H ] | destruct (Rmult_integral _ _ D) as [ H | H ] ]; [ | lra | | lra ]; apply Rsqr_0_uniq; exact H.
Qed.
(** Two points cannot both be closer to a third than half their distance. *)
Lemma midpoint_sq a b y : sq_dist a b / 2 <= sq_dist y a + sq_dist y b.
Proof.
  replace (sq_dist y a + sq_dist y b) with (sq_dist a b / 2 + 2 * ((x0 y - (x0 a + x0 b) / 2) ^ 2 + (x1 y - (x1 a + x1 b) / 2) ^ 2 + (x2 y - (x2 a + x2 b) / 2) ^ 2)) by (unfold sq_dist; field).
  pose proof (sq3_nonneg (x0 y - (x0 a + x0 b) / 2) (x1 y - (x1 a + x1 b) / 2) (x2 y - (x2 a + x2 b) / 2)). lra.
Qed.
Lemma midpoint_eq a b : sq_dist (along a (v3_sub b a) (1 / 2)) a + sq_dist (along a (v3_sub b a) (1 / 2)) b = sq_dist a b / 2.
Proof. unfold sq_dist, along, v3_sub. cbn [x0 x1 x2]. field. Qed.
