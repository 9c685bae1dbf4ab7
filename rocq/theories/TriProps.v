(** * C101: triangulation from two rays *)
From Coq Require Import Reals Lra.
From Verif Require Import KinModel TriModel TriSpec TriProofs.
Local Open Scope R_scope.

(** The result is defined exactly when the rays are not parallel. *)
Theorem C101_defined : forall p1 r1 p2 r2, triangulate p1 r1 p2 r2 <> None <-> independent r1 r2.
Proof.
  intros p1 r1 p2 r2. split.
  - intros N (k & K). apply N. assert (Z : cross_sq r1 r2 = 0) by (apply cross_sq_dep; intros I; apply I; exists k; exact K).
    unfold triangulate. cbv zeta. rewrite det_cross, Z. destruct (Req_EM_T (- 0) 0) as [ _ | B ]; [ reflexivity | exfalso; apply B; ring ].
  - intros I. destruct (triangulate_some p1 r1 p2 r2 I) as (r & -> & _). discriminate.
Qed.
Print Assumptions C101_defined.

(** The gap is the distance of the lines, reached at the returned parameters and
    nowhere else, and the point is half way between the two closest points. *)
Theorem C101_closest : forall p1 r1 p2 r2 r, triangulate p1 r1 p2 r2 = Some r ->
  let m := along p1 r1 (s1 r) in let n := along p2 r2 (s2 r) in
  gap r = dist m n /\
  (forall a b, gap r <= dist (along p1 r1 a) (along p2 r2 b)) /\
  (forall a b, dist (along p1 r1 a) (along p2 r2 b) = gap r -> a = s1 r /\ b = s2 r) /\
  dist (point r) m = gap r / 2 /\ dist (point r) n = gap r / 2 /\
  (forall y a b, sq_dist (point r) m + sq_dist (point r) n <= sq_dist y (along p1 r1 a) + sq_dist y (along p2 r2 b)).
Proof.
  intros p1 r1 p2 r2 r E. assert (I : independent r1 r2) by (apply (proj1 (C101_defined p1 r1 p2 r2)); congruence).
  destruct (triangulate_some p1 r1 p2 r2 I) as (q & Q & E0 & E1 & G & P). assert (q = r) by congruence. subst q. cbv zeta.
  pose proof (fun a b => split_dist p1 r1 p2 r2 (s1 r) (s2 r) a b E0 E1) as SD.
  set (m := along p1 r1 (s1 r)) in *. set (n := along p2 r2 (s2 r)) in *.
  assert (LE : forall a b, sq_dist m n <= sq_dist (along p1 r1 a) (along p2 r2 b)) by (intros a b; rewrite SD; pose proof (sq3_nonneg ((a - s1 r) * x0 r1 - (b - s2 r) * x0 r2) ((a - s1 r) * x1 r1 - (b - s2 r) * x1 r2) ((a - s1 r) * x2 r1 - (b - s2 r) * x2 r2)); lra).
  assert (HALF : forall d, 0 <= d -> sqrt (d / 4) = sqrt d / 2).
  { intros d D. replace (d / 4) with (d / (2 * 2)) by field. rewrite sqrt_div_alt by lra. rewrite sqrt_square by lra. reflexivity. }
  split; [ exact G | ]. split.
  { intros a b. rewrite G. unfold dist. apply sqrt_le_1_alt. apply LE. }
  split.
  { intros a b H. rewrite G in H. unfold dist in H. apply sqrt_inj in H; [ | apply sq_dist_nonneg | apply sq_dist_nonneg ]. rewrite SD in H.
    destruct (indep_zero r1 r2 (a - s1 r) (b - s2 r) I) as [A B]; [ lra | ]. split; lra. }
  split. { rewrite G, P. unfold dist. rewrite <- HALF by apply sq_dist_nonneg. f_equal. unfold sq_dist, along, v3_sub. cbn [x0 x1 x2]. field. }
  split. { rewrite G, P. unfold dist. rewrite <- HALF by apply sq_dist_nonneg. f_equal. unfold sq_dist, along, v3_sub. cbn [x0 x1 x2]. field. }
  intros y a b. rewrite P, midpoint_eq. pose proof (midpoint_sq (along p1 r1 a) (along p2 r2 b) y). specialize (LE a b). lra.
Qed.
Print Assumptions C101_closest.

(** Two rays through a point give back that point. *)
Theorem C101_exact : forall p1 r1 p2 r2 y a b, independent r1 r2 -> along p1 r1 a = y -> along p2 r2 b = y ->
  triangulate p1 r1 p2 r2 = Some (Result y 0 a b).
Proof.
  intros p1 r1 p2 r2 y a b I A B. destruct (triangulate_some p1 r1 p2 r2 I) as (r & E & _). rewrite E. f_equal.
  destruct (C101_closest p1 r1 p2 r2 r E) as (G & LE & U & M & N & _).
  assert (Z : dist (along p1 r1 a) (along p2 r2 b) = 0). { rewrite A, B. unfold dist. replace (sq_dist y y) with 0 by (unfold sq_dist; ring). apply sqrt_0. }
  assert (G0 : gap r = 0). { specialize (LE a b). rewrite Z in LE. assert (0 <= gap r) by (rewrite G; apply sqrt_pos). lra. }
  destruct (U a b) as [S1 S2]; [ lra | ]. rewrite <- S1, A, G0 in M.
  assert (P : point r = y). { apply sq_dist_zero. apply sqrt_eq_0; [ apply sq_dist_nonneg | ]. unfold dist in M. lra. }
  destruct r as [p g t1 t2]. cbn [point gap s1 s2] in *. congruence.
Qed.
Print Assumptions C101_exact.

(** The order of the two rays does not matter. *)
Theorem C101_symmetric : forall p1 r1 p2 r2 r, triangulate p1 r1 p2 r2 = Some r ->
  triangulate p2 r2 p1 r1 = Some (Result (point r) (gap r) (s2 r) (s1 r)).
Proof.
  intros p1 r1 p2 r2 r E. assert (I : independent r1 r2) by (apply (proj1 (C101_defined p1 r1 p2 r2)); congruence).
  assert (J : independent r2 r1) by (intros (k & K); apply I; exists k; tauto).
  destruct (triangulate_some p1 r1 p2 r2 I) as (q & Q & _ & _ & _ & P). assert (q = r) by congruence. subst q.
  destruct (triangulate_some p2 r2 p1 r1 J) as (q & Q' & _ & _ & _ & P'). rewrite Q'. f_equal.
  destruct (C101_closest _ _ _ _ _ E) as (G & LE & U & _). destruct (C101_closest _ _ _ _ _ Q') as (G' & LE' & _).
  assert (SYM : forall a b, dist a b = dist b a) by (intros a b; unfold dist; f_equal; unfold sq_dist; ring).
  assert (EG : gap q = gap r). { apply Rle_antisym; [ rewrite G, SYM; apply LE' | rewrite G', SYM; apply LE ]. }
  destruct (U (s2 q) (s1 q)) as [S1 S2]; [ rewrite SYM, <- G'; exact EG | ].
  assert (EP : point q = point r). { rewrite P, P', S1, S2. apply v3_ext; unfold along, v3_sub; cbn [x0 x1 x2]; field. }
  destruct q as [p g t1 t2]. cbn [point gap s1 s2] in *. congruence.
Qed.
Print Assumptions C101_symmetric.

(** The parameter is the distance along the ray if the ray has unit length. *)
Theorem C101_distance : forall p1 r1 p2 r2 r, triangulate p1 r1 p2 r2 = Some r ->
  (v3_dot r1 r1 = 1 -> dist p1 (along p1 r1 (s1 r)) = Rabs (s1 r)) /\ (v3_dot r2 r2 = 1 -> dist p2 (along p2 r2 (s2 r)) = Rabs (s2 r)).
Proof.
  assert (K : forall p q s, v3_dot q q = 1 -> dist p (along p q s) = Rabs s).
  { intros p q s U. unfold dist. replace (sq_dist p (along p q s)) with (s * s * v3_dot q q) by (unfold sq_dist, along, v3_dot; cbn [x0 x1 x2]; ring).
    rewrite U, Rmult_1_r. apply sqrt_Rsqr_abs. }
  intros p1 r1 p2 r2 r _. split; apply K.
Qed.
Print Assumptions C101_distance.

Lemma indep_ex (a b : v3) : x0 a * x1 b - x1 a * x0 b <> 0 -> independent a b.
Proof. intros N (k & [ -> | -> ]); apply N; cbn [x0 x1 x2]; ring. Qed.
(** For other rays it is not, and it is negative for a point behind the camera, which
    is returned like any other. *)
Theorem C101_distance_refuted :
  exists p1 r1 p2 r2 y, triangulate p1 r1 p2 r2 = Some (Result y 0 (1 / 2) (1 / 2)) /\ dist p1 y = 1 /\ dist p2 y = 1.
Proof.
  exists (V3 0 0 0), (V3 2 0 0), (V3 1 1 0), (V3 0 (-2) 0), (V3 1 0 0). split; [ | split ].
  - apply C101_exact; [ apply indep_ex; cbn [x0 x1 x2]; lra | apply v3_ext; cbn [along x0 x1 x2]; field | apply v3_ext; cbn [along x0 x1 x2]; field ].
  - unfold dist. replace (sq_dist _ _) with 1 by (unfold sq_dist; cbn [x0 x1 x2]; ring). apply sqrt_1.
  - unfold dist. replace (sq_dist _ _) with 1 by (unfold sq_dist; cbn [x0 x1 x2]; ring). apply sqrt_1.
Qed.
Print Assumptions C101_distance_refuted.
Theorem C101_behind_refuted :
  exists p1 r1 p2 r2 y, triangulate p1 r1 p2 r2 = Some (Result y 0 (-1) (-1)).
Proof.
  exists (V3 0 0 0), (V3 1 0 0), (V3 0 1 0), (V3 1 1 0), (V3 (-1) 0 0).
  apply C101_exact; [ apply indep_ex; cbn [x0 x1 x2]; lra | apply v3_ext; cbn [along x0 x1 x2]; ring | apply v3_ext; cbn [along x0 x1 x2]; ring ].
Qed.
Print Assumptions C101_behind_refuted.

Example C101_ex : exists r, triangulate (V3 0 0 0) (V3 1 0 0) (V3 3 2 2) (V3 0 1 0) = Some r /\ point r = V3 3 0 1 /\ gap r = 2 /\ s1 r = 3 /\ s2 r = -2.
Proof.
  destruct (triangulate_some (V3 0 0 0) (V3 1 0 0) (V3 3 2 2) (V3 0 1 0)) as (r & E & E0 & E1 & G & P). { apply indep_ex. cbn [x0 x1 x2]. lra. }
  exists r. unfold v3_dot, v3_sub, along in E0, E1. cbn [x0 x1 x2] in E0, E1. assert (S1 : s1 r = 3) by lra. assert (S2 : s2 r = -2) by lra.
  split; [ exact E | split; [ rewrite P, S1, S2; apply v3_ext; cbn [along v3_sub x0 x1 x2]; field | split; [ | split; assumption ] ] ].
  rewrite G, S1, S2. unfold dist. replace (sq_dist _ _) with (2 * 2) by (unfold sq_dist, along; cbn [x0 x1 x2]; ring). apply sqrt_square. lra.
Qed.
