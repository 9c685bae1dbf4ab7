(** * C99: aligning two sets of points *)
From Coq Require Import Reals Lra List.
From Verif Require Import KinModel KinSpec KinProofs TpModel TpSpec TpProofs.
Import ListNotations.
Local Open Scope R_scope.

(** The singular value method returns the matrix of a rigid motion whose misfit no
    rigid motion beats. *)
Theorem C99_svd : forall svd l c0 c1, l <> [] ->
  centroid (map fst l) c0 -> centroid (map snd l) c1 ->
  is_svd (scatter c0 c1 l) (svd (scatter c0 c1 l)) ->
  exists C t, three_point svd l = rigid C t /\ SO3 C /\
              forall C' t', SO3 C' -> misfit C t l <= misfit C' t' l.
Proof.
  intros svd l c0 c1 N E0 E1 S. pose proof (three_point_chosen svd l c0 c1 N E0 E1) as E.
  destruct (svd (scatter c0 c1 l)) as [[U s] V]. pose proof (fun C => chosen_best U s V _ C S) as B.
  exists (chosen U V), (v3_sub c0 (m3_vec (chosen U V) c1)).
  assert (SC : SO3 (chosen U V)) by (apply (B m3_I SO3_I)). split; [ exact E | split; [ exact SC | ] ].
  intros C' t' S'. rewrite (misfit_centred _ _ c0 c1 l SC E0 E1), (misfit_centred _ _ c0 c1 l S' E0 E1), sqdist_refl.
  pose proof (proj2 (B C' S')). pose proof (sqdist_pos (v3_sub c0 (m3_vec C' c1)) t'). pose proof (pos_INR (length l)).
  assert (0 <= INR (length l) * sqdist (v3_sub c0 (m3_vec C' c1)) t') by (apply Rmult_le_pos; assumption). lra.
Qed.

(** If the sets are related by a rigid motion and three of the points do not lie on a
    line, that motion is returned. *)
Theorem C99_exact : forall svd l c0 c1 C t a b c pa pb pc, l <> [] ->
  centroid (map fst l) c0 -> centroid (map snd l) c1 ->
  is_svd (scatter c0 c1 l) (svd (scatter c0 c1 l)) ->
  SO3 C -> (forall p0 p1, In (p0, p1) l -> p0 = v3_add (m3_vec C p1) t) ->
  In (pa, a) l -> In (pb, b) l -> In (pc, c) l -> spread a b c ->
  three_point svd l = rigid C t.
Proof.
  intros svd l c0 c1 C t a b c pa pb pc N E0 E1 S SC X Ia Ib Ic SP.
  destruct (C99_svd svd l c0 c1 N E0 E1 S) as (D & u & E & SD & B). rewrite E.
  assert (Z : misfit D u l <= 0) by (rewrite <- (misfit_exact C t l X); apply B; exact SC).
  assert (P : forall m, 0 <= misfit D u m).
  { clear. induction m as [ | p m IH ]; [ cbn; lra | ]. change (0 <= sqdist (fst p) (v3_add (m3_vec D (snd p)) u) + misfit D u m).
    pose proof (sqdist_pos (fst p) (v3_add (m3_vec D (snd p)) u)). lra. }
  assert (Z0 : misfit D u l = 0) by (pose proof (P l); lra). pose proof (misfit_zero D u l Z0) as Y.
  destruct (rigid_unique D u C t a b c SD SC SP) as [ -> -> ]; [ | | | reflexivity ].
  - rewrite <- (Y _ _ Ia). apply X. exact Ia.
  - rewrite <- (Y _ _ Ib). apply X. exact Ib.
  - rewrite <- (Y _ _ Ic). apply X. exact Ic.
Qed.

(** Davenport's method returns a rotation whose weighted misfit no rotation beats. *)
Theorem C99_q : forall eig l, Forall (fun p => 0 <= fst p) l ->
  (forall K, is_davenport l K -> is_eig K (eig K)) ->
  SO3 (q_method eig l) /\ forall C', SO3 C' -> wmisfit (q_method eig l) l <= wmisfit C' l.
Proof.
  intros eig l W H. pose proof (davenport_ok l W) as D. pose proof (H _ D) as G. unfold q_method.
  destruct (eig (davenport (profile l))) as [e V]. set (m := largest e [1; 2; 3]%nat 0%nat).
  assert (N : v4_dot (col4 V m) (col4 V m) = 1) by (apply (best_quaternion _ e V quatIdentity G); unfold unit4, quatIdentity; cbn; ring).
  rewrite (unit_scale _ N). cbv zeta. rewrite code_matrix.
  assert (U : unit4 (col4 V m)) by (apply unit4_dot; exact N). pose proof (quat2r_SO3 _ U) as SC. split; [ exact SC | ].
  intros C' S'. rewrite (wmisfit_split _ _ SC), (wmisfit_split _ _ S'). destruct D as [_ D]. rewrite <- (D (col4 V m)).
  destruct (r2quat_raw_spec C' S') as [U' E']. rewrite <- E', <- (D (r2quat_raw C')).
  pose proof (proj2 (best_quaternion _ e V _ G U')) as B. fold m in B. lra.
Qed.

Lemma misfit_wmisfit C l : misfit C v3_zero l = wmisfit C (map (fun p => (1, p)) l).
Proof.
  induction l as [ | [a b] l IH ]; [ reflexivity | ].
  change (sqdist a (v3_add (m3_vec C b) v3_zero) + misfit C v3_zero l = 1 * sqdist a (m3_vec C b) + wmisfit C (map (fun p => (1, p)) l)).
  rewrite IH. replace (v3_add (m3_vec C b) v3_zero) with (m3_vec C b) by (destruct (m3_vec C b); kunf; f_equal; ring). ring.
Qed.

(** Without weights every pair counts one. *)
Theorem C99_q_equal : forall eig l,
  (forall K, is_davenport (map (fun p => (1, p)) l) K -> is_eig K (eig K)) ->
  SO3 (q_method_equal eig l) /\ forall C', SO3 C' -> misfit (q_method_equal eig l) v3_zero l <= misfit C' v3_zero l.
Proof.
  intros eig l H. assert (W : Forall (fun p : R * (v3 * v3) => 0 <= fst p) (map (fun p => (1, p)) l)).
  { apply Forall_forall. intros p I. apply in_map_iff in I. destruct I as (q & <- & _). cbn. lra. }
  destruct (C99_q eig _ W H) as [S B]. split; [ exact S | ]. intros C' S'. rewrite !misfit_wmisfit. apply B. exact S'.
Qed.

(** ** Examples *)
(** A quarter turn and a shift of four points in a plane; the singular vectors are
    such that the product has determinant -1. *)
Definition ex_l : list (v3 * v3) :=
  [(V3 1 4 1, V3 3 0 0); (V3 1 (-2) 1, V3 (-3) 0 0); (V3 (-1) 1 1, V3 0 2 0); (V3 3 1 1, V3 0 (-2) 0)].
Definition ex_turn : m3 := M3 0 (-1) 0 1 0 0 0 0 1.
Definition ex_svd (H : m3) : m3 * v3 * m3 := (ex_turn, V3 18 8 0, M3 1 0 0 0 1 0 0 0 (-1)).
Lemma ex_centroids : centroid (map fst ex_l) (V3 1 1 1) /\ centroid (map snd ex_l) (V3 0 0 0).
Proof. split; unfold centroid, ex_l; cbn [map fst snd length fold_right INR]; kunf; f_equal; ring. Qed.
Lemma ex_is_svd : is_svd (scatter (V3 1 1 1) (V3 0 0 0) ex_l) (ex_svd (scatter (V3 1 1 1) (V3 0 0 0) ex_l)).
Proof.
  unfold is_svd, ex_svd, orthogonal3. split; [ split; unfold ex_turn; apply m3_eq; kunf; ring | ]. split; [ split; apply m3_eq; kunf; ring | ].
  split; [ unfold scatter, ex_l, diag3, ex_turn; cbn [fold_right fst snd]; apply m3_eq; kunf; ring | ]. cbn. split; [ lra | split; lra ].
Qed.
Example C99_ex_svd :
  (exists C t, three_point ex_svd ex_l = rigid C t /\ SO3 C /\ forall C' t', SO3 C' -> misfit C t ex_l <= misfit C' t' ex_l) /\
  three_point ex_svd ex_l = rigid ex_turn (V3 1 1 1).
Proof.
  split.
  - apply (C99_svd ex_svd ex_l (V3 1 1 1) (V3 0 0 0)); [ discriminate | apply ex_centroids | apply ex_centroids | exact ex_is_svd ].
  - apply (C99_exact ex_svd ex_l (V3 1 1 1) (V3 0 0 0) ex_turn (V3 1 1 1) (V3 3 0 0) (V3 (-3) 0 0) (V3 0 2 0) (V3 1 4 1) (V3 1 (-2) 1) (V3 (-1) 1 1));
      [ discriminate | apply ex_centroids | apply ex_centroids | exact ex_is_svd | | | left; reflexivity | right; left; reflexivity | right; right; left; reflexivity | ].
    + split; [ apply m3_eq | ]; unfold ex_turn; kunf; ring.
    + intros p0 p1 I. unfold ex_l in I. cbn [In] in I. destruct I as [ I | [ I | [ I | [ I | [] ] ] ] ]; inversion I; subst; unfold ex_turn; kunf; f_equal; ring.
    + unfold spread. kunf. intros E. injection E. lra.
Qed.

Lemma form_unique K K' : m4_tr K = K -> m4_tr K' = K' -> (forall q, v4_dot q (m4_vec K q) = v4_dot q (m4_vec K' q)) -> K = K'.
Proof.
  destruct K as [[a00 a01 a02 a03] [a10 a11 a12 a13] [a20 a21 a22 a23] [a30 a31 a32 a33]], K' as [[b00 b01 b02 b03] [b10 b11 b12 b13] [b20 b21 b22 b23] [b30 b31 b32 b33]].
  kunf. intros S S' F. injection S as S1 S2 S3 S4 S5 S6 S7 S8 S9 S10 S11 S12. injection S' as T1 T2 T3 T4 T5 T6 T7 T8 T9 T10 T11 T12.
  pose proof (F (V4 1 0 0 0)) as F0. pose proof (F (V4 0 1 0 0)) as F1. pose proof (F (V4 0 0 1 0)) as F2. pose proof (F (V4 0 0 0 1)) as F3.
  pose proof (F (V4 1 1 0 0)) as F4. pose proof (F (V4 1 0 1 0)) as F5. pose proof (F (V4 1 0 0 1)) as F6. pose proof (F (V4 0 1 1 0)) as F7. pose proof (F (V4 0 1 0 1)) as F8. pose proof (F (V4 0 0 1 1)) as F9.
  cbn [q0 q1 q2 q3] in *. f_equal; f_equal; lra.
Qed.

(** A quarter turn of two unequally weighted directions. *)
Definition ex_w : list (R * (v3 * v3)) := [(1, (V3 0 1 0, V3 1 0 0)); (4, (V3 (-1) 0 0, V3 0 1 0))].
Definition r2 : R := / sqrt 2.
Definition ex_K : m4 := M4 (V4 0 (-3) 0 0) (V4 (-3) 0 0 0) (V4 0 0 0 (-5)) (V4 0 0 (-5) 0).
Definition ex_V : m4 := M4 (V4 0 r2 r2 0) (V4 0 r2 (- r2) 0) (V4 r2 0 0 (- r2)) (V4 r2 0 0 r2).
Definition ex_eig (K : m4) : v4 * m4 := (V4 (-5) (-3) 3 5, ex_V).
Lemma r2_sq : r2 * r2 = / 2.
Proof. unfold r2. rewrite <- Rinv_mult, sqrt_sqrt by lra. reflexivity. Qed.
Lemma ex_davenport K : is_davenport ex_w K -> K = ex_K.
Proof.
  intros [S F]. apply form_unique; [ exact S | unfold ex_K; kunf; reflexivity | ]. intros q. rewrite F. destruct q. unfold correlation, ex_w, ex_K. cbn [fold_right fst snd]. kunf. ring.
Qed.
Lemma ex_is_eig : is_eig ex_K (ex_eig ex_K).
Proof.
  pose proof r2_sq as E. unfold is_eig, ex_eig, orthogonal4. cbn [fst snd]. split; [ split | ].
  - unfold ex_V. kunf. repeat (match goal with |- M4 _ _ _ _ = _ => f_equal | |- V4 _ _ _ _ = _ => f_equal end); lra.
  - unfold ex_V. kunf. repeat (match goal with |- M4 _ _ _ _ = _ => f_equal | |- V4 _ _ _ _ = _ => f_equal end); lra.
  - unfold ex_V, ex_K, diag4. kunf. repeat (match goal with |- M4 _ _ _ _ = _ => f_equal | |- V4 _ _ _ _ = _ => f_equal end); lra.
Qed.
Example C99_ex_q :
  (SO3 (q_method ex_eig ex_w) /\ forall C', SO3 C' -> wmisfit (q_method ex_eig ex_w) ex_w <= wmisfit C' ex_w) /\
  q_method ex_eig ex_w = ex_turn.
Proof.
  split.
  - apply C99_q; [ repeat constructor; cbn; lra | intros K D; rewrite (ex_davenport K D); exact ex_is_eig ].
  - pose proof r2_sq as E. unfold q_method, ex_eig. cbn [largest entry4 q0 q1 q2 q3].
    destruct (ltb_spec (-5) (-3)) as [ _ | X ]; [ | lra ]. cbn [entry4 q0 q1 q2 q3].
    destruct (ltb_spec (-3) 3) as [ _ | X ]; [ | lra ]. cbn [entry4 q0 q1 q2 q3].
    destruct (ltb_spec 3 5) as [ _ | X ]; [ | lra ].
    assert (N : v4_dot (col4 ex_V 3) (col4 ex_V 3) = 1) by (unfold ex_V, col4, entry4; kunf; lra).
    rewrite (unit_scale _ N), code_matrix. unfold ex_V, col4, entry4, ex_turn. apply m3_eq; kunf; lra.
Qed.

Print Assumptions C99_svd.
Print Assumptions C99_exact.
Print Assumptions C99_q.
Print Assumptions C99_q_equal.
