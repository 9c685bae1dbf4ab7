(** * What the best rigid alignment of two point sets is *)
From Coq Require Import Reals List.
From Verif Require Import KinModel KinSpec.
Import ListNotations.
Local Open Scope R_scope.

Definition sqdist (a b : v3) : R := v3_dot (v3_sub a b) (v3_sub a b).

(** The misfit of the map [p -> C p + t] from the second points to the first. *)
Definition misfit (C : m3) (t : v3) (l : list (v3 * v3)) : R :=
  fold_right (fun p r => sqdist (fst p) (v3_add (m3_vec C (snd p)) t) + r) 0 l.
(** The weighted misfit of a rotation. *)
Definition wmisfit (C : m3) (l : list (R * (v3 * v3))) : R :=
  fold_right (fun p r => fst p * sqdist (fst (snd p)) (m3_vec C (snd (snd p))) + r) 0 l.

(** The 4x4 matrix of a rigid motion. *)
Definition rigid (C : m3) (t : v3) : m4 :=
  M4 (V4 (m00 C) (m01 C) (m02 C) (x0 t))
     (V4 (m10 C) (m11 C) (m12 C) (x1 t))
     (V4 (m20 C) (m21 C) (m22 C) (x2 t))
     (V4 0 0 0 1).

(** Orthogonal matrices, and what the solvers promise about one matrix. *)
Definition orthogonal3 (A : m3) : Prop := m3_mul A (m3_tr A) = m3_I /\ m3_mul (m3_tr A) A = m3_I.
Definition diag3 (s : v3) : m3 := M3 (x0 s) 0 0 0 (x1 s) 0 0 0 (x2 s).
Definition is_svd (H : m3) (r : m3 * v3 * m3) : Prop :=
  let '(U, s, V) := r in
  orthogonal3 U /\ orthogonal3 V /\ H = m3_mul U (m3_mul (diag3 s) (m3_tr V)) /\
  x0 s >= x1 s /\ x1 s >= x2 s /\ x2 s >= 0.
Definition orthogonal4 (A : m4) : Prop := m4_mul A (m4_tr A) = m4_I /\ m4_mul (m4_tr A) A = m4_I.
Definition diag4 (e : v4) : m4 :=
  M4 (V4 (q0 e) 0 0 0) (V4 0 (q1 e) 0 0) (V4 0 0 (q2 e) 0) (V4 0 0 0 (q3 e)).
Definition is_eig (K : m4) (r : v4 * m4) : Prop :=
  orthogonal4 (snd r) /\ K = m4_mul (snd r) (m4_mul (diag4 (fst r)) (m4_tr (snd r))).

(** The centroid and the scatter of the two sets about their centroids. *)
Definition centroid (l : list v3) (c : v3) : Prop :=
  v3_scale (INR (length l)) c = fold_right v3_add v3_zero l.
Definition scatter (c0 c1 : v3) (l : list (v3 * v3)) : m3 :=
  fold_right (fun p A => m3_add (m3_outer (v3_sub (fst p) c0) (v3_sub (snd p) c1)) A) m3_zero l.

(** Davenport's matrix is the symmetric matrix of the quadratic form that gives the
    weighted correlation of the directions under the rotation of a quaternion. *)
Definition correlation (C : m3) (l : list (R * (v3 * v3))) : R :=
  fold_right (fun p r => fst p * v3_dot (fst (snd p)) (m3_vec C (snd (snd p))) + r) 0 l.
Definition is_davenport (l : list (R * (v3 * v3))) (K : m4) : Prop :=
  m4_tr K = K /\ forall q, v4_dot q (m4_vec K q) = correlation (quat2r q) l.

(** Three points not on a line. *)
Definition spread (a b c : v3) : Prop := v3_cross (v3_sub b a) (v3_sub c a) <> v3_zero.
