(** * Aligning two sets of points (Schweizer-Messer/sm_kinematics/src/three_point_methods.cpp)

    Floating-point numbers are modelled as reals. The two 3xK matrices are one list of
    pairs (column of p0, column of p1): that they have equally many columns, and that
    the weights are as many, is checked by the debug build only and is a precondition
    here. Eigen's singular value and eigenvalue solvers are parameters. *)
From Coq Require Import Reals List.
From Verif Require Import KinModel.
Import ListNotations.
Local Open Scope R_scope.

Definition pairs := list (v3 * v3).

(** Eigen's [rowwise().mean()]: the sum of the columns over their number. *)
Definition sum3 (l : list v3) : v3 := fold_right v3_add v3_zero l.
Definition mean (l : list v3) : v3 := v3_scale (/ INR (length l)) (sum3 l).

(** Eigen's JacobiSVD: the matrix U, the singular values and the matrix V. *)
Definition svd_result : Type := (m3 * v3 * m3)%type.

Definition negate_col2 (V : m3) : m3 :=
  M3 (m00 V) (m01 V) (m02 V * -1) (m10 V) (m11 V) (m12 V * -1) (m20 V) (m21 V) (m22 V * -1).

(** three_point_methods.cpp:35-38 *)
Fixpoint accumulate (c0 c1 : v3) (l : pairs) (H : m3) : m3 :=
  match l with
  | [] => H
  | (a, b) :: l' => accumulate c0 c1 l' (m3_add H (m3_outer (v3_sub a c0) (v3_sub b c1)))
  end.

(** three_point_methods.cpp:13-63: the top left 3x3 block and the top right column
    filled in over the identity. *)
Definition three_point (svd : m3 -> svd_result) (l : pairs) : m4 :=
  let c0 := mean (map fst l) in
  let c1 := mean (map snd l) in
  let H := accumulate c0 c1 l m3_zero in
  let '(U, _, V) := svd H in
  let R1 := m3_mul V (m3_tr U) in
  let R := if ltb (m3_det R1) 0 then m3_mul (negate_col2 V) (m3_tr U) else R1 in
  let Rt := m3_tr R in
  let t := v3_sub c0 (m3_vec Rt c1) in
  M4 (V4 (m00 Rt) (m01 Rt) (m02 Rt) (x0 t))
     (V4 (m10 Rt) (m11 Rt) (m12 Rt) (x1 t))
     (V4 (m20 Rt) (m21 Rt) (m22 Rt) (x2 t))
     (V4 0 0 0 1).

(** A pair of directions with its weight. *)
Definition weighted_pairs := list (R * (v3 * v3)).

(** three_point_methods.cpp:72-85: the columns scaled by the root of their weight, and
    [B = W * V.transpose()], the sum of the outer products of the columns. *)
Definition scaled (p : R * (v3 * v3)) : v3 * v3 :=
  let wi := sqrt (fst p) in (v3_scale wi (fst (snd p)), v3_scale wi (snd (snd p))).
Definition profile (l : weighted_pairs) : m3 :=
  fold_right (fun p B => m3_add (m3_outer (fst (scaled p)) (snd (scaled p))) B) m3_zero l.

(** three_point_methods.cpp:86-96 *)
Definition davenport (B : m3) : m4 :=
  let Q := m3_add B (m3_tr B) in
  let Z := V3 (m12 B - m21 B) (m20 B - m02 B) (m01 B - m10 B) in
  let sigma := m00 B + m11 B + m22 B in
  M4 (V4 (m00 Q - sigma) (m01 Q) (m02 Q) (x0 Z))
     (V4 (m10 Q) (m11 Q - sigma) (m12 Q) (x1 Z))
     (V4 (m20 Q) (m21 Q) (m22 Q - sigma) (x2 Z))
     (V4 (x0 Z) (x1 Z) (x2 Z) sigma).

(** Eigen's SelfAdjointEigenSolver: the eigenvalues and the matrix whose columns are
    the eigenvectors. *)
Definition eig_result : Type := (v4 * m4)%type.
Definition entry4 (v : v4) (i : nat) : R :=
  match i with O => q0 v | 1%nat => q1 v | 2%nat => q2 v | _ => q3 v end.
Definition col4 (A : m4) (i : nat) : v4 :=
  V4 (entry4 (r40 A) i) (entry4 (r41 A) i) (entry4 (r42 A) i) (entry4 (r43 A) i).

(** three_point_methods.cpp:103-112: the index of the first largest eigenvalue. *)
Fixpoint largest (e : v4) (is : list nat) (best : nat) : nat :=
  match is with
  | [] => best
  | i :: is' => largest e is' (if ltb (entry4 e best) (entry4 e i) then i else best)
  end.

(** three_point_methods.cpp:65-125 *)
Definition q_method (eig : m4 -> eig_result) (l : weighted_pairs) : m3 :=
  let '(e, vs) := eig (davenport (profile l)) in
  let q := col4 vs (largest e [1; 2; 3]%nat 0%nat) in
  let q := v4_scale (/ v4_norm q) q in
  let qv := V3 (q0 q) (q1 q) (q2 q) in
  let qs := q3 q in
  m3_sub (m3_add (m3_scale (qs * qs - v3_dot qv qv) m3_I) (m3_scale 2 (m3_outer qv qv)))
         (m3_scale (2 * qs) (crossMx qv)).

(** three_point_methods.cpp:127-130 *)
Definition q_method_equal (eig : m4 -> eig_result) (l : pairs) : m3 :=
  q_method eig (map (fun p => (1, p)) l).
