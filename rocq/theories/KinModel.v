(** * Model of sm_kinematics: small vectors, quaternions and rotations

    Models Schweizer-Messer/sm_kinematics/src/quaternion_algebra.cpp,
    rotations.cpp and homogeneous_coordinates.cpp.

    Simplification throughout: C++ [double] is modelled by the real numbers
    of the standard library, so rounding, overflow and signed zeros are not
    modelled; a value that the C++ code computes as 0/0, x/0 or the arccosine
    of something outside [-1,1] is the outcome [None].  Eigen fixed-size
    vectors and matrices are records with one field per coefficient. *)

From Coq Require Import Reals.
Local Open Scope R_scope.

(** Eigen::Vector3d, Eigen::Vector4d (scalar part of a quaternion last). *)
Record v3 := V3 { x0 : R; x1 : R; x2 : R }.
Record v4 := V4 { q0 : R; q1 : R; q2 : R; q3 : R }.

(** Eigen::Matrix3d by coefficients, [mij] is row i, column j. *)
Record m3 := M3 {
  m00 : R; m01 : R; m02 : R;
  m10 : R; m11 : R; m12 : R;
  m20 : R; m21 : R; m22 : R }.

(** Eigen::Matrix4d, Matrix<double,4,3> and Matrix<double,3,4> by rows. *)
Record m4 := M4 { r40 : v4; r41 : v4; r42 : v4; r43 : v4 }.
Record m43 := M43 { a0 : v3; a1 : v3; a2 : v3; a3 : v3 }.
Record m34 := M34 { b0 : v4; b1 : v4; b2 : v4 }.

(** ** Eigen's vector and matrix arithmetic on these sizes *)

Definition v3_zero := V3 0 0 0.
Definition v3_add (a b : v3) := V3 (x0 a + x0 b) (x1 a + x1 b) (x2 a + x2 b).
Definition v3_sub (a b : v3) := V3 (x0 a - x0 b) (x1 a - x1 b) (x2 a - x2 b).
Definition v3_neg (a : v3) := V3 (- x0 a) (- x1 a) (- x2 a).
Definition v3_scale (s : R) (a : v3) := V3 (s * x0 a) (s * x1 a) (s * x2 a).
Definition v3_dot (a b : v3) := x0 a * x0 b + x1 a * x1 b + x2 a * x2 b.
Definition v3_cross (a b : v3) :=
  V3 (x1 a * x2 b - x2 a * x1 b) (x2 a * x0 b - x0 a * x2 b) (x0 a * x1 b - x1 a * x0 b).
Definition v3_norm (a : v3) := sqrt (v3_dot a a).

Definition v4_zero := V4 0 0 0 0.
Definition v4_add (a b : v4) := V4 (q0 a + q0 b) (q1 a + q1 b) (q2 a + q2 b) (q3 a + q3 b).
Definition v4_sub (a b : v4) := V4 (q0 a - q0 b) (q1 a - q1 b) (q2 a - q2 b) (q3 a - q3 b).
Definition v4_neg (a : v4) := V4 (- q0 a) (- q1 a) (- q2 a) (- q3 a).
Definition v4_scale (s : R) (a : v4) := V4 (s * q0 a) (s * q1 a) (s * q2 a) (s * q3 a).
Definition v4_dot (a b : v4) := q0 a * q0 b + q1 a * q1 b + q2 a * q2 b + q3 a * q3 b.
Definition v4_norm (a : v4) := sqrt (v4_dot a a).

Definition m3_row0 (A : m3) := V3 (m00 A) (m01 A) (m02 A).
Definition m3_row1 (A : m3) := V3 (m10 A) (m11 A) (m12 A).
Definition m3_row2 (A : m3) := V3 (m20 A) (m21 A) (m22 A).
Definition m3_col0 (A : m3) := V3 (m00 A) (m10 A) (m20 A).
Definition m3_col1 (A : m3) := V3 (m01 A) (m11 A) (m21 A).
Definition m3_col2 (A : m3) := V3 (m02 A) (m12 A) (m22 A).
Definition m3_I := M3 1 0 0 0 1 0 0 0 1.
Definition m3_zero := M3 0 0 0 0 0 0 0 0 0.
Definition m3_add (A B : m3) :=
  M3 (m00 A + m00 B) (m01 A + m01 B) (m02 A + m02 B)
     (m10 A + m10 B) (m11 A + m11 B) (m12 A + m12 B)
     (m20 A + m20 B) (m21 A + m21 B) (m22 A + m22 B).
Definition m3_sub (A B : m3) :=
  M3 (m00 A - m00 B) (m01 A - m01 B) (m02 A - m02 B)
     (m10 A - m10 B) (m11 A - m11 B) (m12 A - m12 B)
     (m20 A - m20 B) (m21 A - m21 B) (m22 A - m22 B).
Definition m3_scale (s : R) (A : m3) :=
  M3 (s * m00 A) (s * m01 A) (s * m02 A)
     (s * m10 A) (s * m11 A) (s * m12 A)
     (s * m20 A) (s * m21 A) (s * m22 A).
Definition m3_mul (A B : m3) :=
  M3 (v3_dot (m3_row0 A) (m3_col0 B)) (v3_dot (m3_row0 A) (m3_col1 B)) (v3_dot (m3_row0 A) (m3_col2 B))
     (v3_dot (m3_row1 A) (m3_col0 B)) (v3_dot (m3_row1 A) (m3_col1 B)) (v3_dot (m3_row1 A) (m3_col2 B))
     (v3_dot (m3_row2 A) (m3_col0 B)) (v3_dot (m3_row2 A) (m3_col1 B)) (v3_dot (m3_row2 A) (m3_col2 B)).
Definition m3_vec (A : m3) (v : v3) :=
  V3 (v3_dot (m3_row0 A) v) (v3_dot (m3_row1 A) v) (v3_dot (m3_row2 A) v).
Definition m3_tr (A : m3) :=
  M3 (m00 A) (m10 A) (m20 A) (m01 A) (m11 A) (m21 A) (m02 A) (m12 A) (m22 A).
Definition m3_outer (a b : v3) :=
  M3 (x0 a * x0 b) (x0 a * x1 b) (x0 a * x2 b)
     (x1 a * x0 b) (x1 a * x1 b) (x1 a * x2 b)
     (x2 a * x0 b) (x2 a * x1 b) (x2 a * x2 b).
Definition m3_det (A : m3) :=
  m00 A * (m11 A * m22 A - m12 A * m21 A)
  - m01 A * (m10 A * m22 A - m12 A * m20 A)
  + m02 A * (m10 A * m21 A - m11 A * m20 A).
Definition m3_trace (A : m3) := m00 A + m11 A + m22 A.

Definition m4_vec (A : m4) (v : v4) :=
  V4 (v4_dot (r40 A) v) (v4_dot (r41 A) v) (v4_dot (r42 A) v) (v4_dot (r43 A) v).
Definition m43_vec (A : m43) (v : v3) :=
  V4 (v3_dot (a0 A) v) (v3_dot (a1 A) v) (v3_dot (a2 A) v) (v3_dot (a3 A) v).
Definition m34_vec (A : m34) (v : v4) :=
  V3 (v4_dot (b0 A) v) (v4_dot (b1 A) v) (v4_dot (b2 A) v).
(** row vector times matrix *)
Definition row_m3 (v : v3) (A : m3) := m3_vec (m3_tr A) v.
Definition row_m43 (v : v4) (A : m43) :=
  V3 (q0 v * x0 (a0 A) + q1 v * x0 (a1 A) + q2 v * x0 (a2 A) + q3 v * x0 (a3 A))
     (q0 v * x1 (a0 A) + q1 v * x1 (a1 A) + q2 v * x1 (a2 A) + q3 v * x1 (a3 A))
     (q0 v * x2 (a0 A) + q1 v * x2 (a1 A) + q2 v * x2 (a2 A) + q3 v * x2 (a3 A)).
Definition row_m4 (v : v4) (A : m4) :=
  v4_add (v4_add (v4_scale (q0 v) (r40 A)) (v4_scale (q1 v) (r41 A)))
         (v4_add (v4_scale (q2 v) (r42 A)) (v4_scale (q3 v) (r43 A))).
Definition row_m34 (v : v3) (A : m34) :=
  v4_add (v4_add (v4_scale (x0 v) (b0 A)) (v4_scale (x1 v) (b1 A))) (v4_scale (x2 v) (b2 A)).
Definition m3_of_rows (a b c : v3) :=
  M3 (x0 a) (x1 a) (x2 a) (x0 b) (x1 b) (x2 b) (x0 c) (x1 c) (x2 c).
Definition m4_mul (A B : m4) :=
  M4 (row_m4 (r40 A) B) (row_m4 (r41 A) B) (row_m4 (r42 A) B) (row_m4 (r43 A) B).
Definition m4_add (A B : m4) :=
  M4 (v4_add (r40 A) (r40 B)) (v4_add (r41 A) (r41 B))
     (v4_add (r42 A) (r42 B)) (v4_add (r43 A) (r43 B)).
Definition m4_tr (A : m4) :=
  M4 (V4 (q0 (r40 A)) (q0 (r41 A)) (q0 (r42 A)) (q0 (r43 A)))
     (V4 (q1 (r40 A)) (q1 (r41 A)) (q1 (r42 A)) (q1 (r43 A)))
     (V4 (q2 (r40 A)) (q2 (r41 A)) (q2 (r42 A)) (q2 (r43 A)))
     (V4 (q3 (r40 A)) (q3 (r41 A)) (q3 (r42 A)) (q3 (r43 A))).
Definition m4_I := M4 (V4 1 0 0 0) (V4 0 1 0 0) (V4 0 0 1 0) (V4 0 0 0 1).
Definition m43_tr (A : m43) : m34 :=
  M34 (V4 (x0 (a0 A)) (x0 (a1 A)) (x0 (a2 A)) (x0 (a3 A)))
      (V4 (x1 (a0 A)) (x1 (a1 A)) (x1 (a2 A)) (x1 (a3 A)))
      (V4 (x2 (a0 A)) (x2 (a1 A)) (x2 (a2 A)) (x2 (a3 A))).
Definition m34_tr (A : m34) : m43 :=
  M43 (V3 (q0 (b0 A)) (q0 (b1 A)) (q0 (b2 A)))
      (V3 (q1 (b0 A)) (q1 (b1 A)) (q1 (b2 A)))
      (V3 (q2 (b0 A)) (q2 (b1 A)) (q2 (b2 A)))
      (V3 (q3 (b0 A)) (q3 (b1 A)) (q3 (b2 A))).
Definition m43_mul3 (A : m43) (B : m3) : m43 :=
  M43 (row_m3 (a0 A) B) (row_m3 (a1 A) B) (row_m3 (a2 A) B) (row_m3 (a3 A) B).
Definition m4_mul43 (A : m4) (B : m43) : m43 :=
  M43 (row_m43 (r40 A) B) (row_m43 (r41 A) B) (row_m43 (r42 A) B) (row_m43 (r43 A) B).
Definition m34_mul43 (A : m34) (B : m43) : m3 :=
  m3_of_rows (row_m43 (b0 A) B) (row_m43 (b1 A) B) (row_m43 (b2 A) B).
Definition m43_mul34 (A : m43) (B : m34) : m4 :=
  M4 (row_m34 (a0 A) B) (row_m34 (a1 A) B) (row_m34 (a2 A) B) (row_m34 (a3 A) B).
Definition m34_mul4 (A : m34) (B : m4) : m34 :=
  M34 (row_m4 (b0 A) B) (row_m4 (b1 A) B) (row_m4 (b2 A) B).
Definition m3_mul34 (A : m3) (B : m34) : m34 :=
  M34 (row_m34 (m3_row0 A) B) (row_m34 (m3_row1 A) B) (row_m34 (m3_row2 A) B).
Definition m43_scale (s : R) (A : m43) :=
  M43 (v3_scale s (a0 A)) (v3_scale s (a1 A)) (v3_scale s (a2 A)) (v3_scale s (a3 A)).

(** Comparisons on doubles; [Rlt_dec]/[Req_EM_T] decide them on the reals. *)
Definition ltb (a b : R) : bool := if Rlt_dec a b then true else false.
Definition eqb (a b : R) : bool := if Req_EM_T a b then true else false.

(** ** rotations.cpp *)

(** rotations.cpp:9-39 *)
Definition Rx (a : R) := M3 1 0 0  0 (cos a) (- sin a)  0 (sin a) (cos a).
Definition Ry (a : R) := M3 (cos a) 0 (sin a)  0 1 0  (- sin a) 0 (cos a).
Definition Rz (a : R) := M3 (cos a) (- sin a) 0  (sin a) (cos a) 0  0 0 1.

(** rotations.cpp:41-60 *)
Definition rph2R (v : v3) : m3 :=
  let cx := cos (x0 v) in let sx := sin (x0 v) in
  let cy := cos (x1 v) in let sy := sin (x1 v) in
  let cz := cos (x2 v) in let sz := sin (x2 v) in
  M3 (cz*cy) (- sz*cx+cz*sy*sx) (sz*sx+cz*sy*cx)
     (sz*cy) (cz*cx+sz*sy*sx) (- cz*sx+sz*sy*cx)
     (- sy) (cy*sx) (cy*cx).

(** rotations.cpp:78-84 *)
Definition crossMx (v : v3) : m3 :=
  M3 0 (- x2 v) (x1 v)  (x2 v) 0 (- x0 v)  (- x1 v) (x0 v) 0.

(** rotations.cpp:95-119; the debug-only assertion that the axis is a unit
    vector is a precondition of the theorems instead. *)
Definition axisAngle2R4 (a ax ay az : R) : m3 :=
  if ltb a (1 / 10 ^ 12) then m3_I else
  let sa := sin a in let ca := cos a in
  let ax2 := ax * ax in let ay2 := ay * ay in let az2 := az * az in
  M3 (ax2+ca*(1-ax2)) (ax*ay-ca*ax*ay+sa*az) (ax*az-ca*ax*az-sa*ay)
     (ax*ay-ca*ax*ay-sa*az) (ay2+ca*(1-ay2)) (ay*az-ca*ay*az+sa*ax)
     (ax*az-ca*ax*az+sa*ay) (ay*az-ca*ay*az-sa*ax) (az2+ca*(1-az2)).

(** rotations.cpp:120-131 *)
Definition axisAngle2R (v : v3) : m3 :=
  let a := sqrt (x0 v * x0 v + x1 v * x1 v + x2 v * x2 v) in
  if ltb a (1 / 10 ^ 12) then m3_I else
  let d := 1 / a in
  axisAngle2R4 a (x0 v * d) (x1 v * d) (x2 v * d).

(** rotations.cpp:133-157 *)
Definition R2AxisAngle (C : m3) : v3 :=
  let tr := Rmax (-1) (Rmin ((m00 C + m11 C + m22 C - 1) * (1/2)) 1) in
  let a := acos tr in
  if ltb (Rabs a) (1 / 10 ^ 10) then v3_zero else
  let axis := V3 (m21 C - m12 C) (m02 C - m20 C) (m10 C - m01 C) in
  let n2 := v3_norm axis in
  if ltb (Rabs n2) (1 / 10 ^ 10) then v3_zero else
  v3_scale (- a / n2) axis.

(** rotations.cpp:171-192 *)
Definition Cx (a : R) := Rx (- a).
Definition Cy (a : R) := Ry (- a).
Definition Cz (a : R) := Rz (- a).
Definition rph2C (v : v3) : m3 := rph2R (V3 (- x0 v) (- x1 v) (- x2 v)).

(** std::atan2 over the reals (no signed zeros: atan2(0,0) is 0, and a zero
    ordinate with a negative abscissa gives pi). *)
Definition atan2 (y x : R) : R :=
  if Rlt_dec 0 x then atan (y / x)
  else if Rlt_dec x 0 then
         (if Rle_dec 0 y then atan (y / x) + PI else atan (y / x) - PI)
  else if Rlt_dec 0 y then PI / 2
  else if Rlt_dec y 0 then - (PI / 2) else 0.

(** rotations.cpp:62-73 and 220-229; [asin] is total in Coq: outside [-1,1]
    the C++ result is a NaN, so those inputs are excluded in the theorems. *)
Definition R2rph (C : m3) : v3 :=
  let phi := asin (m20 C) in
  let theta := atan2 (m21 C) (m22 C) in
  let psi := atan2 (m10 C) (m00 C) in
  V3 theta (- phi) psi.
Definition C2rph (C : m3) : v3 :=
  V3 (atan2 (- m21 C) (m22 C)) (asin (m20 C)) (atan2 (- m10 C) (m00 C)).

(** ** quaternion_algebra.cpp *)

(** quaternion_algebra.cpp:9-13: the fourth root of the double epsilon 2^-52. *)
Definition eps4 : R := / 8192.
Definition isSmall (x : R) : bool := ltb x eps4.

(** quaternion_algebra.cpp:16-75.  The loop at 36-41 keeps the first index
    with the largest value. *)
Definition argmax4 (d : v4) : nat :=
  let m := 0%nat in let v := q0 d in
  let '(m, v) := if ltb v (q1 d) then (1%nat, q1 d) else (m, v) in
  let '(m, v) := if ltb v (q2 d) then (2%nat, q2 d) else (m, v) in
  let '(m, v) := if ltb v (q3 d) then (3%nat, q3 d) else (m, v) in
  m.

Definition r2quat (C : m3) : v4 :=
  let c1 := m00 C in let c2 := m10 C in let c3 := m20 C in
  let c4 := m01 C in let c5 := m11 C in let c6 := m21 C in
  let c7 := m02 C in let c8 := m12 C in let c9 := m22 C in
  let dc := V4 (Rabs (1+c1-c5-c9)) (Rabs (1-c1+c5-c9))
               (Rabs (1-c1-c5+c9)) (Rabs (1+c1+c5+c9)) in
  let q :=
    match argmax4 dc with
    | 0%nat => let r := 1/2 * sqrt (q0 dc) in let c := 1/4 / r in
               V4 r (c*(c4+c2)) (c*(c7+c3)) (c*(c8-c6))
    | 1%nat => let r := 1/2 * sqrt (q1 dc) in let c := 1/4 / r in
               V4 (c*(c4+c2)) r (c*(c6+c8)) (c*(c3-c7))
    | 2%nat => let r := 1/2 * sqrt (q2 dc) in let c := 1/4 / r in
               V4 (c*(c3+c7)) (c*(c6+c8)) r (c*(c4-c2))
    | _ => let r := 1/2 * sqrt (q3 dc) in let c := 1/4 / r in
               V4 (c*(c8-c6)) (c*(c3-c7)) (c*(c4-c2)) r
    end in
  if ltb (q3 q) 0 then v4_neg q else q.

(** quaternion_algebra.cpp:77-101 (the debug-only unit check is a
    precondition where a theorem needs it). *)
Definition quat2r (q : v4) : m3 :=
  let a := q0 q in let b := q1 q in let c := q2 q in let d := q3 q in
  M3 (a*a-b*b-c*c+d*d) (a*b*2+c*d*2) (a*c*2-b*d*2)
     (a*b*2-c*d*2) (- a*a+b*b-c*c+d*d) (a*d*2+b*c*2)
     (a*c*2+b*d*2) (a*d*(-2)+b*c*2) (- a*a-b*b+c*c+d*d).

(** quaternion_algebra.cpp:104-134 *)
Definition quatPlus (q : v4) : m4 :=
  M4 (V4 (q3 q) (q2 q) (- q1 q) (q0 q))
     (V4 (- q2 q) (q3 q) (q0 q) (q1 q))
     (V4 (q1 q) (- q0 q) (q3 q) (q2 q))
     (V4 (- q0 q) (- q1 q) (- q2 q) (q3 q)).
Definition quatOPlus (q : v4) : m4 :=
  M4 (V4 (q3 q) (- q2 q) (q1 q) (q0 q))
     (V4 (q2 q) (q3 q) (- q0 q) (q1 q))
     (V4 (- q1 q) (q0 q) (q3 q) (q2 q))
     (V4 (- q0 q) (- q1 q) (- q2 q) (q3 q)).

(** quaternion_algebra.cpp:136-164 *)
Definition qplus (q p : v4) : v4 :=
  V4 (q0 p*q3 q + q1 p*q2 q - q2 p*q1 q + q3 p*q0 q)
     (q2 p*q0 q - q0 p*q2 q + q1 p*q3 q + q3 p*q1 q)
     (q0 p*q1 q - q1 p*q0 q + q2 p*q3 q + q3 p*q2 q)
     (q3 p*q3 q - q1 p*q1 q - q2 p*q2 q - q0 p*q0 q).
Definition qoplus (q p : v4) : v4 :=
  V4 (q0 p*q3 q - q1 p*q2 q + q2 p*q1 q + q3 p*q0 q)
     (q0 p*q2 q - q2 p*q0 q + q1 p*q3 q + q3 p*q1 q)
     (q1 p*q0 q - q0 p*q1 q + q2 p*q3 q + q3 p*q2 q)
     (q3 p*q3 q - q1 p*q1 q - q2 p*q2 q - q0 p*q0 q).

(** quaternion_algebra.cpp:166-197, 334-337 *)
Definition quatInv (q : v4) : v4 := V4 (- q0 q) (- q1 q) (- q2 q) (q3 q).
Definition qeps (q : v4) : v3 := V3 (q0 q) (q1 q) (q2 q).
Definition qeta (q : v4) : R := q3 q.
Definition quatIdentity : v4 := V4 0 0 0 1.

(** quaternion_algebra.cpp:200-221 *)
Definition axisAngle2quat (a : v3) : v4 :=
  let theta := v3_norm a in
  let na := if isSmall theta then 1/2 + (theta * theta) * (1/48)
            else sin (theta * (1/2)) / theta in
  let axis := v3_scale na a in
  V4 (x0 axis) (x1 axis) (x2 axis) (cos (theta * (1/2))).

(** quaternion_algebra.cpp:228-234.  [Scalar_(1/6)] converts the quotient of
    the integers 1 and 6, which is 0. *)
Definition arcSinXOverX (x : R) : R :=
  if isSmall (Rabs x) then 1 + x * x * IZR (1 / 6)%Z else asin x / x.

(** quaternion_algebra.cpp:237-276.  [None]: the quotient at 270 has
    denominator 0 and the result is a vector of NaNs. *)
Definition quat2AxisAngle (q : v4) : option v3 :=
  let a := qeps q in
  let na := v3_norm a in let eta := qeta q in
  let scale :=
    if ltb (Rabs eta) na then Some (acos eta / na)
    else if ltb 0 eta then Some (arcSinXOverX na)
    else if eqb na 0 then None
    else Some ((PI - asin na) / na) in
  match scale with
  | Some s => Some (v3_scale (2 * s) a)
  | None => None
  end.

(** quaternion_algebra.cpp:278-300 *)
Definition quatJacobian (p : v4) : m43 :=
  m43_scale (1/2)
    (M43 (V3 (q3 p) (- q2 p) (q1 p))
         (V3 (q2 p) (q3 p) (- q0 p))
         (V3 (- q1 p) (q0 p) (q3 p))
         (V3 (- q0 p) (- q1 p) (- q2 p))).

(** quaternion_algebra.cpp:302-318 *)
Definition updateQuat (q : v4) (dq : v3) : v4 :=
  let d := axisAngle2quat dq in
  let ca := q3 d in
  V4 (q0 q*ca+q0 d*q3 q-q1 d*q2 q+q2 d*q1 q)
     (q1 q*ca+q0 d*q2 q+q1 d*q3 q-q2 d*q0 q)
     (q2 q*ca-q0 d*q1 q+q1 d*q0 q+q2 d*q3 q)
     (q3 q*ca-q0 d*q0 q-q1 d*q1 q-q2 d*q2 q).

(** quaternion_algebra.cpp:320-323 *)
Definition quatRotate (q : v4) (v : v3) : v3 :=
  let e := qeps q in
  v3_add v (v3_scale 2 (v3_cross e (v3_sub (v3_cross e v) (v3_scale (q3 q) v)))).

(** quaternion_algebra.cpp:339-372 *)
Definition quatS (q : v4) : m34 :=
  let q := v4_scale 2 q in
  M34 (V4 (q3 q) (q2 q) (- q1 q) (- q0 q))
      (V4 (- q2 q) (q3 q) (q0 q) (- q1 q))
      (V4 (q1 q) (- q0 q) (q3 q) (- q2 q)).
Definition quatInvS (q : v4) : m43 :=
  let q := v4_scale (1/2) q in
  M43 (V3 (q3 q) (- q2 q) (q1 q))
      (V3 (q2 q) (q3 q) (- q0 q))
      (V3 (- q1 q) (q0 q) (q3 q))
      (V3 (- q0 q) (- q1 q) (- q2 q)).

(** quaternion_algebra.cpp:374-395 *)
Definition qslerp (p0 p1 : v4) (t : R) : option v4 :=
  if Rle_dec t 0 then Some p0
  else if Rle_dec 1 t then Some p1
  else
    let d := v4_sub p0 p1 in let s := v4_add p0 p1 in
    let target := if ltb (v4_dot s s) (v4_dot d d) then v4_neg p1 else p1 in
    match quat2AxisAngle (qplus (quatInv p0) target) with
    | Some l => Some (qplus p0 (axisAngle2quat (v3_scale t l)))
    | None => None
    end.

(** quaternion_algebra.cpp:399-414, for vectors of three components *)
Definition lerp (p0 p1 : v3) (t : R) : v3 :=
  if Rle_dec t 0 then p0
  else if Rle_dec 1 t then p1
  else v3_add (v3_scale (1 - t) p0) (v3_scale t p1).

(** quaternion_algebra.cpp:416-456; division by zero for a quaternion whose
    vector part is zero, or whose scalar part is 1 or -1 *)
Definition quatLogJacobian (p : v4) : m34 :=
  let n := v3_norm (qeps p) in
  let de := n*n*n in
  let u12 := q1 p*q1 p + q2 p*q2 p in
  let u02 := q0 p*q0 p + q2 p*q2 p in
  let u01 := q0 p*q0 p + q1 p*q1 p in
  let a := acos (q3 p) in
  let uw := sqrt (- (q3 p*q3 p - 1)*n*n) in
  M34 (V4 (2*a*u12 / de) (-2*a*q1 p*q0 p / de) (-2*a*q2 p*q0 p / de) (-2*q0 p / uw))
      (V4 (-2*a*q0 p*q1 p / de) (2*a*u02 / de) (-2*a*q1 p*q2 p / de) (-2*q1 p / uw))
      (V4 (-2*a*q0 p*q2 p / de) (-2*a*q1 p*q2 p / de) (2*a*u01 / de) (-2*q2 p / uw)).

(** quaternion_algebra.cpp:458-464 *)
Definition quatV : m43 :=
  M43 (V3 (1/2) 0 0) (V3 0 (1/2) 0) (V3 0 0 (1/2)) (V3 0 0 0).

(** quaternion_algebra.cpp:467-495; [24 / 2] and [120 / 6] are integer
    quotients without remainder. *)
Definition expDiffMat (v : v3) : m3 :=
  let phi := v3_norm v in
  if eqb phi 0 then m3_I else
  let X := crossMx v in
  let phi2 := phi * phi in
  let s := sin (phi / 2) in
  let a := if isSmall (Rabs phi) then (1/2) * (1 - (1/12) * phi2) else 2 * s * s / phi2 in
  let b := if isSmall (Rabs phi) then (1/6) * (1 - (1/20) * phi2) else (1 - sin phi / phi) / phi2 in
  m3_add (m3_sub m3_I (m3_scale a X)) (m3_mul (m3_scale b X) X).

(** quaternion_algebra.cpp:497-502 *)
Definition quatExpJacobian (v : v3) : m43 :=
  m43_mul3 (m4_mul43 (quatOPlus (axisAngle2quat v)) quatV) (expDiffMat v).

(** quaternion_algebra.cpp:504-525 *)
Definition logDiffMat (v : v3) : m3 :=
  let phi := v3_norm v in
  if eqb phi 0 then m3_I else
  let X := crossMx v in
  let h := 1/2 * phi in
  let a := if isSmall (Rabs phi) then 1 / 12 * (1 + 1 / 60 * phi * phi)
           else (1 - h / tan h) / phi / phi in
  m3_add (m3_add m3_I (m3_scale (1/2) X)) (m3_mul (m3_scale a X) X).

(** quaternion_algebra.cpp:527-530 *)
Definition quatLogJacobian2 (p : v4) : option m34 :=
  match quat2AxisAngle p with
  | Some a => Some (m34_mul4 (m3_mul34 (logDiffMat a) (m43_tr (m43_scale 4 quatV)))
                             (quatOPlus (quatInv p)))
  | None => None
  end.
