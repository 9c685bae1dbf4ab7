(** * Model of transformations, uncertain transformations and homogeneous points

    Models Schweizer-Messer/sm_kinematics/src/Transformation.cpp,
    UncertainTransformation.cpp, transformations.cpp, HomogeneousPoint.cpp,
    UncertainHomogeneousPoint.cpp and homogeneous_coordinates.cpp over the
    reals, as in KinModel.  Random initialisation, serialisation and the
    in-place column variants are not modelled; the _DBG assertions (points of
    length zero or at infinity) are the side conditions of the theorems. *)

From Coq Require Import Reals.
From Verif Require Import KinModel.
Local Open Scope R_scope.

(** ** Six-vectors and 6x6 matrices, as pairs and 3x3 blocks *)

Record v6 := V6 { hd3 : v3; tl3 : v3 }.
Record m6 := M6 { c00 : m3; c01 : m3; c10 : m3; c11 : m3 }.
(** Matrix<double,4,6> as its left and right halves *)
Record m46 := M46 { l43 : m43; r43' : m43 }.

Definition v6_add (a b : v6) := V6 (v3_add (hd3 a) (hd3 b)) (v3_add (tl3 a) (tl3 b)).
Definition v6_dot (a b : v6) := v3_dot (hd3 a) (hd3 b) + v3_dot (tl3 a) (tl3 b).
Definition m6_I := M6 m3_I m3_zero m3_zero m3_I.
Definition m6_zero := M6 m3_zero m3_zero m3_zero m3_zero.
Definition m6_add (A B : m6) :=
  M6 (m3_add (c00 A) (c00 B)) (m3_add (c01 A) (c01 B)) (m3_add (c10 A) (c10 B)) (m3_add (c11 A) (c11 B)).
Definition m6_mul (A B : m6) :=
  M6 (m3_add (m3_mul (c00 A) (c00 B)) (m3_mul (c01 A) (c10 B)))
     (m3_add (m3_mul (c00 A) (c01 B)) (m3_mul (c01 A) (c11 B)))
     (m3_add (m3_mul (c10 A) (c00 B)) (m3_mul (c11 A) (c10 B)))
     (m3_add (m3_mul (c10 A) (c01 B)) (m3_mul (c11 A) (c11 B))).
Definition m6_tr (A : m6) := M6 (m3_tr (c00 A)) (m3_tr (c10 A)) (m3_tr (c01 A)) (m3_tr (c11 A)).
Definition m6_vec (A : m6) (v : v6) :=
  V6 (v3_add (m3_vec (c00 A) (hd3 v)) (m3_vec (c01 A) (tl3 v)))
     (v3_add (m3_vec (c10 A) (hd3 v)) (m3_vec (c11 A) (tl3 v))).
Definition m43_add (A B : m43) :=
  M43 (v3_add (a0 A) (a0 B)) (v3_add (a1 A) (a1 B)) (v3_add (a2 A) (a2 B)) (v3_add (a3 A) (a3 B)).
Definition m46_vec (J : m46) (v : v6) : v4 := v4_add (m43_vec (l43 J) (hd3 v)) (m43_vec (r43' J) (tl3 v)).
Definition m46_mul6 (J : m46) (U : m6) : m46 :=
  M46 (m43_add (m43_mul3 (l43 J) (c00 U)) (m43_mul3 (r43' J) (c10 U)))
      (m43_add (m43_mul3 (l43 J) (c01 U)) (m43_mul3 (r43' J) (c11 U))).
(** A * B^T for 4x6 matrices *)
Definition m46_mul_tr (A B : m46) : m4 :=
  m4_add (m43_mul34 (l43 A) (m43_tr (l43 B))) (m43_mul34 (r43' A) (m43_tr (r43' B))).
Definition m3_neg (A : m3) := m3_scale (-1) A.
Definition m4_scale (s : R) (A : m4) :=
  M4 (v4_scale s (r40 A)) (v4_scale s (r41 A)) (v4_scale s (r42 A)) (v4_scale s (r43 A)).

(** ** Transformation.cpp *)

Record tf := TF { tq : v4; tt : v3 }.

(** lines 17-21 and 151-155 *)
Definition tf_identity := TF quatIdentity v3_zero.
(** lines 31-35; normalising the zero quaternion is outside the theorems *)
Definition mk_tf (q : v4) (t : v3) : tf := TF (v4_scale (1 / v4_norm q) q) t.

(** A 4x4 matrix from its corners (rows 4 are written 0 0 0 1). *)
Definition rt (C : m3) (t : v3) : m4 :=
  M4 (V4 (m00 C) (m01 C) (m02 C) (x0 t)) (V4 (m10 C) (m11 C) (m12 C) (x1 t))
     (V4 (m20 C) (m21 C) (m22 C) (x2 t)) (V4 0 0 0 1).
Definition topLeft (T : m4) : m3 :=
  M3 (q0 (r40 T)) (q1 (r40 T)) (q2 (r40 T)) (q0 (r41 T)) (q1 (r41 T)) (q2 (r41 T))
     (q0 (r42 T)) (q1 (r42 T)) (q2 (r42 T)).
Definition topRight (T : m4) : v3 := V3 (q3 (r40 T)) (q3 (r41 T)) (q3 (r42 T)).

(** lines 23-29, 57-61 *)
Definition tf_of_matrix (T : m4) : tf := TF (r2quat (topLeft T)) (topRight T).
(** lines 63-72 *)
Definition tf_T (A : tf) : m4 := rt (quat2r (tq A)) (tt A).
(** lines 83-87 *)
Definition tf_inverse (A : tf) : tf := mk_tf (quatInv (tq A)) (quatRotate (quatInv (tq A)) (v3_neg (tt A))).
(** lines 95-98 *)
Definition tf_mul (A B : tf) : tf := mk_tf (qplus (tq A) (tq B)) (v3_add (quatRotate (tq A) (tt B)) (tt A)).
(** lines 100-103 *)
Definition tf_point (A : tf) (p : v3) : v3 := v3_add (quatRotate (tq A) p) (tt A).
(** lines 105-113 and 116-122 *)
Definition tf_hpoint (A : tf) (p : v4) : v4 :=
  let h := v3_add (quatRotate (tq A) (V3 (q0 p) (q1 p) (q2 p))) (v3_scale (q3 p) (tt A)) in
  V4 (x0 h) (x1 h) (x2 h) (q3 p).
(** lines 137-141 *)
Definition tf_oplus (A : tf) (d : v6) : tf := TF (updateQuat (tq A) (tl3 d)) (v3_add (tt A) (hd3 d)).
(** lines 143-149 *)
Definition tf_S (A : tf) : m6 := M6 m3_I (m3_neg (crossMx (tt A))) m3_zero m3_I.
(** lines 208-211 *)
Definition tf_rotate (A : tf) (p : v3) : v3 := quatRotate (tq A) p.
(** lines 233-258; the recursive call has its times in order *)
Definition slerp_tf (A B : tf) (s : R) : option tf :=
  match qslerp (tq A) (tq B) s with
  | Some q => Some (mk_tf q (lerp (tt A) (tt B) s))
  | None => None
  end.
Definition interp_sorted (A : tf) (s0 : R) (B : tf) (s1 si : R) : option tf :=
  slerp_tf A B ((si - s0) / Rmax (1 / 10 ^ 14) (s1 - s0)).
Definition interp_tf (A : tf) (s0 : R) (B : tf) (s1 si : R) : option tf :=
  if ltb s1 s0 then interp_sorted B s1 A s0 si else interp_sorted A s0 B s1 si.

(** ** transformations.cpp *)

(** lines 34-42 *)
Definition boxPlus (d : v6) : m4 :=
  M4 (V4 0 (- x2 (tl3 d)) (x1 (tl3 d)) (- x0 (hd3 d)))
     (V4 (x2 (tl3 d)) 0 (- x0 (tl3 d)) (- x1 (hd3 d)))
     (V4 (- x1 (tl3 d)) (x0 (tl3 d)) 0 (- x2 (hd3 d)))
     (V4 0 0 0 0).
(** lines 45-53 *)
Definition boxMinus (p : v4) : m46 :=
  M46 (M43 (V3 (q3 p) 0 0) (V3 0 (q3 p) 0) (V3 0 0 (q3 p)) (V3 0 0 0))
      (M43 (V3 0 (- q2 p) (q1 p)) (V3 (q2 p) 0 (- q0 p)) (V3 (- q1 p) (q0 p) 0) (V3 0 0 0)).
(** lines 55-66 *)
Definition inverseTransform (T : m4) : m4 :=
  let C := m3_tr (topLeft T) in rt C (v3_neg (m3_vec C (topRight T))).
(** lines 68-101 *)
Definition fromTEuler (T : m4) : v6 := V6 (topRight T) (v3_neg (R2rph (topLeft T))).
Definition toTEuler (d : v6) : m4 := rt (rph2R (v3_neg (tl3 d))) (hd3 d).
(** lines 103-112 *)
Definition transformJ (T : m4) (v : v4) : v4 * m46 := let r := m4_vec T v in (r, boxMinus r).
(** lines 114-130 *)
Definition inverseTransformJ (Tba : m4) (v : v4) : v4 * m46 :=
  let Tab := inverseTransform Tba in
  let C := topLeft Tab in
  let L := m3_scale (- q3 v) C in
  let K := m3_mul (m3_neg C) (crossMx (V3 (q0 v) (q1 v) (q2 v))) in
  (m4_vec Tab v, M46 (M43 (m3_row0 L) (m3_row1 L) (m3_row2 L) (V3 0 0 0))
                     (M43 (m3_row0 K) (m3_row1 K) (m3_row2 K) (V3 0 0 0))).
(** lines 132-142 *)
Definition boxTimes (T : m4) : m6 :=
  M6 (topLeft T) (m3_mul (m3_neg (crossMx (topRight T))) (topLeft T)) m3_zero (topLeft T).

(** ** homogeneous_coordinates.cpp and .hpp *)

(** cpp lines 20-43; division by zero at q3 = 0 is outside the theorems *)
Definition fromHomogeneous (v : v4) : v3 * m34 :=
  let rv3 := 1 / q3 v in
  let e := v3_scale rv3 (V3 (q0 v) (q1 v) (q2 v)) in
  (e, M34 (V4 rv3 0 0 (- x0 e * rv3)) (V4 0 rv3 0 (- x1 e * rv3)) (V4 0 0 rv3 (- x2 e * rv3))).
(** hpp lines 25-33 *)
Definition v4_outer (a b : v4) : m4 :=
  M4 (v4_scale (q0 a) b) (v4_scale (q1 a) b) (v4_scale (q2 a) b) (v4_scale (q3 a) b).
Definition m4_sub (A B : m4) :=
  M4 (v4_sub (r40 A) (r40 B)) (v4_sub (r41 A) (r41 B)) (v4_sub (r42 A) (r42 B)) (v4_sub (r43 A) (r43 B)).
Definition normalizeJ (v : v4) : v4 * m4 :=
  let r := 1 / v4_norm v in
  (v4_scale r v, m4_sub (m4_scale r m4_I) (m4_scale (r * r * r) (v4_outer v v))).
(** cpp lines 71-96 *)
Definition hPlus (p : v4) : m4 :=
  M4 (V4 (q3 p) 0 0 (q0 p)) (V4 0 (q3 p) 0 (q1 p)) (V4 0 0 (q3 p) (q2 p)) (V4 0 0 0 (q3 p)).
Definition hMinus (p : v4) : m4 :=
  M4 (V4 (q3 p) 0 0 (- q0 p)) (V4 0 (q3 p) 0 (- q1 p)) (V4 0 0 (q3 p) (- q2 p)) (V4 0 0 0 (q3 p)).

(** ** HomogeneousPoint.cpp *)

(** lines 39-46, 91-98 *)
Definition hp_add (a b : v4) : v4 :=
  V4 (q0 a * q3 b + q0 b * q3 a) (q1 a * q3 b + q1 b * q3 a) (q2 a * q3 b + q2 b * q3 a) (q3 a * q3 b).
Definition hp_sub (a b : v4) : v4 :=
  V4 (q0 a * q3 b - q0 b * q3 a) (q1 a * q3 b - q1 b * q3 a) (q2 a * q3 b - q2 b * q3 a) (q3 a * q3 b).
(** lines 104-107 *)
Definition hp_oplus (p : v4) (d : v3) : v4 := updateQuat p d.
(** lines 124-129 *)
Definition hp_scale (s : R) (p : v4) : v4 := V4 (q0 p * s) (q1 p * s) (q2 p * s) (q3 p).
(** lines 132-155 and 164-188 *)
Definition hp_euclid (p : v4) : v3 := let r := 1 / q3 p in V3 (q0 p * r) (q1 p * r) (q2 p * r).
Definition hp_J4 (p : v4) : m43 :=
  m43_scale (1/2)
    (M43 (V3 (q3 p) (- q2 p) (q1 p)) (V3 (q2 p) (q3 p) (- q0 p))
         (V3 (- q1 p) (q0 p) (q3 p)) (V3 (- q0 p) (- q1 p) (- q2 p))).
Definition hp_J3 (p : v4) : m3 :=
  let r := 1 / q3 p in let v := hp_euclid p in
  m34_mul43 (M34 (V4 r 0 0 (- x0 v * r)) (V4 0 r 0 (- x1 v * r)) (V4 0 0 r (- x2 v * r))) (hp_J4 p).

(** ** UncertainTransformation.cpp and the uncertain operators of Transformation.cpp *)

Record utf := UTF { ut : tf; uU : m6 }.
(** A U A^T *)
Definition m6_sandwich (A U : m6) : m6 := m6_mul (m6_mul A U) (m6_tr A).
Definition m4_sandwich (A U : m4) : m4 := m4_mul (m4_mul A U) (m4_tr A).

(** UncertainTransformation.cpp:122-133 *)
Definition utf_mul (A B : utf) : utf :=
  UTF (tf_mul (ut A) (ut B)) (m6_add (uU A) (m6_sandwich (boxTimes (tf_T (ut A))) (uU B))).
(** Transformation.cpp:181-192 *)
Definition tf_mul_utf (A : tf) (B : utf) : utf :=
  UTF (tf_mul A (ut B)) (m6_sandwich (boxTimes (tf_T A)) (uU B)).
(** UncertainTransformation.cpp:204-211 *)
Definition utf_mul_tf (A : utf) (B : tf) : utf := UTF (tf_mul (ut A) B) (uU A).
(** lines 136-148 *)
Definition utf_inverse (A : utf) : utf :=
  let B := tf_inverse (ut A) in UTF B (m6_sandwich (boxTimes (tf_T B)) (uU A)).
(** lines 114-120; [S.inverse()] is the exact inverse of the unit triangular
    matrix S, which the theorems show this block matrix to be *)
Definition S_inverse (t : v3) : m6 := M6 m3_I (crossMx t) m3_zero m3_I.
Definition utf_UOplus (A : utf) : m6 := m6_sandwich (S_inverse (tt (ut A))) (uU A).
(** lines 180-188 *)
Definition utf_setUOplus (A : utf) (U : m6) : utf := UTF (ut A) (m6_sandwich (tf_S (ut A)) U).

(** ** UncertainHomogeneousPoint.cpp *)

Record uhp := UHP { up : v4; uU4 : m4 }.

(** UncertainTransformation.cpp:191-202 *)
Definition utf_uhp (A : utf) (p : uhp) : uhp :=
  let p0 := tf_hpoint (ut A) (up p) in
  let Jt := boxMinus p0 in
  UHP p0 (m4_add (m46_mul_tr (m46_mul6 Jt (uU A)) Jt) (m4_sandwich (tf_T (ut A)) (uU4 p))).
(** lines 214-224 *)
Definition utf_hp (A : utf) (p : v4) : uhp :=
  let p0 := tf_hpoint (ut A) p in
  let Jt := boxMinus p0 in UHP p0 (m46_mul_tr (m46_mul6 Jt (uU A)) Jt).
(** Transformation.cpp:195-204 *)
Definition tf_uhp (A : tf) (p : uhp) : uhp :=
  UHP (tf_hpoint A (up p)) (m4_sandwich (tf_T A) (uU4 p)).
(** lines 103-108 *)
Definition uhp_U3 (p : uhp) : m3 :=
  let J := snd (fromHomogeneous (up p)) in m34_mul43 (m34_mul4 J (uU4 p)) (m34_tr J).
(** lines 111-117 and 129-134, without their assertion that the norm is 1 +- 1e-6 *)
Definition uhp_Uav (p : uhp) : m3 :=
  let J := quatS (up p) in m34_mul43 (m34_mul4 J (uU4 p)) (m34_tr J).
Definition uhp_setUOplus (p : uhp) (U : m3) : uhp :=
  let K := quatInvS (up p) in UHP (up p) (m43_mul34 (m43_mul3 K U) (m43_tr K)).
(** lines 145-151 *)
Definition uhp_normalize (p : uhp) : uhp :=
  let n := normalizeJ (up p) in UHP (fst n) (m4_sandwich (snd n) (uU4 p)).
(** lines 157-180; HomogeneousPoint.cpp:48-69 does the same with the uncertain
    point on the right *)
Definition uhp_add_hp (a : uhp) (b : v4) : uhp := UHP (hp_add (up a) b) (uU4 a).
Definition uhp_sub_hp (a : uhp) (b : v4) : uhp := UHP (hp_sub (up a) b) (uU4 a).
(** lines 185-211 *)
Definition uhp_add (a b : uhp) : uhp :=
  UHP (hp_add (up a) (up b)) (m4_add (m4_sandwich (hPlus (up b)) (uU4 a)) (m4_sandwich (hPlus (up a)) (uU4 b))).
Definition uhp_sub (a b : uhp) : uhp :=
  UHP (hp_sub (up a) (up b)) (m4_add (m4_sandwich (hPlus (up b)) (uU4 a)) (m4_sandwich (hPlus (up a)) (uU4 b))).
