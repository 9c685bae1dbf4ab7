(** * What a rotation is, independently of the quaternion and matrix code *)

From Coq Require Import Reals.
From Verif Require Import KinModel.
Local Open Scope R_scope.

(** A proper rotation matrix: it preserves lengths and orientation. *)
Definition preserves_dot (C : m3) : Prop :=
  forall u v, v3_dot (m3_vec C u) (m3_vec C v) = v3_dot u v.
Definition SO3 (C : m3) : Prop :=
  m3_mul C (m3_tr C) = m3_I /\ m3_det C = 1.

(** A quaternion of length one. *)
Definition unit4 (q : v4) : Prop :=
  q0 q * q0 q + q1 q * q1 q + q2 q * q2 q + q3 q * q3 q = 1.
Definition unit3 (e : v3) : Prop := x0 e * x0 e + x1 e * x1 e + x2 e * x2 e = 1.

(** Rodrigues' formula for the image of [v] under the rotation by [-a] about
    the unit axis [e]: this library's matrices take a vector expressed in the
    unrotated frame to its coordinates in the rotated frame, hence the sign. *)
Definition rodrigues (e : v3) (a : R) (v : v3) : v3 :=
  v3_sub (v3_add (v3_scale (cos a) v) (v3_scale ((1 - cos a) * v3_dot e v) e))
         (v3_scale (sin a) (v3_cross e v)).

(** The product of the algebra of quaternions with i j = -k (the convention
    of Barfoot, Forbes and Furgale), from its vector form. *)
Definition quat_mult (p q : v4) : v4 :=
  let pv := V3 (q0 p) (q1 p) (q2 p) in
  let qv := V3 (q0 q) (q1 q) (q2 q) in
  let v := v3_sub (v3_add (v3_scale (q3 p) qv) (v3_scale (q3 q) pv)) (v3_cross pv qv) in
  V4 (x0 v) (x1 v) (x2 v) (q3 p * q3 q - v3_dot pv qv).
