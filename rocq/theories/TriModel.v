(** * Triangulation from two rays (aslam_cv/aslam_cameras/src/Triangulation.cpp)

    Floating-point numbers are modelled as reals. *)
From Coq Require Import Reals.
From Verif Require Import KinModel.
Local Open Scope R_scope.

Record result := Result { point : v3; gap : R; s1 : R; s2 : R }.

(** Triangulation.cpp:7-32. [None]: the determinant is zero, the inverse divides by it
    and the outputs are not finite. Eigen inverts a 2x2 matrix by its cofactors. *)
Definition triangulate (point1 ray1 point2 ray2 : v3) : option result :=
  let t12 := v3_sub point2 point1 in
  let b0 := v3_dot t12 ray1 in
  let b1 := v3_dot t12 ray2 in
  let A00 := v3_dot ray1 ray1 in
  let A10 := v3_dot ray1 ray2 in
  let A01 := - A10 in
  let A11 := - v3_dot ray2 ray2 in
  let det := A00 * A11 - A10 * A01 in
  if Req_EM_T det 0 then None else
  let lambda0 := A11 / det * b0 + - A01 / det * b1 in
  let lambda1 := - A10 / det * b0 + A00 / det * b1 in
  let xm := v3_add point1 (v3_scale lambda0 ray1) in
  let xn := v3_add point2 (v3_scale lambda1 ray2) in
  let t := v3_sub xm xn in
  Some (Result (v3_add xn (v3_scale (1 / 2) t)) (v3_norm t) lambda0 lambda1).
