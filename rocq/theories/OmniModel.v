(** * Model of the omnidirectional (unified) projection

    Models aslam_cv/aslam_cameras/include/aslam_cameras/cameras/implementation/
    OmniProjection.hpp lines 40-700, over an arbitrary distortion.

    Simplification throughout: C++ [double] is modelled by the real numbers;
    divisions by zero and roots of negative numbers give [NotFinite].  Output
    arguments that a failing call leaves unwritten are [Unset].  The cached
    [_fu_over_fv] is never read and is left out. *)

From Coq Require Import Reals List ZArith.
From Verif Require Import KinModel DistModel PinModel.
Import ListNotations.
Local Open Scope R_scope.

(** The members; [one_over] is _one_over_xixi_m_1, [fov_par] is _fov_parameter. *)
Record omni := Omni { xi : R; oi : intr; one_over : R; fov_par : R }.

(** updateTemporaries, lines 635-642.  1/(xi*xi-1) for xi = 1 (infinite in
    C++) is only read when xi > 1. *)
Definition make_omni (x : R) (C : intr) : omni :=
  Omni x (make_intr (fu C) (fv C) (cu C) (cv C) (ru C) (rv C)) (1 / (x * x - 1))
       (if Rle_dec x 1 then x else 1 / x).

(** p.norm() *)
Definition p_norm (p : v3) : R := sqrt (x0 p * x0 p + x1 p * x1 p + x2 p * x2 p).

(** euclideanToKeypoint, lines 72-110 *)
Definition omni_project (D : distortion) (M : omni) (p : v3) : res v2 * bool :=
  let d := p_norm p in
  if Rle_dec (x2 p) (- (fov_par M * d)) then (Unset, false)
  else if Req_EM_T (x2 p + xi M * d) 0 then (NotFinite, false)
  else let rz := 1 / (x2 p + xi M * d) in
       let k := to_pixel (oi M) (distort D (V2 (x0 p * rz) (x1 p * rz))) in
       (Val k, on_sensor (oi M) k).

(** euclideanToKeypoint with Jacobian, lines 112-179.  The Jacobian is set to
    zero before the test. *)
Definition m23_0 := M23 0 0 0 0 0 0.
Definition omni_projectJ (D : distortion) (M : omni) (p : v3) : (res v2 * res m23) * bool :=
  let d := p_norm p in
  if Rle_dec (x2 p) (- (fov_par M * d)) then ((Unset, Val m23_0), false)
  else if Req_EM_T (x2 p + xi M * d) 0 then ((NotFinite, NotFinite), false)
  else if Req_EM_T d 0 then ((NotFinite, NotFinite), false)
  else
    let rz := 1 / (x2 p + xi M * d) in
    let kp := V2 (x0 p * rz) (x1 p * rz) in
    let rz1 := rz * rz / d in
    let a00 := rz1 * (d * x2 p + xi M * (x1 p * x1 p + x2 p * x2 p)) in
    let a10 := - rz1 * xi M * x0 p * x1 p in
    let a01 := a10 in
    let a11 := rz1 * (d * x2 p + xi M * (x0 p * x0 p + x2 p * x2 p)) in
    let rz2 := rz1 * (- xi M * x2 p - d) in
    let a02 := x0 p * rz2 in
    let a12 := x1 p * rz2 in
    let (kd, Jd) := distortJ D kp in
    let J := rbind Jd (fun J => Val (M23
      (fu (oi M) * (a00 * n00 J + a10 * n01 J)) (fu (oi M) * (a01 * n00 J + a11 * n01 J)) (fu (oi M) * (a02 * n00 J + a12 * n01 J))
      (fv (oi M) * (a00 * n10 J + a10 * n11 J)) (fv (oi M) * (a01 * n10 J + a11 * n11 J)) (fv (oi M) * (a02 * n10 J + a12 * n11 J)))) in
    let k := to_pixel (oi M) kd in
    ((Val k, J), on_sensor (oi M) k).

(** homogeneousToKeypoint, lines 181-229 (the fourth column of the Jacobian
    is zero and is left out) *)
Definition omni_hproject (D : distortion) (M : omni) (ph : v4) : res v2 * bool :=
  if Rlt_dec (q3 ph) 0 then omni_project D M (neg3 (head3 ph)) else omni_project D M (head3 ph).
Definition omni_hprojectJ (D : distortion) (M : omni) (ph : v4) : (res v2 * res m23) * bool :=
  if Rlt_dec (q3 ph) 0
  then let '((k, J), b) := omni_projectJ D M (neg3 (head3 ph)) in ((k, rbind J (fun J => Val (m23_opp J))), b)
  else omni_projectJ D M (head3 ph).

(** isUndistortedKeypointValid, lines 593-597 *)
Definition omni_liftable2 (M : omni) (rho2 : R) : bool := (leb (xi M) 1 || leb rho2 (one_over M))%bool.

(** The normalised point of a pixel, lines 246-247.  The reciprocals of zero
    focal lengths (infinite in C++) give [NotFinite]. *)
Definition omni_norm (M : omni) (k : v2) : res v2 :=
  if Req_EM_T (fu (oi M)) 0 then NotFinite else if Req_EM_T (fv (oi M)) 0 then NotFinite
  else Val (V2 (recip_fu (oi M) * (u0 k - cu (oi M))) (recip_fv (oi M) * (u1 k - cv (oi M)))).

(** keypointToEuclidean, lines 231-262.  The flag only says that the pixel can
    be lifted, not that it is inside the sensor. *)
Definition omni_lift (D : distortion) (M : omni) (k : v2) : res v3 * bool :=
  match rbind (omni_norm M k) (undistort D) with
  | Val y =>
      let rho2 := u0 y * u0 y + u1 y * u1 y in
      if omni_liftable2 M rho2 then
        if Rlt_dec (1 + (1 - xi M * xi M) * rho2) 0 then (NotFinite, true)
        else let den := xi M + sqrt (1 + (1 - xi M * xi M) * rho2) in
             if Req_EM_T den 0 then (NotFinite, true)
             else (Val (V3 (u0 y) (u1 y) (1 - xi M * (rho2 + 1) / den)), true)
      else (Unset, false)
  | NotFinite => (NotFinite, leb (xi M) 1)
  | Unset => (Unset, false)
  | Throws => (Throws, false)
  end.

(** keypointToEuclidean with Jacobian, lines 264-326 *)
Definition omni_liftJ (D : distortion) (M : omni) (k : v2) : res (v3 * m32) * bool :=
  match rbind (omni_norm M k) (undistortJ D) with
  | Val (y, Jd) =>
      let rho2 := u0 y * u0 y + u1 y * u1 y in
      if omni_liftable2 M rho2 then
        if Rlt_dec (- rho2 * (xi M * xi M - 1) + 1) 0 then (NotFinite, true)
        else
          let tmpZ := sqrt (- rho2 * (xi M * xi M - 1) + 1) in
          let tmpA := xi M + tmpZ in
          if Req_EM_T tmpA 0 then (NotFinite, true) else if Req_EM_T tmpZ 0 then (NotFinite, true)
          else
            let recip_tmpA := 1 / tmpA in
            let recip_tmpA2 := recip_tmpA * recip_tmpA in
            let tmpB := 1 / tmpZ in
            let rfu := recip_fu (oi M) in let rfv := recip_fv (oi M) in
            let mul := - xi M * (2 * recip_tmpA + recip_tmpA2 * (xi M * xi M - 1) * tmpB * (rho2 + 1)) in
            let J30 := u0 y * mul in
            let J31 := u1 y * mul in
            (Val (V3 (u0 y) (u1 y) (1 - xi M * (rho2 + 1) * recip_tmpA),
                  M32 (n00 Jd * rfu) (n01 Jd * rfv) (n10 Jd * rfu) (n11 Jd * rfv)
                      ((J30 * n00 Jd + J31 * n10 Jd) * rfu) ((J30 * n01 Jd + J31 * n11 Jd) * rfv)), true)
      else (Unset, false)
  | NotFinite => (NotFinite, leb (xi M) 1)
  | Unset => (Unset, false)
  | Throws => (Throws, false)
  end.

(** isLiftable, lines 599-618 *)
Definition omni_liftable (D : distortion) (M : omni) (k : v2) : bool :=
  match rbind (omni_norm M k) (undistort D) with
  | Val y => omni_liftable2 M (u0 y * u0 y + u1 y * u1 y)
  | NotFinite => leb (xi M) 1
  | _ => false
  end.

(** euclideanToKeypointIntrinsicsJacobian, lines 374-416, by columns; there
    is no test of the field of view here *)
Definition omni_intrJ (D : distortion) (M : omni) (p : v3) : res (list v2) :=
  let d := p_norm p in
  if Req_EM_T (x2 p + xi M * d) 0 then NotFinite
  else
    let rz := 1 / (x2 p + xi M * d) in
    let kp := V2 (x0 p * rz) (x1 p * rz) in
    let jx0 := - u0 kp * d * rz in
    let jx1 := - u1 kp * d * rz in
    let (kd, Jd) := distortJ D kp in
    rbind Jd (fun J => Val
      [V2 (fu (oi M) * n00 J * jx0 + fu (oi M) * n01 J * jx1) (fv (oi M) * n10 J * jx0 + fv (oi M) * n11 J * jx1);
       V2 (u0 kd) 0; V2 0 (u1 kd); V2 1 0; V2 0 1]).

(** euclideanToKeypointDistortionJacobian, lines 418-441, by columns *)
Definition omni_distJ (D : distortion) (M : omni) (p : v3) : res (list v2) :=
  let d := p_norm p in
  if Req_EM_T (x2 p + xi M * d) 0 then NotFinite
  else let rz := 1 / (x2 p + xi M * d) in
       rbind (paramJ D (V2 (x0 p * rz) (x1 p * rz))) (fun cols =>
         Val (map (fun c => V2 (fu (oi M) * u0 c) (fv (oi M) * u1 c)) cols)).

(** update 645-655, setParameters 671-681, getParameters 666-669,
    resizeIntrinsics 701-710 *)
Definition omni_update (M : omni) (v : list R) : omni :=
  make_omni (xi M + nth 0 v 0)
    (make_intr (fu (oi M) + nth 1 v 0) (fv (oi M) + nth 2 v 0) (cu (oi M) + nth 3 v 0) (cv (oi M) + nth 4 v 0) (ru (oi M)) (rv (oi M))).
Definition omni_set (M : omni) (v : list R) : omni :=
  make_omni (nth 0 v 0) (make_intr (nth 1 v 0) (nth 2 v 0) (nth 3 v 0) (nth 4 v 0) (ru (oi M)) (rv (oi M))).
Definition omni_get (M : omni) : list R := [xi M; fu (oi M); fv (oi M); cu (oi M); cv (oi M)].
Definition omni_resize (M : omni) (s : R) : omni := make_omni (xi M) (pin_resize (oi M) s).

Inductive omni_op := OUpdate (v : list R) | OSet (v : list R) | OResize (s : R).
Definition omni_step (M : omni) (o : omni_op) : omni :=
  match o with OUpdate v => omni_update M v | OSet v => omni_set M v | OResize s => omni_resize M s end.

(** One round of the loop of createRandomKeypoint, lines 527-539: [u] is the
    random direction before normalisation, [r] the random number in [0,1].
    The loop ends when the pixel is accepted.  For xi = 1 or -1 the radius is
    infinite. *)
Definition omni_candidate (D : distortion) (M : omni) (u : v2) (r : R) : res v2 :=
  if Req_EM_T (xi M * xi M) 1 then NotFinite else if Req_EM_T (v2_norm u) 0 then NotFinite
  else Val (to_pixel (oi M) (distort D (v2_scale (r * one_over M) (v2_scale (1 / v2_norm u) u)))).
Definition omni_accepted (M : omni) (k : v2) : bool :=
  (ltb 0 (u0 k) && ltb (u0 k) (IZR (ru (oi M)) - 1) && ltb 0 (u1 k) && ltb (u1 k) (IZR (rv (oi M)) - 1))%bool.
