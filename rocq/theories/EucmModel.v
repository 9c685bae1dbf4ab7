(** * Model of the extended unified projection

    Models aslam_cv/aslam_cameras/include/aslam_cameras/cameras/implementation/
    ExtendedUnifiedProjection.hpp lines 85-760.  The class only compiles for
    NoDistortion.

    Simplification throughout: C++ [double] is modelled by the real numbers;
    divisions by zero and roots of negative numbers give [NotFinite].  Output
    arguments that a failing call leaves unwritten are [Unset].  The cached
    [_fu_over_fv] is never read and is left out. *)

From Coq Require Import Reals List ZArith.
From Verif Require Import KinModel DistModel PinModel OmniModel.
Import ListNotations.
Local Open Scope R_scope.

(** The members; [e_over] is _one_over_beta_2alpha_m_1, [e_fov] is
    _fov_parameter. *)
Record eucm := Eucm { ea : R; eb : R; ei : intr; e_over : R; e_fov : R }.

(** updateTemporaries, lines 651-658 *)
Definition make_eucm (a b : R) (C : intr) : eucm :=
  Eucm a b (make_intr (fu C) (fv C) (cu C) (cv C) (ru C) (rv C)) (1 / (b * (2 * a - 1)))
       (if Rle_dec a (1 / 2) then a / (1 - a) else (1 - a) / a).

(** euclideanToKeypoint, lines 89-125.  A negative [d2] gives NaN: the test is
    false and the keypoint is not a number, so it is never valid. *)
Definition eucm_d2 (M : eucm) (p : v3) : R := eb M * (x0 p * x0 p + x1 p * x1 p) + x2 p * x2 p.
Definition eucm_project (M : eucm) (p : v3) : res v2 * bool :=
  if Rlt_dec (eucm_d2 M p) 0 then (NotFinite, false)
  else
    let d := sqrt (eucm_d2 M p) in
    if Rle_dec (x2 p) (- (e_fov M * d)) then (Unset, false)
    else
      let norm := ea M * d + (1 - ea M) * x2 p in
      if Req_EM_T norm 0 then (NotFinite, false)
      else let norm_inv := 1 / norm in
           let k := to_pixel (ei M) (V2 (x0 p * norm_inv) (x1 p * norm_inv)) in
           (Val k, on_sensor (ei M) k).

(** euclideanToKeypoint with Jacobian, lines 127-195 *)
Definition eucm_projectJ (M : eucm) (p : v3) : (res v2 * res m23) * bool :=
  if Rlt_dec (eucm_d2 M p) 0 then ((NotFinite, NotFinite), false)
  else
    let d := sqrt (eucm_d2 M p) in
    if Rle_dec (x2 p) (- (e_fov M * d)) then ((Unset, Val m23_0), false)
    else
      let norm := ea M * d + (1 - ea M) * x2 p in
      if Req_EM_T norm 0 then ((NotFinite, NotFinite), false)
      else
        let norm_inv := 1 / norm in
        let k := to_pixel (ei M) (V2 (x0 p * norm_inv) (x1 p * norm_inv)) in
        if Req_EM_T d 0 then ((Val k, NotFinite), on_sensor (ei M) k)
        else
          let d_inv := 1 / d in
          let denom := norm_inv * norm_inv * d_inv in
          let mid := - (ea M * eb M * x0 p * x1 p) * denom in
          let add := norm * d in
          let addz := ea M * x2 p + (1 - ea M) * d in
          let f := fu (ei M) in let g := fv (ei M) in
          ((Val k, Val (M23 (f * (add - x0 p * x0 p * ea M * eb M) * denom) (f * mid) (- f * x0 p * addz * denom)
                            (g * mid) (g * (add - x1 p * x1 p * ea M * eb M) * denom) (- g * x1 p * addz * denom))), on_sensor (ei M) k).

(** homogeneousToKeypoint, lines 197-245 (the fourth column of the Jacobian
    is zero and is left out) *)
Definition eucm_hproject (M : eucm) (ph : v4) : res v2 * bool :=
  if Rlt_dec (q3 ph) 0 then eucm_project M (neg3 (head3 ph)) else eucm_project M (head3 ph).
Definition eucm_hprojectJ (M : eucm) (ph : v4) : (res v2 * res m23) * bool :=
  if Rlt_dec (q3 ph) 0
  then let '((k, J), b) := eucm_projectJ M (neg3 (head3 ph)) in ((k, rbind J (fun J => Val (m23_opp J))), b)
  else eucm_projectJ M (head3 ph).

(** isUndistortedKeypointValid, lines 609-613, and isLiftable, 615-630 *)
Definition eucm_liftable2 (M : eucm) (r2 : R) : bool := (leb (ea M) (1 / 2) || leb r2 (e_over M))%bool.

(** The normalised point of a pixel, lines 263-264.  The reciprocals of zero
    focal lengths (infinite in C++) give [NotFinite]. *)
Definition norm_pixel (C : intr) (k : v2) : res v2 :=
  if Req_EM_T (fu C) 0 then NotFinite else if Req_EM_T (fv C) 0 then NotFinite
  else Val (V2 (recip_fu C * (u0 k - cu C)) (recip_fv C * (u1 k - cv C))).
Definition eucm_liftable (M : eucm) (k : v2) : bool :=
  match norm_pixel (ei M) k with
  | Val y => eucm_liftable2 M (u0 y * u0 y + u1 y * u1 y)
  | _ => leb (ea M) (1 / 2)
  end.

(** keypointToEuclidean, lines 247-283.  The flag does not say whether the
    pixel is on the sensor. *)
Definition eucm_lift (M : eucm) (kp : v2) : res v3 * bool :=
  match norm_pixel (ei M) kp with
  | Val m =>
      let r2 := u0 m * u0 m + u1 m * u1 m in
      if eucm_liftable2 M r2 then
        let gamma := 1 - ea M in
        if Rlt_dec (1 - (ea M - gamma) * eb M * r2) 0 then (NotFinite, true)
        else
          let tmp2 := ea M * sqrt (1 - (ea M - gamma) * eb M * r2) + gamma in
          if Req_EM_T tmp2 0 then (NotFinite, true)
          else
            let k := (1 - ea M * ea M * eb M * r2) / tmp2 in
            if Req_EM_T (r2 + k * k) 0 then (NotFinite, true)
            else let norm_inv := 1 / sqrt (r2 + k * k) in
                 (Val (V3 (u0 m * norm_inv) (u1 m * norm_inv) (k * norm_inv)), true)
      else (Unset, false)
  | _ => (NotFinite, leb (ea M) (1 / 2))
  end.

(** keypointToEuclidean with Jacobian, lines 285-343 *)
Definition eucm_liftJ (M : eucm) (kp : v2) : res (v3 * m32) * bool :=
  match norm_pixel (ei M) kp with
  | Val m =>
      let mx := u0 m in let my := u1 m in
      let r2 := mx * mx + my * my in
      if eucm_liftable2 M r2 then
        let alpha := ea M in let beta := eb M in
        let gamma := 1 - alpha in
        let tmp1 := 1 - alpha * alpha * beta * r2 in
        if Rlt_dec (1 - (alpha - gamma) * beta * r2) 0 then (NotFinite, true)
        else
          let tmp_sqrt := sqrt (1 - (alpha - gamma) * beta * r2) in
          let tmp2 := alpha * tmp_sqrt + gamma in
          if Req_EM_T tmp2 0 then (NotFinite, true)
          else if Req_EM_T tmp_sqrt 0 then (NotFinite, true)
          else
            let tmp2_inv := 1 / tmp2 in
            let tmp2_inv2 := tmp2_inv * tmp2_inv in
            let dk := (1 / 2) * alpha * beta * (-2 * alpha * tmp2 + tmp1 * (alpha - gamma) / tmp_sqrt) * tmp2_inv2 in
            let k := tmp1 * tmp2_inv in
            if Req_EM_T (r2 + k * k) 0 then (NotFinite, true)
            else
              let n := 1 / sqrt (r2 + k * k) in
              let dn := - (1 / 2) * (1 + 2 * k * dk) * n * n * n in
              let rfu := recip_fu (ei M) in let rfv := recip_fv (ei M) in
              (Val (V3 (mx * n) (my * n) (k * n),
                    M32 ((n + 2 * mx * mx * dn) * rfu) ((2 * my * mx * dn) * rfv)
                        ((2 * my * mx * dn) * rfu) ((n + 2 * my * my * dn) * rfv)
                        (2 * mx * (k * dn + dk * n) * rfu) (2 * my * (k * dn + dk * n) * rfv)), true)
      else (Unset, false)
  | _ => (NotFinite, leb (ea M) (1 / 2))
  end.

(** euclideanToKeypointIntrinsicsJacobian, lines 388-449, by columns; there is
    no test of the field of view here *)
Definition eucm_intrJ (M : eucm) (p : v3) : res (list v2) :=
  if Rle_dec (eucm_d2 M p) 0 then NotFinite
  else
    let r2 := x0 p * x0 p + x1 p * x1 p in
    let d := sqrt (eucm_d2 M p) in
    let d_inv := 1 / d in
    let norm := ea M * d + (1 - ea M) * x2 p in
    if Req_EM_T norm 0 then NotFinite
    else
      let norm_inv := 1 / norm in
      let norm_inv2 := norm_inv * norm_inv in
      let tmp_x := - fu (ei M) * x0 p * norm_inv2 in
      let tmp_y := - fu (ei M) * x1 p * norm_inv2 in
      let tmp4 := d - x2 p in
      let tmp5 := (1 / 2) * ea M * r2 * d_inv in
      Val [V2 (tmp_x * tmp4) (tmp_y * tmp4); V2 (tmp_x * tmp5) (tmp_y * tmp5);
           V2 (x0 p * norm_inv) 0; V2 0 (x1 p * norm_inv); V2 1 0; V2 0 1].

(** update 661-671, setParameters 687-699, getParameters 682-686,
    resizeIntrinsics 715-725 *)
Definition eucm_update (M : eucm) (v : list R) : eucm :=
  make_eucm (ea M + nth 0 v 0) (eb M + nth 1 v 0)
    (make_intr (fu (ei M) + nth 2 v 0) (fv (ei M) + nth 3 v 0) (cu (ei M) + nth 4 v 0) (cv (ei M) + nth 5 v 0) (ru (ei M)) (rv (ei M))).
Definition eucm_set (M : eucm) (v : list R) : eucm :=
  make_eucm (nth 0 v 0) (nth 1 v 0) (make_intr (nth 2 v 0) (nth 3 v 0) (nth 4 v 0) (nth 5 v 0) (ru (ei M)) (rv (ei M))).
Definition eucm_get (M : eucm) : list R := [ea M; eb M; fu (ei M); fv (ei M); cu (ei M); cv (ei M)].
Definition eucm_resize (M : eucm) (s : R) : eucm := make_eucm (ea M) (eb M) (pin_resize (ei M) s).
Inductive eucm_op := EUpdate (v : list R) | ESet (v : list R) | EResize (s : R).
Definition eucm_step (M : eucm) (o : eucm_op) : eucm :=
  match o with EUpdate v => eucm_update M v | ESet v => eucm_set M v | EResize s => eucm_resize M s end.

(** initializeIntrinsics, lines 730-756: what is taken over from the
    omnidirectional camera on success. *)
Definition eucm_from_omni (O : omni) : eucm :=
  make_eucm (1 / 2 * xi O) 1
    (make_intr (1 / 2 * fu (oi O)) (1 / 2 * fv (oi O)) (cu (oi O)) (cv (oi O)) (ru (oi O)) (rv (oi O))).

(** One round of the loop of createRandomKeypoint, lines 562-577; infinite
    radius for alpha = 1/2 or beta = 0. *)
Definition eucm_candidate (M : eucm) (u : v2) (r : R) : res v2 :=
  if Req_EM_T (eb M * (2 * ea M - 1)) 0 then NotFinite else if Req_EM_T (v2_norm u) 0 then NotFinite
  else Val (to_pixel (ei M) (v2_scale (r * e_over M) (v2_scale (1 / v2_norm u) u))).
