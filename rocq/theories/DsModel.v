(** * Model of the double sphere projection

    Models aslam_cv/aslam_cameras/include/aslam_cameras/cameras/implementation/
    DoubleSphereProjection.hpp lines 90-830.  The class only compiles for
    NoDistortion.

    Simplification throughout: C++ [double] is modelled by the real numbers;
    divisions by zero and roots of negative numbers give [NotFinite].  Output
    arguments that a failing call leaves unwritten are [Unset].  The cached
    [_fu_over_fv] is never read and is left out. *)

From Coq Require Import Reals List ZArith.
From Verif Require Import KinModel DistModel PinModel OmniModel EucmModel.
Import ListNotations.
Local Open Scope R_scope.

(** The members; [s_over] is _one_over_2alpha_m_1, [s_fov] is
    _fov_parameter. *)
Record ds := Ds { sx : R; sa : R; si : intr; s_over : R; s_fov : res R }.

(** std::numeric_limits<double>::max() *)
Definition dbl_max : R := (2 ^ 53 - 1) * 2 ^ 971.

(** updateTemporaries, lines 694-702 *)
Definition ds_w (a : R) : R := if Rle_dec a (1 / 2) then a / (1 - a) else (1 - a) / a.
Definition make_ds (x a : R) (C : intr) : ds :=
  Ds x a (make_intr (fu C) (fv C) (cu C) (cv C) (ru C) (rv C))
     (if Rlt_dec (1 / 2) a then 1 / (2 * a - 1) else dbl_max)
     (if Rle_dec (2 * ds_w a * x + x * x + 1) 0 then NotFinite
      else Val ((ds_w a + x) / sqrt (2 * ds_w a * x + x * x + 1))).

(** The test of lines 117 and 179; comparing with NaN is false. *)
Definition ds_refused (M : ds) (z d1 : R) : bool :=
  match s_fov M with Val f => leb z (- (f * d1)) | _ => false end.

(** euclideanToKeypoint, lines 90-137 *)
Definition ds_d1 (p : v3) : R := sqrt (x0 p * x0 p + x1 p * x1 p + x2 p * x2 p).
Definition ds_k (M : ds) (p : v3) : R := sx M * ds_d1 p + x2 p.
Definition ds_d2 (M : ds) (p : v3) : R := sqrt (x0 p * x0 p + x1 p * x1 p + ds_k M p * ds_k M p).
Definition ds_norm (M : ds) (p : v3) : R := sa M * ds_d2 M p + (1 - sa M) * ds_k M p.
Definition ds_project (M : ds) (p : v3) : res v2 * bool :=
  if ds_refused M (x2 p) (ds_d1 p) then (Unset, false)
  else if Req_EM_T (ds_norm M p) 0 then (NotFinite, false)
  else let norm_inv := 1 / ds_norm M p in
       let k := to_pixel (si M) (V2 (x0 p * norm_inv) (x1 p * norm_inv)) in
       (Val k, on_sensor (si M) k).

(** euclideanToKeypoint with Jacobian, lines 139-219 *)
Definition ds_projectJ (M : ds) (p : v3) : (res v2 * res m23) * bool :=
  let d1 := ds_d1 p in
  if ds_refused M (x2 p) d1 then ((Unset, Val m23_0), false)
  else
    let k := ds_k M p in
    let d2 := ds_d2 M p in
    let norm := ds_norm M p in
    if Req_EM_T norm 0 then ((NotFinite, NotFinite), false)
    else
      let norm_inv := 1 / norm in
      let norm_inv2 := norm_inv * norm_inv in
      let kp := to_pixel (si M) (V2 (x0 p * norm_inv) (x1 p * norm_inv)) in
      if Req_EM_T d1 0 then ((Val kp, NotFinite), on_sensor (si M) kp)
      else if Req_EM_T d2 0 then ((Val kp, NotFinite), on_sensor (si M) kp)
      else
        let d1_inv := 1 / d1 in
        let d2_inv := 1 / d2 in
        let xy := x0 p * x1 p in
        let tt2 := sx M * x2 p * d1_inv + 1 in
        let dn := (sx M * (1 - sa M) * d1_inv + sa M * (sx M * k * d1_inv + 1) * d2_inv) * norm_inv2 in
        let tmp2 := ((1 - sa M) * tt2 + sa M * k * tt2 * d2_inv) * norm_inv2 in
        let f := fu (si M) in let g := fv (si M) in
        ((Val kp, Val (M23 (f * (norm_inv - x0 p * x0 p * dn)) (- f * xy * dn) (- f * x0 p * tmp2)
                           (- g * xy * dn) (g * (norm_inv - x1 p * x1 p * dn)) (- g * x1 p * tmp2))), on_sensor (si M) kp).

(** homogeneousToKeypoint, lines 221-267 (the fourth column of the Jacobian
    is zero and is left out) *)
Definition ds_hproject (M : ds) (ph : v4) : res v2 * bool :=
  if Rlt_dec (q3 ph) 0 then ds_project M (neg3 (head3 ph)) else ds_project M (head3 ph).
Definition ds_hprojectJ (M : ds) (ph : v4) : (res v2 * res m23) * bool :=
  if Rlt_dec (q3 ph) 0
  then let '((k, J), b) := ds_projectJ M (neg3 (head3 ph)) in ((k, rbind J (fun J => Val (m23_opp J))), b)
  else ds_projectJ M (head3 ph).

(** isUndistortedKeypointValid, lines 655-659, and isLiftable, 661-676 *)
Definition ds_liftable2 (M : ds) (r2 : R) : bool := (leb (sa M) (1 / 2) || leb r2 (s_over M))%bool.
Definition ds_liftable (M : ds) (k : v2) : bool :=
  match norm_pixel (si M) k with
  | Val y => ds_liftable2 M (u0 y * u0 y + u1 y * u1 y)
  | _ => leb (sa M) (1 / 2)
  end.

(** keypointToEuclidean, lines 269-305 *)
Definition ds_lift (M : ds) (kp : v2) : res v3 * bool :=
  match norm_pixel (si M) kp with
  | Val m =>
      let mx := u0 m in let my := u1 m in
      let r2 := mx * mx + my * my in
      if ds_liftable2 M r2 then
        if Rlt_dec (1 - (2 * sa M - 1) * r2) 0 then (NotFinite, true)
        else
          let norm2 := sa M * sqrt (1 - (2 * sa M - 1) * r2) + 1 - sa M in
          if Req_EM_T norm2 0 then (NotFinite, true)
          else
            let mz := (1 - sa M * sa M * r2) / norm2 in
            if Rlt_dec (mz * mz + (1 - sx M * sx M) * r2) 0 then (NotFinite, true)
            else if Req_EM_T (mz * mz + r2) 0 then (NotFinite, true)
            else let k := (mz * sx M + sqrt (mz * mz + (1 - sx M * sx M) * r2)) / (mz * mz + r2) in
                 (Val (V3 (k * mx) (k * my) (k * mz - sx M)), true)
      else (Unset, false)
  | _ => (NotFinite, leb (sa M) (1 / 2))
  end.

(** keypointToEuclidean with Jacobian, lines 307-389 *)
Definition ds_liftJ (M : ds) (kp : v2) : res (v3 * m32) * bool :=
  match norm_pixel (si M) kp with
  | Val m =>
      let mx := u0 m in let my := u1 m in
      let r2 := mx * mx + my * my in
      if ds_liftable2 M r2 then
        let a2 := sa M * sa M in
        let x2 := sx M * sx M in
        if Rlt_dec (1 - (2 * sa M - 1) * r2) 0 then (NotFinite, true)
        else
          let sqrt2 := sqrt (1 - (2 * sa M - 1) * r2) in
          let norm2 := sa M * sqrt2 + 1 - sa M in
          if Req_EM_T norm2 0 then (NotFinite, true)
          else if Req_EM_T sqrt2 0 then (NotFinite, true)
          else
            let sqrt2_inv := 1 / sqrt2 in
            let norm2_inv := 1 / norm2 in
            let norm2_inv2 := norm2_inv * norm2_inv in
            let mz := (1 - a2 * r2) * norm2_inv in
            let mz2 := mz * mz in
            let norm1 := mz2 + r2 in
            if Rle_dec (mz2 + (1 - x2) * r2) 0 then (NotFinite, true)
            else if Req_EM_T norm1 0 then (NotFinite, true)
            else
              let norm1_inv := 1 / norm1 in
              let norm1_inv2 := norm1_inv * norm1_inv in
              let sqrt1 := sqrt (mz2 + (1 - x2) * r2) in
              let sqrt1_inv := 1 / sqrt1 in
              let k := (mz * sx M + sqrt1) * norm1_inv in
              let dmz := (1 / 2 * sa M - a2) * (r2 * a2 - 1) * sqrt2_inv * norm2_inv2 - a2 * norm2_inv in
              let dmz_x := 2 * mx * dmz in
              let dmz_y := 2 * my * dmz in
              let dk := (sx M * dmz + 1 / 2 * sqrt1_inv * (2 * mz * dmz + 1 - x2)) * norm1_inv
                        - (mz * sx M + sqrt1) * (2 * mz * dmz + 1) * norm1_inv2 in
              let dk_x := dk * 2 * mx in
              let dk_y := dk * 2 * my in
              let rfu := recip_fu (si M) in let rfv := recip_fv (si M) in
              (Val (V3 (k * mx) (k * my) (k * mz - sx M),
                    M32 (rfu * (mx * dk_x + k)) (rfv * mx * dk_y)
                        (rfu * my * dk_x) (rfv * (my * dk_y + k))
                        (rfu * (mz * dk_x + k * dmz_x)) (rfv * (mz * dk_y + k * dmz_y))), true)
      else (Unset, false)
  | _ => (NotFinite, leb (sa M) (1 / 2))
  end.

(** euclideanToKeypointIntrinsicsJacobian, lines 439-499, by columns; there is
    no test of the field of view here *)
Definition ds_intrJ (M : ds) (p : v3) : res (list v2) :=
  let k := ds_k M p in
  if Req_EM_T (ds_d2 M p) 0 then NotFinite
  else if Req_EM_T (ds_norm M p) 0 then NotFinite
  else
    let d2_inv := 1 / ds_d2 M p in
    let norm_inv := 1 / ds_norm M p in
    let norm_inv2 := norm_inv * norm_inv in
    let tmp4 := (sa M - 1 - sa M * k * d2_inv) * ds_d1 p * norm_inv2 in
    let tmp5 := (k - ds_d2 M p) * norm_inv2 in
    let f := fu (si M) in let g := fv (si M) in
    Val [V2 (f * x0 p * tmp4) (g * x1 p * tmp4); V2 (f * x0 p * tmp5) (g * x1 p * tmp5);
         V2 (x0 p * norm_inv) 0; V2 0 (x1 p * norm_inv); V2 1 0; V2 0 1].

(** update 704-715, setParameters 732-744, getParameters 727-731,
    resizeIntrinsics 766-776 *)
Definition ds_update (M : ds) (v : list R) : ds :=
  make_ds (sx M + nth 0 v 0) (sa M + nth 1 v 0)
    (make_intr (fu (si M) + nth 2 v 0) (fv (si M) + nth 3 v 0) (cu (si M) + nth 4 v 0) (cv (si M) + nth 5 v 0) (ru (si M)) (rv (si M))).
Definition ds_set (M : ds) (v : list R) : ds :=
  make_ds (nth 0 v 0) (nth 1 v 0) (make_intr (nth 2 v 0) (nth 3 v 0) (nth 4 v 0) (nth 5 v 0) (ru (si M)) (rv (si M))).
Definition ds_get (M : ds) : list R := [sx M; sa M; fu (si M); fv (si M); cu (si M); cv (si M)].
Definition ds_resize (M : ds) (s : R) : ds := make_ds (sx M) (sa M) (pin_resize (si M) s).
Inductive ds_op := DUpdate (v : list R) | DSet (v : list R) | DResize (s : R).
Definition ds_step (M : ds) (o : ds_op) : ds :=
  match o with DUpdate v => ds_update M v | DSet v => ds_set M v | DResize s => ds_resize M s end.

(** initializeIntrinsics, lines 778-806: what is taken over from the
    omnidirectional camera on success. *)
Definition ds_from_omni (O : omni) : ds :=
  make_ds 0 (1 / 2 * xi O)
    (make_intr (1 / 2 * fu (oi O)) (1 / 2 * fv (oi O)) (cu (oi O)) (cv (oi O)) (ru (oi O)) (rv (oi O))).

(** One round of the loop of createRandomKeypoint, lines 608-618 *)
Definition ds_candidate (M : ds) (u : v2) (r : R) : res v2 :=
  if Req_EM_T (v2_norm u) 0 then NotFinite
  else Val (to_pixel (si M) (v2_scale (r * sqrt (s_over M)) (v2_scale (1 / v2_norm u) u))).
