(** * Model of CameraGeometry: masks, visibility and the stacked parameters

    Models
    - aslam_cv/aslam_cameras/include/aslam_cameras/cameras/implementation/
      CameraGeometry.hpp lines 54-132, 171-332, 443-468 and 552-765;
    - aslam_cv/aslam_cameras/include/aslam_cameras/cameras/ImageMask.hpp lines
      34-41, src/ImageMask.cpp lines 10-86 and cameras/NoMask.hpp lines 22-28;
    - Schweizer-Messer/sm_opencv/include/sm_opencv/serialization.hpp lines 14-35;
    - the parameter functions of the shutters, RollingShutter.cpp lines 25-50 and
      GlobalShutter.cpp lines 18-38.

    The projection, distortion and shutter arguments of the template are those of
    RpeModel and RsModel.

    Simplifications: [double] is modelled by the real numbers.  An access outside
    a cv::Mat or an Eigen block outside its matrix (both are only asserted in
    debug builds) is UB.  The overloads for other argument types have the same
    bodies. *)
From Coq Require Import Reals List ZArith Bool.
From Verif Require Import Base KinModel DistModel PinModel OmniModel EucmModel DsModel RpeModel RpeSpec RsModel.
Import ListNotations.
Local Open Scope R_scope.

(** ** Masks *)

(** An 8-bit one channel cv::Mat. *)
Record picture := Picture { p_rows : Z; p_cols : Z; p_at : Z -> Z -> Z }.
(** NoMask, or ImageMask with _mask (none when the data pointer is null) and _scale. *)
Inductive mask := NoMask | ImageMask (img : option picture) (scale : R).

(** cv::Mat::at *)
Definition pixel (m : picture) (r c : Z) : outcome Z :=
  if ((0 <=? r) && (r <? p_rows m) && (0 <=? c) && (c <? p_cols m))%Z%bool then Ok (p_at m r c) else UB.
(** isValid, ImageMask.hpp 34-40 and NoMask.hpp 22-25 *)
Definition mask_valid (m : mask) (k : v2) : outcome bool :=
  match m with
  | NoMask => Ok true
  | ImageMask img scale =>
      do k1 <- to_i32 (u1 k * scale);
      do k0 <- to_i32 (u0 k * scale);
      match img with
      | None => Ok true
      | Some m => do v <- pixel m k1 k0; Ok (0 <? v)%Z
      end
  end.
(** setMaskFromMatrix, ImageMask.cpp 64-72 (the conversion to uchar is modulo
    256), getMaskAsMatrix, 74-86 *)
Definition picture_of_matrix (rows cols : Z) (M : Z -> Z -> Z) : picture := Picture rows cols (fun r c => M r c mod 256)%Z.
Definition matrix_of_picture (m : picture) : Z -> Z -> Z := fun r c => p_at m r c.
(** isBinaryEqual, ImageMask.cpp 60-62 with serialization.hpp 14-35 *)
Definition indices (n : Z) : list Z := map Z.of_nat (seq 0 (Z.to_nat n)).
Definition picture_same (a b : picture) : bool :=
  ((p_rows a =? p_rows b) && (p_cols a =? p_cols b))%Z &&
  forallb (fun r => forallb (fun c => (p_at a r c =? p_at b r c)%Z) (indices (p_cols a))) (indices (p_rows a)).
Definition mask_same (a b : mask) : bool :=
  match a, b with
  | NoMask, NoMask => true
  | ImageMask (Some x) _, ImageMask (Some y) _ => picture_same x y
  | ImageMask None _, ImageMask None _ => true
  | _, _ => false
  end.

(** ** Visibility *)

(** euclideanToKeypoint, homogeneousToKeypoint without and with Jacobian,
    keypointToEuclidean and isValid of the projection. *)
Definition eproject (c : camera) (p : v3) : res v2 * bool :=
  match c_model c with
  | Pinhole l => pin_project (lens_of l (c_dist c)) (pin_set (sensor (c_width c) (c_height c)) (c_intr c)) p
  | Omnidirectional l => omni_project (lens_of l (c_dist c)) (omni_camera (c_width c) (c_height c) (c_intr c)) p
  | ExtendedUnified => eucm_project (eucm_cam (c_width c) (c_height c) (c_intr c)) p
  | DoubleSphere => ds_project (ds_cam (c_width c) (c_height c) (c_intr c)) p
  end.
Definition hproject (c : camera) (p : v4) : res v2 * bool :=
  match c_model c with
  | Pinhole l => pin_hproject (lens_of l (c_dist c)) (pin_set (sensor (c_width c) (c_height c)) (c_intr c)) p
  | Omnidirectional l => omni_hproject (lens_of l (c_dist c)) (omni_camera (c_width c) (c_height c) (c_intr c)) p
  | ExtendedUnified => eucm_hproject (eucm_cam (c_width c) (c_height c) (c_intr c)) p
  | DoubleSphere => ds_hproject (ds_cam (c_width c) (c_height c) (c_intr c)) p
  end.
Definition hprojectJ (c : camera) (p : v4) : (res v2 * res m23) * bool :=
  match c_model c with
  | Pinhole l => pin_hprojectJ (lens_of l (c_dist c)) (pin_set (sensor (c_width c) (c_height c)) (c_intr c)) p
  | Omnidirectional l => omni_hprojectJ (lens_of l (c_dist c)) (omni_camera (c_width c) (c_height c) (c_intr c)) p
  | ExtendedUnified => eucm_hprojectJ (eucm_cam (c_width c) (c_height c) (c_intr c)) p
  | DoubleSphere => ds_hprojectJ (ds_cam (c_width c) (c_height c) (c_intr c)) p
  end.
Definition lift (c : camera) (k : v2) : res v3 * bool :=
  match c_model c with
  | Pinhole l => pin_lift (lens_of l (c_dist c)) (pin_set (sensor (c_width c) (c_height c)) (c_intr c)) k
  | Omnidirectional l => omni_lift (lens_of l (c_dist c)) (omni_camera (c_width c) (c_height c) (c_intr c)) k
  | ExtendedUnified => eucm_lift (eucm_cam (c_width c) (c_height c) (c_intr c)) k
  | DoubleSphere => ds_lift (ds_cam (c_width c) (c_height c) (c_intr c)) k
  end.
Definition on_image (c : camera) (k : v2) : bool := on_sensor (sensor (c_width c) (c_height c)) k.

(** valid && _mask.isValid(outKeypoint); a keypoint that is no number is not
    converted to int without undefined behaviour. *)
Definition masked (m : mask) (r : res v2 * bool) : outcome bool :=
  if snd r then match fst r with Val k => mask_valid m k | _ => UB end else Ok false.
(** The flags returned by euclideanToKeypoint (54-68, 172-188),
    homogeneousToKeypoint (69-83, 221-247) and its version with Jacobian;
    isEuclideanVisible and isHomogeneousVisible (450-468) return the same. *)
Definition geo_project (c : camera) (m : mask) (p : v3) : outcome bool := masked m (eproject c p).
Definition geo_hproject (c : camera) (m : mask) (p : v4) : outcome bool := masked m (hproject c p).
Definition geo_hprojectJ (c : camera) (m : mask) (p : v4) : outcome bool :=
  let r := hprojectJ c p in masked m (fst (fst r), snd r).
(** vsIsEuclideanVisible and vsIsHomogeneousVisible, 120-131: of the projection alone *)
Definition vs_visible (c : camera) (p : v3) : bool := snd (eproject c p).
Definition vs_hvisible (c : camera) (p : v4) : bool := snd (hproject c p).
(** keypointToEuclidean and keypointToHomogeneous, 84-112, 262-316 *)
Definition geo_lift (c : camera) (m : mask) (k : v2) : outcome bool :=
  if snd (lift c k) then mask_valid m k else Ok false.
(** isValid, 443-448: the mask is asked first *)
Definition geo_valid (c : camera) (m : mask) (k : v2) : outcome bool :=
  do b <- mask_valid m k; Ok (b && on_image c k).
(** homogeneousToKeypointFiniteDifference, 249-260, which only compiles
    without a mask: the flag of the projection is given to the mask. *)
Definition geo_hproject_fd (c : camera) (p : v4) : outcome bool := let b := snd (hproject c p) in mask_valid NoMask (V2 (if b then 1 else 0) 0).

(** ** Parameters *)

(** The projection and distortion with their parameters, and the shutter.  The
    parameter matrices have one column (or none, when they are empty) and are
    modelled as lists. *)
Record geometry := Geo { g_cam : camera; g_shutter : shutter }.
Record flags := Flags { f_proj : bool; f_dist : bool; f_shut : bool }.

Definition shutter_dim (s : shutter) : nat := match s with Global => 0 | Rolling _ => 1 end%nat.
Definition shutter_get (s : shutter) : list R := match s with Global => [] | Rolling d => [d] end.
Definition shutter_set (s : shutter) (v : list R) : shutter := match s with Global => Global | Rolling _ => Rolling (nth 0 v 0) end.
Definition np (g : geometry) : nat := projection_dim (c_model (g_cam g)).
Definition nd (g : geometry) : nat := distortion_dim (c_model (g_cam g)).
(** FovDistortion.hpp 123-125: the only distortion that checks its parameters *)
Definition accepted (P : projection) (d : list R) : bool :=
  match P with
  | Pinhole FieldOfView | Omnidirectional FieldOfView =>
      let w := nth 0 d 0 in
      if Rlt_dec (Rabs w) (1 / 10 ^ 16) then true
      else if Rle_dec (1 / 2) w then (if Rle_dec w (3 / 2) then true else false) else false
  | _ => true
  end.

(** minimalDimensions, 572-590 *)
Definition minimal_dimensions (g : geometry) (f : flags) : nat :=
  ((if f_proj f then np g else 0) + (if f_dist f then nd g else 0) + (if f_shut f then shutter_dim (g_shutter g) else 0))%nat.
(** getParameters, 592-636 *)
Definition get_parameters (g : geometry) (f : flags) : list R :=
  (if f_proj f then c_intr (g_cam g) else []) ++ (if f_dist f then c_dist (g_cam g) else []) ++ (if f_shut f then shutter_get (g_shutter g) else []).

(** One block of the input [v] of [n] numbers, and what remains. *)
Definition block (n : nat) (v : list R) : outcome (list R * list R) :=
  if (length v <? n)%nat then UB else Ok (firstn n v, skipn n v).
(** setParameters, 638-664, and update, 552-570; [change] is what is done with
    the numbers of a block.  The result says whether the distortion threw; what
    was written before stays, what comes after is not done. *)
Definition write (change : list R -> list R -> list R) (g : geometry) (f : flags) (v : list R) : outcome (geometry * bool) :=
  let c := g_cam g in
  do '(c, v) <- (if f_proj f then do '(b, v) <- block (np g) v; Ok (with_intr c (change (c_intr c) b), v) else Ok (c, v));
  do '(c, v) <- (if f_dist f then do '(b, v) <- block (nd g) v; Ok (with_dist c (change (c_dist c) b), v) else Ok (c, v));
  if (f_dist f && negb (accepted (c_model c) (c_dist c)))%bool then Ok (Geo c (g_shutter g), true)
  else
    do s <- (if f_shut f then do '(b, v) <- block (shutter_dim (g_shutter g)) v;
                              Ok (shutter_set (g_shutter g) (change (shutter_get (g_shutter g)) b))
             else Ok (g_shutter g));
    Ok (Geo c s, false).
Definition set_parameters (g : geometry) (f : flags) (v : list R) : outcome (geometry * bool) := write (fun _ b => b) g f v.
Definition update_parameters (g : geometry) (f : flags) (v : list R) : outcome (geometry * bool) := write vadd g f v.

(** ** Stacked Jacobians *)

(** out.block(row, col, h, J.cols()) = J for a matrix of [height] rows and the
    columns [M]; row = 0 fills whole columns. *)
Definition put {A} (height h row col : nat) (M J : list A) : outcome (list A) :=
  if ((height <? row + h) || (length M <? col + length J))%nat%bool then UB
  else Ok (firstn col M ++ J ++ skipn (col + length J) M).
Definition put_res (row col : nat) (M : list v2) (J : res (list v2)) : outcome (res (list v2)) :=
  match J with
  | Val J => do M <- put 2 2 row col M J; Ok (Val M)
  | NotFinite => Ok NotFinite | Unset => Ok Unset | Throws => Ok Throws
  end.
Definition camera_intrinsicsJ (c : camera) (ph : v4) : res (list v2) := intrinsicsJ (c_width c) (c_height c) (c_model c) (c_intr c) (c_dist c) ph.
Definition camera_coefficientsJ (c : camera) (ph : v4) : res (list v2) := coefficientsJ (c_width c) (c_height c) (c_model c) (c_intr c) (c_dist c) ph.
(** homogeneousToKeypointIntrinsicsJacobian with flags, 701-734 ([swapped] =
    false), and euclideanToKeypointIntrinsicsJacobian, 666-699, in which row and
    column of the blocks are swapped ([swapped] = true). *)
Definition stackedJ (swapped : bool) (g : geometry) (f : flags) (ph : v4) : outcome (res (list v2)) :=
  let place (col : nat) (M : list v2) (J : res (list v2)) := if swapped then put_res col 0 M J else put_res 0 col M J in
  do M <- (if f_proj f then place 0%nat (repeat (V2 0 0) (minimal_dimensions g f)) (camera_intrinsicsJ (g_cam g) ph)
           else Ok (Val (repeat (V2 0 0) (minimal_dimensions g f))));
  match M with
  | Val M => if f_dist f then place (if f_proj f then np g else 0)%nat M (camera_coefficientsJ (g_cam g) ph) else Ok (Val M)
  | r => Ok r
  end.
Definition geo_hintrinsicsJ (g : geometry) (f : flags) (ph : v4) : outcome (res (list v2)) := stackedJ false g f ph.
Definition geo_intrinsicsJ (g : geometry) (f : flags) (p : v3) : outcome (res (list v2)) := stackedJ true g f (V4 (x0 p) (x1 p) (x2 p) 1).
(** temporalOffsetIntrinsicsJacobian, 736-762: a global shutter resizes the
    1 x 0 block it is given to 0 x 0, which Eigen does not allow. *)
Definition offsetJ (g : geometry) (f : flags) (k : v2) : outcome (list R) :=
  let M := repeat 0 (minimal_dimensions g f) in
  let col := ((if f_proj f then np g else 0) + (if f_dist f then nd g else 0))%nat in
  if f_shut f then match g_shutter g with Rolling _ => put 1 1 0 col M [u1 k] | Global => UB end else Ok M.
