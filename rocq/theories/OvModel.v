(** * Overlap of the fields of view of two cameras
    (aslam_cv/aslam_imgproc/src/calculateOverlappingFov.cpp; the template in
    implementation/calculateOverlappingFov.hpp has the same body)

    Floating-point numbers are modelled as reals, 32-bit overflow of the number of
    pixels is left out. The cameras are parameters: the ray of a pixel if it has one
    ([vsKeypointToHomogeneous]) and whether a homogeneous point is in view
    ([vsHomogeneousToKeypoint]). The two masks are distinct objects that share no
    pixels with other images. *)
From Flocq Require Import Core.
From Coq Require Import Reals ZArith Bool List.
From Verif Require Import KinModel.
Import ListNotations.
Local Open Scope R_scope.

Record camera := Camera { width : Z; height : Z; back : R * R -> option v4; sees : v4 -> bool }.
(** An image of bytes; [px i x y] is row y, column x. *)
Record image := Image { rows : Z; cols : Z; px : Z -> Z -> Z }.
(** ImageMask.hpp:71-72 *)
Record mask := Mask { buf : image; mscale : R }.

(** sm_kinematics/src/Transformation.cpp:105-113 with the rotation as a matrix. *)
Record transf := Transf { rot : m3; trans : v3 }.
Definition apply (T : transf) (p : v4) : v4 :=
  let r := v3_add (m3_vec (rot T) (V3 (q0 p) (q1 p) (q2 p))) (v3_scale (q3 p) (trans T)) in V4 (x0 r) (x1 r) (x2 r) (q3 p).
(** Transformation::inverse *)
Definition inverse (T : transf) : transf := Transf (m3_tr (rot T)) (v3_neg (m3_vec (m3_tr (rot T)) (trans T))).

(** The pixels in the order of the loops, x outside. *)
Definition range (n : Z) : list Z := map Z.of_nat (seq 0 (Z.to_nat n)).
Definition pixels (w h : Z) : list (Z * Z) := list_prod (range w) (range h).
Definition upd (f : Z -> Z -> Z) (x y v : Z) : Z -> Z -> Z := fun a b => if (Z.eqb a x && Z.eqb b y)%bool then v else f a b.

(** calculateOverlappingFov.cpp:41-58: the distances left to try *)
Fixpoint scan (c2 : camera) (T : transf) (point : v4) (x y : Z) (ds : list Z) (st : (Z -> Z -> Z) * Z) : (Z -> Z -> Z) * Z :=
  match ds with
  | [] => st
  | d :: ds' =>
      if Z.eqb (fst st x y) 0 then
        let norm := v4_norm point in
        let temp := apply T (V4 (q0 point) (q1 point) (q2 point) (norm / (norm + IZR d))) in
        if sees c2 temp then scan c2 T point x y ds' (upd (fst st) x y 255, (snd st + 1)%Z)
        else scan c2 T point x y ds' st
      else st
  end.
(** calculateOverlappingFov.cpp:31-62, and :66-96 for the other camera: from an image
    of zeros, the bytes written and the number of pixels counted *)
Definition one_side (c1 c2 : camera) (T : transf) (ds : list Z) (scale : R) (w h : Z) : (Z -> Z -> Z) * Z :=
  fold_left (fun st p => match back c1 (IZR (fst p) / scale, IZR (snd p) / scale) with
                         | None => st
                         | Some point => scan c2 T point (fst p) (snd p) ds st end)
            (pixels w h) (fun _ _ => 0%Z, 0%Z).

(** [m = cv::Mat::zeros(h, w, ...)] on a header of the mask's image: the pixels of the
    mask are reused if the size is the same, else the header gets pixels of its own and
    the mask keeps its image (:21-24). *)
Definition written (old : mask) (w h : Z) (f : Z -> Z -> Z) (scale : R) : mask :=
  Mask (if (Z.eqb (rows (buf old)) h && Z.eqb (cols (buf old)) w)%bool then Image h w f else buf old) scale.
(** A division by zero gives no number. *)
Definition ratio (n w h : Z) : option R := if Z.eqb (w * h) 0 then None else Some (IZR n / IZR (w * h)).

(** calculateOverlappingFov.cpp:5-97; [(int) w * scale] is truncated when stored *)
Definition scaled (n : Z) (scale : R) : Z := Ztrunc (IZR n * scale).
Definition overlap (camera1 camera2 : camera) (T_cam1_cam2 : transf) (mask1 mask2 : mask) (ds : list Z) (scale : R)
  : (mask * mask) * (option R * option R) :=
  let w1 := scaled (width camera1) scale in
  let h1 := scaled (height camera1) scale in
  let w2 := scaled (width camera2) scale in
  let h2 := scaled (height camera2) scale in
  let s1 := one_side camera1 camera2 (inverse T_cam1_cam2) ds scale w1 h1 in
  let s2 := one_side camera2 camera1 T_cam1_cam2 ds scale w2 h2 in
  ((written mask1 w1 h1 (fst s1) scale, written mask2 w2 h2 (fst s2) scale), (ratio (snd s1) w1 h1, ratio (snd s2) w2 h2)).
