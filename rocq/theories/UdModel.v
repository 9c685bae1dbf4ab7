(** * Undistorting images of a pinhole camera
    (aslam_cv/aslam_imgproc/include/aslam_imgproc/implementation/aslamcv_helper.hpp and
    implementation/PinholeUndistorter.hpp)

    Floating-point numbers, single and double, are modelled as reals. The distortion
    and its inverse are parameters [distort] and [undistort] on the normalised image
    plane. OpenCV's [remap], which looks up the source pixels, is not modelled. *)
From Flocq Require Import Core.
From Coq Require Import Reals ZArith List.
From Verif Require Import KinModel.
Import ListNotations.
Local Open Scope R_scope.

Definition pt := (R * R)%type.
(** The intrinsics and the resolution: [getCameraMatrix()], [ru()], [rv()]. *)
Record camera := Camera { fu : R; fv : R; cu : R; cv : R; ru : Z; rv : Z }.
Record rect := Rect { rx : R; ry : R; rw : R; rh : R }.
Definition FLT_MAX : R := IZR 340282346638528859811704183484516925440.

(** aslamcv_helper.hpp:25-46: the undistorted sample x, y; [x * width / (N - 1)] is an
    integer division, with N = 9. *)
Definition sample (undistort : pt -> pt) (c : camera) (x y : Z) : pt :=
  let px := IZR (Z.quot (x * ru c) 8) in
  let py := IZR (Z.quot (y * rv c) 8) in
  undistort ((px - cu c) / fu c, (py - cv c) / fv c).
(** aslamcv_helper.hpp:29-31: y in the outer loop, x in the inner one *)
Definition line : list Z := [0; 1; 2; 3; 4; 5; 6; 7; 8]%Z.
Definition grid : list (Z * Z) := flat_map (fun y => map (fun x => (x, y)) line) line.

(** One of the running minima and maxima of the loop over the grid, which do not
    depend on each other. *)
Definition least (l : list R) : R := fold_left Rmin l FLT_MAX.
Definition most (l : list R) : R := fold_left Rmax l (- FLT_MAX).
(** aslamcv_helper.hpp:50-72 *)
Definition rectangles (undistort : pt -> pt) (c : camera) : rect * rect :=
  let at_ (s : Z * Z) := sample undistort c (fst s) (snd s) in
  let pick (b : Z * Z -> bool) (f : pt -> R) := map (fun s => f (at_ s)) (filter b grid) in
  let iX0 := most (pick (fun s => Z.eqb (fst s) 0) fst) in
  let iX1 := least (pick (fun s => Z.eqb (fst s) 8) fst) in
  let iY0 := most (pick (fun s => Z.eqb (snd s) 0) snd) in
  let iY1 := least (pick (fun s => Z.eqb (snd s) 8) snd) in
  let oX0 := least (pick (fun _ => true) fst) in
  let oX1 := most (pick (fun _ => true) fst) in
  let oY0 := least (pick (fun _ => true) snd) in
  let oY1 := most (pick (fun _ => true) snd) in
  (Rect iX0 iY0 (iX1 - iX0) (iY1 - iY0), Rect oX0 oY0 (oX1 - oX0) (oY1 - oY0)).

(** aslamcv_helper.hpp:87-121 for the resolution of the camera *)
Definition optimal_matrix (undistort : pt -> pt) (c : camera) (alpha : R) (newW newH : Z) : m3 :=
  let w := if Z.eqb (newW * newH) 0 then ru c else newW in
  let h := if Z.eqb (newW * newH) 0 then rv c else newH in
  let inner := fst (rectangles undistort c) in
  let outer := snd (rectangles undistort c) in
  let fx0 := IZR (w - 1) / rw inner in
  let fy0 := IZR (h - 1) / rh inner in
  let cx0 := - fx0 * rx inner in
  let cy0 := - fy0 * ry inner in
  let fx1 := IZR (w - 1) / rw outer in
  let fy1 := IZR (h - 1) / rh outer in
  let cx1 := - fx1 * rx outer in
  let cy1 := - fy1 * ry outer in
  M3 (fx0 * (1 - alpha) + fx1 * alpha) 0 (cx0 * (1 - alpha) + cx1 * alpha)
     0 (fy0 * (1 - alpha) + fy1 * alpha) (cy0 * (1 - alpha) + cy1 * alpha)
     0 0 1.

(** Eigen inverts a 3x3 matrix by its cofactors. *)
Definition inverse3 (A : m3) : m3 :=
  let d := / m3_det A in
  M3 ((m11 A * m22 A - m12 A * m21 A) * d) ((m02 A * m21 A - m01 A * m22 A) * d) ((m01 A * m12 A - m02 A * m11 A) * d)
     ((m12 A * m20 A - m10 A * m22 A) * d) ((m00 A * m22 A - m02 A * m20 A) * d) ((m02 A * m10 A - m00 A * m12 A) * d)
     ((m10 A * m21 A - m11 A * m20 A) * d) ((m01 A * m20 A - m00 A * m21 A) * d) ((m00 A * m11 A - m01 A * m10 A) * d).

(** [j] additions of [step] *)
Fixpoint walk (start step : R) (j : nat) : R := match j with O => start | S j' => walk start step j' + step end.
(** aslamcv_helper.hpp:157-185: where the pixel of row [i] and column [j] is read *)
Definition source (distort : pt -> pt) (c : camera) (Rm K : m3) (i j : nat) : pt :=
  let invR := inverse3 (m3_mul K Rm) in
  let _x := walk (INR i * m01 invR + m02 invR) (m00 invR) j in
  let _y := walk (INR i * m11 invR + m12 invR) (m10 invR) j in
  let _w := walk (INR i * m21 invR + m22 invR) (m20 invR) j in
  let w := 1 / _w in
  let d := distort (_x * w, _y * w) in
  (fu c * fst d + cu c, fv c * snd d + cv c).

(** [saturate_cast<int>] of a double rounds to the nearest integer, ties to even, and
    gives the least integer when that is out of range (x86). *)
Definition INT_MIN : Z := (- 2147483648)%Z.
Definition to_int (x : R) : Z :=
  let n := ZnearestE x in if ((INT_MIN <=? n) && (n <=? 2147483647))%Z%bool then n else INT_MIN.
(** Conversions to short and ushort *)
Definition to_short (n : Z) : Z := ((n + 32768) mod 65536 - 32768)%Z.
Definition to_ushort (n : Z) : Z := (n mod 65536)%Z.
(** aslamcv_helper.hpp:188-195, INTER_BITS = 5 and INTER_TAB_SIZE = 32 *)
Record entry := Entry { e_x : Z; e_y : Z; e_frac : Z }.
Definition encode (p : pt) : entry :=
  let iu := to_int (fst p * 32) in
  let iv := to_int (snd p * 32) in
  Entry (to_short (Z.shiftr iu 5)) (to_short (Z.shiftr iv 5)) (to_ushort (Z.land iv 31 * 32 + Z.land iu 31)).

(** PinholeUndistorter.hpp:102-146: the ideal camera without distortion and the map *)
Record undistorter := Undistorter { ideal : camera; mapping : nat -> nat -> entry }.
Definition set_ideal (distort undistort : pt -> pt) (c : camera) (alpha scale : R) : undistorter :=
  let newW := Ztrunc (IZR (ru c) * scale) in
  let newH := Ztrunc (IZR (rv c) * scale) in
  let K := optimal_matrix undistort c alpha newW newH in
  Undistorter (Camera (m00 K) (m11 K) (m02 K) (m12 K) newW newH)
              (fun i j => encode (source distort c m3_I K i j)).
