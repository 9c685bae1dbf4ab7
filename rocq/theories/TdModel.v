(** * Model of a detection from a quadrilateral, and of removing duplicates

    Models /repo/aslam_offline_calibration/aslam_apriltag2: src/Quad.cc lines
    13-50 (with STABLE_H and INTERPOLATE, as Homography33.h lines 12-14 define
    them), src/TagDetector.cc lines 432-530 and 538-578, and
    src/TagDetection.cc lines 45-74.  Reals for floats.  Simplifications: the
    homography of a quadrilateral (cv::findHomography) is a parameter; whether
    the pixel at a position of the image is brighter than the local threshold is
    a parameter of the position, with None outside the image. *)
From Coq Require Import Reals List Arith ZArith Bool.
From Verif Require Import Base TagModel.
Import ListNotations.
Local Open Scope R_scope.

Definition point := (R * R)%type.
Definition distance2D (a b : point) : R :=
  let dx := fst a - fst b in let dy := snd a - snd b in sqrt (dx * dx + dy * dy).
Definition rltb (a b : R) : bool := if Rlt_dec a b then true else false.

(** Quad.cc lines 29-50; a quadrilateral is its four points *)
Definition interpolate (q : nat -> point) (x y : R) : point :=
  let at_ (g : point -> R) :=
    let r1 := g (q 0%nat) + (g (q 1%nat) - g (q 0%nat)) * (x + 1) / 2 in
    let r2 := g (q 3%nat) + (g (q 2%nat) - g (q 3%nat)) * (x + 1) / 2 in
    r1 + (r2 - r1) * (y + 1) / 2 in
  (at_ fst, at_ snd).
Definition interpolate01 (q : nat -> point) (x y : R) : point := interpolate q (2 * x - 1) (2 * y - 1).

(** TagDetection.cc lines 45-52 *)
Definition matrix := nat -> nat -> R.
Definition project (H : matrix) (c : point) (x y : R) : point :=
  let z := H 2%nat 0%nat * x + H 2%nat 1%nat * y + H 2%nat 2%nat in
  if Req_EM_T z 0 then (0, 0)
  else ((H 0%nat 0%nat * x + H 0%nat 1%nat * y + H 0%nat 2%nat) / z + fst c,
        (H 1%nat 0%nat * x + H 1%nat 1%nat * y + H 1%nat 2%nat) / z + snd c).

(** TagDetector.cc lines 494-504 *)
Definition turn_matrix (rotation : Z) : matrix := fun i j =>
  let c := cos (IZR rotation * PI / 2) in let s := sin (IZR rotation * PI / 2) in
  match i, j with
  | 0%nat, 0%nat => c | 0%nat, 1%nat => - s
  | 1%nat, 0%nat => s | 1%nat, 1%nat => c
  | 2%nat, 2%nat => 1 | _, _ => 0
  end.
Definition times (A B : matrix) : matrix := fun i j => A i 0%nat * B 0%nat j + A i 1%nat * B 1%nat j + A i 2%nat * B 2%nat j.

(** Lines 510-519: FLT_MAX and the search for the nearest corner *)
Definition flt_max : R := IZR (16777215 * 2 ^ 104).
Fixpoint nearest_corner (b : point) (q : nat -> point) (i n : nat) (rot : Z) (dist : R) : Z :=
  match n with
  | O => rot
  | S n' => let d := distance2D b (q i) in
            if rltb d dist then nearest_corner b q (S i) n' (Z.of_nat i) d else nearest_corner b q (S i) n' rot dist
  end.

Record detection := Detection { t_id : Z; t_ham : Z; t_p : nat -> point; t_c : point; t_per : R; t_H : matrix; t_h : point }.

Section Detect.
Variable homography : (nat -> point) -> point -> matrix.
Variable bright : point -> option bool.

(** Lines 437, 458-463: where a cell is sampled *)
Definition cell_at (f : family) (border : nat) (q : nat -> point) (iy ix : nat) : point :=
  let dd := IZR (2 * Z.of_nat border + fdim f) in
  interpolate01 q ((INR border + INR ix + / 2) / dd) ((INR border + INR iy + / 2) / dd).
(** Lines 456-529: the detection of one quadrilateral, None when it is bad or
    not good *)
Definition detect (f : family) (border : nat) (center : point) (q : nat -> point) (perimeter : R) : outcome (option detection) :=
  match read_code (fun iy ix => bright (cell_at f border q iy ix)) (Z.to_nat (fdim f)) with
  | None => Ok None
  | Some w =>
      do det <- decode f w;
      let H := times (homography q center) (turn_matrix (d_rotation det)) in
      let bottomLeft := project H center (-1) (-1) in
      let best := nearest_corner bottomLeft q 0 4 (-1) flt_max in
      if (best <? 0)%Z then UB
      else Ok (if d_good det
               then Some (Detection (d_id det) (d_hamming det) (fun i => q ((i + Z.to_nat best) mod 4)%nat)
                                    (interpolate01 q (/ 2) (/ 2)) perimeter H center)
               else None)
  end.
End Detect.

(** TagDetection.cc lines 54-74 *)
Definition overlaps (a b : detection) : bool :=
  let side (d : detection) i j := distance2D (t_p d i) (t_p d j) in
  let radius := (side a 0%nat 1%nat + side a 1%nat 2%nat + side a 2%nat 3%nat + side a 3%nat 0%nat +
                 side b 0%nat 1%nat + side b 1%nat 2%nat + side b 2%nat 3%nat + side b 3%nat 0%nat) / 16 in
  rltb (distance2D (t_c a) (t_c b)) radius.

(** TagDetector.cc lines 553-573: one new detection against those kept *)
Fixpoint settle (d : detection) (kept : list detection) : bool * list detection :=
  match kept with
  | [] => (true, [])
  | o :: r =>
      let '(fresh, r') := settle d r in
      if negb (t_id d =? t_id o)%Z || negb (overlaps d o) then (fresh, o :: r')
      else (false, if (t_ham o <? t_ham d)%Z then o :: r'
                   else if (t_ham d <? t_ham o)%Z || rltb (t_per o) (t_per d) then d :: r' else o :: r')
  end.
(** Lines 549-578 *)
Fixpoint remove_duplicates (ds kept : list detection) : list detection :=
  match ds with
  | [] => kept
  | d :: r => let '(fresh, kept') := settle d kept in remove_duplicates r (if fresh then kept' ++ [d] else kept')
  end.
