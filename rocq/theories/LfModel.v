(** * Model of fitting a line segment to a cluster of pixels

    Models /repo/aslam_offline_calibration/aslam_apriltag2/src/GLine2D.cc lines
    17-25 and 54-107 and src/GLineSegment2D.cc lines 9-23.  Reals for floats.
    Simplifications: a division by a total weight of zero makes the result
    undefined ([None]); std::cos, std::sin and std::atan2 are the real functions. *)
From Coq Require Import Reals List Bool.
From Verif Require Import Base KinModel.
Import ListNotations.
Local Open Scope R_scope.

Definition point := (R * R)%type.
(** XYWeight.h *)
Record xyweight := XYW { px : R; py : R; pw : R }.

(** GLine2D.h: the line and which of its parts are normalized *)
Record gline := GLine { dx : R; dy : R; p : point; slope_done : bool; p_done : bool }.
(** GLine2D.cc lines 87-94 *)
Definition normalize_slope (l : gline) : gline :=
  if slope_done l then l
  else let mag := sqrt (dx l * dx l + dy l * dy l) in GLine (dx l / mag) (dy l / mag) (p l) true (p_done l).
(** Lines 96-105 *)
Definition normalize_p (l : gline) : gline :=
  if p_done l then l
  else
    let l1 := normalize_slope l in
    let dotprod := - dy l1 * fst (p l1) + dx l1 * snd (p l1) in
    GLine (dx l1) (dy l1) (- dy l1 * dotprod, dx l1 * dotprod) (slope_done l1) true.
(** Lines 17-20: the line is changed *)
Definition line_coordinate (l : gline) (q : point) : gline * R :=
  let l1 := normalize_slope l in (l1, fst q * dx l1 + snd q * dy l1).
(** Lines 22-25 *)
Definition point_of_coordinate (l : gline) (c : R) : gline * point :=
  let l1 := normalize_p l in (l1, (fst (p l1) + c * dx l1, snd (p l1) + c * dy l1)).

(** Lines 54-85 *)
Record sums := Sums { s_x : R; s_y : R; s_xx : R; s_yy : R; s_xy : R; s_n : R }.
Definition add (s : sums) (q : xyweight) : sums :=
  let x := px q in let y := py q in let alpha := pw q in
  Sums (s_x s + x * alpha) (s_y s + y * alpha) (s_xx s + x * x * alpha) (s_yy s + y * y * alpha) (s_xy s + x * y * alpha) (s_n s + alpha).
Definition fit_line (l : list xyweight) : option gline :=
  let s := fold_left add l (Sums 0 0 0 0 0 0) in
  if Req_EM_T (s_n s) 0 then None
  else
    let n := s_n s in
    let ex := s_x s / n in let ey := s_y s / n in
    let cxx := s_xx s / n - s_x s / n * (s_x s / n) in
    let cyy := s_yy s / n - s_y s / n * (s_y s / n) in
    let cxy := s_xy s / n - s_x s / n * (s_y s / n) in
    let phi := / 2 * atan2 (-2 * cxy) (cyy - cxx) in
    Some (GLine (- sin phi) (cos phi) (ex, ey) false false).

(** GLineSegment2D.cc lines 9-23; the loop starts at minus and plus infinity,
    so that the first point sets both ends *)
Fixpoint extent (l : gline) (pts : list xyweight) (acc : option (R * R)) : gline * option (R * R) :=
  match pts with
  | [] => (l, acc)
  | q :: r =>
      let '(l1, c) := line_coordinate l (px q, py q) in
      extent l1 r (Some (match acc with None => (c, c) | Some (lo, hi) => (Rmin lo c, Rmax hi c) end))
  end.
Definition fit_segment (pts : list xyweight) : option (point * point) :=
  match fit_line pts with
  | None => None
  | Some l =>
      match extent l pts None with
      | (l1, Some (lo, hi)) =>
          let '(l2, a) := point_of_coordinate l1 lo in
          let '(_, b) := point_of_coordinate l2 hi in
          Some (a, b)
      | (_, None) => None
      end
  end.
