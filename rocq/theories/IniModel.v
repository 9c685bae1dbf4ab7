(** * Model of the first guess of the intrinsics of a pinhole camera

    Models aslam_cv/aslam_cameras/include/aslam_cameras/cameras/implementation/
    PinholeProjection.hpp lines 593-699 (PinholeHelpers) and 708-813
    (initializeIntrinsics).  Reals stand for doubles, except that a division of
    zero by zero, a root of a negative number and everything computed from them
    is "not a number" ([None] below).  The rounding of the corners to float
    (line 749), clearing the distortion and the output are left out. *)
From Coq Require Import Reals List Arith ZArith Bool.
From Verif Require Import Base DistModel.
Import ListNotations.
Local Close Scope Z_scope.
Local Open Scope R_scope.

(** Results of divisions *)
Inductive fl := Fin (r : R) | Nan | Infinite.
Definition quot (a b : R) : fl :=
  if Req_EM_T b 0 then (if Req_EM_T a 0 then Nan else Infinite) else Fin (a / b).
Definition ltb (a b : R) : bool := if Rlt_dec a b then true else false.

(** lines 596-604 *)
Definition square (x : R) : R := x * x.
Definition hypot (a b : R) : R := sqrt (square a + square b).

(** Sums over the points, lines 656-671 *)
Definition tally (f : v2 -> R) (pts : list v2) : R := fold_left (fun s p => s + f p) pts 0.

(** fitCircle, lines 640-686.  No case with an infinite coordinate arises
    ([fit_finite] in IniProofs); it is treated as not a number. *)
Definition fit_circle (pts : list v2) : option (v2 * R) :=
  let n := INR (length pts) in
  let sx := tally u0 pts in
  let sy := tally u1 pts in
  let sxx := tally (fun p => u0 p * u0 p) pts in
  let sxy := tally (fun p => u0 p * u1 p) pts in
  let syy := tally (fun p => u1 p * u1 p) pts in
  let sxxx := tally (fun p => u0 p * u0 p * u0 p) pts in
  let sxxy := tally (fun p => u0 p * u0 p * u1 p) pts in
  let sxyy := tally (fun p => u0 p * u1 p * u1 p) pts in
  let syyy := tally (fun p => u1 p * u1 p * u1 p) pts in
  let A := n * sxx - square sx in
  let B := n * sxy - sx * sy in
  let C := n * syy - square sy in
  let D := / 2 * (n * sxyy - sx * syy + n * sxxx - sx * sxx) in
  let E := / 2 * (n * sxxy - sy * sxx + n * syyy - sy * syy) in
  match quot (D * C - B * E) (A * C - square B), quot (A * E - B * D) (A * C - square B) with
  | Fin cx, Fin cy => Some (V2 cx cy, tally (fun p => hypot (u0 p - cx) (u1 p - cy)) pts / n)
  | _, _ => None
  end.

(** intersectCircles, lines 606-638.  A point is [None] when its coordinates are
    not numbers. *)
Definition meet (x1 y1 r1 x2 y2 r2 : R) : list (option v2) :=
  let d := hypot (x1 - x2) (y1 - y2) in
  if ltb (r1 + r2) d then [] else
  if ltb d (Rabs (r1 - r2)) then [] else
  match quot (square r1 - square r2 + square d) (2 * d) with
  | Fin a =>
      if ltb (square r1 - square a) 0 then [None; None] else
      let h := sqrt (square r1 - square a) in
      let x3 := x1 + a * (x2 - x1) / d in
      let y3 := y1 + a * (y2 - y1) / d in
      if ltb h (/ 10 ^ 10) then [Some (V2 x3 y3)] else
      [Some (V2 (x3 + h * (y2 - y1) / d) (y3 - h * (x2 - x1) / d));
       Some (V2 (x3 - h * (y2 - y1) / d) (y3 + h * (x2 - x1) / d))]
  | _ => [None; None]
  end.
(** The same with the results of fitCircle: comparisons with NaN fail, so that
    two points that are not numbers come out. *)
Definition meet_fits (a b : option (v2 * R)) : list (option v2) :=
  match a, b with
  | Some (c1, r1), Some (c2, r2) => meet (u0 c1) (u1 c1) r1 (u0 c2) (u1 c2) r2
  | _, _ => [None; None]
  end.

(** An observation: rows and columns of its target if it has one, the size of
    the image and the corners seen. *)
Record view := View { v_target : option (nat * nat); im_rows : nat; im_cols : nat; corner : nat -> option v2 }.
(** imageGridPoint: GridCalibrationTargetObservation.cpp lines 168-184 and
    GridCalibrationTargetBase.cpp gridCoordinatesToPoint *)
Definition grid_corner (v : view) (cols r c : nat) : option v2 := corner v (cols * r + c).

(** lines 742-755 *)
Definition seen (o : option v2) : list v2 := match o with Some p => [p] | None => [] end.
Definition is_seen (o : option v2) : bool := match o with Some _ => true | None => false end.
Definition row_points (v : view) (cols r : nat) : list v2 :=
  flat_map (fun c => seen (grid_corner v cols r c)) (seq 0 cols).
Definition complete (v : view) (rows cols : nat) : bool :=
  forallb (fun r => forallb (fun c => is_seen (grid_corner v cols r c)) (seq 0 cols)) (seq 0 rows).

(** Guesses of one pair of rows, lines 766-773 *)
Definition pair_guess (a b : option (v2 * R)) : list (option R) :=
  match meet_fits a b with
  | p :: q :: _ =>
      [match p, q with
       | Some p, Some q => Some (hypot (u0 p - u0 q) (u1 p - u1 q) / PI)
       | _, _ => None
       end]
  | _ => []
  end.

(** A loop that appends *)
Fixpoint gather {A B} (f : A -> outcome (list B)) (l : list A) : outcome (list B) :=
  match l with [] => Ok [] | x :: r => do y <- f x; do ys <- gather f r; Ok (y ++ ys) end.
(** lines 762-774: [center] and [radius] have as many entries as there are rows *)
Definition partner_guess (fits : list (option (v2 * R))) (j k : nat) : outcome (list (option R)) :=
  match nth_error fits j, nth_error fits k with
  | Some a, Some b => Ok (pair_guess a b)
  | _, _ => UB
  end.
(** lines 733-776 *)
Definition view_guesses (v : view) : outcome (list (option R)) :=
  match v_target v with
  | None => Throw
  | Some (rows, cols) =>
      let fits := map (fun r => fit_circle (row_points v cols r)) (seq 0 rows) in
      if complete v rows cols
      then gather (fun j => gather (partner_guess fits j) (seq (j + 1) (cols - (j + 1)))) (seq 0 rows)
      else Ok []
  end.

(** Comparison of guesses; with a NaN it fails. *)
Definition less (a b : option R) : bool := match a, b with Some x, Some y => ltb x y | _, _ => false end.
Definition is_nan (a : option R) : bool := match a with None => true | Some _ => false end.
(** The comparison is no strict weak order on values with a NaN and two different
    numbers: std::sort has undefined behaviour then. *)
Definition unsortable (l : list (option R)) : bool :=
  existsb is_nan l && existsb (fun a => existsb (less a) l) l.

Section Init.
(** std::sort *)
Variable srt : list (option R) -> list (option R).
(** medianOfVectorElements, lines 688-699 *)
Definition half_sum (a b : option R) : option R :=
  match a, b with Some x, Some y => Some ((x + y) / 2) | _, _ => None end.
Definition median (l : list (option R)) : outcome (option R) :=
  if unsortable l then UB else
  let n := length l in
  let s := srt l in
  if Nat.even n
  then match nth_error s (n / 2 - 1), nth_error s (n / 2) with
       | Some a, Some b => Ok (half_sum a b)
       | _, _ => UB
       end
  else match nth_error s (n / 2) with Some a => Ok a | None => UB end.

(** The intrinsics afterwards; the focal length may not be a number. *)
Record start := Start { s_focal : option R; s_cu : R; s_cv : R; s_ru : nat; s_rv : nat }.
(** initializeIntrinsics.  [manual] is the number entered if the environment
    variable is set. *)
Definition initialize (manual : option R) (obs : list view) : outcome start :=
  match obs with
  | [] => Throw
  | o :: _ =>
      do gs <- gather view_guesses obs;
      do gs' <- (match gs with
                 | [] => match manual with
                         | Some g => if ltb 0 g then Ok [Some g] else Throw
                         | None => Ok [Some 557]
                         end
                 | _ => Ok gs
                 end);
      do f <- median gs';
      Ok (Start f ((INR (im_cols o) - 1) / 2) ((INR (im_rows o) - 1) / 2) (im_cols o) (im_rows o))
  end.
End Init.
