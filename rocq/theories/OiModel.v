(** * Model of the first guess of the intrinsics of an omnidirectional camera

    Models aslam_cv/aslam_cameras/include/aslam_cameras/cameras/implementation/
    OmniProjection.hpp lines 714-836 (initializeIntrinsics), 838-857
    (computeReprojectionError) and 859-945 (estimateTransformation), and the
    corner lists of aslam_cv/aslam_cameras/src/GridCalibrationTargetObservation.cpp
    lines 36-92.  cv::SVD::solveZ and cv::solvePnP are parameters; the pose of
    solvePnP is a function from the target to the camera frame.  Reals stand for
    doubles and floats. *)
From Coq Require Import Reals List Arith ZArith Bool.
From Verif Require Import Base KinModel DistModel PinModel OmniModel IniModel.
Import ListNotations.
Local Close Scope Z_scope.
Local Open Scope R_scope.

(** An observation with the points of its target *)
Record board := Board { b_view : view; b_point : nat -> v3 }.

(** ** estimateTransformation *)
(** getCornersImageFrame and getCornersTargetFrame: the corners seen, in the
    order of the target; the third coordinate on the target is zero. *)
Definition flat_point (p : v3) : v3 := V3 (x0 p) (x1 p) 0.
Definition seen_ids (b : board) (n : nat) : list nat := filter (fun i => is_seen (corner (b_view b) i)) (seq 0 n).
Definition image_corners (b : board) (n : nat) : list v2 := flat_map (fun i => seen (corner (b_view b) i)) (seq 0 n).
Definition target_corners (b : board) (n : nat) : list v3 := map (fun i => flat_point (b_point b i)) (seen_ids b n).

(** Writing an element of a vector *)
Fixpoint put_at {A} (n : nat) (x : A) (l : list A) : list A :=
  match l, n with
  | [], _ => []
  | _ :: r, O => x :: r
  | y :: r, S m => y :: put_at m x r
  end.
(** lines 885-886: the ray of a corner if it can be lifted and is less than 80
    degrees off the axis; comparisons with NaN fail. *)
Definition front_ray (D : distortion) (M : omni) (k : v2) : option v3 :=
  match omni_lift D M k with
  | (Val p, true) => if IniModel.ltb (cos (80 * PI / 180)) (x2 p / v3_norm p) then Some p else None
  | _ => None
  end.
(** One pass of the loop, lines 880-908, with [count], [Ps] and [Ms] *)
Definition compact_step (D : distortion) (M : omni) (s : nat * list v3 * list v2) (i : nat) : nat * list v3 * list v2 :=
  let '(count, Ps, Ms) := s in
  match nth_error Ps i, nth_error Ms i with
  | Some P, Some m =>
      match front_ray D M m with
      | Some p => (S count, put_at count P Ps, put_at count (V2 (x0 p / x2 p) (x1 p / x2 p)) Ms)
      | None => s
      end
  | _, _ => s
  end.
(** lines 871-911 *)
Definition pnp_input (D : distortion) (M : omni) (b : board) (n : nat) : list (v3 * v2) :=
  let Ms := image_corners b n in
  let Ps := target_corners b n in
  let '(count, Ps', Ms') := fold_left (compact_step D M) (seq 0 (length Ms)) (0%nat, Ps, Ms) in
  combine (firstn count Ps') (firstn count Ms').

Section Init.
(** cv::SVD::solveZ: the rows of the matrix to the solution *)
Variable solve_z : list v4 -> v4.
(** cv::solvePnP *)
Variable pnp : list (v3 * v2) -> v3 -> v3.
(** The distortion after clear() *)
Variable D : distortion.

(** lines 919-940 *)
Definition estimate_pose (M : omni) (b : board) (n : nat) : option (v3 -> v3) :=
  let l := pnp_input D M b n in
  if (length l <? 4)%nat then None else Some (pnp l).

(** ** computeReprojectionError: number of corners and sum of distances *)
Definition add_error (M : omni) (T : v3 -> v3) (b : board) (s : nat * R) (i : nat) : nat * R :=
  match corner (b_view b) i with
  | Some y =>
      match omni_project D M (T (b_point b i)) with
      | (Val yh, true) => (S (fst s), snd s + v2_norm (v2_sub y yh))
      | _ => s
      end
  | None => s
  end.
Definition reprojection (M : omni) (T : v3 -> v3) (b : board) (n : nat) : nat * R :=
  fold_left (add_error M T b) (seq 0 n) (0%nat, 0).

(** ** The estimate from a row, lines 761-796.  With t = 0 everything is
    infinite or not a number: the row is skipped as radial, or because no corner
    passes the comparison in estimateTransformation. *)
Definition line_row (cu cv : R) (p : v2) : v4 :=
  let u := u0 p - cu in
  let v := u1 p - cv in
  V4 u v (/ 2) (- / 2 * (square u + square v)).
Definition row_gamma (cu cv : R) (pts : list v2) : option R :=
  if (4 <? length pts)%nat then
    let C := solve_z (map (line_row cu cv) pts) in
    let t := square (q0 C) + square (q1 C) + q2 C * q3 C in
    if Rle_dec t 0 then None else
    let d := sqrt (1 / t) in
    let nx := q0 C * d in
    let ny := q1 C * d in
    if IniModel.ltb (95 / 100) (hypot nx ny) then None else
    let nz := sqrt (1 - square nx - square ny) in
    Some (Rabs (q2 C * d / nz))
  else None.

(** The camera with an estimate, lines 800-802 *)
Definition dbl_max : R := (2 - / 2 ^ 52) * 2 ^ 1023.
Record search := Search { best : R; gamma0 : R; success : bool }.
Definition camera (o : view) (g : R) : omni :=
  make_omni 1 (make_intr g g ((INR (im_cols o) - 1) / 2) ((INR (im_rows o) - 1) / 2) (Z.of_nat (im_cols o)) (Z.of_nat (im_rows o))).
(** The mean error of the estimate from a row, lines 771-814; [o] is the first
    observation *)
Definition row_result (o : view) (b : board) (rows cols r : nat) : option (R * R) :=
  match row_gamma ((INR (im_cols o) - 1) / 2) ((INR (im_rows o) - 1) / 2) (row_points (b_view b) cols r) with
  | None => None
  | Some g =>
      match estimate_pose (camera o g) b (rows * cols) with
      | None => None
      | Some T =>
          let '(n, e) := reprojection (camera o g) T b (rows * cols) in
          if (4 <? n)%nat then Some (g, e / INR n) else None
      end
  end.
Definition row_step (o : view) (b : board) (rows cols : nat) (s : search) (r : nat) : search :=
  match row_result o b rows cols r with
  | Some (g, e) => if IniModel.ltb e (best s) then Search e g true else s
  | None => s
  end.
(** lines 744-829 *)
Fixpoint search_boards (o : view) (bs : list board) (s : search) : outcome search :=
  match bs with
  | [] => Ok s
  | b :: r =>
      match v_target (b_view b) with
      | None => Throw
      | Some (rows, cols) => search_boards o r (fold_left (row_step o b rows cols) (seq 0 rows) s)
      end
  end.
(** The whole function: the camera and the value returned *)
Definition omni_initialize (bs : list board) : outcome (omni * bool) :=
  match bs with
  | [] => Throw
  | b :: _ =>
      do s <- search_boards (b_view b) bs (Search dbl_max 0 false);
      Ok (camera (b_view b) (gamma0 s), success s)
  end.
End Init.
