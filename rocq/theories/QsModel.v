(** * Model of chaining line segments into quadrilaterals

    Models /repo/aslam_offline_calibration/aslam_apriltag2: src/TagDetector.cc
    lines 265-323 (the direction of a segment) and 339-397 (successors and
    loops), src/Quad.cc lines 52-157, src/GLine2D.cc lines 14-52 and
    include/aslam_apriltag2/MathUtil.h lines 17-36.  Reals for floats.
    Simplifications: a segment is named by its position in the list; the line
    fitted to a cluster is given by its two end points, with the gradients of the
    pixels of the cluster; the homography of the Quad built at the end, which
    does not influence the search, is left out. *)
From Coq Require Import Reals ZArith List Bool.
From Verif Require Import Base KinModel LutModel TdModel.
Import ListNotations.
Local Open Scope R_scope.

(** MathUtil.h lines 28-36; the conversion to int of a value too large is not
    modelled (angles here are at most a few turns) *)
Definition mod2pi (v : R) : R :=
  let q := Rabs v * (1 / (2 * PI)) + / 2 in
  let r := Rabs v - IZR (trunc q) * (2 * PI) in
  if Rlt_dec v 0 then - r else r.

(** GLine2D.cc lines 14-15 and 27-52 *)
Definition line := (point * point)%type.
Definition intersection_with (a b : line) : point :=
  let dx := fst (snd a) - fst (fst a) in let dy := snd (snd a) - snd (fst a) in
  let ex := fst (snd b) - fst (fst b) in let ey := snd (snd b) - snd (fst b) in
  let m00 := dx in let m01 := - ex in let m10 := dy in let m11 := - ey in
  let det := m00 * m11 - m01 * m10 in
  if Rlt_dec (Rabs det) (1 / 10000000000) then (-1, 0)
  else
    let i00 := m11 / det in let i01 := - m01 / det in
    let b00 := fst (fst b) - fst (fst a) in let b10 := snd (fst b) - snd (fst a) in
    let x00 := i00 * b00 + i01 * b10 in
    (dx * x00 + fst (fst a), dy * x00 + snd (fst a)).

(** Segment.h *)
Record segment := Segment { s_p0 : point; s_p1 : point; s_theta : R; s_length : R }.
Definition line_of (s : segment) : line := (s_p0 s, s_p1 s).

(** TagDetector.cc lines 270-321; [votes] are the direction and the magnitude of
    the gradient at the pixels of the cluster *)
Fixpoint votes_for (theta : R) (votes : list (R * R)) (flip noflip : R) : R * R :=
  match votes with
  | [] => (flip, noflip)
  | (t, mag) :: r => if Rlt_dec (mod2pi (t - theta)) 0 then votes_for theta r flip (noflip + mag)
                     else votes_for theta r (flip + mag) noflip
  end.
Definition make_segment (p0 p1 : point) (votes : list (R * R)) : option segment :=
  let length := distance2D p0 p1 in
  if Rlt_dec length 4 then None
  else
    let dy := snd p1 - snd p0 in let dx := fst p1 - fst p0 in
    let t := atan2 dy dx in
    let '(flip, noflip) := votes_for t votes 0 0 in
    let theta := if Rlt_dec noflip flip then t + PI else t in
    let dot := dx * cos theta + dy * sin theta in
    Some (if Rlt_dec 0 dot then Segment p1 p0 theta length else Segment p0 p1 theta length).
Fixpoint make_segments (fits : list (point * point * list (R * R))) : list segment :=
  match fits with
  | [] => []
  | (p0, p1, votes) :: r => match make_segment p0 p1 votes with None => make_segments r | Some s => s :: make_segments r end
  end.

Definition s0 : segment := Segment (0, 0) (0, 0) 0 0.
Definition nth_segment (segs : list segment) (i : nat) : segment := nth i segs s0.

(** TagDetector.cc lines 339-346 *)
Definition make_gridder (segs : list segment) (width height : R) : outcome (grid nat) :=
  do g <- make_grid 0 0 width height 10;
  add_all g (map (fun i => let s := nth_segment segs i in (s_p0 s, i)) (seq 0 (length segs))).

(** Lines 360-380: whether a segment is kept as a successor *)
Definition follows (parent child : segment) : bool :=
  if Rlt_dec 0 (mod2pi (s_theta child - s_theta parent)) then false
  else
    let p := intersection_with (line_of parent) (line_of child) in
    if Req_EM_T (fst p) (-1) then false
    else
      let parent_dist := distance2D p (s_p1 parent) in
      let child_dist := distance2D p (s_p0 child) in
      if Rlt_dec (s_length parent) (Rmax parent_dist child_dist) then false else true.
(** Lines 349-384; [n] bounds the rounds of the iterator *)
Definition children_of (n : nat) (segs : list segment) (g : grid nat) (i : nat) : outcome (list nat) :=
  let parent := nth_segment segs i in
  do it <- find g (fst (s_p1 parent)) (snd (s_p1 parent)) (/ 2 * s_length parent);
  do l <- drain n n g it;
  Ok (filter (fun j => follows parent (nth_segment segs j)) l).
Fixpoint all_children (n : nat) (segs : list segment) (g : grid nat) (is : list nat) : outcome (list (list nat)) :=
  match is with
  | [] => Ok []
  | i :: r => do c <- children_of n segs g i; do cs <- all_children n segs g r; Ok (c :: cs)
  end.

(** Quad.h lines 22-23 and Quad.cc line 11 *)
Definition minimum_edge_length : R := 6.
Definition max_quad_aspect_ratio : R := 32.

Record quad := Quad { q_points : list point; q_segments : list nat; q_perimeter : R }.

(** Quad.cc lines 61-133; [path] has the five slots of the vector *)
Definition direction (a b : point) : R := atan2 (snd b - snd a) (fst b - fst a).
Definition terminal (segs : list segment) (path : nat -> nat) (quads : list quad) : list quad :=
  if (path 4 =? path 0)%nat then
    let l i := line_of (nth_segment segs (path i)) in
    let p i := intersection_with (l i) (l (S i)) in
    let perimeter := 0 + s_length (nth_segment segs (path 0%nat)) + s_length (nth_segment segs (path 1%nat))
                       + s_length (nth_segment segs (path 2%nat)) + s_length (nth_segment segs (path 3%nat)) in
    let is_minus_one i := if Req_EM_T (fst (p i)) (-1) then true else false in
    if (is_minus_one 0 || is_minus_one 1 || is_minus_one 2 || is_minus_one 3)%nat then quads
    else
      let t0 := direction (p 0%nat) (p 1%nat) in let t1 := direction (p 1%nat) (p 2%nat) in
      let t2 := direction (p 2%nat) (p 3%nat) in let t3 := direction (p 3%nat) (p 0%nat) in
      let ttheta := mod2pi (t1 - t0) + mod2pi (t2 - t1) + mod2pi (t3 - t2) + mod2pi (t0 - t3) in
      if rltb ttheta (-7) || rltb (-5) ttheta then quads
      else
        let d0 := distance2D (p 0%nat) (p 1%nat) in let d1 := distance2D (p 1%nat) (p 2%nat) in
        let d2 := distance2D (p 2%nat) (p 3%nat) in let d3 := distance2D (p 3%nat) (p 0%nat) in
        let d4 := distance2D (p 0%nat) (p 2%nat) in let d5 := distance2D (p 1%nat) (p 3%nat) in
        let small d := rltb d minimum_edge_length in
        let dmax := Rmax (Rmax d0 d1) (Rmax d2 d3) in let dmin := Rmin (Rmin d0 d1) (Rmin d2 d3) in
        if small d0 || small d1 || small d2 || small d3 || small d4 || small d5 then quads
        else if rltb (dmin * max_quad_aspect_ratio) dmax then quads
        else quads ++ [Quad (map p (seq 0 4)) (map path (seq 0 5)) perimeter]
  else quads.

(** Quad.cc lines 52-157; [left] is four minus the depth *)
Definition set_path (path : nat -> nat) (k v : nat) : nat -> nat := fun i => if (i =? k)%nat then v else path i.
Fixpoint search (left : nat) (segs : list segment) (children : nat -> list nat) (parent depth : nat) (st : (nat -> nat) * list quad) : (nat -> nat) * list quad :=
  match left with
  | O => (fst st, terminal segs (fst st) (snd st))
  | S left' =>
      fold_left (fun st child =>
          if Rlt_dec (s_theta (nth_segment segs (fst st 0%nat))) (s_theta (nth_segment segs child)) then st
          else search left' segs children child (S depth) (set_path (fst st) (S depth) child, snd st))
        (children parent) st
  end.
(** TagDetector.cc lines 391-397 *)
Definition find_quads (segs : list segment) (children : nat -> list nat) : list quad :=
  snd (fold_left (fun st i => search 4 segs children i 0 (set_path (fst st) 0 i, snd st)) (seq 0 (length segs)) (fun _ => 0%nat, [])).

(** Steps six and seven *)
Definition quads_of (n : nat) (segs : list segment) (width height : R) : outcome (list quad) :=
  do g <- make_gridder segs width height;
  do cs <- all_children n segs g (seq 0 (length segs));
  Ok (find_quads segs (fun i => nth i cs [])).
