(** Model of calibration targets, their observations and the target detector
      /repo/aslam_cv/aslam_cameras/src/GridCalibrationTargetBase.cpp (and .hpp)
      /repo/aslam_cv/aslam_cameras/src/GridCalibrationTargetCheckerboard.cpp
      /repo/aslam_cv/aslam_cameras/src/GridCalibrationTargetCirclegrid.cpp
      /repo/aslam_cv/aslam_cameras_april/src/GridCalibrationTargetAprilgrid.cpp
      /repo/aslam_cv/aslam_cameras/src/GridCalibrationTargetObservation.cpp (and .hpp)
      /repo/aslam_cv/aslam_cameras/src/GridDetector.cpp
    Simplifications: sizes and indices are natural numbers (grids of fewer than
    2^31 points, so no conversion or product wraps); images, windows, time
    stamps and serialization are left out; the tag detector, the subpixel
    refinement, the pose estimate and the camera projection are parameters;
    conversions between float and double are the identity. *)
From Coq Require Import ZArith List Bool.
From Verif Require Import Base Arith CcmModel.
Import ListNotations.
Open Scope nat_scope.

Section Tgt.
Variable A : Arith.
Notation num := (num A).
Notation zero := (of_Z A 0).
Notation pt2 := (num * num)%type.
Notation pt3 := (num * num * num)%type.
Definition of_nat (n : nat) : num := of_Z A (Z.of_nat n).

(** ** Targets. *)
(** GridCalibrationTargetBase.hpp 92-99: points in row-major order. *)
Record target := Target { trows : nat; tcols : nat; tpoints : list pt3 }.

(** GridCalibrationTargetBase.hpp 45-47. *)
Definition tsize (t : target) : nat := trows t * tcols t.
(** GridCalibrationTargetBase.cpp 23-25: the pair is (i % cols, i / cols). *)
Definition to_grid (t : target) (i : nat) : outcome (nat * nat) :=
  if tcols t =? 0 then UB else Ok (i mod tcols t, i / tcols t).
(** 28-30. *)
Definition from_grid (t : target) (r c : nat) : nat := tcols t * r + c.
(** 18-20 and 34-36. *)
Definition point (t : target) (i : nat) : outcome pt3 := load (tpoints t) i.
Definition grid_point (t : target) (r c : nat) : outcome pt3 := point t (from_grid t r c).
(** 38-41: offset of the returned pointer in the point array.  The assertion is
    size() - 1 < i in size_t, which wraps for an empty target. *)
Definition data_pointer (t : target) (i : nat) : outcome nat :=
  if tsize t =? 0 then Throw
  else if tsize t - 1 <? i
       then if i <? length (tpoints t) then Ok (3 * i) else UB
       else Throw.

(** The double loop over rows and columns that writes one point each. *)
Definition grid_writes (rows cols : nat) (f : nat -> nat -> pt3) : list (nat * pt3) :=
  flat_map (fun r => map (fun c => (cols * r + c, f r c)) (seq 0 cols)) (seq 0 rows).

(** Checkerboard.cpp 27-47, 69-74.  [raw] is what the freshly allocated points
    hold. *)
Definition checkerboard_point (rs cs : num) (r c : nat) : pt3 :=
  (mul A rs (of_nat r), mul A cs (of_nat c), zero).
Definition checkerboard (rows cols : nat) (rs cs : num) (raw : list pt3) : outcome target :=
  if lt A zero rs then
    if lt A zero cs then
      do p <- stores (grid_writes rows cols (checkerboard_point rs cs)) raw;
      Ok (Target rows cols p)
    else Throw
  else Throw.

(** Circlegrid.cpp 12-27, 39-58: the symmetric grid is written first in any
    case. *)
Definition asymmetric_point (s : num) (r c : nat) : pt3 :=
  (mul A (of_nat (2 * c + r mod 2)) s, mul A (of_nat r) s, zero).
Definition circlegrid (rows cols : nat) (s : num) (asym : bool) (raw : list pt3) : outcome target :=
  if lt A zero s then
    do p <- stores (grid_writes rows cols (checkerboard_point s s)) raw;
    do q <- stores (grid_writes rows cols (if asym then asymmetric_point s else checkerboard_point s s)) p;
    Ok (Target rows cols q)
  else Throw.

(** Aprilgrid.cpp 29-48, 76-94. *)
Definition april_coord (size spacing : num) (k : nat) : num :=
  add A (mul A (mul A (of_nat (k / 2)) (add A (of_Z A 1) spacing)) size) (mul A (of_nat (k mod 2)) size).
Definition april_point (size spacing : num) (r c : nat) : pt3 :=
  (april_coord size spacing c, april_coord size spacing r, zero).
Definition aprilgrid (tag_rows tag_cols : nat) (size spacing : num) (raw : list pt3) : outcome target :=
  if lt A zero size then
    if lt A zero spacing then
      do p <- stores (grid_writes (2 * tag_rows) (2 * tag_cols) (april_point size spacing)) raw;
      Ok (Target (2 * tag_rows) (2 * tag_cols) p)
    else Throw
  else Throw.

(** ** Tags found in an image. *)
(** TagDetection.h: identity, quality flag, the four corners. *)
Record detection := Detection { did : Z; dgood : bool; dcorners : list pt2 }.
(** Aprilgrid.hpp 21-56 *)
Record april_options := AprilOptions {
  do_subpix : bool; max_displacement2 : num; min_tags : nat; min_border : num }.

(** Aprilgrid.cpp 113-143: the tag is used. *)
Definition corner_inside (o : april_options) (width height : num) (p : pt2) : bool :=
  negb (lt A (fst p) (min_border o)) && negb (lt A (sub A width (min_border o)) (fst p)) &&
  negb (lt A (snd p) (min_border o)) && negb (lt A (sub A height (min_border o)) (snd p)).
Definition usable (o : april_options) (t : target) (width height : num) (d : detection) : bool :=
  forallb (corner_inside o width height) (dcorners d) && dgood d &&
  (did d <? Z.of_nat (tsize t / 4))%Z.

(** 155-157: std::sort by identity. *)
Fixpoint insert (d : detection) (l : list detection) : list detection :=
  match l with
  | [] => [d]
  | x :: r => if (did x <? did d)%Z then x :: insert d r else d :: l
  end.
Definition by_id (l : list detection) : list detection := fold_right insert [] l.
(** 161-163: two neighbours with the same identity. *)
Fixpoint repeated (l : list detection) : bool :=
  match l with
  | x :: (y :: _) as r => (did x =? did y)%Z || repeated r
  | _ => false
  end.

(** 282-289: grid indices of the four corners of a tag.  A negative identity
    would become a huge unsigned number and index out of range. *)
Definition corner_index (t : target) (id : nat) (j : nat) : nat :=
  let base := id / (tcols t / 2) * tcols t * 2 + id mod (tcols t / 2) * 2 in
  nth j [base; base + 1; base + tcols t + 1; base + tcols t] 0.

(** 291-316: the writes for one tag.  [raw] and [ref]: its corners before and
    after the refinement. *)
Definition displacement2 (p q : pt2) : num :=
  let dx := sub A (fst q) (fst p) in let dy := sub A (snd q) (snd p) in
  add A (mul A dx dx) (mul A dy dy).
Fixpoint tag_writes (o : april_options) (t : target) (id : nat) (j : nat) (raw ref : list pt2)
  (pts : list pt2) (seen : list bool) : outcome (list pt2 * list bool) :=
  match raw, ref with
  | p :: raw', q :: ref' =>
      do pts' <- store (corner_index t id j) q pts;
      do seen' <- store (corner_index t id j) (le A (displacement2 p q) (max_displacement2 o)) seen;
      tag_writes o t id (S j) raw' ref' pts' seen'
  | _, _ => Ok (pts, seen)
  end.
Fixpoint all_writes (o : april_options) (t : target) (ds : list detection) (ref : list (list pt2))
  (pts : list pt2) (seen : list bool) : outcome (list pt2 * list bool) :=
  match ds, ref with
  | d :: ds', q :: ref' =>
      if (did d <? 0)%Z then UB else
      do r <- tag_writes o t (Z.to_nat (did d)) 0 (dcorners d) q pts seen;
      all_writes o t ds' ref' (fst r) (snd r)
  | _, _ => Ok (pts, seen)
  end.

(** 97-321: computeObservation.  [refine] is the subpixel refinement of the
    corners of the tags in use, tag by tag.  [pts], [seen]: the caller's output
    arguments; [rawpts]: contents of a newly sized point matrix (a matrix that
    has the size already is left as it is).  [Ok None]: the process exits
    (lines 161-193).  The debugging windows are left out; with them and too few
    tags the duplicate check comes before the return. *)
Definition resize_points (n : nat) (pts rawpts : list pt2) : list pt2 :=
  if length pts =? n then pts else rawpts.
Definition observe (o : april_options) (t : target) (width height : num)
  (refine : list (list pt2) -> list (list pt2)) (tags : list detection)
  (rawpts pts : list pt2) (seen : list bool) : outcome (option (bool * list pt2 * list bool)) :=
  let ds := filter (usable o t width height) tags in
  if length ds <? min_tags o then Ok (Some (false, pts, seen))
  else
    let s := by_id ds in
    if repeated s then Ok None
    else
      let ref := if do_subpix o then refine (map dcorners s) else map dcorners s in
      do r <- all_writes o t s ref (resize_points (tsize t) pts rawpts) (resize (tsize t) false seen);
      Ok (Some (true, fst r, snd r)).
End Tgt.
Arguments Target {A}. Arguments trows {A}. Arguments tcols {A}. Arguments tpoints {A}. Arguments tsize {A}.
Arguments to_grid {A}. Arguments from_grid {A}. Arguments point {A}. Arguments grid_point {A}.
Arguments data_pointer {A}. Arguments Detection {A}. Arguments did {A}. Arguments dgood {A}. Arguments dcorners {A}.
Arguments AprilOptions {A}. Arguments do_subpix {A}. Arguments max_displacement2 {A}. Arguments min_tags {A}.
Arguments min_border {A}.

(** ** Observations. *)
Section Obs.
Variable A : Arith.
Variable T : Type.                      (* sm::kinematics::Transformation *)
Notation num := (num A).
Notation zero := (of_Z A 0).
Notation pt2 := (num * num)%type.
Notation pt3 := (num * num * num)%type.

(** GridCalibrationTargetObservation.hpp 127-159 *)
Record observation := Obs {
  otarget : target A; opoints : list pt2; osuccess : list bool; otrafo : T; otrafo_set : bool }.

(** GridCalibrationTargetObservation.cpp 28-36.  The transformation stays. *)
Definition set_target (t : target A) (o : observation) : observation :=
  Obs t (repeat (zero, zero) (tsize t)) (repeat false (tsize t)) (otrafo o) (otrafo_set o).
(** Lines 17-23, with the default transformation. *)
Definition new_obs (t : target A) (id : T) : observation :=
  Obs t (repeat (zero, zero) (tsize t)) (repeat false (tsize t)) id false.
(** .hpp 103-106 *)
Definition set_trafo (x : T) (o : observation) : observation :=
  Obs (otarget o) (opoints o) (osuccess o) x true.

(** 148-157 and 160-166. *)
Definition update_point (i : nat) (p : pt2) (o : observation) : outcome observation :=
  if i <? length (osuccess o) then
    do ps <- store i p (opoints o);
    do ss <- store i true (osuccess o);
    Ok (Obs (otarget o) ps ss (otrafo o) (otrafo_set o))
  else Throw.
Definition remove_point (i : nat) (o : observation) : outcome observation :=
  if i <? length (osuccess o) then
    do ss <- store i false (osuccess o);
    Ok (Obs (otarget o) (opoints o) ss (otrafo o) (otrafo_set o))
  else Throw.
(** 168-176 and 180-184. *)
Definition image_point (i : nat) (o : observation) : outcome (bool * pt2) :=
  if i <? length (osuccess o) then
    do p <- load (opoints o) i; do s <- load (osuccess o) i; Ok (s, p)
  else Throw.
Definition image_grid_point (r c : nat) (o : observation) := image_point (from_grid (otarget o) r c) o.

(** 131-145, 39-61, 65-92: the loops over the points seen. *)
Fixpoint collect {V} (f : nat -> outcome V) (is : list nat) (s : list bool) : outcome (list V) :=
  match is with
  | [] => Ok []
  | i :: r =>
      do b <- load s i;
      if b then do v <- f i; do vs <- collect f r s; Ok (v :: vs) else collect f r s
  end.
Definition corners_idx (o : observation) : outcome (list nat) :=
  collect (fun i => Ok i) (seq 0 (tsize (otarget o))) (osuccess o).
Definition corners_target (o : observation) : outcome (list pt3) :=
  collect (fun i => do p <- point (otarget o) i; Ok (fst (fst p), snd (fst p), zero))
    (seq 0 (tsize (otarget o))) (osuccess o).
Definition corners_image (o : observation) : outcome (list pt2) :=
  collect (fun i => do r <- image_point i o; Ok (snd r)) (seq 0 (tsize (otarget o))) (osuccess o).
(** 96-127 *)
Definition reprojection (project : T -> pt3 -> pt2) (o : observation) : outcome (list pt2) :=
  if otrafo_set o then do ps <- corners_target o; Ok (map (project (otrafo o)) ps) else Throw.
(** 196-203 *)
Definition has_observation (o : observation) : bool := existsb (fun b => b) (osuccess o).

(** ** The detector. *)
(** GridDetector.hpp 23-45 *)
Record detector_options := DetOptions { filter_outliers : bool; sigma : num; min_error : num }.

(** GridDetector.cpp 91-112: [found] is what computeObservation returned for
    fresh, empty outputs. *)
Fixpoint copy_points (is : list nat) (pts : list pt2) (seen : list bool) (o : observation) : outcome observation :=
  match is with
  | [] => Ok o
  | i :: r =>
      do b <- load seen i;
      if b then do p <- load pts i; do o' <- update_point i p o; copy_points r pts seen o'
      else copy_points r pts seen o
  end.
Definition find_no_trafo (t : target A) (found : bool * list pt2 * list bool) (o : observation)
  : outcome (bool * observation) :=
  let '(ok, pts, seen) := found in
  do o' <- copy_points (seq 0 (length pts)) pts seen (set_target t o);
  Ok (ok, o').

(** 134-182: mean and deviation of the reprojection errors, and the removal. *)
Definition distance (p q : pt2) : num :=
  let dx := sub A (fst p) (fst q) in let dy := sub A (snd p) (snd q) in
  root A (add A (mul A dx dx) (mul A dy dy)).
Definition total_of (l : list num) : num := fold_left (add A) l zero.
Definition mean_of (l : list num) : num := div A (total_of l) (of_Z A (Z.of_nat (length l))).
Definition std_of (l : list num) : num :=
  root A (div A (total_of (map (fun e => mul A (sub A e (mean_of l)) (sub A e (mean_of l))) l))
                (of_Z A (Z.of_nat (length l)))).
Definition outlier (p : detector_options) (errs : list num) (e : num) : bool :=
  lt A (add A (mean_of errs) (mul A (sigma p) (std_of errs))) e && lt A (min_error p) e.
Fixpoint remove_all (is : list nat) (o : observation) : outcome observation :=
  match is with [] => Ok o | i :: r => do o' <- remove_point i o; remove_all r o' end.
Definition filter_corners (p : detector_options) (project : T -> pt3 -> pt2) (o : observation) : outcome observation :=
  do rep <- reprojection project o;
  do det <- corners_image o;
  do idx <- corners_idx o;
  let errs := map (fun x => distance (snd x) (fst x)) (combine rep det) in
  remove_all (map snd (filter (fun x => outlier p errs (fst x)) (combine errs idx))) o.

(** 114-214: findTarget.  [estimate] is the pose estimate of the camera model. *)
Definition find_target (p : detector_options) (project : T -> pt3 -> pt2) (estimate : observation -> option T)
  (t : target A) (found : bool * list pt2 * list bool) (o : observation) : outcome (bool * observation) :=
  do r <- find_no_trafo t found o;
  let '(ok, o1) := r in
  if ok then
    match estimate o1 with
    | Some x =>
        let o2 := set_trafo x o1 in
        if filter_outliers p then do o3 <- filter_corners p project o2; Ok (true, o3) else Ok (true, o2)
    | None => Ok (false, o1)
    end
  else Ok (false, o1).
End Obs.
Arguments Obs {A T}. Arguments otarget {A T}. Arguments opoints {A T}. Arguments osuccess {A T}.
Arguments otrafo {A T}. Arguments otrafo_set {A T}. Arguments DetOptions {A}. Arguments filter_outliers {A}.
Arguments sigma {A}. Arguments min_error {A}.
