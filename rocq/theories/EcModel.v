(** * Model of grouping pixels of similar gradients

    Models /repo/aslam_offline_calibration/aslam_apriltag2/src/Edge.cc, the order
    of include/aslam_apriltag2/Edge.h and src/TagDetector.cc lines 188-261 (steps
    three and four).  Reals for floats; an access outside a vector is undefined
    behaviour.  The disjoint sets are those of UfModel (C78), the images those of
    GfModel (C92).  Simplifications: sizes and indices do not overflow; the four
    arrays cut out of one block of storage are four lists; std::stable_sort is a
    stable insertion sort; a std::map is a list sorted by key. *)
From Coq Require Import Reals List Arith ZArith Bool.
From Verif Require Import Base LutModel QsModel GfModel UfModel LfModel.
Import ListNotations.
Local Open Scope R_scope.

(** Edge.cc lines 8-12 *)
Definition min_mag : R := 4 / 1000.
Definition max_edge_cost : R := 30 * PI / 180.
Definition weight_scale : R := 100.
Definition theta_thresh : R := 100.
Definition mag_thresh : R := 1200.
(** Segment.h line 14 *)
Definition minimum_segment_size : nat := 4.

(** Edge.h lines 24-36 *)
Record edge := Edge { cost : Z; pixel_a : nat; pixel_b : nat }.

(** Edge.cc lines 14-24 *)
Definition edge_cost (theta0 theta1 mag1 : R) : Z :=
  if Rlt_dec mag1 min_mag then (-1)%Z
  else
    let theta_err := Rabs (mod2pi (theta1 - theta0)) in
    if Rlt_dec max_edge_cost theta_err then (-1)%Z
    else trunc (theta_err / max_edge_cost * weight_scale).

(** Writing edges[nEdges]; the vector has [cap] places *)
Definition put_edge (cap : nat) (c : Z) (a b : nat) (edges : list edge) : outcome (list edge) :=
  if (0 <=? c)%Z then
    if (length edges <? cap)%nat then Ok (edges ++ [Edge c a b]) else UB
  else Ok edges.
(** Edge.cc lines 26-69 *)
Definition calc_edges (cap : nat) (theta0 : R) (x y : nat) (theta mag : image) (edges : list edge) : outcome (list edge) :=
  let w := width theta in
  let this := (y * w + x)%nat in
  do t1 <- get theta (x + 1) y; do m1 <- get mag (x + 1) y;
  do e1 <- put_edge cap (edge_cost theta0 t1 m1) this (y * w + x + 1) edges;
  do t2 <- get theta x (y + 1); do m2 <- get mag x (y + 1);
  do e2 <- put_edge cap (edge_cost theta0 t2 m2) this ((y + 1) * w + x) e1;
  do t3 <- get theta (x + 1) (y + 1); do m3 <- get mag (x + 1) (y + 1);
  do e3 <- put_edge cap (edge_cost theta0 t3 m3) this ((y + 1) * w + x + 1) e2;
  if (x =? 0)%nat then Ok e3
  else
    do t4 <- get theta (x - 1) (y + 1); do m4 <- get mag (x - 1) (y + 1);
    put_edge cap (edge_cost theta0 t4 m4) this ((y + 1) * w + x - 1) e3.

(** The bounds on the directions and magnitudes of each group *)
Record ranges := Ranges { tmin : list R; tmax : list R; mmin : list R; mmax : list R }.
(** The pixels visited by two loops with these bounds, row by row *)
Definition raster (w h : nat) : list (nat * nat) := flat_map (fun y => map (fun x => (x, y)) (seq 0 w)) (seq 0 h).

(** TagDetector.cc lines 211-231 *)
Definition scan_pixel (theta mag : image) (st : ranges * list edge) (q : nat * nat) : outcome (ranges * list edge) :=
  let '(r, edges) := st in let '(x, y) := q in
  let i := (y * width theta + x)%nat in
  do mag0 <- get mag x y;
  if Rlt_dec mag0 min_mag then Ok (r, edges)
  else
    do mx <- write (mmax r) i mag0; do mn <- write (mmin r) i mag0;
    do theta0 <- get theta x y;
    do tn <- write (tmin r) i theta0; do tx <- write (tmax r) i theta0;
    do e <- calc_edges (width theta * height theta * 4) theta0 x y theta mag edges;
    Ok (Ranges tn tx mn mx, e).
Fixpoint scan (theta mag : image) (qs : list (nat * nat)) (st : ranges * list edge) : outcome (ranges * list edge) :=
  match qs with
  | [] => Ok st
  | q :: r => do st' <- scan_pixel theta mag st q; scan theta mag r st'
  end.

(** TagDetector.cc line 234 with Edge.h line 36 *)
Fixpoint insert (e : edge) (l : list edge) : list edge :=
  match l with
  | [] => [e]
  | f :: r => if (cost e <=? cost f)%Z then e :: l else f :: insert e r
  end.
Definition sort (l : list edge) : list edge := fold_right insert [] l.

(** Edge.cc lines 71-116 *)
Definition merge_edge (uf : sets) (r : ranges) (e : edge) : outcome (sets * ranges) :=
  do '(ida, uf) <- get_representative uf (pixel_a e);
  do '(idb, uf) <- get_representative uf (pixel_b e);
  if (ida =? idb)%nat then Ok (uf, r)
  else
    do '(sza, uf) <- get_set_size uf ida;
    do '(szb, uf) <- get_set_size uf idb;
    do tmina <- read (tmin r) ida; do tmaxa <- read (tmax r) ida;
    do tminb <- read (tmin r) idb; do tmaxb <- read (tmax r) idb;
    let costa := tmaxa - tmina in let costb := tmaxb - tminb in
    let mid := (tmina + tmaxa) / 2 in
    let bshift := mid + mod2pi ((tminb + tmaxb) / 2 - mid) - (tminb + tmaxb) / 2 in
    let tminab := Rmin tmina (tminb + bshift) in
    let tmaxab0 := Rmax tmaxa (tmaxb + bshift) in
    let tmaxab := if Rlt_dec (2 * PI) (tmaxab0 - tminab) then tminab + 2 * PI else tmaxab0 in
    do mmina <- read (mmin r) ida; do mminb <- read (mmin r) idb;
    do mmaxa <- read (mmax r) ida; do mmaxb <- read (mmax r) idb;
    let mminab := Rmin mmina mminb in let mmaxab := Rmax mmaxa mmaxb in
    let costab := tmaxab - tminab in
    let sz := INR (sza + szb) in
    if Rle_dec costab (Rmin costa costb + theta_thresh / sz) then
      if Rle_dec (mmaxab - mminab) (Rmin (mmaxa - mmina) (mmaxb - mminb) + mag_thresh / sz) then
        do '(idab, uf) <- connect_nodes uf ida idb;
        do tn <- write (tmin r) idab tminab; do tx <- write (tmax r) idab tmaxab;
        do mn <- write (mmin r) idab mminab; do mx <- write (mmax r) idab mmaxab;
        Ok (uf, Ranges tn tx mn mx)
      else Ok (uf, r)
    else Ok (uf, r).
Fixpoint merge_edges (uf : sets) (r : ranges) (edges : list edge) : outcome (sets * ranges) :=
  match edges with
  | [] => Ok (uf, r)
  | e :: es => do '(uf', r') <- merge_edge uf r e; merge_edges uf' r' es
  end.

(** TagDetector.cc lines 243-261 *)
Definition cluster_map := list (nat * list xyweight).
Fixpoint add_point (k : nat) (p : xyweight) (m : cluster_map) : cluster_map :=
  match m with
  | [] => [(k, [p])]
  | (k', ps) :: r =>
      if (k =? k')%nat then (k', ps ++ [p]) :: r
      else if (k <? k')%nat then (k, [p]) :: m
      else (k', ps) :: add_point k p r
  end.
Fixpoint collect (w : nat) (mag : image) (qs : list (nat * nat)) (uf : sets) (m : cluster_map) : outcome cluster_map :=
  match qs with
  | [] => Ok m
  | (x, y) :: r =>
      do '(sz, uf) <- get_set_size uf (y * w + x);
      if (sz <? minimum_segment_size)%nat then collect w mag r uf m
      else
        do '(rep, uf) <- get_representative uf (y * w + x);
        do v <- get mag x y;
        collect w mag r uf (add_point rep (XYW (INR x) (INR y) v) m)
  end.

(** Steps three and four *)
Definition group_pixels (theta mag : image) : outcome (sets * ranges * list edge) :=
  let w := width theta in let h := height theta in
  let zeros := repeat 0 (w * h) in
  do '(r, edges) <- scan theta mag (raster (w - 1) (h - 1)) (Ranges zeros zeros zeros zeros, []);
  do '(uf, r) <- merge_edges (make (w * h)) r (sort edges);
  Ok (uf, r, edges).
Definition clusters (theta mag : image) : outcome cluster_map :=
  do '(uf, _, _) <- group_pixels theta mag;
  collect (width mag) mag (raster (width mag - 1) (height mag - 1)) uf [].
