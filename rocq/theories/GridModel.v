(** Model of aslam_incremental_calibration's Grid and Histogram.

    Paths are relative to /repo/aslam_incremental_calibration/
    aslam_incremental_calibration/include/aslam_incremental_calibration.
    Simplifications: integer coordinates and index products are unbounded (no int
    overflow); floating-point coordinates are exact rationals; the vectors passed by
    the caller have the grid's dimension (Eigen asserts otherwise). *)
From Coq Require Import ZArith QArith Qround List Bool.
From Verif Require Import Base.
Import ListNotations.
Open Scope Z_scope.

(** Operations on one dimension [(minimum, maximum, resolution)]. *)
Record dimops (X : Type) := DimOps {
  d_ok : X * X * X -> bool;              (* constructor checks *)
  d_ncells : X * X * X -> Z;             (* mNumCells(i) *)
  d_inrange : X * X * X -> X -> bool;    (* isInRange *)
  d_index : X * X * X -> X -> Z;         (* getIndex *)
  d_center : X * X * X -> Z -> X         (* getCoordinates *)
}.
Arguments DimOps {X}. Arguments d_ok {X}. Arguments d_ncells {X}.
Arguments d_inrange {X}. Arguments d_index {X}. Arguments d_center {X}.

(** Integer coordinate types.  data-structures/Grid.tpp:35-46 (checks), 51-52 with
    302-306 (integer ceil: quotient + 1), 221-225, 191-194 (integer division),
    217 (computed in double, truncated towards zero on assignment). *)
Definition int_dim : dimops Z := {|
  d_ok := fun '(mn, mx, r) => negb (r <=? 0) && negb (mn >=? mx) && negb (r >? mx - mn);
  d_ncells := fun '(mn, mx, r) => Z.quot (mx - mn) r + 1;
  d_inrange := fun '(mn, mx, r) p => (p <=? mx) && (p >=? mn);
  d_index := fun '(mn, mx, r) p =>
    if p =? mx then (Z.quot (mx - mn) r + 1) - 1 else Z.quot (p - mn) r;
  d_center := fun '(mn, mx, r) i => Z.quot (2 * mn + (2 * i + 1) * r) 2
|}.

(** Floating-point coordinate types, as exact rationals.  Grid.tpp:296-300 (ceil);
    the conversion to int in line 194 truncates (the operand is nonnegative). *)
Definition Qlt_bool (a b : Q) : bool := negb (Qle_bool b a).
Definition real_dim : dimops Q := {|
  d_ok := fun '(mn, mx, r) => negb (Qle_bool r 0) && negb (Qle_bool mx mn) && negb (Qlt_bool (mx - mn) r);
  d_ncells := fun '(mn, mx, r) => Qceiling ((mx - mn) / r);
  d_inrange := fun '(mn, mx, r) p => Qle_bool p mx && Qle_bool mn p;
  d_index := fun '(mn, mx, r) p =>
    if Qeq_bool p mx then Qceiling ((mx - mn) / r) - 1 else Qfloor ((p - mn) / r);
  d_center := fun '(mn, mx, r) i => (mn + (inject_Z i + (1 # 2)) * r)%Q
|}.

(** data-structures/Grid.tpp:264-270 with 49, 55-57: [mLinProd(i)] is the product of
    the cell counts of the later dimensions. *)
Definition prod (l : list Z) : Z := fold_right Z.mul 1 l.
Fixpoint lin_prod (nums : list Z) : list Z :=
  match nums with
  | [] => []
  | _ :: r => prod r :: lin_prod r
  end.
Fixpoint dot (a b : list Z) : Z :=
  match a, b with
  | x :: a', y :: b' => x * y + dot a' b'
  | _, _ => 0
  end.
Definition linear_index (nums idx : list Z) : Z := dot (lin_prod nums) idx.

(** Grid.tpp:227-230  isValidIndex: only the upper bound is tested. *)
Fixpoint is_valid_index (nums idx : list Z) : bool :=
  match nums, idx with
  | n :: nr, i :: ir => (i <? n) && is_valid_index nr ir
  | _, _ => true
  end.

(** Grid.tpp:278-294  incrementIndex; [None]: the last dimension overflows and the
    index becomes [mNumCells]. *)
Fixpoint inc_aux (nums idx : list Z) : option (list Z) :=
  match nums, idx with
  | n :: nr, i :: ir =>
      if i + 1 <? n then Some (i + 1 :: ir)
      else match nr with
           | [] => None
           | _ => option_map (cons 0) (inc_aux nr ir)
           end
  | _, _ => Some idx
  end.
Definition increment_index (nums idx : list Z) : list Z :=
  match inc_aux nums idx with Some i => i | None => nums end.

Fixpoint list_eqb (a b : list Z) : bool :=
  match a, b with
  | [], [] => true
  | x :: a', y :: b' => (x =? y) && list_eqb a' b'
  | _, _ => false
  end.

(** The loop [for (Index i = Zero; i != mNumCells; incrementIndex(i))] of
    statistics/Histogram1v.tpp:59-60, 69-70, 82-83: the indices its body sees.
    [None] if the budget is exhausted. *)
Fixpoint visits (fuel : nat) (nums i : list Z) : option (list (list Z)) :=
  if list_eqb i nums then Some []
  else match fuel with
       | O => None
       | S f => option_map (cons i) (visits f nums (increment_index nums i))
       end.

Section Grid.
Context {X C : Type} (ops : dimops X) (c0 : C).

Record grid := Grid { g_dims : list (X * X * X); g_nums : list Z; g_cells : list C }.

(** Grid.tpp:29-59 *)
Definition make_grid (dims : list (X * X * X)) : outcome grid :=
  if forallb (d_ok ops) dims then
    let nums := map (d_ncells ops) dims in
    Ok (Grid dims nums (repeat c0 (Z.to_nat (prod nums))))
  else Throw.

Fixpoint all_in_range (dims : list (X * X * X)) (p : list X) : bool :=
  match dims, p with
  | d :: dr, x :: pr => d_inrange ops d x && all_in_range dr pr
  | _, _ => true
  end.
Fixpoint index_of (dims : list (X * X * X)) (p : list X) : list Z :=
  match dims, p with
  | d :: dr, x :: pr => d_index ops d x :: index_of dr pr
  | _, _ => []
  end.
Fixpoint center_of (dims : list (X * X * X)) (idx : list Z) : list X :=
  match dims, idx with
  | d :: dr, i :: ir => d_center ops d i :: center_of dr ir
  | _, _ => []
  end.

(** Grid.tpp:183-196 *)
Definition get_index (g : grid) (p : list X) : outcome (list Z) :=
  if all_in_range (g_dims g) p then Ok (index_of (g_dims g) p) else Throw.

(** Grid.tpp:208-219 *)
Definition get_coordinates (g : grid) (idx : list Z) : outcome (list X) :=
  if is_valid_index (g_nums g) idx then Ok (center_of (g_dims g) idx) else Throw.

(** Grid.tpp:157-171: an unchecked access into the vector of cells. *)
Definition get_cell (g : grid) (idx : list Z) : outcome C :=
  if is_valid_index (g_nums g) idx then
    let k := linear_index (g_nums g) idx in
    if k <? 0 then UB
    else match nth_error (g_cells g) (Z.to_nat k) with
         | Some c => Ok c
         | None => UB
         end
  else Throw.

Fixpoint upd_nth (l : list C) (i : nat) (f : C -> C) : list C :=
  match l, i with
  | [], _ => []
  | x :: r, O => f x :: r
  | x :: r, S i' => x :: upd_nth r i' f
  end.

(** Writing through the reference returned by getCell. *)
Definition modify_cell (g : grid) (idx : list Z) (f : C -> C) : outcome grid :=
  do _ <- get_cell g idx;
  Ok (Grid (g_dims g) (g_nums g) (upd_nth (g_cells g) (Z.to_nat (linear_index (g_nums g) idx)) f)).

(** Grid.tpp:272-276 *)
Definition reset (g : grid) : grid :=
  Grid (g_dims g) (g_nums g) (map (fun _ => c0) (g_cells g)).
End Grid.
Arguments grid : clear implicits.

(** Histograms: statistics/Histogram1v.tpp and HistogramMv.tpp; counts are doubles
    holding integers, modelled as integers. *)
Section Hist.
Context {X : Type} (ops : dimops X).

(** Histogram1v.tpp:111-115, HistogramMv.tpp:101-105 *)
Definition add_sample (g : grid X Z) (p : list X) : outcome (grid X Z) :=
  if all_in_range ops (g_dims g) p then
    do idx <- get_index ops g p;
    modify_cell g idx (fun c => c + 1)
  else Ok g.

(** Histogram1v.tpp:117-121 *)
Fixpoint add_samples (g : grid X Z) (ps : list (list X)) : outcome (grid X Z) :=
  match ps with
  | [] => Ok g
  | p :: r => do g' <- add_sample g p; add_samples g' r
  end.

(** Histogram1v.tpp:103-109 *)
Definition get_sum (g : grid X Z) : Z := fold_left Z.add (g_cells g) 0.

Definition zero_index (g : grid X Z) : list Z := map (fun _ => 0) (g_nums g).
Definition all_visits (g : grid X Z) : option (list (list Z)) :=
  visits (Z.to_nat (prod (g_nums g))) (g_nums g) (zero_index g).

(** Histogram1v.tpp:78-90, HistogramMv.tpp:64-77: index of the mode. *)
Fixpoint mode_loop (g : grid X Z) (best : option (list Z * Z)) (l : list (list Z)) : outcome (option (list Z * Z)) :=
  match l with
  | [] => Ok best
  | i :: r =>
      do c <- get_cell g i;
      mode_loop g (match best with
                   | None => Some (i, c)
                   | Some (_, m) => if c >? m then Some (i, c) else best
                   end) r
  end.
Definition mode_index (g : grid X Z) : outcome (list Z) :=
  match all_visits g with
  | None => Hang
  | Some l => do b <- mode_loop g None l;
      match b with Some (i, _) => Ok i | None => UB end
  end.

(** Histogram1v.tpp:65-76: index of the median ([None]: falls through to the minimum). *)
Fixpoint median_loop (g : grid X Z) (sum cur : Z) (l : list (list Z)) : outcome (option (list Z)) :=
  match l with
  | [] => Ok None
  | i :: r =>
      do c <- get_cell g i;
      if 2 * (cur + c) >=? sum then Ok (Some i) else median_loop g sum (cur + c) r
  end.
Definition median_index (g : grid X Z) : outcome (option (list Z)) :=
  match all_visits g with
  | None => Hang
  | Some l => median_loop g (get_sum g) 0 l
  end.

(** Histogram1v.tpp:123-130: getNormalized, exact rationals. *)
Definition normalized (g : grid X Z) : list Q :=
  map (fun c => inject_Z c / inject_Z (get_sum g))%Q (g_cells g).
End Hist.
