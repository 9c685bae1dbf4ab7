(** * Model of the lookup grid of the tag detector

    Models /repo/aslam_offline_calibration/aslam_apriltag2/include/aslam_apriltag2/Gridder.h.
    Reals for floats, [trunc] for the conversion to int, which is undefined when
    the value does not fit.  A linked list of cells is a list, the null pointer
    the empty one; an access outside the grid is undefined.  Simplifications:
    pointers to objects are values; a division by zero is taken to be undefined
    at once (the code converts an infinity or a NaN to int); the copy assignment
    of an iterator, which lacks its return, is not modelled. *)
From Coq Require Import Reals ZArith List Bool.
From Verif Require Import Base.
Import ListNotations.
Local Open Scope Z_scope.

Definition trunc (r : R) : Z := if Rle_dec 0 r then Int_part r else - Int_part (- r).
Definition to_int (r : R) : outcome Z := let z := trunc r in if (-2147483648 <=? z) && (z <=? 2147483647) then Ok z else UB.
Definition quotient (a b : R) : outcome R := if Req_EM_T b 0 then UB else Ok (a / b)%R.

Section Grid.
Context {T : Type}.
Record grid := Grid { g_x0 : R; g_y0 : R; g_w : Z; g_h : Z; g_pp : R; g_cells : Z -> Z -> list T }.

(** Lines 43-50 and 58-60; a negative size makes the vector throw *)
Definition make_grid (x0 y0 x1 y1 pp : R) : outcome grid :=
  do qx <- quotient (x1 - x0) pp; do w <- to_int (qx + 1);
  do qy <- quotient (y1 - y0) pp; do h <- to_int (qy + 1);
  if (w <? 0) || (h <? 0) then Throw else Ok (Grid x0 y0 w h pp (fun _ _ => [])).

(** Lines 70-81 *)
Definition column (g : grid) (x : R) : outcome Z := do q <- quotient (x - g_x0 g) (g_pp g); to_int q.
Definition row_of (g : grid) (y : R) : outcome Z := do q <- quotient (y - g_y0 g) (g_pp g); to_int q.
Definition add (g : grid) (x y : R) (o : T) : outcome grid :=
  do ix <- column g x; do iy <- row_of g y;
  if (0 <=? ix) && (0 <=? iy) && (ix <? g_w g) && (iy <? g_h g)
  then Ok (Grid (g_x0 g) (g_y0 g) (g_w g) (g_h g) (g_pp g)
             (fun b a => if (b =? iy) && (a =? ix) then o :: g_cells g b a else g_cells g b a))
  else Ok g.
Fixpoint add_all (g : grid) (os : list (R * R * T)) : outcome grid :=
  match os with
  | [] => Ok g
  | (x, y, o) :: r => do g' <- add g x y o; add_all g' r
  end.

Definition cell (g : grid) (iy ix : Z) : outcome (list T) :=
  if (0 <=? iy) && (iy <? g_h g) && (0 <=? ix) && (ix <? g_w g) then Ok (g_cells g iy ix) else UB.

Record iterator := Iterator { i_x0 : Z; i_x1 : Z; i_y0 : Z; i_y1 : Z; i_x : Z; i_y : Z; i_c : list T }.
Definition moved (it : iterator) (ix iy : Z) (c : list T) : iterator := Iterator (i_x0 it) (i_x1 it) (i_y0 it) (i_y1 it) ix iy c.

(** Lines 143-166 *)
Definition clamp (n i : Z) : Z := Z.min (n - 1) (Z.max 0 i).
Definition find (g : grid) (x y range : R) : outcome iterator :=
  do a0 <- column g (x - range); do b0 <- row_of g (y - range);
  do a1 <- column g (x + range); do b1 <- row_of g (y + range);
  let ix0 := clamp (g_w g) a0 in let ix1 := clamp (g_w g) a1 in
  let iy0 := clamp (g_h g) b0 in let iy1 := clamp (g_h g) b1 in
  do c <- cell g iy0 ix0;
  Ok (Iterator ix0 ix1 iy0 iy1 ix0 iy0 c).

(** Lines 126-139, the loop; [fuel] bounds the number of rounds *)
Fixpoint seek (fuel : nat) (g : grid) (it : iterator) (ix iy : Z) : outcome iterator :=
  match fuel with
  | O => Hang
  | S f =>
      let '(ix, iy) := if i_x1 it <? ix then (i_x0 it, iy + 1) else (ix, iy) in
      if i_y1 it <? iy then Ok (moved it ix iy [])
      else do c <- cell g iy ix;
           match c with [] => seek f g it (ix + 1) iy | _ :: _ => Ok (moved it ix iy c) end
  end.
(** Lines 119-140 *)
Definition find_next (fuel : nat) (g : grid) (it : iterator) : outcome iterator :=
  match tl (i_c it) with
  | o :: c => Ok (moved it (i_x it) (i_y it) (o :: c))
  | [] => seek fuel g it (i_x it + 1) (i_y it)
  end.
(** Lines 106-110 *)
Definition has_next (fuel : nat) (g : grid) (it : iterator) : outcome (bool * iterator) :=
  do it' <- match i_c it with [] => find_next fuel g it | _ :: _ => Ok it end;
  Ok (match i_c it' with [] => false | _ :: _ => true end, it').
(** Lines 112-116: through a null pointer it is undefined *)
Definition next (fuel : nat) (g : grid) (it : iterator) : outcome (T * iterator) :=
  match i_c it with
  | [] => UB
  | o :: _ => do it' <- find_next fuel g it; Ok (o, it')
  end.
(** The loop of every caller: while there is a next one, take it *)
Fixpoint drain (rounds fuel : nat) (g : grid) (it : iterator) : outcome (list T) :=
  match rounds with
  | O => Hang
  | S r =>
      do '(more, it1) <- has_next fuel g it;
      if more then do '(o, it2) <- next fuel g it1; do l <- drain r fuel g it2; Ok (o :: l)
      else Ok []
  end.
End Grid.
Arguments grid : clear implicits.
Arguments iterator : clear implicits.
