(** * Specification of B-spline curves: the Cox - de Boor basis functions

    Independent of the matrix form used by the code.  [kn i] is knot number i,
    [k] the order (degree + 1).  The basis function of order 1 is the indicator
    of one knot interval, half open on the right ([left = false]) or, for the
    value at the end of the curve, on the left ([left = true]).  By the usual
    convention a quotient with denominator zero counts as zero. *)
From Coq Require Import Reals List Arith.
Local Open Scope R_scope.

Definition ratio (a b : R) : R := if Req_EM_T b 0 then 0 else a / b.

Definition indicator (left : bool) (a b t : R) : R :=
  if left then (if Rlt_dec a t then if Rle_dec t b then 1 else 0 else 0)
  else (if Rle_dec a t then if Rlt_dec t b then 1 else 0 else 0).

Fixpoint cox (left : bool) (kn : nat -> R) (k j : nat) (t : R) : R :=
  match k with
  | O => 0
  | S k' =>
    match k' with
    | O => indicator left (kn j) (kn (j + 1)%nat) t
    | S _ =>
      ratio (t - kn j) (kn (j + k')%nat - kn j) * cox left kn k' j t
      + ratio (kn (j + k)%nat - t) (kn (j + k)%nat - kn (j + 1)%nat) * cox left kn k' (j + 1) t
    end
  end.

(** The sum of f 0 ... f (n-1). *)
Fixpoint total (n : nat) (f : nat -> R) : R :=
  match n with O => 0 | S m => total m f + f m end.

(** Coordinate of the curve: control values c 0 ... c (n-1). *)
Definition curve (left : bool) (kn : nat -> R) (k n : nat) (c : nat -> R) (t : R) : R :=
  total n (fun j => c j * cox left kn k j t).

(** Knot number i of a knot list. *)
Definition knot (l : list R) (i : nat) : R := nth i l 0.

(** The knots do not decrease / strictly increase. *)
Definition nondecreasing (l : list R) : Prop :=
  forall i j, (i <= j < length l)%nat -> knot l i <= knot l j.
Definition increasing (l : list R) : Prop :=
  forall i j, (i < j < length l)%nat -> knot l i < knot l j.
