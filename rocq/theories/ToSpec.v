(** * What the transformation at an estimated time must satisfy *)
From Coquelicot Require Import Coquelicot.
From Coq Require Import Reals List Arith.
From Verif Require Import Base KinModel TfModel BsplModel BsplSpec BsplProps SplModel.
Local Open Scope R_scope.

(** The curve has a time derivative at [t]: inside a segment, or anywhere
    inside the curve when the order is at least 3 and no knots coincide. *)
Definition smooth_at (k : nat) (l : list R) (C : nat) (t : R) : Prop :=
  (exists j, (k - 1 <= j < C)%nat /\ knot l j < t < knot l (j + 1)) \/
  (increasing l /\ (3 <= k)%nat /\ first_time k l < t < last_time k l).

(** The time moves with the parameter s, at rate [td]. *)
Definition moving_time (tau : R -> R) (t td : R) : Prop := tau 0 = t /\ is_derive tau 0 td.

(** A vector plus a multiple of another. *)
Definition v6_plus (a : v6) (s : R) (b : v6) : v6 :=
  V6 (V3 (x0 (hd3 a) + s * x0 (hd3 b)) (x1 (hd3 a) + s * x1 (hd3 b)) (x2 (hd3 a) + s * x2 (hd3 b)))
     (V3 (x0 (tl3 a) + s * x0 (tl3 b)) (x1 (tl3 a) + s * x1 (tl3 b)) (x2 (tl3 a) + s * x2 (tl3 b))).
(** Row of a matrix with six columns times a vector. *)
Definition row6 (a x : v6) : R :=
  x0 (hd3 a) * x0 (hd3 x) + x1 (hd3 a) * x1 (hd3 x) + x2 (hd3 a) * x2 (hd3 x) +
  x0 (tl3 a) * x0 (tl3 x) + x1 (tl3 a) * x1 (tl3 x) + x2 (tl3 a) * x2 (tl3 x).
