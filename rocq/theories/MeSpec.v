(** * What a motion error has to be *)
From Coq Require Import Reals List Arith ZArith Bool.
From Verif Require Import Base JacModel SbmModel.
Import ListNotations.
Local Close Scope Z_scope.
Local Open Scope nat_scope.

(** The order of the derivative whose square is integrated by a motion error of
    order [d] on a curve of order [k]: a curve of order [k] has no more than
    [k - 1] derivatives other than zero. *)
Definition motion_order (k d : nat) : nat := Nat.min d (k - 1).

(** The place of a design variable in a system with block layout [lay]. *)
Definition place (lay : list nat) (d : dvref) : nat := base_of lay (Z.to_nat (block d)).

(** The change of the coefficient vector when the step [x] is applied to the
    active variables of the curve: coefficient [a] is component [a mod D] of
    variable [a / D]. *)
Definition displacement (lay : list nat) (D : nat) (dvs : list dvref) (x : nat -> R) (a : nat) : R :=
  match nth_error dvs (a / D) with
  | Some d => if is_active d then x (place lay d + a mod D) else 0%R
  | None => 0%R
  end.

(** The active variables have blocks of the layout, of dimension [D]. *)
Definition placed (lay : list nat) (D : nat) (dvs : list dvref) : Prop :=
  forall d, In d dvs -> is_active d = true ->
    (0 <= block d < Z.of_nat (length lay))%Z /\ mindim d = D /\ size_of lay (Z.to_nat (block d)) = D.
(** Active variables stand in the system in the order of the curve. *)
Definition in_order (dvs : list dvref) : Prop :=
  forall i j di dj, i < j -> nth_error dvs i = Some di -> nth_error dvs j = Some dj ->
    is_active di = true -> is_active dj = true -> (block di < block dj)%Z.
