(** * What uniform distributions and samples have to be *)
From Coquelicot Require Import Coquelicot.
From Coq Require Import Reals List ZArith.
From Verif Require Import Base RzModel.
Import ListNotations.
Local Open Scope R_scope.

(** The sum of [f] over [n] integers from [lo] on. *)
Fixpoint sum_from (f : Z -> R) (lo : Z) (n : nat) : R :=
  match n with O => 0 | S n => sum_from f lo n + f (lo + Z.of_nat n)%Z end.
(** Numbers random() can return. *)
Definition drawn (r : Z) : Prop := (0 <= r <= rmax)%Z.
(** The probability of the categories before [i]. *)
Fixpoint before (i : nat) (ps : list R) : R :=
  match i, ps with S i, p :: ps => p + before i ps | _, _ => 0 end.
(** The product of the first [n] fractions drawn. *)
Fixpoint product (n : nat) (draws : list Z) : R :=
  match n, draws with
  | S n, r :: draws => IZR r / IZR rmax * product n draws
  | _, _ => 1
  end.
(** The density of independent numbers, each uniform between its bounds. *)
Fixpoint independent (b : box) (x : list R) : R :=
  match b, x with
  | (lo, hi) :: b, y :: x =>
      (if Rle_dec lo y then (if Rle_dec y hi then / (hi - lo) else 0) else 0) * independent b x
  | _, _ => 1
  end.
(** A number drawn as a coordinate between -1 and 1, and pairs as points of the unit disc
    without its centre. *)
Definition side (r : Z) : R := 2 * (IZR r / IZR rmax) - 1.
Definition in_disc (p : Z * Z) : Prop :=
  0 < side (fst p) * side (fst p) + side (snd p) * side (snd p) < 1.
Definition paired (ps : list (Z * Z)) : list Z := flat_map (fun p => [fst p; snd p]) ps.
