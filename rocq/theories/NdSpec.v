(** * What normal distributions and their estimators have to be *)
From Coquelicot Require Import Coquelicot.
From Coq Require Import Reals List.
From Verif Require Import NdModel.
Import ListNotations.
Local Open Scope R_scope.

(** The density with mean [m] and variance [v]. *)
Definition gauss (m v x : R) : R := / sqrt (2 * PI * v) * exp (- ((x - m) * (x - m) / (2 * v))).
(** The error function: zero at zero, with the bell curve as derivative. *)
Definition error_function (erf : R -> R) : Prop :=
  erf 0 = 0 /\ forall x, is_derive erf x (2 / sqrt PI * exp (- (x * x))).
(** A distribution of mean [m] and variance [v]: all members fit. *)
Definition represents (d : normal) (m v : R) : Prop :=
  mean d = m /\ variance d = v /\ 0 < v /\ precision d * v = 1 /\
  0 <= deviation d /\ deviation d * deviation d = v /\ exp (2 * normalizer d) = 2 * PI * v.

(** Sums over samples. *)
Fixpoint total {A} (f : A -> R) (l : list A) : R :=
  match l with [] => 0 | x :: l => f x + total f l end.
Definition average (xs : list R) : R := total (fun x => x) xs / INR (length xs).
Definition spread (xs : list R) : R :=
  total (fun x => (x - average xs) * (x - average xs)) xs / INR (length xs).
Definition two_different (xs : list R) : Prop := exists x y, In x xs /\ In y xs /\ x <> y.
(** Of pairs of a value and its weight. *)
Definition waverage (l : list (R * R)) : R := total (fun p => snd p * fst p) l / total snd l.
Definition wspread (l : list (R * R)) : R :=
  total (fun p => snd p * ((fst p - waverage l) * (fst p - waverage l))) l / total snd l.
(** Of vectors; the sum of the first numbers of a sequence. *)
Definition averages (xs : list (nat -> R)) (i : nat) : R := total (fun x => x i) xs / INR (length xs).
Definition covariances (xs : list (nat -> R)) (i j : nat) : R :=
  total (fun x => (x i - averages xs i) * (x j - averages xs j)) xs / INR (length xs).
Fixpoint sum_below (n : nat) (f : nat -> R) : R :=
  match n with O => 0 | S n => sum_below n f + f n end.
