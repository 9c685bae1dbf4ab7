(** * What the motion error terms of a curve have to be *)
From Coq Require Import Reals List Arith.
From Verif Require Import Base BsplModel BsplSpec SplModel SplSpec.
Import ListNotations.
Local Open Scope R_scope.

(** Symmetric, with a quadratic form that is never negative. *)
Definition psd (n : nat) (M : nat -> nat -> R) : Prop :=
  (forall i j, (i < n)%nat -> (j < n)%nat -> M i j = M j i) /\
  forall x, 0 <= total n (fun i => total n (fun j => M i j * (x i * x j))).
(** The columns of [U] are of unit length and perpendicular. *)
Definition orthonormal (n : nat) (U : nat -> nat -> R) : Prop :=
  forall i j, (i < n)%nat -> (j < n)%nat -> total n (fun k => U k i * U k j) = if (i =? j)%nat then 1 else 0.
(** [U] and [s] belong to a singular value decomposition U S V^T of [M]. *)
Definition decomposes (n : nat) (M U : nat -> nat -> R) (s : nat -> R) : Prop :=
  orthonormal n U /\ (forall i, (i < n)%nat -> 0 <= s i) /\
  exists V, orthonormal n V /\ forall i j, (i < n)%nat -> (j < n)%nat -> M i j = total n (fun k => U i k * (s k * V j k)).

(** Histories in which the curve keeps its segments. *)
Definition value_op (o : op) : Prop := match o with Update _ _ | Revert _ | SetParameters _ _ => True | _ => False end.
(** The value a variable had before its last change. *)
Definition previous (sv : splvar) (i r : nat) : R :=
  match nth_error (vars sv) i with Some v => mprev v r | None => 0 end.
