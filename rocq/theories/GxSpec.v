(** * What gamma distributions have to be *)
From Coquelicot Require Import Coquelicot.
From Coq Require Import Reals.
From Verif Require Import Base GxModel.
Local Open Scope R_scope.

(** The gamma density on the positive numbers. *)
Definition gamma_density (lgamma : R -> R) (k b x : R) : R :=
  Rpower b k * Rpower x (k - 1) * exp (- (b * x)) / exp (lgamma k).
(** The integral of [f] from 0 to infinity is [v]: close to it from below some lower end
    and above some upper end on. *)
Definition integral (f : R -> R) (v : R) : Prop :=
  forall eps, 0 < eps -> exists a0 c0, 0 < a0 < c0 /\
    forall a c, 0 < a < a0 -> c0 < c -> exists i, is_RInt f a c i /\ Rabs (i - v) < eps.
(** The logarithm of the ratio of two densities is linear in ln x and x, so its expectation
    under the first follows from theirs. *)
Definition log_ratio (lgamma : R -> R) (k b k' b' elog ex : R) : R :=
  (k - k') * elog - (b - b') * ex - (lgamma k - k * ln b) + (lgamma k' - k' * ln b').
