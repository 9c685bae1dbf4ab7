(** Specification of [permute], independent of how it works. *)
From Coq Require Import List.
Import ListNotations.

(** [perm] lists every index below [n] exactly once. *)
Definition is_permutation_of_indices (n : nat) (perm : list nat) : Prop :=
  length perm = n /\ NoDup perm /\ Forall (fun k => k < n) perm.

(** [c'] holds, at every position [i], the element [c] had at position [perm[i]]. *)
Definition gathers {A} (c : list A) (perm : list nat) (c' : list A) : Prop :=
  length c' = length c /\
  forall i k, nth_error perm i = Some k -> nth_error c' i = nth_error c k.
