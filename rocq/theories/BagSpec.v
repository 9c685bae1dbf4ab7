(** * The messages of a time span, in time order *)
From Coq Require Import ZArith List Arith Bool Permutation Sorted.
From Verif Require Import BagModel.
Import ListNotations.
Local Open Scope Z_scope.

(** One message before another: earlier, or as early and stored before. *)
Definition earlier (bag : list Z) (i j : nat) : Prop :=
  stamp bag i < stamp bag j \/ (stamp bag i = stamp bag j /\ (i < j)%nat).

(** [start] is the first time in the bag. *)
Definition first_time (bag : list Z) (start : Z) : Prop :=
  In start bag /\ forall t, In t bag -> start <= t.

Definition in_span (start from to t : Z) : Prop := start + from <= t <= start + to.

(** Stored in the order of time. *)
Definition in_order (bag : list Z) : Prop :=
  forall i j, (i < j)%nat -> (j < length bag)%nat -> stamp bag i <= stamp bag j.
