(** * What a detection means *)
From Coq Require Import Reals List Arith ZArith Bool.
From Verif Require Import TagModel TdModel.
Import ListNotations.
Local Open Scope R_scope.

(** The corners of a tag in its own coordinates, in order. *)
Definition corner (i : nat) : point := match i with 0%nat => (-1, -1) | 1%nat => (1, -1) | 2%nat => (1, 1) | _ => (-1, 1) end.
(** The same quadrilateral, started at another corner. *)
Definition started (k : nat) (q : nat -> point) (i : nat) : point := q ((i + k) mod 4)%nat.
(** A homography, relative to a centre, that takes the corners to the given points. *)
Definition takes (H : matrix) (c : point) (q : nat -> point) : Prop :=
  forall i, (i < 4)%nat ->
    let z := H 2%nat 0%nat * fst (corner i) + H 2%nat 1%nat * snd (corner i) + H 2%nat 2%nat in
    z <> 0 /\
    (H 0%nat 0%nat * fst (corner i) + H 0%nat 1%nat * snd (corner i) + H 0%nat 2%nat) / z + fst c = fst (q i) /\
    (H 1%nat 0%nat * fst (corner i) + H 1%nat 1%nat * snd (corner i) + H 1%nat 2%nat) / z + snd c = snd (q i).
Definition distinct (q : nat -> point) : Prop := forall i j, (i < 4)%nat -> (j < 4)%nat -> q i = q j -> i = j.

(** Two detections of one tag: same number and overlapping. *)
Definition same_tag (a b : detection) : Prop := t_id a = t_id b /\ overlaps a b = true.
(** [a] is at least as good as [b]: fewer wrong cells, or as many and no
    smaller perimeter. *)
Definition no_worse (a b : detection) : Prop := (t_ham a < t_ham b)%Z \/ (t_ham a = t_ham b /\ t_per b <= t_per a).
(** Overlapping is an equivalence on the given detections. *)
Definition clustered (l : list detection) : Prop :=
  (forall a, In a l -> same_tag a a) /\
  (forall a b c, In a l -> In b l -> In c l -> same_tag a b -> same_tag b c -> same_tag a c).
