(** * What setting up and moving should do *)
From Coq Require Import Reals List Arith Bool.
From Verif Require Import OinModel.
Import ListNotations.

(** Positions of the variables that are optimized directly and of those that
    are eliminated, in the problem's order. *)
Definition wanted (f : dvar -> bool) (p : list dvar) (i : nat) : bool :=
  match nth_error p i with Some v => f v | None => false end.
Definition positions (f : dvar -> bool) (p : list dvar) : list nat :=
  filter (wanted f p) (seq 0 (length p)).
Definition is_gone (schur : bool) (v : dvar) : bool := active v && (marginalized v && schur).
Definition is_kept (schur : bool) (v : dvar) : bool := active v && negb (marginalized v && schur).

(** The pieces of a vector that belong to variables, in order. *)
Definition pieces (p : list dvar) (l : list nat) (dx : list R) (ps : list (list R)) : Prop :=
  concat ps = dx /\ Forall2 (fun i s => length s = dim_of p i) l ps.

(** Each variable with entries is moved once, by its scaled piece. *)
Definition scaled (p : list dvar) (e : nat * list R) : nat * list R :=
  (fst e, map (fun x => (scaling_of p (fst e) * x)%R) (snd e)).
Definition has_entries (e : nat * list R) : bool := match snd e with [] => false | _ => true end.

(** [m] is the largest absolute value among the moves. *)
Definition largest (m : R) (moves : list (nat * list R)) : Prop :=
  (forall i s x, In (i, s) moves -> In x s -> (Rabs x <= m)%R) /\
  exists i s x, In (i, s) moves /\ In x s /\ Rabs x = m.
