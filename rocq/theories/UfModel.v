(** * Model of the disjoint sets of the tag detector

    Models /repo/aslam_offline_calibration/aslam_apriltag2/src/UnionFindSimple.cc
    and include/aslam_apriltag2/UnionFindSimple.h.  The vector of parents and
    sizes is a list; an access outside it is undefined.  Simplifications: ids
    are natural numbers (a negative id is outside the vector as well); the
    recursion of getRepresentative is given as many levels as there are ids plus
    one, and one that would need more is reported as not terminating; sizes are
    unbounded (C78 shows that they never exceed the number of ids, an int). *)
From Coq Require Import List Arith Bool.
From Verif Require Import Base.
Import ListNotations.
Local Open Scope nat_scope.

Record node := Node { n_parent : nat; n_size : nat }.
Definition sets := list node.

Definition at_node (s : sets) (i : nat) : outcome node := match nth_error s i with Some x => Ok x | None => UB end.
Fixpoint put (i : nat) (x : node) (s : sets) : sets :=
  match s, i with
  | [], _ => []
  | _ :: r, O => x :: r
  | y :: r, S j => y :: put j x r
  end.
Definition set_parent (i p : nat) (s : sets) : sets := match nth_error s i with Some x => put i (Node p (n_size x)) s | None => s end.
Definition set_size (i z : nat) (s : sets) : sets := match nth_error s i with Some x => put i (Node (n_parent x) z) s | None => s end.

(** UnionFindSimple.h lines 18-20, UnionFindSimple.cc lines 46-52 *)
Definition make (n : nat) : sets := map (fun i => Node i 1) (seq 0 n).

(** UnionFindSimple.cc lines 6-18 *)
Fixpoint representative (fuel : nat) (s : sets) (i : nat) : outcome (nat * sets) :=
  match fuel with
  | O => Hang
  | S f =>
      do x <- at_node s i;
      if n_parent x =? i then Ok (i, s)
      else do '(root, s') <- representative f s (n_parent x);
           Ok (root, set_parent i root s')
  end.
Definition get_representative (s : sets) (i : nat) : outcome (nat * sets) := representative (S (length s)) s i.

(** UnionFindSimple.h line 22 *)
Definition get_set_size (s : sets) (i : nat) : outcome (nat * sets) :=
  do '(r, s') <- get_representative s i;
  do x <- at_node s' r;
  Ok (n_size x, s').

(** UnionFindSimple.cc lines 25-44 *)
Definition connect_nodes (s : sets) (a b : nat) : outcome (nat * sets) :=
  do '(ra, s1) <- get_representative s a;
  do '(rb, s2) <- get_representative s1 b;
  if ra =? rb then Ok (ra, s2)
  else
    do xa <- at_node s2 ra;
    do xb <- at_node s2 rb;
    let asz := n_size xa in let bsz := n_size xb in
    if bsz <? asz
    then Ok (ra, set_size ra (asz + bsz) (set_parent rb ra s2))
    else Ok (rb, set_size rb (bsz + asz) (set_parent ra rb s2)).

(** A sequence of calls *)
Inductive call := Find (i : nat) | Size (i : nat) | Connect (a b : nat).
Definition perform (s : sets) (c : call) : outcome (nat * sets) :=
  match c with
  | Find i => get_representative s i
  | Size i => get_set_size s i
  | Connect a b => connect_nodes s a b
  end.
Fixpoint perform_all (s : sets) (cs : list call) : outcome sets :=
  match cs with
  | [] => Ok s
  | c :: r => do '(_, s') <- perform s c; perform_all s' r
  end.
