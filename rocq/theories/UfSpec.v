(** * What disjoint sets mean *)
From Coq Require Import List Arith Bool Relations.
From Verif Require Import UfModel.
Import ListNotations.
Local Open Scope nat_scope.

(** Two ids are connected when a chain of connect calls links them. *)
Definition linked (cs : list call) (a b : nat) : Prop := In (Connect a b) cs.
Definition connected (cs : list call) : nat -> nat -> Prop := clos_refl_sym_trans nat (linked cs).
Definition inside (n : nat) (c : call) : Prop :=
  match c with Find i => i < n | Size i => i < n | Connect a b => a < n /\ b < n end.
(** A duplicate free list of exactly the ids below [n] connected with [i]. *)
Definition class_of (cs : list call) (n i : nat) (l : list nat) : Prop :=
  NoDup l /\ forall j, In j l <-> j < n /\ connected cs i j.
