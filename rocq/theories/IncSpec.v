(** What an incremental problem should contain, in terms of the batches in it. *)
From Coq Require Import ZArith List Arith Bool.
From Verif Require Import Base BatchModel BatchSpec IncModel.
Import ListNotations.
Open Scope nat_scope.

Section Spec.
Variable uses : nat -> list nat.

(** A batch made by some history of calls. *)
Definition built (p : problem) : Prop := exists w0 h, p = fst (run uses w0 h).

(** Histories of the incremental problem in which no add() was rejected. *)
Definition is_add (o : iop) : bool := match o with IAdd _ => true | _ => false end.
Inductive reachable : list iop -> inc * world -> Prop :=
| reach_start w : reachable [] (empty_inc, w)
| reach_add h s id p : reachable h s -> built p -> snd (istep s (IAdd (Some (id, p)))) = Returned ->
    reachable (h ++ [IAdd (Some (id, p))]) (fst (istep s (IAdd (Some (id, p)))))
| reach_other h s o : reachable h s -> is_add o = false -> reachable (h ++ [o]) (fst (istep s o)).

(** The batches, as getOptimizationProblems() shows them. *)
Definition live (s : inc) : list problem := map snd (probs s).
(** How many of them use a variable. *)
Definition refcount (d : nat) (s : inc) : nat := length (filter (is_variable d) (live s)).

(** A batch that fits: its variables have the same groups as in the other batches, and
    its error terms are in no other batch. *)
Definition fits (p : problem) (s : inc) : Prop :=
  (forall b d g g', In b (live s) -> group_of d b = Ok g -> group_of d p = Ok g' -> g = g') /\
  (forall b e, In b (live s) -> is_term e b = true -> is_term e p = false).

(** The value a variable was last saved with, while it stayed in the problem. *)
Definition saved_step (s s' : inc * world) (o : iop) (sv : nat -> option Z) : nat -> option Z := fun d =>
  match o with
  | ISave => if ihas_variable d (fst s) then Some (snd s d) else sv d
  | _ => if ihas_variable d (fst s') then sv d else None
  end.
Inductive last_saved : list iop -> inc * world -> (nat -> option Z) -> Prop :=
| saved_start w : last_saved [] (empty_inc, w) (fun _ => None)
| saved_add h s sv id p : last_saved h s sv -> built p -> snd (istep s (IAdd (Some (id, p)))) = Returned ->
    last_saved (h ++ [IAdd (Some (id, p))]) (fst (istep s (IAdd (Some (id, p)))))
      (saved_step s (fst (istep s (IAdd (Some (id, p))))) (IAdd (Some (id, p))) sv)
| saved_other h s sv o : last_saved h s sv -> is_add o = false ->
    last_saved (h ++ [o]) (fst (istep s o)) (saved_step s (fst (istep s o)) o sv).
End Spec.
