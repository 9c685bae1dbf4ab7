(** Vocabulary for the optimiser properties, over the log of loop passes
    ([event]s: where the pass began, what it tried, what it cost, whether it was
    kept). *)
From Coq Require Import ZArith List Bool.
From Verif Require Import Arith OptModel.
Import ListNotations.
Set Implicit Arguments.

Section Spec.
Variable A : Arith.
Variable V : Type.
Notation num := (num A).
Notation event := (event A V).

(** The linear solver delivered a step. *)
Definition solved (e : event) : bool :=
  match ev_step e with Some _ => true | None => false end.

(** A step was tried and undone. *)
Definition rejected (e : event) : bool := solved e && negb (ev_kept e).

(** A step was tried and kept. *)
Definition accepted (e : event) : bool := solved e && ev_kept e.

Fixpoint count (p : event -> bool) (l : list event) : Z :=
  match l with
  | [] => 0
  | e :: r => (if p e then 1 else 0) + count p r
  end.

(** Cost of the last accepted step of [l], or [J0] if there is none. *)
Fixpoint kept_cost (J0 : num) (l : list event) : num :=
  match l with
  | [] => J0
  | e :: r => kept_cost (if accepted e then ev_cost e else J0) r
  end.

(** Values of the last accepted step of [l], or [x0] if there is none. *)
Fixpoint kept_values (x0 : list V) (l : list event) : list V :=
  match l with
  | [] => x0
  | e :: r => kept_values (if accepted e then ev_tried e else x0) r
  end.

(** Variables without degrees of freedom are never updated, so their undo value
    must be their value. *)
Definition settled (ds : list (dvar A V)) : Prop :=
  Forall (fun d => active d = true -> dim d = 0%nat -> old d = cur d) ds.

(** A numerical solve of pass [e] works on the Jacobian and on the residual at
    the values the pass starts from. *)
Definition fresh (e : event) (q : query A V) : Prop :=
  q_jac q = ev_at e /\ q_res q = ev_at e.

(** Every gain ratio computed right after an accepted step was positive. *)
Definition positive_gains (l : list event) : Prop :=
  forall l1 e0 e l2 g, l = l1 ++ e0 :: e :: l2 ->
    accepted e0 = true -> ev_gain e = Some g -> le A g (of_Z A 0) = false.

(** States the loop of optimize() passes through. *)
Inductive reached (w : World A V) (k : solver_kind) (o : options A)
    (p : policy A) (n : nat) (ds : list (dvar A V)) : ost A V -> Prop :=
| Reached_start s : start w k o p n ds = Base.Ok s -> reached w k o p n ds s
| Reached_pass s s' : reached w k o p n ds s -> continues o s = true ->
    pass w k s = Base.Ok s' -> reached w k o p n ds s'.

(** The active variables before position [i], and their columns. *)
Definition actives_before (ds : list (dvar A V)) (i : nat) : list (dvar A V) :=
  filter (@active A V) (firstn i ds).
Definition columns (ds : list (dvar A V)) : nat :=
  fold_right (fun d n => (dim d + n)%nat) 0%nat ds.

End Spec.
