(** What an optimization problem is: a list of distinct design variables and a
    list of error terms. *)
From Coq Require Import ZArith List Bool.
From Verif Require Import ProbModel.
Import ListNotations.
Open Scope Z_scope.

Definition state : Type := list Z * list Z.

(** Take one occurrence out, the first. *)
Inductive taken (x : Z) : list Z -> list Z -> Prop :=
| taken_none : forall l, ~ In x l -> taken x l l
| taken_one : forall a b, ~ In x a -> taken x (a ++ x :: b) (a ++ b).

(** [does uses debug s o s' raised]: the effect an operation should have. *)
Inductive does (uses : Z -> list Z) : state -> op -> state -> bool -> Prop :=
| does_add_dv : forall ds ts d, ~ In d ds -> does uses (ds, ts) (AddDv d) (ds ++ [d], ts) false
| does_add_again : forall ds ts d, In d ds -> does uses (ds, ts) (AddDv d) (ds, ts) true
| does_add_term : forall ds ts t, does uses (ds, ts) (AddTerm t) (ds, ts ++ [t]) false
| does_remove_term : forall ds ts ts' t, taken t ts ts' ->
    does uses (ds, ts) (RemoveTerm t) (ds, ts') false
| does_remove_dv : forall ds ds' ts d, taken d ds ds' ->
    does uses (ds, ts) (RemoveDv d)
      (ds', filter (fun t => negb (existsb (Z.eqb d) (uses t))) ts) false
| does_clear : forall s, does uses s Clear ([], []) false.

Inductive history (uses : Z -> list Z) : state -> list op -> state -> list bool -> Prop :=
| history_nil : forall s, history uses s [] s []
| history_cons : forall s o s1 f os s2 fs,
    does uses s o s1 f -> history uses s1 os s2 fs -> history uses s (o :: os) s2 (f :: fs).

(** Calls within the contract: a term passed to removeErrorTerm is alive; in a
    debug build an added term has its design variables in the problem; a term
    does not name a design variable twice unless somebody else keeps it
    alive. *)
Definition allowed (uses : Z -> list Z) (kept : Z -> bool) (debug : bool) (s : state) (o : op) : Prop :=
  match o with
  | AddTerm t => (kept t = true \/ NoDup (uses t)) /\
                 (debug = true -> forall d, In d (uses t) -> In d (fst s))
  | RemoveTerm t => kept t = true \/ In t (snd s)
  | _ => True
  end.

Inductive allowed_history uses kept debug : state -> list op -> Prop :=
| allowed_nil : forall s, allowed_history uses kept debug s []
| allowed_cons : forall s o os, allowed uses kept debug s o ->
    (forall s' f, does uses s o s' f -> allowed_history uses kept debug s' os) ->
    allowed_history uses kept debug s (o :: os).
