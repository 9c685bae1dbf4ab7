(** Schedules of threads. *)
From Coq Require Import ZArith List Bool.
Import ListNotations.
Open Scope nat_scope.

(** [sched] runs each thread's program in its own order, interleaved in any
    way: the steps of thread [t] are exactly program [t]. *)
Definition interleaves {X} (progs : list (list X)) (sched : list (nat * X)) : Prop :=
  forall t, map snd (filter (fun p => Nat.eqb (fst p) t) sched) = nth t progs [].
