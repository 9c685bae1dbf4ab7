(** When a batch should be kept, and histories of an estimator. *)
From Coq Require Import ZArith List Arith Bool.
From Coq Require Import Floats.SpecFloat.
From Verif Require Import Base BatchModel IncModel IncSpec EstModel.
Import ListNotations.
Open Scope nat_scope.

(** The documented criterion; [SFltb a b] is a < b and [SFleb a b] is a <= b of doubles. *)
Definition solution_valid (o : opts) (r : report) : Prop :=
  check_validity o = true -> iterations r <> max_iterations o /\ SFleb (j_start r) (j_final r) = false.
Definition informative (o : opts) (st : stats) (r : report) : Prop :=
  SFltb (delta o) (SFmul 53 1024 fhalf (SFsub 53 1024 (r_log2sum r) (log2sum st))) = true \/ (rank st < r_rank r)%Z.
Definition should_keep (o : opts) (force : bool) (st : stats) (r : report) : Prop :=
  force = true \/ (informative o st r /\ solution_valid o r).

(** Histories of an estimator for group m, whose batches were all accepted by the
    incremental problem's add(). *)
Section Spec.
Variable uses : nat -> list nat.
Variable m : nat.
Definition is_eadd (o : eop) : bool := match o with EAdd _ _ (Some _) _ => true | _ => false end.
Inductive reachable_est : est -> Prop :=
| rest_start w : reachable_est (empty_est w)
| rest_add e o f id b a : reachable_est e -> built uses b -> fits b (prob e) ->
    reachable_est (fst (fst (estep m e (EAdd o f (Some (id, b)) a))))
| rest_other e o : reachable_est e -> is_eadd o = false -> reachable_est (fst (fst (estep m e o))).
End Spec.

(** Two incremental problems that no query can tell apart. *)
Definition same_problem (s s' : inc) : Prop :=
  probs s = probs s' /\ counts s = counts s' /\ igroups s = igroups s' /\ iorder s = iorder s'.
