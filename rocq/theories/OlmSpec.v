(** * What the first optimizer relies on *)
From Coq Require Import Reals List.
From Verif Require Import Base OlmModel.
Local Open Scope R_scope.

(** The linear model always predicts a decrease. *)
Definition predicts {X} (solve : nat -> X -> R -> option (X * R * R)) : Prop :=
  forall i x l x' dx p, solve i x l = Some (x', dx, p) -> 0 < p.
(** The linear solver does not fail. *)
Definition never_fails {X} (solve : nat -> X -> R -> option (X * R * R)) : Prop := forall i x l, solve i x l <> None.
(** Positive damping parameters. *)
Definition positive (o : options) : Prop := 0 < lambda_init o /\ 0 < gamma o /\ 0 < beta o /\ 0 < mu_init o.
