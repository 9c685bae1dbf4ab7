(** * What a dog-leg round is judged by *)
From Coq Require Import Reals List.
From Verif Require Import Base OdlModel.
Local Open Scope R_scope.

(** Cost and best cost of a round are the cost of its state. *)
Definition honest {X} (cost : X -> R) (s : round X) : Prop := j s = cost (at_x s) /\ best s = cost (at_x s).
(** Change of the quadratic model of one parameter, with gradient [-g] and curvature [h]. *)
Definition quadratic (h g s : R) : R := h * s * s / 2 - g * s.
