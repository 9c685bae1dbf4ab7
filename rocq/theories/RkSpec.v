(** * What a linear solve may leave allocated *)
From Coq Require Import ZArith List Bool.
From Verif Require Import Base RkModel.
Import ListNotations.
Local Open Scope Z_scope.

(** The system has columns on both sides of the split. *)
Definition split (cols j : Z) : Prop := 0 < j < cols.
(** What a call leaves behind: nothing, or one of two matrices. *)
Definition left_behind (rows j : Z) (status : bool) (l : list obj) : Prop :=
  l = [] \/ status = false /\ (l = [A_rtQFull] /\ rows <= j \/ l = [A_rtQ] /\ j < rows).
Definition sizes (p : op) : option (Z * Z) :=
  match p with
  | SolveSystem rows _ j _ _ => Some (rows, j)
  | AnalyzeMarginal rows _ j _ => Some (rows, j)
  | Clear => None
  end.
