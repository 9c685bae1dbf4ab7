(** * Expressions of generic scalars

    /repo/aslam_optimizer/aslam_backend_expressions/include/aslam_backend_expressions/
    GenericScalar.hpp, GenericScalarExpressionNode.hpp, implementation/GenericScalar.hpp,
    implementation/GenericScalarExpression.hpp.

    Simplifications: the scalar type is the real numbers (no rounding, so the cast
    between scalar types is the identity); the container is the list of the blocks
    added to it, in order; a node made from a vector expression is left out (it hands
    a pointer where a matrix is wanted and cannot be instantiated). *)
From Coq Require Import Reals List Arith.
Import ListNotations.
Local Open Scope R_scope.

(** The nodes (implementation/GenericScalarExpression.hpp 61-210); a design variable
    is named by a number. *)
Inductive gse :=
  | Gvar (i : nat) | Gconst (c : R) | Gcast (a : gse) | Gneg (a : gse)
  | Gmul (a b : gse) | Gdiv (a b : gse) | Gadd (a b : gse) | Gsub (a b : gse).

(** The values of the design variables. *)
Definition env := nat -> R.

(** toScalar: implementation/GenericScalar.hpp 29-31 and GenericScalarExpression.hpp
    70-72, 92, 107-109, 129-131, 151-153, 175-177, 199-201. *)
Fixpoint value (th : env) (e : gse) : R :=
  match e with
  | Gvar i => th i
  | Gconst c => c
  | Gcast a => value th a
  | Gneg a => - value th a
  | Gmul a b => value th a * value th b
  | Gdiv a b => value th a / value th b
  | Gadd a b => value th a + value th b
  | Gsub a b => value th a - value th b
  end.

(** The matrix applied on the left, one column, or the null pointer. *)
Definition chain := option (list R).
(** [*applyChainRule * X] with X one by one, or X itself. *)
Definition times (ch : chain) (x : R) : list R :=
  match ch with Some c => map (fun y => y * x) c | None => [x] end.

(** evaluateJacobians: implementation/GenericScalar.hpp 33-41 and
    GenericScalarExpression.hpp 74-80, 93, 111-117, 133-139, 155-163, 179-187, 203-209. *)
Fixpoint jacobians (th : env) (e : gse) (ch : chain) : list (nat * list R) :=
  match e with
  | Gvar i => [(i, match ch with Some c => c | None => [1] end)]
  | Gconst _ => []
  | Gcast a => jacobians th a (Some (match ch with Some c => c | None => [1] end))
  | Gneg a => jacobians th a (Some (match ch with Some c => map Ropp c | None => [-1] end))
  | Gmul a b =>
      let L := value th a in
      let R := value th b in
      jacobians th a (Some (times ch R)) ++ jacobians th b (Some (times ch L))
  | Gdiv a b =>
      let L := 1 / value th b in
      let R := - value th a / (value th b * value th b) in
      jacobians th a (Some (times ch R)) ++ jacobians th b (Some (times ch L))
  | Gadd a b => jacobians th a ch ++ jacobians th b ch
  | Gsub a b =>
      jacobians th a ch ++
      jacobians th b (Some (match ch with Some c => map Ropp c | None => [-1] end))
  end.

(** getDesignVariables (the set, as a list): GenericScalar.hpp 43-45,
    GenericScalarExpression.hpp 35-37, 50-53, 94. *)
Fixpoint variables (e : gse) : list nat :=
  match e with
  | Gvar i => [i]
  | Gconst _ => []
  | Gcast a | Gneg a => variables a
  | Gmul a b | Gdiv a b | Gadd a b | Gsub a b => variables a ++ variables b
  end.

(** The design variable: the value and the value before the last step
    (implementation/GenericScalar.hpp 9-27, 51-77). *)
Record gscalar := Gs { p : R; p_p : R }.
Definition construct (x : R) : gscalar := Gs x x.
Definition update (v : gscalar) (dp : R) : gscalar := Gs (p v + dp) (p v).
Definition revert (v : gscalar) : gscalar := Gs (p_p v) (p_p v).
Definition setParameters (v : gscalar) (x : R) : gscalar := Gs x (p v).
Definition minimalDifference (v : gscalar) (xHat : R) : R := p v - xHat.
