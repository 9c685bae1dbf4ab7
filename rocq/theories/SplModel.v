(** * Model of spline design variables and of the expressions made from them

    Models aslam_nonparametric_estimation/aslam_splines:
    include/aslam_splines/implementation/BSplineDesignVariable.hpp,
    src/BSplinePoseDesignVariable.cpp, src/EuclideanBSplineDesignVariable.cpp,
    src/BSplineExpressions.cpp, include/aslam_splines/implementation/
    BSplineExpressions.hpp, and aslam_optimizer/aslam_backend_expressions/
    include/aslam_backend_expressions/implementation/
    DesignVariableMappedVector.hpp.  Conventions of BsplModel and BpModel.

    - A design variable object is known by a number [mid]: the pointers kept by
      expressions are such numbers.  The memory a variable maps is the column
      [mcol] of the coefficients of the curve.
    - An expression that uses a deleted variable is [UB].
    - A Jacobian container receives a list of pairs (variable, columns of the
      block).  Adding up the blocks of one variable is the container's work
      (C26). *)
From Coq Require Import Reals List Arith ZArith Bool.
From Verif Require Import Base KinModel RotModel TfModel BsplModel BshModel BpModel.
Import ListNotations.
Local Open Scope R_scope.

(** DesignVariableMappedVector: _v and _p_v *)
Record mapped := Mapped { mid : nat; mcol : nat; mprev : vec }.
(** _bspline (or _bsplinePose) and _designVariables; [fresh] is the number of
    the next object allocated *)
Record splvar := Spl { cv : bspline; vars : list mapped; fresh : nat }.

(** Column [i] of the coefficients, and the curve with that column replaced. *)
Definition col (b : bspline) (i : nat) : vec := fun r => coef b r i.
Definition put_col (b : bspline) (i : nat) (v : vec) : bspline :=
  BSp (order b) (knots b) (dim b) (ncols b) (fun r c => if (c =? i)%nat then v r else coef b r c) (bases b).

(** BSplineDesignVariable.hpp lines 7-18, BSplinePoseDesignVariable.cpp 9-19 *)
Definition create (b : bspline) : splvar :=
  Spl b (map (fun i => Mapped i i (col b i)) (seq 0 (ncols b))) (ncols b).

(** lines 39-44 (37-41): the variable with index i *)
Definition design_variable (sv : splvar) (i : nat) : outcome nat :=
  match nth_error (vars sv) i with Some v => Ok (mid v) | None => Throw end.

(** The object behind a pointer. *)
Definition object (sv : splvar) (id : nat) : outcome mapped :=
  match find (fun v => (mid v =? id)%nat) (vars sv) with Some v => Ok v | None => UB end.
Definition with_prev (sv : splvar) (id : nat) (p : vec) : list mapped :=
  map (fun v => if (mid v =? id)%nat then Mapped (mid v) (mcol v) p else v) (vars sv).

(** ** DesignVariableMappedVector.hpp *)

(** lines 24-28, 101-105 *)
Definition value_of (sv : splvar) (id : nat) : outcome vec :=
  do v <- object sv id; Ok (col (cv sv) (mcol v)).
(** lines 55-64 *)
Definition update (sv : splvar) (id : nat) (dp : vec) : outcome splvar :=
  do v <- object sv id;
  let x := col (cv sv) (mcol v) in
  Ok (Spl (put_col (cv sv) (mcol v) (fun r => x r + dp r)) (with_prev sv id x) (fresh sv)).
(** lines 48-53 *)
Definition revert (sv : splvar) (id : nat) : outcome splvar :=
  do v <- object sv id;
  Ok (Spl (put_col (cv sv) (mcol v) (mprev v)) (vars sv) (fresh sv)).
(** lines 107-112 *)
Definition set_parameters (sv : splvar) (id : nat) (x : vec) : outcome splvar :=
  do v <- object sv id;
  Ok (Spl (put_col (cv sv) (mcol v) x) (with_prev sv id (col (cv sv) (mcol v))) (fresh sv)).
(** lines 114-119: the difference is taken from the previous value; [n] is
    xHat.rows() *)
Definition minimal_difference (sv : splvar) (id n : nat) (xh : vec) : outcome vec :=
  do v <- object sv id;
  if (n =? dim (cv sv))%nat then Ok (fun r => mprev v r - xh r) else Throw.
(** lines 121-126: the Jacobian is the identity *)
Definition minimal_difference_J (sv : splvar) (id n : nat) (xh : vec) : outcome (vec * mat) :=
  do d <- minimal_difference sv id n xh;
  Ok (d, fun r c => if (r =? c)%nat then 1 else 0).

(** ** Adding and removing segments *)

(** updateMap (DesignVariableMappedVector.hpp lines 37-46) on the variables
    with index i, i + 1, ..., i + n - 1; ptr_vector::operator[] out of range *)
Fixpoint remap (b : bspline) (i n : nat) (vs : list mapped) : outcome (list mapped) :=
  match n, vs with
  | 0%nat, _ => Ok vs
  | S m, v :: r => do r' <- remap b (S i) m r; Ok (Mapped (mid v) i (col b i) :: r')
  | S _, [] => UB
  end.
(** BSplineDesignVariable.hpp lines 75-84; [b'] is the extended curve *)
Definition added (sv : splvar) (b' : bspline) : outcome splvar :=
  do last <- isub (ncols b') 1;
  do vs <- remap b' 0 last (vars sv ++ [Mapped (fresh sv) last (col b' last)]);
  Ok (Spl b' vs (S (fresh sv))).
Definition add_seg (solve : nat -> mat -> vec -> vec) (junk : vec) (sv : splvar) (t : R) (n : nat) (p : vec) : outcome splvar :=
  do b' <- add_segment solve junk (cv sv) t n p; added sv b'.
(** BSplinePoseDesignVariable.cpp lines 179-187 *)
Definition add_pose_seg (solve : nat -> mat -> vec -> vec) (junk : vec) (K : rotk) (sv : splvar) (t : R) (T : m4) : outcome splvar :=
  do b' <- add_pose_segment solve junk K (cv sv) t T; added sv b'.
(** BSplineDesignVariable.hpp lines 98-107, BSplinePoseDesignVariable.cpp
    201-209; erase on an empty vector *)
Definition remove_seg (sv : splvar) : outcome splvar :=
  let b' := remove_segment (cv sv) in
  match vars sv with
  | [] => UB
  | _ :: r => do vs <- remap b' 0 (ncols b') r; Ok (Spl b' vs (fresh sv))
  end.

(** ** Expression nodes *)

(** _designVariables[idx[0]], _designVariables[idx[1]], ... *)
Fixpoint pick (vs : list mapped) (idx : list nat) : outcome (list nat) :=
  match idx with
  | [] => Ok []
  | i :: r => match nth_error vs i with
              | None => UB
              | Some v => do ids <- pick vs r; Ok (mid v :: ids)
              end
  end.
(** getDesignVariables (lines 61-72 of BSplineDesignVariable.hpp, 48-58 of
    BSplinePoseDesignVariable.cpp) *)
Definition variables_at (sv : splvar) (t : R) : outcome (list nat) :=
  do idx <- local_vv_indices (cv sv) t; pick (vars sv) idx.
(** _designVariables and _time of a node.  All the factories (transformation,
    orientation, position, ... , toExpression, toEuclideanExpression) choose
    the variables in this way. *)
Record node := Node { ntime : R; nvars : list nat }.
Definition make_node (sv : splvar) (t : R) : outcome node :=
  do ids <- variables_at sv t; Ok (Node t ids).
(** getDesignVariablesImplementation of every node *)
Definition node_variables (n : node) : list nat := nvars n.

Definition alive (sv : splvar) (id : nat) : bool := existsb (fun v => (mid v =? id)%nat) (vars sv).

(** The loop [outJacobians.add(_designVariables[i], J.block<rows,w>(0,i*w))]
    with J of [cols] columns. *)
Definition blocks {A} (w : nat) (J : nat -> A) (ids : list nat) : list (nat * (nat -> A)) :=
  map (fun p => (snd p, fun j => J (fst p * w + j)%nat)) (combine (seq 0 (length ids)) ids).
Definition add_blocks {A} (sv : splvar) (w cols : nat) (J : nat -> A) (ids : list nat) : outcome (list (nat * (nat -> A))) :=
  if forallb (alive sv) ids && (length ids * w <=? cols)%nat then Ok (blocks w J ids) else UB.
Definition pose_blocks {A} (sv : splvar) (n : node) (J : nat -> A) :=
  add_blocks sv 6 (order (cv sv) * 6) J (nvars n).

(** applyChainRule * block, one column at a time: the matrix has [rows] of
    length 6 or 3 *)
Definition chain6 (A : nat -> v6) (x : v6) : vec := fun r => v3_dot (hd3 (A r)) (hd3 x) + v3_dot (tl3 (A r)) (tl3 x).
Definition chain3 (A : nat -> v3) (x : v3) : vec := fun r => v3_dot (A r) x.
Definition chained {A} (f : A -> vec) (es : list (nat * (nat -> A))) : list (nat * (nat -> vec)) :=
  map (fun e => (fst e, fun j => f (snd e j))) es.

(** BSplineTransformationExpressionNode, BSplineExpressions.cpp lines 18-46 *)
Definition transformation_node (K : rotk) (sv : splvar) (n : node) : outcome m4 := transformation K (cv sv) (ntime n).
Definition transformation_node_J (K : rotk) (sv : splvar) (n : node) : outcome (list (nat * (nat -> v6))) :=
  do '(_, J, _) <- transformation_J K (cv sv) (ntime n); pose_blocks sv n J.
Definition transformation_node_chain (K : rotk) (sv : splvar) (n : node) (A : nat -> v6) : outcome (list (nat * (nat -> vec))) :=
  do es <- transformation_node_J K sv n; Ok (chained (chain6 A) es).
(** BSplineRotationExpressionNode, lines 73-107 *)
Definition rotation_node (K : rotk) (sv : splvar) (n : node) : outcome m3 := orientation K (cv sv) (ntime n).
Definition rotation_node_J (K : rotk) (sv : splvar) (n : node) : outcome (list (nat * (nat -> v3))) :=
  do '(_, J, _) <- orientation_J K (cv sv) (ntime n); pose_blocks sv n J.
(** Position, velocity and acceleration nodes, lines 131-165, 191-224 and
    251-284: the derivative of order [d] = 0, 1, 2 *)
Definition linear_node (d : Z) (sv : splvar) (n : node) : outcome v3 :=
  do c <- eval_D (cv sv) (ntime n) d; Ok (head3 c).
Definition linear_node_J (d : Z) (sv : splvar) (n : node) : outcome (list (nat * (nat -> v3))) :=
  do '(_, J, _) <- eval_D_and_jacobian (cv sv) (ntime n) d; pose_blocks sv n (fun m => hd3 (column J m)).
(** BSplineAccelerationBodyFrameExpressionNode, lines 307-337: the Jacobian is
    the one of the acceleration in the world frame *)
Definition acceleration_body_node (K : rotk) (sv : splvar) (n : node) : outcome v3 :=
  linear_acceleration_body K (cv sv) (ntime n).
Definition acceleration_body_node_J (K : rotk) (sv : splvar) (n : node) : outcome (list (nat * (nat -> v3))) :=
  linear_node_J 2 sv n.
(** BSplineAngularVelocityBodyFrameExpressionNode, lines 359-392, and
    BSplineAngularAccelerationBodyFrameExpressionNode, 621-653; [d] = 1, 2.
    None: the Jacobian of the rotation parameters is not defined there. *)
Definition angular_node (d : Z) (K : rotk) (sv : splvar) (n : node) : outcome v3 :=
  angular_rate_body d K (cv sv) (ntime n).
Definition angular_node_J (d : Z) (K : rotk) (sv : splvar) (n : node) : outcome (option (list (nat * (nat -> v3)))) :=
  do '(_, J, _) <- angular_rate_body_J d K (cv sv) (ntime n);
  match J with
  | None => Ok None
  | Some J => do es <- pose_blocks sv n J; Ok (Some es)
  end.
(** The chain-rule variant of every node with three rows *)
Definition three_chain (A : nat -> v3) (es : list (nat * (nat -> v3))) : list (nat * (nat -> vec)) := chained (chain3 A) es.
(** BSplineVectorExpressionNode<D>, implementation/BSplineExpressions.hpp lines
    18-51, and BSplineEuclideanExpressionNode, BSplineExpressions.cpp 572-599:
    columns of D entries *)
Definition vector_node (d : Z) (sv : splvar) (n : node) : outcome vec := eval_D (cv sv) (ntime n) d.
Definition vector_node_J (d : Z) (sv : splvar) (n : node) : outcome (list (nat * (nat -> vec))) :=
  do '(_, J, _) <- eval_D_and_jacobian (cv sv) (ntime n) d;
  add_blocks sv (dim (cv sv)) (order (cv sv) * dim (cv sv)) (fun m r => J r m) (nvars n).
Definition vector_node_chain (d : Z) (sv : splvar) (n : node) (A : mat) : outcome (list (nat * (nat -> vec))) :=
  do es <- vector_node_J d sv n;
  Ok (chained (fun x r => bsum (dim (cv sv)) (fun i => A r i * x i)) es).
