(** * Model of the optimizer's expression trees

    Models aslam_optimizer/aslam_backend_expressions/src: the nodes of rotation,
    Euclidean, transformation, homogeneous, scalar and matrix expressions, and
    the design variables at their leaves, over the reals.

    - Design variables are named by their class and a number; the state of all
      of them is an [env].  The Mapped* variants differ only in where the
      numbers live and are not repeated; DesignVariableVector<3> behind
      VectorExpression2EuclideanExpressionAdapter and DesignVariableVector<1>
      behind ScalarExpressionNodeFromVectorExpression are EuclideanPoint and
      Scalar leaves (all add the increment and pass the chain rule on).
    - A chain-rule matrix is the function from the row number to the row.
    - The output container is the list of the calls of JacobianContainer::add,
      in order, each with its design variable and the added matrix as a function
      from the row number to the row.  That a container returns the sum of what
      was added is property C26.
    - The nodes that are products or inverses keep the operand values of their
      last evaluation and use them for the Jacobian.  [tc] is the state at the
      last evaluation, [th] the current state.  (Nodes that evaluate an operand
      while computing Jacobians refresh the values kept below it; when [tc] and
      [th] differ the model ignores this.)
    - Matrix inverses computed by Eigen are the parameters [inv3], [inv4]. *)
From Coq Require Import Reals List Arith Bool.
From Verif Require Import KinModel RotModel TfModel BpModel.
Import ListNotations.
Local Open Scope R_scope.

(** ** Rows of chain-rule matrices *)

(** A row of nine: the coefficients of the three columns of a 3x3 matrix. *)
Record v9 := V9 { g0 : v3; g1 : v3; g2 : v3 }.
Definition v3_list (v : v3) : list R := [x0 v; x1 v; x2 v].
Definition v3_at (v : v3) (k : nat) : R := nth k (v3_list v) 0.
Definition v9_at (v : v9) (k : nat) : R := nth k (v3_list (g0 v) ++ v3_list (g1 v) ++ v3_list (g2 v)) 0.

(** The matrices 3x3, 3x6, 4x3, 6x3 .. of the code, by rows. *)
Definition zero6 : v6 := V6 v3_zero v3_zero.
Definition rows3 (A : m3) (r : nat) : v3 :=
  match r with 0 => m3_row0 A | 1 => m3_row1 A | 2 => m3_row2 A | _ => v3_zero end%nat.
(** [ A B ] *)
Definition rows36 (A B : m3) (r : nat) : v6 := V6 (rows3 A r) (rows3 B r).
(** [ A; B ] *)
Definition rows63 (A B : m3) (r : nat) : v3 := if (r <? 3)%nat then rows3 A r else rows3 B (r - 3).
Definition rows66 (A : m6) (r : nat) : v6 :=
  if (r <? 3)%nat then rows36 (c00 A) (c01 A) r else rows36 (c10 A) (c11 A) (r - 3).
Definition rows34 (A : m34) (r : nat) : v4 :=
  match r with 0 => b0 A | 1 => b1 A | 2 => b2 A | _ => v4_zero end%nat.
Definition rows43 (A : m43) (r : nat) : v3 :=
  match r with 0 => a0 A | 1 => a1 A | 2 => a2 A | 3 => a3 A | _ => v3_zero end%nat.
Definition rows46 (A : m46) (r : nat) : v6 := V6 (rows43 (l43 A) r) (rows43 (r43' A) r).
Definition rows4 (A : m4) (r : nat) : v4 :=
  match r with 0 => r40 A | 1 => r41 A | 2 => r42 A | 3 => r43 A | _ => v4_zero end%nat.

(** Row vector times matrix. *)
Definition v6_scale (s : R) (v : v6) : v6 := V6 (v3_scale s (hd3 v)) (v3_scale s (tl3 v)).
Definition v9_zero := V9 v3_zero v3_zero v3_zero.
(** times [ A B ] *)
Definition row_m36 (v : v3) (A B : m3) : v6 := V6 (row_m3 v A) (row_m3 v B).
(** times [ A; B ] *)
Definition row_m63 (v : v6) (A B : m3) : v3 := v3_add (row_m3 (hd3 v) A) (row_m3 (tl3 v) B).
Definition row_m6 (v : v6) (A : m6) : v6 :=
  V6 (row_m63 v (c00 A) (c10 A)) (row_m63 v (c01 A) (c11 A)).
Definition row_m46 (v : v4) (A : m46) : v6 := V6 (row_m43 v (l43 A)) (row_m43 v (r43' A)).
(** [ p0 I, p1 I, p2 I ], EuclideanExpressionNode.cpp lines 122-123 *)
Definition row_m39 (v p : v3) : v9 := V9 (v3_scale (x0 p) v) (v3_scale (x1 p) v) (v3_scale (x2 p) v).
Definition v3_diag (p : v3) : m3 := M3 (x0 p) 0 0 0 (x1 p) 0 0 0 (x2 p).
(** Eigen::MatrixXd::Identity(4,3) *)
Definition I43 : m43 := M43 (V3 1 0 0) (V3 0 1 0) (V3 0 0 1) (V3 0 0 0).

(** ** Design variables *)

(** RotationQuaternion, EuclideanPoint, HomogeneousPoint, Scalar,
    EuclideanDirection, MatrixBasic *)
Inductive dvid := IQ (i : nat) | IP (i : nat) | IH (i : nat) | IS (i : nat) | ID (i : nat) | IM (i : nat).
Record env := Env {
  vq : nat -> v4;            (* RotationQuaternion::_q *)
  vp : nat -> v3;            (* EuclideanPoint::_p *)
  vh : nat -> v4;            (* HomogeneousPoint::_p *)
  vs : nat -> R;             (* Scalar::_p *)
  vd : nat -> R * m3;        (* EuclideanDirection::_magnitude and _C *)
  vm : nat -> m3;            (* MatrixBasic::_A *)
  vsel : nat -> list nat     (* MatrixBasic::_B: the row of the one in each column *)
}.
(** A step for every design variable. *)
Record steps := Steps {
  dq : nat -> v3; dp : nat -> v3; dh : nat -> v3; ds : nat -> R; dd : nat -> R * R; dm : nat -> list R }.
(** minimalDimensions() *)
Definition dim (th : env) (i : dvid) : nat :=
  match i with
  | IQ _ | IP _ | IH _ => 3 | IS _ => 1 | ID _ => 2 | IM k => length (vsel th k)
  end.
(** MatrixBasic.cpp lines 15-28: the pattern is read row by row; a coefficient is
    numbered column by column. *)
Definition matrix_basic_sel (pattern : nat -> nat -> bool) : list nat :=
  flat_map (fun row => flat_map (fun col => if pattern row col then [(col * 3 + row)%nat] else [])
    (seq 0 3)) (seq 0 3).
(** MatrixBasic.cpp line 43: coefficient [k] of _B * d. *)
Fixpoint scatter (sel : list nat) (d : list R) (k : nat) : R :=
  match sel, d with
  | p :: sel, x :: d => (if (p =? k)%nat then x else 0) + scatter sel d k
  | _, _ => 0
  end.
(** MatrixBasic.cpp lines 40-46 *)
Definition matrix_update (A : m3) (sel : list nat) (d : list R) : m3 :=
  let v := scatter sel d in
  m3_add A (M3 (v 0) (v 3) (v 6) (v 1) (v 4) (v 7) (v 2) (v 5) (v 8))%nat.
(** EuclideanDirection.cpp lines 32-37 *)
Definition direction_update (C : m3) (d : R * R) : m3 := m3_mul C (m3_tr (ypr_C (V3 0 (fst d) (snd d)))).
(** EuclideanDirection.cpp lines 5-17; [None]: the assertion of line 8 throws. *)
Definition direction (v : v3) : option (R * m3) :=
  let mag := v3_norm v in
  if ltb 0 mag then
    let unit := v3_scale (/ mag) v in
    Some (mag, m3_tr (ypr_C (V3 0 (asin (- x0 unit)) (atan2 (x1 unit) (x2 unit)))))
  else None.
(** EuclideanDirection.cpp lines 54-57 *)
Definition direction_value (x : R * m3) : v3 := v3_scale (fst x) (m3_col2 (snd x)).
(** EuclideanDirection.cpp lines 60-67: the row times J *)
Definition direction_row (x : R * m3) (v : v3) : list R :=
  [v3_dot v (v3_scale (fst x) (v3_neg (m3_col0 (snd x)))); v3_dot v (v3_scale (fst x) (m3_col1 (snd x)))].

(** update() of every design variable: RotationQuaternion.cpp lines 27-34,
    EuclideanPoint.cpp lines 24-33, HomogeneousPoint.cpp lines 27-33, Scalar.cpp
    lines 24-29 and the functions above. *)
Definition update (th : env) (d : steps) : env :=
  Env (fun i => updateQuat (vq th i) (dq d i)) (fun i => v3_add (vp th i) (dp d i))
      (fun i => updateQuat (vh th i) (dh d i)) (fun i => vs th i + ds d i)
      (fun i => (fst (vd th i), direction_update (snd (vd th i)) (dd d i)))
      (fun i => matrix_update (vm th i) (vsel th i) (dm d i)) (vsel th).

(** ** Expression trees *)
Inductive mexp :=
| MDv (i : nat).                         (* MatrixBasic *)
Inductive sexp :=
| SDv (i : nat)                          (* Scalar *)
| SConst (s : R) | SMul (l r : sexp) | SDiv (l r : sexp) | SAdd (l r : sexp) (c : R).
Inductive rexp :=
| RDv (i : nat)                          (* RotationQuaternion *)
| RMul (l r : rexp) | RInv (r : rexp) | RTf (t : texp)
with eexp :=
| EDv (i : nat)                          (* EuclideanPoint *)
| EDir (i : nat)                         (* EuclideanDirection *)
| EConst (p : v3)
| EMul (l : rexp) (r : eexp) | EMat (l : mexp) (r : eexp) | ECross (l r : eexp)
| EAdd (l r : eexp) | ESub (l r : eexp) | ESubV (l : eexp) (p : v3) | ENeg (e : eexp)
| EScale (p : eexp) (s : sexp) | ETrans (t : texp) | EPar (K : rotk) (r : rexp)
| EHom (h : hexp) | EElem (l r : eexp)
with texp :=
| TBasic (r : rexp) (t : eexp)           (* TransformationBasic *)
| TMul (l r : texp) | TInv (t : texp) | TConst (T : m4)
with hexp :=
| HDv (i : nat)                          (* HomogeneousPoint *)
| HConst (p : v4) | HMul (l : texp) (r : hexp) | HEuc (e : eexp).

Scheme rexp_mut := Induction for rexp Sort Prop
with eexp_mut := Induction for eexp Sort Prop
with texp_mut := Induction for texp Sort Prop
with hexp_mut := Induction for hexp Sort Prop.
Combined Scheme exp_mut from rexp_mut, eexp_mut, texp_mut, hexp_mut.

Section Inverses.
Variable inv3 : m3 -> m3.
Variable inv4 : m4 -> m4.

(** *** Values
    RotationQuaternion.cpp 41-44 ([_C] is the matrix of [_q]; see C71 for [set]),
    RotationExpressionNode.cpp 41-46, 78-82, 111-113;
    EuclideanExpressionNode.cpp 68-74, 112-118, 159-162, 199-202, 239-242, 271-274,
    302-305, 334-337, 367-370, 426-428, 460-462, 491-493, 532-535;
    TransformationBasic.cpp 19-26, TransformationExpressionNode.cpp 54-59, 86-90,
    112; HomogeneousExpressionNode.cpp 63-69, 97, 113-115; ScalarExpressionNode.cpp
    57-60, 97-100, 140-143; MatrixBasic.cpp 54-57. *)
Fixpoint value_s (th : env) (e : sexp) : R :=
  match e with
  | SDv i => vs th i
  | SConst s => s
  | SMul l r => value_s th l * value_s th r
  | SDiv l r => value_s th l / value_s th r
  | SAdd l r c => value_s th l + c * value_s th r
  end.
Definition value_m (th : env) (e : mexp) : m3 :=
  match e with MDv i => vm th i end.
Fixpoint value_r (th : env) (e : rexp) : m3 :=
  match e with
  | RDv i => quat2r (vq th i)
  | RMul l r => m3_mul (value_r th l) (value_r th r)
  | RInv r => m3_tr (value_r th r)
  | RTf t => topLeft (value_t th t)
  end
with value_e (th : env) (e : eexp) : v3 :=
  match e with
  | EDv i => vp th i
  | EDir i => direction_value (vd th i)
  | EConst p => p
  | EMul l r => m3_vec (value_r th l) (value_e th r)
  | EMat l r => m3_vec (value_m th l) (value_e th r)
  | ECross l r => m3_vec (crossMx (value_e th l)) (value_e th r)
  | EAdd l r => v3_add (value_e th l) (value_e th r)
  | ESub l r => v3_sub (value_e th l) (value_e th r)
  | ESubV l p => v3_sub (value_e th l) p
  | ENeg e => v3_neg (value_e th e)
  | EScale p s => v3_scale (value_s th s) (value_e th p)
  | ETrans t => topRight (value_t th t)
  | EPar K r => kP K (value_r th r)
  | EHom h => fst (fromHomogeneous (value_h th h))
  | EElem l r => m3_vec (v3_diag (value_e th l)) (value_e th r)
  end
with value_t (th : env) (e : texp) : m4 :=
  match e with
  | TBasic r t => rt (value_r th r) (value_e th t)
  | TMul l r => m4_mul (value_t th l) (value_t th r)
  | TInv t => inv4 (value_t th t)
  | TConst T => T
  end
with value_h (th : env) (e : hexp) : v4 :=
  match e with
  | HDv i => vh th i
  | HConst p => p
  | HMul l r => m4_vec (value_t th l) (value_h th r)
  | HEuc e => let p := value_e th e in V4 (x0 p) (x1 p) (x2 p) 1
  end.


(** *** Jacobians with a chain rule *)

(** One call of JacobianContainer::add. *)
Definition added : Type := dvid * (nat -> list R).

(** RotationQuaternion.cpp 51-54; RotationExpressionNode.cpp 54-58, 89-92, 121-125;
    EuclideanPoint.cpp 48-51, EuclideanDirection.cpp 70-77,
    EuclideanExpressionNode.cpp 82-86, 128-134, 170-174, 210-214, 250-254, 280-282,
    312-315, 344-347, 378-382, 437-442, 471-476, 502-507, 543-547;
    TransformationBasic.cpp 48-67, TransformationExpressionNode.cpp 68-73, 98-101,
    114; HomogeneousPoint.cpp 51-54, HomogeneousExpressionNode.cpp 77-81, 99,
    121-123; Scalar.cpp 53-56, ScalarExpressionNode.cpp 71-78, 111-118, 153-157;
    MatrixBasic.cpp 69-76. *)
Fixpoint jac_s (th : env) (e : sexp) (M : nat -> R) : list added :=
  match e with
  | SDv i => [(IS i, fun r => [M r])]
  | SConst _ => []
  | SMul l r => jac_s th l (fun k => M k * value_s th r) ++ jac_s th r (fun k => M k * value_s th l)
  | SDiv l r =>
      jac_s th l (fun k => M k * (1 / value_s th r)) ++
      jac_s th r (fun k => M k * (- value_s th l / (value_s th r * value_s th r)))
  | SAdd l r c => jac_s th l M ++ jac_s th r (fun k => M k * c)
  end.
Definition jac_m (th : env) (e : mexp) (M : nat -> v9) : list added :=
  match e with
  | MDv i => match vsel th i with
             | [] => []
             | sel => [(IM i, fun r => map (v9_at (M r)) sel)]
             end
  end.
Fixpoint jac_r (tc th : env) (e : rexp) (M : nat -> v3) : list added :=
  match e with
  | RDv i => [(IQ i, fun r => v3_list (M r))]
  | RMul l r => jac_r tc th r (fun k => row_m3 (M k) (value_r tc l)) ++ jac_r tc th l M
  | RInv r => jac_r tc th r (fun k => row_m3 (v3_neg (M k)) (m3_tr (value_r tc r)))
  | RTf t => jac_t tc th t (fun k => row_m36 (M k) m3_zero m3_I)
  end
with jac_e (tc th : env) (e : eexp) (M : nat -> v3) : list added :=
  match e with
  | EDv i => [(IP i, fun r => v3_list (M r))]
  | EDir i => [(ID i, fun r => direction_row (vd th i) (M r))]
  | EConst _ => []
  | EMul l r =>
      let C := value_r tc l in let p := value_e tc r in
      jac_r tc th l (fun k => row_m3 (M k) (crossMx (m3_vec C p))) ++ jac_e tc th r (fun k => row_m3 (M k) C)
  | EMat l r =>
      let A := value_m tc l in let p := value_e tc r in
      jac_m th l (fun k => row_m39 (M k) p) ++ jac_e tc th r (fun k => row_m3 (M k) A)
  | ECross l r =>
      jac_e tc th l (fun k => row_m3 (v3_neg (M k)) (crossMx (value_e th r))) ++
      jac_e tc th r (fun k => row_m3 (M k) (crossMx (value_e th l)))
  | EAdd l r => jac_e tc th l M ++ jac_e tc th r M
  | ESub l r => jac_e tc th l M ++ jac_e tc th r (fun k => v3_neg (M k))
  | ESubV l _ => jac_e tc th l M
  | ENeg e => jac_e tc th e (fun k => v3_neg (M k))
  | EScale p s =>
      jac_e tc th p (fun k => v3_scale (value_s th s) (M k)) ++
      jac_s th s (fun k => v3_dot (M k) (value_e th p))
  | ETrans t => jac_t tc th t (fun k => row_m36 (M k) m3_I (crossMx (topRight (value_t th t))))
  | EPar K r => jac_r tc th r (fun k => row_m3 (M k) (inv3 (kS K (kP K (value_r th r)))))
  | EHom h => jac_h tc th h (fun k => row_m34 (M k) (snd (fromHomogeneous (value_h th h))))
  | EElem l r =>
      jac_e tc th l (fun k => row_m3 (M k) (v3_diag (value_e th r))) ++
      jac_e tc th r (fun k => row_m3 (M k) (v3_diag (value_e th l)))
  end
with jac_t (tc th : env) (e : texp) (M : nat -> v6) : list added :=
  match e with
  | TBasic r t =>
      let p := value_e th t in
      jac_r tc th r (fun k => row_m63 (M k) (m3_neg (crossMx p)) m3_I) ++
      jac_e tc th t (fun k => row_m63 (M k) m3_I m3_zero)
  | TMul l r => jac_t tc th r (fun k => row_m6 (M k) (boxTimes (value_t tc l))) ++ jac_t tc th l M
  | TInv t => jac_t tc th t (fun k => row_m6 (M k) (m6_neg (boxTimes (inv4 (value_t tc t)))))
  | TConst _ => []
  end
with jac_h (tc th : env) (e : hexp) (M : nat -> v4) : list added :=
  match e with
  | HDv i => [(IH i, fun r => v3_list (row_m43 (M r) (quatInvS (vh th i))))]
  | HConst _ => []
  | HMul l r =>
      let T := value_t tc l in let p := value_h tc r in
      jac_t tc th l (fun k => row_m46 (M k) (boxMinus (m4_vec T p))) ++ jac_h tc th r (fun k => row_m4 (M k) T)
  | HEuc e => jac_e tc th e (fun k => row_m43 (M k) I43)
  end.


(** *** Jacobians without a chain rule
    RotationQuaternion.cpp 46-49; RotationExpressionNode.cpp 48-52, 84-87, 115-119;
    EuclideanPoint.cpp 43-46, EuclideanDirection.cpp 60-67,
    EuclideanExpressionNode.cpp 76-80, 120-126, 164-168, 204-208, 244-248, 276-278,
    307-310, 339-342, 372-376, 430-435, 464-469, 495-500, 537-541;
    TransformationBasic.cpp 28-47, TransformationExpressionNode.cpp 61-66, 92-96,
    113; HomogeneousPoint.cpp 46-49, HomogeneousExpressionNode.cpp 71-75, 98,
    117-119; Scalar.cpp 48-51, ScalarExpressionNode.cpp 62-69, 102-109, 145-151;
    MatrixBasic.cpp 60-66. *)
Fixpoint jac0_r (tc th : env) (e : rexp) : list added :=
  match e with
  | RDv i => [(IQ i, fun r => v3_list (rows3 m3_I r))]
  | RMul l r => jac_r tc th r (rows3 (value_r tc l)) ++ jac0_r tc th l
  | RInv r => jac_r tc th r (fun k => v3_neg (rows3 (m3_tr (value_r tc r)) k))
  | RTf t => jac_t tc th t (rows36 m3_zero m3_I)
  end.
Fixpoint jac0_e (tc th : env) (e : eexp) : list added :=
  match e with
  | EDv i => [(IP i, fun r => v3_list (rows3 m3_I r))]
  | EDir i => [(ID i, fun r => direction_row (vd th i) (rows3 m3_I r))]
  | EConst _ => []
  | EMul l r =>
      let C := value_r tc l in let p := value_e tc r in
      jac_r tc th l (rows3 (crossMx (m3_vec C p))) ++ jac_e tc th r (rows3 C)
  | EMat l r =>
      let A := value_m tc l in let p := value_e tc r in
      jac_m th l (fun k => row_m39 (rows3 m3_I k) p) ++ jac_e tc th r (rows3 A)
  | ECross l r =>
      jac_e tc th l (fun k => v3_neg (rows3 (crossMx (value_e th r)) k)) ++
      jac_e tc th r (rows3 (crossMx (value_e th l)))
  | EAdd l r => jac0_e tc th l ++ jac0_e tc th r
  | ESub l r => jac0_e tc th l ++ jac_e tc th r (fun k => v3_neg (rows3 m3_I k))
  | ESubV l _ => jac0_e tc th l
  | ENeg e => jac_e tc th e (fun k => v3_neg (rows3 m3_I k))
  | EScale p s =>
      jac_e tc th p (rows3 (m3_scale (value_s th s) m3_I)) ++ jac_s th s (v3_at (value_e th p))
  | ETrans t => jac_t tc th t (rows36 m3_I (crossMx (topRight (value_t th t))))
  | EPar K r => jac_r tc th r (rows3 (inv3 (kS K (kP K (value_r th r)))))
  | EHom h => jac_h tc th h (rows34 (snd (fromHomogeneous (value_h th h))))
  | EElem l r => jac_e tc th l (rows3 (v3_diag (value_e th r))) ++ jac_e tc th r (rows3 (v3_diag (value_e th l)))
  end.
Fixpoint jac0_t (tc th : env) (e : texp) : list added :=
  match e with
  | TBasic r t =>
      let p := value_e th t in
      jac_r tc th r (rows63 (m3_neg (crossMx p)) m3_I) ++ jac_e tc th t (rows63 m3_I m3_zero)
  | TMul l r => jac_t tc th r (rows66 (boxTimes (value_t tc l))) ++ jac0_t tc th l
  | TInv t => jac_t tc th t (rows66 (m6_neg (boxTimes (inv4 (value_t tc t)))))
  | TConst _ => []
  end.
Definition jac0_h (tc th : env) (e : hexp) : list added :=
  match e with
  | HDv i => [(IH i, fun r => v3_list (rows43 (quatInvS (vh th i)) r))]
  | HConst _ => []
  | HMul l r =>
      let T := value_t tc l in let p := value_h tc r in
      jac_t tc th l (rows46 (boxMinus (m4_vec T p))) ++ jac_h tc th r (rows4 T)
  | HEuc e => jac_e tc th e (rows43 I43)
  end.
Fixpoint jac0_s (th : env) (e : sexp) : list added :=
  match e with
  | SDv i => [(IS i, fun r => match r with O => [1] | _ => [0] end)]
  | SConst _ => []
  | SMul l r =>
      jac_s th l (fun k => match k with O => value_s th r | _ => 0 end) ++
      jac_s th r (fun k => match k with O => value_s th l | _ => 0 end)
  | SDiv l r =>
      jac_s th l (fun k => match k with O => 1 / value_s th r | _ => 0 end) ++
      jac_s th r (fun k => match k with O => - value_s th l / (value_s th r * value_s th r) | _ => 0 end)
  | SAdd l r c => jac0_s th l ++ jac_s th r (fun k => match k with O => c | _ => 0 end)
  end.
Definition jac0_m (th : env) (e : mexp) : list added :=
  match e with
  | MDv i => match vsel th i with [] => [] | _ => [(IM i, fun r => v3_list (rows3 m3_I r))] end
  end.

(** *** getDesignVariables, as the list of the insertions; lines as above, and
    MatrixBasic.cpp 83-89. *)
Fixpoint dvs_s (e : sexp) : list dvid :=
  match e with
  | SDv i => [IS i]
  | SConst _ => []
  | SMul l r | SDiv l r | SAdd l r _ => dvs_s l ++ dvs_s r
  end.
Definition dvs_m (th : env) (e : mexp) : list dvid :=
  match e with MDv i => match vsel th i with [] => [] | _ => [IM i] end end.
Fixpoint dvs_r (th : env) (e : rexp) : list dvid :=
  match e with
  | RDv i => [IQ i]
  | RMul l r => dvs_r th l ++ dvs_r th r
  | RInv r => dvs_r th r
  | RTf t => dvs_t th t
  end
with dvs_e (th : env) (e : eexp) : list dvid :=
  match e with
  | EDv i => [IP i]
  | EDir i => [ID i]
  | EConst _ => []
  | EMul l r => dvs_r th l ++ dvs_e th r
  | EMat l r => dvs_m th l ++ dvs_e th r
  | ECross l r | EAdd l r | ESub l r | EElem l r => dvs_e th l ++ dvs_e th r
  | ESubV e _ | ENeg e => dvs_e th e
  | EScale p s => dvs_e th p ++ dvs_s s
  | ETrans t => dvs_t th t
  | EPar _ r => dvs_r th r
  | EHom h => dvs_h th h
  end
with dvs_t (th : env) (e : texp) : list dvid :=
  match e with
  | TBasic r t => dvs_r th r ++ dvs_e th t
  | TMul l r => dvs_t th l ++ dvs_t th r
  | TInv t => dvs_t th t
  | TConst _ => []
  end
with dvs_h (th : env) (e : hexp) : list dvid :=
  match e with
  | HDv i => [IH i]
  | HConst _ => []
  | HMul l r => dvs_t th l ++ dvs_h th r
  | HEuc e => dvs_e th e
  end.


(** ** Error terms *)

(** ErrorTermEuclidean.cpp lines 50-58 and 62-65 (of the file) *)
Definition error_e (th : env) (e : eexp) (prior : v3) : v3 := v3_sub (value_e th e) prior.
(** ErrorTermTransformation.cpp lines 42-49; the prior is a sm::kinematics::Transformation *)
Definition error_t (th : env) (e : texp) (prior : tf) : v6 :=
  let E := m4_mul (value_t th e) (tf_T (tf_inverse prior)) in V6 (topRight E) (R2AxisAngle (topLeft E)).
(** lines 66-81; [None]: see rv_invS *)
Definition error_t_jac (tc th : env) (e : texp) (prior : tf) : option (list added) :=
  let E := m4_mul (value_t tc e) (tf_T (tf_inverse prior)) in
  match rv_invS (R2AxisAngle (topLeft E)) with
  | Some Si => Some (jac_t tc th e (rows66 (M6 m3_I (crossMx (topRight E)) m3_zero Si)))
  | None => None
  end.
End Inverses.

(** ** Vector2RotationQuaternionExpressionAdapter.cpp lines 11-35: the rotation of
    a quaternion-valued vector expression, and the matrix its Jacobian is chained
    with. *)
Definition quat_adapter_value (q : v4) : m3 := quat2r q.
Definition quat_adapter_matrix (q : v4) : m34 :=
  let P := quatOPlus (quatInv (v4_scale 2 q)) in M34 (r40 P) (r41 P) (r42 P).
