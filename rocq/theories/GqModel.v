(** * Expressions of matrices and quaternions

    /repo/aslam_optimizer/aslam_backend_expressions/include/aslam_backend_expressions/
    Differential.hpp, GenericMatrixExpression.hpp, GenericMatrixExpressionNode.hpp,
    QuaternionExpression.hpp, VectorExpressionNode.hpp, DesignVariableGenericVector.hpp,
    DesignVariableUnitQuaternion.hpp and implementation/GenericMatrixExpression.hpp,
    implementation/QuaternionExpression.hpp, implementation/VectorExpressionNode.hpp.

    Simplifications: the scalars are the real numbers; a matrix is a function of row and
    column whose size is known from the types (the size needed by a sum is kept in the
    node); the container is the list of the blocks added to it.  Left out: the logarithm
    of unit quaternions, constants of run-time size, the null differential. *)
From Coq Require Import Reals List Arith Bool.
From Verif Require Import BsplModel KinModel.
Import ListNotations.
Local Open Scope R_scope.

Definition mat := nat -> nat -> R.
Definition mzero : mat := fun _ _ => 0.
Definition madd (A B : mat) : mat := fun r c => A r c + B r c.
Definition msub (A B : mat) : mat := fun r c => A r c - B r c.
Definition mneg (A : mat) : mat := fun r c => - A r c.
Definition mscale (A : mat) (s : R) : mat := fun r c => A r c * s.
Definition mtrans (A : mat) : mat := fun r c => A c r.
(** The product with [k] columns on the left and [k] rows on the right. *)
Definition mmul (k : nat) (A B : mat) : mat := fun r c => bsum k (fun j => A r j * B j c).
Definition midentity : mat := fun r c => if (r =? c)%nat then 1 else 0.
(** A column vector of [n] numbers. *)
Definition column (n : nat) (v : nat -> R) : mat :=
  fun r c => if (r <? n)%nat && (c =? 0)%nat then v r else 0.
(** getDomainBasisVectorByIndex for one column: Differential.hpp 19-22. *)
Definition basis (index : nat) : mat :=
  fun r c => if (r =? index)%nat && (c =? 0)%nat then 1 else 0.
(** Vectors of three numbers in a column, and back. *)
Definition col3 (A : mat) (c : nat) : v3 := V3 (A 0%nat c) (A 1%nat c) (A 2%nat c).
Definition v3_at (v : v3) (r : nat) : R :=
  match r with 0%nat => x0 v | 1%nat => x1 v | 2%nat => x2 v | _ => 0 end.
Definition of3 (v : v3) : mat := fun r c => if (c =? 0)%nat then v3_at v r else 0.

(** ** Quaternions: QuaternionExpression.hpp 19-45 and implementation/QuaternionExpression.hpp 18-169 *)
Record mode := Mode { real_first : bool; traditional : bool }.
Inductive geometry := LEFT_TRANSLATED | RIGHT_TRANSLATED.

(** The numbers of a quaternion by name, [V4 i j k r], read from and written to the
    places the mode gives them (18-29, 37-45; convertToOtherMode, 151-162). *)
Definition toq (m : mode) (A : mat) : v4 :=
  if real_first m then V4 (A 1%nat 0%nat) (A 2%nat 0%nat) (A 3%nat 0%nat) (A 0%nat 0%nat)
  else V4 (A 0%nat 0%nat) (A 1%nat 0%nat) (A 2%nat 0%nat) (A 3%nat 0%nat).
Definition ofq (m : mode) (q : v4) : mat :=
  fun r c =>
    if (c =? 0)%nat then
      if real_first m then
        match r with 0%nat => q3 q | 1%nat => q0 q | 2%nat => q1 q | 3%nat => q2 q | _ => 0 end
      else
        match r with 0%nat => q0 q | 1%nat => q1 q | 2%nat => q2 q | 3%nat => q3 q | _ => 0 end
    else 0.

(** quatMultTraditional: 51-63, 65-72 (pure left operand), 74-81 (pure right operand). *)
Definition multTraditional (a b : v4) : v4 :=
  V4 (q0 a * q3 b + q1 a * q2 b - q2 a * q1 b + q3 a * q0 b)
     (q2 a * q0 b - q0 a * q2 b + q1 a * q3 b + q3 a * q1 b)
     (q0 a * q1 b - q1 a * q0 b + q2 a * q3 b + q3 a * q2 b)
     (q3 a * q3 b - q1 a * q1 b - q2 a * q2 b - q0 a * q0 b).
Definition multTraditionalPureLeft (a : v3) (b : v4) : v4 :=
  V4 (x0 a * q3 b + x1 a * q2 b - x2 a * q1 b)
     (x2 a * q0 b - x0 a * q2 b + x1 a * q3 b)
     (x0 a * q1 b - x1 a * q0 b + x2 a * q3 b)
     (- x1 a * q1 b - x2 a * q2 b - x0 a * q0 b).
Definition multTraditionalPureRight (a : v4) (b : v3) : v4 :=
  V4 (q1 a * x2 b - q2 a * x1 b + q3 a * x0 b)
     (q2 a * x0 b - q0 a * x2 b + q3 a * x1 b)
     (q0 a * x1 b - q1 a * x0 b + q3 a * x2 b)
     (- q1 a * x1 b - q2 a * x2 b - q0 a * x0 b).
(** quatMult: 83-86. *)
Definition quatMult (m : mode) (a b : v4) : v4 :=
  if traditional m then multTraditional a b else multTraditional b a.
Definition quatMultPure (m : mode) (a : v4) (b : v3) : v4 :=
  if traditional m then multTraditionalPureRight a b else multTraditionalPureLeft b a.
(** conjugate, invert, getImagPart: 88-101. *)
Definition conjugate (q : v4) : v4 := V4 (- q0 q) (- q1 q) (- q2 q) (q3 q).
Definition invert (q : v4) : v4 :=
  let r := conjugate q in v4_scale (/ v4_dot r r) r.
Definition imag (q : v4) : v3 := V3 (q0 q) (q1 q) (q2 q).
(** exp, update: 117-129. *)
Definition qexp (v : v3) : v4 := axisAngle2quat (v3_scale 2 v).
Definition update (m : mode) (g : geometry) (p : v4) (v : v3) : v4 :=
  match g with
  | LEFT_TRANSLATED => quatMult m p (qexp v)
  | RIGHT_TRANSLATED => quatMult m (qexp v) p
  end.
(** Column [c] of a matrix with rows named i, j, k, r. *)
Definition unit3 (c : nat) : v3 :=
  V3 (if (c =? 0)%nat then 1 else 0) (if (c =? 1)%nat then 1 else 0) (if (c =? 2)%nat then 1 else 0).
Definition unit4th (c : nat) : v4 :=
  V4 (if (c =? 0)%nat then 1 else 0) (if (c =? 1)%nat then 1 else 0) (if (c =? 2)%nat then 1 else 0) 0.
(** dUpdate: 131-139. *)
Definition dUpdate (m : mode) (g : geometry) (p : v4) : mat :=
  let M := if negb (Bool.eqb (traditional m) (match g with RIGHT_TRANSLATED => true | _ => false end))
           then quatOPlus p else quatPlus p in
  fun r c => ofq m (m4_vec M (unit4th c)) r 0%nat.
(** dexp: 141-149 (the product kept by [auto] refers to a temporary; modelled as its
    value). *)
Definition dexp (m : mode) (v : v3) : mat :=
  let J := m43_scale 2 (quatExpJacobian (v3_scale 2 v)) in
  fun r c => ofq m (m43_vec J (unit3 c)) r 0%nat.

(** ** Differentials: Differential.hpp *)
Inductive differential :=
  | DIdentity                                          (* 64-92 *)
  | DMatrix (k : nat) (M : mat)                        (* 230-265, k columns *)
  | DMap (f : mat -> mat) (next : differential)        (* 165-228 and Diff of the nodes *)
  | DMatrixThen (k : nat) (M : mat) (next : differential). (* 267-306, k columns *)
(** applyInto: 77-79, 249-251, 210-212, 294-296. *)
Fixpoint applyInto (D : differential) (A : mat) (r : nat) : R :=
  match D with
  | DIdentity => A r 0%nat
  | DMatrix k M => mmul k M A r 0%nat
  | DMap f next => applyInto next (f A) r
  | DMatrixThen k M next => applyInto next (mmul k M A) r
  end.
(** applyBasisVectorInto: 72-75, 245-247, 206-208 with 202-204 and 298-300. *)
Definition applyBasisVectorInto (D : differential) (index r : nat) : R :=
  match D with
  | DIdentity => if (r =? index)%nat then 1 else 0
  | DMatrix k M => M r index
  | DMap f next => applyInto next (f (basis index)) r
  | DMatrixThen k M next => applyInto next (fun a c => if (c =? 0)%nat then M a index else 0) r
  end.
(** calcJacobianByApplication: 132-140. *)
Definition byApplication (D : differential) : mat := fun r c => applyBasisVectorInto D c r.
(** addToJacobianContainer without a further factor: 81-83, 253-255, 214-216. *)
Definition addBlock (D : differential) : mat :=
  match D with
  | DIdentity => midentity
  | DMatrix k M => M
  | DMap _ _ | DMatrixThen _ _ _ => byApplication D
  end.
(** addToJacobianContainer with the factor [J] of [n] columns: 85-87, 257-259, 218-220
    with compose, 128-130 and 290-292. *)
Definition addBlockWith (D : differential) (n : nat) (J : mat) : mat :=
  match D with
  | DIdentity => J
  | DMatrix k M => mmul k M J
  | DMap _ _ => byApplication (DMatrixThen n J D)
  | DMatrixThen k M next => byApplication (DMatrixThen n (mmul k M J) next)
  end.
(** convertIntoMatrix: 89-91, 261-264, 222-224, 302-305. *)
Definition convertIntoMatrix (D : differential) : mat :=
  match D with
  | DIdentity => midentity
  | DMatrix k M => M
  | DMap _ _ => byApplication D
  | DMatrixThen k M next => M
  end.

(** ** Expressions *)
(** The kinds of design variables: DesignVariableGenericVector.hpp and
    DesignVariableUnitQuaternion.hpp. *)
Inductive kind := Kvector (n : nat) | Kquaternion (m : mode) (g : geometry).
Definition size (k : kind) : nat := match k with Kvector n => n | Kquaternion _ _ => 4%nat end.
(** minimalDimensions *)
Definition minimal (k : kind) : nat := match k with Kvector n => n | Kquaternion _ _ => 3%nat end.
Definition env := nat -> nat -> R.
(** updateImplementation: DesignVariableGenericVector.hpp 40-44,
    DesignVariableUnitQuaternion.hpp 30-34; the update of the design variable [i]. *)
Definition stepped (k : kind) (x dp : nat -> R) : nat -> R :=
  match k with
  | Kvector n => fun r => x r + dp r
  | Kquaternion m g =>
      fun r => ofq m (update m g (toq m (column 4 x)) (V3 (dp 0%nat) (dp 1%nat) (dp 2%nat))) r 0%nat
  end.

(** The nodes.  Numbers [k], [n] are inner sizes, [lc], [rc] the columns of the operands.
    [Evector] is a design variable seen through a vector expression. *)
Inductive expr :=
  | Evar (i : nat) | Evector (i : nat) | Econst (A : mat) | Ecopy (a : expr)
  | Etrans (a : expr) | Einv (n : nat) (a : expr) | Emul (k : nat) (a b : expr)
  | Eadd (a b : expr) | Esub (a b : expr) | Eneg (a : expr) | Escale (a : expr) (s : R)
  | Ecross (lc rc : nat) (a b : expr)
  | Eqmul (m : mode) (a b : expr) | Eqinv (m : mode) (a : expr) | Eqconj (m : mode) (a : expr)
  | Eqimag (m : mode) (a : expr) | Eqrot (m : mode) (a b : expr) | Eqexp (m : mode) (a : expr).

(** calcCrossInto: implementation/GenericMatrixExpression.hpp 248-287. *)
Definition crossInto (lc rc : nat) (A B : mat) : mat :=
  fun r c => v3_at (v3_cross (col3 A (if (lc =? 1)%nat then 0%nat else c))
                             (col3 B (if (rc =? 1)%nat then 0%nat else c))) r.
(** rotate3Vector: implementation/QuaternionExpression.hpp 295-298. *)
Definition rotated (m : mode) (q : v4) (v : v3) : v3 :=
  imag (quatMult m (quatMultPure m q v) (conjugate q)).

Section Expressions.
(** The kinds of the design variables, and Eigen's inverse. *)
Variable K : nat -> kind.
Variable inverse : nat -> mat -> mat.

(** evaluate: the evaluateImplementation of each node (implementation/
    GenericMatrixExpression.hpp 66-68, 86-88, 109-111, 133-135, 159-161, 186-188, 211-213,
    234-236, 303-305; implementation/QuaternionExpression.hpp 189-191, 217-219, 237-239,
    260-262, 295-298, 343-345). *)
Fixpoint value (th : env) (e : expr) : mat :=
  match e with
  | Evar i | Evector i => column (size (K i)) (th i)
  | Econst A => A
  | Ecopy a => value th a
  | Etrans a => mtrans (value th a)
  | Einv n a => inverse n (value th a)
  | Emul k a b => mmul k (value th a) (value th b)
  | Eadd a b => madd (value th a) (value th b)
  | Esub a b => msub (value th a) (value th b)
  | Eneg a => mneg (value th a)
  | Escale a s => mscale (value th a) s
  | Ecross lc rc a b => crossInto lc rc (value th a) (value th b)
  | Eqmul m a b => ofq m (quatMult m (toq m (value th a)) (toq m (value th b)))
  | Eqinv m a => ofq m (invert (toq m (value th a)))
  | Eqconj m a => ofq m (conjugate (toq m (value th a)))
  | Eqimag m a => of3 (imag (toq m (value th a)))
  | Eqrot m a b => of3 (rotated m (toq m (value th a)) (col3 (value th b) 0))
  | Eqexp m a => ofq m (qexp (col3 (value th a) 0))
  end.

(** applyDiff, applyLhsDiff and applyRhsDiff of the nodes (implementation/
    GenericMatrixExpression.hpp 113-116, 137-142, 307-318; implementation/
    QuaternionExpression.hpp 182-187, 207-215, 233-235, 256-258, 285-293). *)
Definition invDiff (n : nat) (V T : mat) : mat := mmul n (mmul n (mneg V) T) V.
Definition qinvDiff (m : mode) (q v : v4) : v4 :=
  let c := conjugate q in
  let s := v4_dot c c in
  v4_scale (/ (s * s)) (v4_neg (quatMult m c (quatMult m v c))).
Definition qrotDiffL (m : mode) (q : v4) (v : v3) (t : v4) : v3 :=
  imag (v4_add (quatMult m (quatMultPure m q v) (conjugate t))
               (quatMult m (quatMultPure m t v) (conjugate q))).

(** evaluateJacobians: GenericMatrixExpression.hpp 144-146, 208-211,
    DesignVariableGenericVector.hpp 63-65, DesignVariableUnitQuaternion.hpp 41-45,
    implementation/VectorExpressionNode.hpp 39-44, implementation/QuaternionExpression.hpp
    338-341; a block is the design variable, its columns and its numbers. *)
Fixpoint jacobians (th : env) (e : expr) (D : differential) : list (nat * nat * mat) :=
  match e with
  | Evar i =>
      match K i with
      | Kvector n => [(i, n, addBlock D)]
      | Kquaternion m RIGHT_TRANSLATED =>
          [(i, 3%nat, addBlockWith D 3 (dUpdate m RIGHT_TRANSLATED (toq m (column 4 (th i)))))]
      | Kquaternion m LEFT_TRANSLATED => []
      end
  | Evector i => [(i, size (K i), convertIntoMatrix D)]
  | Econst _ => []
  | Ecopy a => jacobians th a (DMap (fun T => T) D)
  | Etrans a => jacobians th a (DMap mtrans D)
  | Einv n a => jacobians th a (DMap (invDiff n (inverse n (value th a))) D)
  | Emul k a b =>
      jacobians th a (DMap (fun T => mmul k T (value th b)) D) ++
      jacobians th b (DMap (fun T => mmul k (value th a) T) D)
  | Eadd a b => jacobians th a (DMap (fun T => T) D) ++ jacobians th b (DMap (fun T => T) D)
  | Esub a b => jacobians th a (DMap (fun T => T) D) ++ jacobians th b (DMap mneg D)
  | Eneg a => jacobians th a (DMap mneg D)
  | Escale a s => jacobians th a (DMap (fun T => mscale T s) D)
  | Ecross lc rc a b =>
      jacobians th a (DMap (fun T => crossInto lc rc T (value th b)) D) ++
      jacobians th b (DMap (fun T => crossInto lc rc (value th a) T) D)
  | Eqmul m a b =>
      jacobians th a (DMap (fun T => ofq m (quatMult m (toq m T) (toq m (value th b)))) D) ++
      jacobians th b (DMap (fun T => ofq m (quatMult m (toq m (value th a)) (toq m T))) D)
  | Eqinv m a => jacobians th a (DMap (fun T => ofq m (qinvDiff m (toq m (value th a)) (toq m T))) D)
  | Eqconj m a => jacobians th a (DMap (fun T => ofq m (conjugate (toq m T))) D)
  | Eqimag m a => jacobians th a (DMap (fun T => of3 (imag (toq m T))) D)
  | Eqrot m a b =>
      jacobians th a (DMap (fun T => of3 (qrotDiffL m (toq m (value th a)) (col3 (value th b) 0) (toq m T))) D) ++
      jacobians th b (DMap (fun T => of3 (rotated m (toq m (value th a)) (col3 T 0))) D)
  | Eqexp m a => jacobians th a (DMatrixThen 3 (dexp m (col3 (value th a) 0)) D)
  end.
End Expressions.
