(** * Model: design variables

    aslam_optimizer/aslam_backend_expressions/src/{RotationQuaternion,
    MappedRotationQuaternion,EuclideanPoint,MappedEuclideanPoint,
    HomogeneousPoint,MappedHomogeneousPoint,Scalar}.cpp,
    include/aslam_backend_expressions/{DesignVariableGenericVector.hpp,
    implementation/{DesignVariableVector,DesignVariableMappedVector,GenericScalar}.hpp}
    and aslam_backend/src/DesignVariable.cpp.

    Real arithmetic replaces floating point.  An [Eigen::MatrixXd] is its
    number of rows and columns with its coefficients column by column. *)

From Coq Require Import Reals List Bool Arith.
From Verif Require Import Base KinModel.
Import ListNotations.
Local Close Scope Z_scope.
Local Open Scope R_scope.

Record mx := Mx { mrows : nat; mcols : nat; mdata : list R }.
Definition column_vector (l : list R) : mx := Mx (length l) 1 l.
Definition is_column (n : nat) (m : mx) : bool := Nat.eqb (mrows m) n && Nat.eqb (mcols m) 1.

Definition v3_of (l : list R) : v3 := V3 (nth 0 l 0) (nth 1 l 0) (nth 2 l 0).
Definition v4_of (l : list R) : v4 := V4 (nth 0 l 0) (nth 1 l 0) (nth 2 l 0) (nth 3 l 0).
Definition v3_to (v : v3) : list R := [x0 v; x1 v; x2 v].
Definition v4_to (q : v4) : list R := [q0 q; q1 q; q2 q; q3 q].

(** What distinguishes the classes that keep a current and a previous value:
    the number of parameters, the length of a step, reading and writing the
    parameters, and applying a step. *)
Record kind := Kind {
  kval : Type;
  kpar : nat;
  kdim : nat;
  kget : kval -> list R;
  kput : list R -> kval;
  kstep : kval -> list R -> kval
}.

(** Coefficientwise sum; DesignVariableVector.hpp:43-45 (and the mapped
    form:59-63) *)
Fixpoint list_add (a b : list R) : list R :=
  match a, b with
  | x :: a', y :: b' => x + y :: list_add a' b'
  | _, _ => []
  end.
Fixpoint list_sub (a b : list R) : list R :=
  match a, b with
  | x :: a', y :: b' => x - y :: list_sub a' b'
  | _, _ => []
  end.

(** DesignVariableVector<D>, DesignVariableMappedVector<D>: the value is a
    list of D coefficients *)
Definition k_vector (D : nat) : kind := Kind (list R) D D (fun v => v) (fun l => l) list_add.
(** EuclideanPoint.cpp:15-31,69-78, MappedEuclideanPoint.cpp:17-32,65-74 *)
Definition k_euclidean : kind := Kind v3 3 3 v3_to v3_of (fun v d => v3_add v (v3_of d)).
(** Scalar.cpp:17-29,71-80, GenericScalar.hpp:18-26,57-65 with
    [Scalar_ = double] *)
Definition k_scalar : kind := Kind R 1 1 (fun v => [v]) (fun l => nth 0 l 0) (fun v d => v + nth 0 d 0).
(** HomogeneousPoint.cpp:20-32,65-74, MappedHomogeneousPoint.cpp alike *)
Definition k_homogeneous : kind := Kind v4 4 3 v4_to v4_of (fun q d => updateQuat q (v3_of d)).

(** ** Variables without a cached matrix *)

Record dv (K : kind) := Dv { cur : kval K; prev : kval K }.
Arguments Dv {K}. Arguments cur {K}. Arguments prev {K}.

(** The constructors: EuclideanPoint.cpp:6-7, Scalar.cpp:6-7,
    DesignVariableVector.hpp:5; the mapped classes read the storage they are
    given (MappedEuclideanPoint.cpp:6-7, DesignVariableMappedVector.hpp:5). *)
Definition make {K} (v : kval K) : dv K := Dv v v.

(** HomogeneousPoint.cpp:7-13: the constructor normalises.  [None]: the norm
    is zero and the quotient undefined. *)
Definition make_homogeneous (p : v4) : option (dv k_homogeneous) :=
  let n := v4_norm p in
  if eqb n 0 then None
  else Some (Dv (K := k_homogeneous) (v4_scale (1 / n) p) (v4_scale (1 / n) p)).

(** [updateImplementation]: the step is read from a pointer; the size is only
    checked in debug builds, so a shorter buffer is read past its end. *)
Definition update {K} (x : dv K) (d : list R) : outcome (dv K) :=
  if (length d <? kdim K)%nat then UB else Ok (Dv (kstep K (cur x) (firstn (kdim K) d)) (cur x)).

(** [revertUpdateImplementation] *)
Definition revert {K} (x : dv K) : dv K := Dv (prev x) (prev x).

(** [setParametersImplementation]: assigning a matrix of another shape to a
    fixed-size vector is undefined (an Eigen assertion in debug builds).
    Scalar reads coefficient (0,0) whatever the shape; simplification: it is
    treated like the others. *)
Definition set_parameters {K} (x : dv K) (m : mx) : outcome (dv K) :=
  if is_column (kpar K) m then Ok (Dv (kput K (mdata m)) (cur x)) else UB.

(** [getParametersImplementation] *)
Definition get_parameters {K} (x : dv K) : mx := column_vector (kget K (cur x)).

(** EuclideanPoint.hpp:32, MappedEuclideanPoint.hpp:30: [set] overwrites the
    previous value too. *)
Definition set_value {K} (x : dv K) (v : kval K) : dv K := Dv v v.

(** Somebody else writes to the storage of a mapped variable. *)
Definition write {K} (x : dv K) (v : kval K) : dv K := Dv v (prev x).

(** ** Rotations: RotationQuaternion, MappedRotationQuaternion *)

Record rot := Rot { rq : v4; rp : v4; rC : m3 }.

(** RotationQuaternion.cpp:10, MappedRotationQuaternion.cpp:10 *)
Definition rot_of_q (q : v4) : rot := Rot q q (quat2r q).
(** RotationQuaternion.cpp:12-16 *)
Definition rot_of_C (C : m3) : rot := Rot (r2quat C) (r2quat C) C.
(** RotationQuaternion.cpp:22-26, MappedRotationQuaternion.cpp:16-20 *)
Definition rot_revert (x : rot) : rot := Rot (rp x) (rp x) (quat2r (rp x)).
(** RotationQuaternion.cpp:29-36, MappedRotationQuaternion.cpp:23-30 *)
Definition rot_update (x : rot) (d : list R) : outcome rot :=
  if (length d <? 3)%nat then UB else
  let q := updateQuat (rq x) (v3_of d) in Ok (Rot q (rq x) (quat2r q)).
(** RotationQuaternion.cpp:73-78, MappedRotationQuaternion.cpp:67-72 *)
Definition rot_set_parameters (x : rot) (m : mx) : outcome rot :=
  if is_column 4 m then let q := v4_of (mdata m) in Ok (Rot q (rq x) (quat2r q)) else UB.
(** RotationQuaternion.cpp:68-71, MappedRotationQuaternion.cpp:62-65 *)
Definition rot_get_parameters (x : rot) : mx := column_vector (v4_to (rq x)).
(** RotationQuaternion.cpp:43-46, MappedRotationQuaternion.cpp:37-40 *)
Definition rot_matrix (x : rot) : m3 := rC x.
(** RotationQuaternion.hpp:41, MappedRotationQuaternion.hpp:32 *)
Definition rot_set (x : rot) (q : v4) : rot := Rot q q (rC x).
(** Somebody else writes to the storage of a MappedRotationQuaternion. *)
Definition rot_write (x : rot) (q : v4) : rot := Rot q (rp x) (rC x).

(** ** Differences to a reference value *)

(** [Ok None]: a quotient by zero, the result holds NaNs. *)
Definition q_difference (q : v4) (xHat : mx) : outcome (option v3) :=
  if is_column 4 xHat then Ok (quat2AxisAngle (qplus q (quatInv (v4_of (mdata xHat))))) else Throw.
(** RotationQuaternion.cpp:80-84, HomogeneousPoint.cpp:76-80 *)
Definition rot_difference (x : rot) : mx -> outcome (option v3) := q_difference (rq x).
Definition hom_difference (x : dv k_homogeneous) : mx -> outcome (option v3) := q_difference (cur x).
(** MappedRotationQuaternion.cpp:74-78, MappedHomogeneousPoint.cpp:76-80: the
    previous value is used *)
Definition mapped_rot_difference (x : rot) : mx -> outcome (option v3) := q_difference (rp x).
Definition mapped_hom_difference (x : dv k_homogeneous) : mx -> outcome (option v3) := q_difference (prev x).

(** The Jacobian through quatLogJacobian, which divides by the cube of the
    length of the vector part. *)
Definition q_jacobian1 (q : v4) (xHat : mx) : outcome (option m3) :=
  if is_column 4 xHat then
    let e := qplus q (quatInv (v4_of (mdata xHat))) in
    Ok (if eqb (v3_norm (qeps e)) 0 then None
        else Some (m34_mul43 (quatLogJacobian e) (quatJacobian e)))
  else Throw.
(** RotationQuaternion.cpp:86-93 *)
Definition rot_jacobian (x : rot) (xHat : mx) : outcome (option m3) :=
  if is_column 4 xHat then
    let e := qplus (rq x) (quatInv (v4_of (mdata xHat))) in
    Ok (match quatLogJacobian2 e with
        | Some J => Some (m34_mul43 J (quatJacobian e))
        | None => None
        end)
  else Throw.
(** HomogeneousPoint.cpp:82-89 *)
Definition hom_jacobian (x : dv k_homogeneous) : mx -> outcome (option m3) := q_jacobian1 (cur x).
(** MappedRotationQuaternion.cpp:80-87, MappedHomogeneousPoint.cpp:82-89 *)
Definition mapped_rot_jacobian (x : rot) : mx -> outcome (option m3) := q_jacobian1 (rp x).
Definition mapped_hom_jacobian (x : dv k_homogeneous) : mx -> outcome (option m3) := q_jacobian1 (prev x).

(** DesignVariableVector.hpp:96-100, EuclideanPoint.cpp:80-84,
    Scalar.cpp:82-87, GenericScalar.hpp:67-71; the Jacobian is the identity *)
Definition difference {K} (x : dv K) (xHat : mx) : outcome (list R) :=
  if is_column (kpar K) xHat then Ok (list_sub (kget K (cur x)) (mdata xHat)) else Throw.
(** DesignVariableMappedVector.hpp:115-119, MappedEuclideanPoint.cpp:76-80 *)
Definition mapped_difference {K} (x : dv K) (xHat : mx) : outcome (list R) :=
  if is_column (kpar K) xHat then Ok (list_sub (kget K (prev x)) (mdata xHat)) else Throw.

(** ** DesignVariableGenericVector.hpp: [_p_v] has no initial value and
    [setParameters] does not save the current one *)
Record gvec := Gvec { gcur : list R; gprev : option (list R) }.
(** DesignVariableGenericVector.hpp:22-24,80 *)
Definition gv_make (v : list R) : gvec := Gvec v None.
(** :40-44; the size is checked in all builds *)
Definition gv_update (D : nat) (x : gvec) (d : list R) : outcome gvec :=
  if Nat.eqb (length d) D then Ok (Gvec (list_add (gcur x) d) (Some (gcur x))) else Throw.
(** :36-38 *)
Definition gv_revert (x : gvec) : outcome gvec :=
  match gprev x with Some p => Ok (Gvec p (Some p)) | None => UB end.
(** :54-57 (and the overload :31-34) *)
Definition gv_set_parameters (D : nat) (x : gvec) (m : mx) : outcome gvec :=
  if is_column D m then Ok (Gvec (mdata m) (gprev x)) else UB.

(** ** Histories *)

Inductive op := OUpdate (d : list R) | ORevert | OSet (m : mx).

Definition step {K} (x : dv K) (o : op) : outcome (dv K) :=
  match o with
  | OUpdate d => update x d
  | ORevert => Ok (revert x)
  | OSet m => set_parameters x m
  end.
Fixpoint run {K} (x : dv K) (l : list op) : outcome (dv K) :=
  match l with [] => Ok x | o :: l' => do y <- step x o; run y l' end.

Definition rot_step (x : rot) (o : op) : outcome rot :=
  match o with
  | OUpdate d => rot_update x d
  | ORevert => Ok (rot_revert x)
  | OSet m => rot_set_parameters x m
  end.
Fixpoint rot_run (x : rot) (l : list op) : outcome rot :=
  match l with [] => Ok x | o :: l' => do y <- rot_step x o; rot_run y l' end.

Definition gv_step (D : nat) (x : gvec) (o : op) : outcome gvec :=
  match o with
  | OUpdate d => gv_update D x d
  | ORevert => gv_revert x
  | OSet m => gv_set_parameters D x m
  end.
Fixpoint gv_run (D : nat) (x : gvec) (l : list op) : outcome gvec :=
  match l with [] => Ok x | o :: l' => do y <- gv_step D x o; gv_run D y l' end.
