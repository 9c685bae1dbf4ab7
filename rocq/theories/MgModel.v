(** * Model of marginalization and of the prior it leaves

    Models /repo/aslam_optimizer/aslam_backend/src/Marginalizer.cpp (all),
    MarginalizationPriorErrorTerm.cpp (all) and the parts of
    DenseQrLinearSystemSolver.cpp (lines 28-35, 60-73) and
    LinearSystemSolver.cpp (lines 11-24, 117-141) they use.  Reals for doubles,
    matrices as functions with separate sizes.  Simplifications: the weighted
    error and Jacobians of an error term are inputs (see C45 for how they are
    weighted); the QR decomposition and the matrix inverse are parameters; the
    rank test only writes a message and is left out, as are all messages and
    timers.  Eigen's checks on blocks and sizes are debug only: a failing one
    is undefined behaviour. *)
From Coq Require Import Reals List Arith ZArith Bool.
From Verif Require Import Base BsplModel.
Import ListNotations.
Local Open Scope R_scope.
Local Open Scope nat_scope.

(** A design variable: the object, minimalDimensions(), scaling() and isActive(). *)
Record dvar := Dv { vid : nat; vdim : nat; vscaling : R; vactive : bool }.
(** An error term: the object, dimension(), the weighted error and the
    Jacobians of getWeightedJacobians before the scaling of the variables. *)
Record term := Term { tid : nat; tdim : nat; terr : vec; tjac : list (dvar * mat) }.

(** blockIndex() and columnBase() of the design variables and rowBase() of the
    error terms, by object. *)
Record indices := Indices { blk : nat -> Z; colb : nat -> Z; rowb : nat -> Z }.
Definition set_at (f : nat -> Z) (i : nat) (v : Z) : nat -> Z := fun j => if j =? i then v else f j.

(** Marginalizer.cpp lines 36-49: insertion into a set until it fails *)
Fixpoint repeated (seen : list nat) (l : list nat) : bool :=
  match l with
  | [] => false
  | x :: r => if existsb (Nat.eqb x) seen then true else repeated (x :: seen) r
  end.

(** Lines 52-73: the removed dimensions, the remaining variables and those that
    start before row [ntop] of the covariance *)
Fixpoint partition (nrem : Z) (ntop : nat) (k : Z) (before : nat) (l : list dvar) : nat * list dvar * list dvar :=
  match l with
  | [] => (0, [], [])
  | v :: r =>
      let '(n, rest, top) := partition nrem ntop (k + 1) (before + vdim v) r in
      let top' := if before <? ntop then v :: top else top in
      if (k <? nrem)%Z then (vdim v + n, rest, top') else (n, v :: rest, top')
  end.

(** Lines 75-95: the new indices *)
Fixpoint number_variables (i c : nat) (l : list dvar) (m : indices) : indices * nat :=
  match l with
  | [] => (m, c)
  | v :: r => number_variables (S i) (c + vdim v) r
                (Indices (set_at (blk m) (vid v) (Z.of_nat i)) (set_at (colb m) (vid v) (Z.of_nat c)) (rowb m))
  end.
Fixpoint number_terms (d : nat) (l : list term) (m : indices) : indices * nat :=
  match l with
  | [] => (m, d)
  | t :: r => number_terms (d + tdim t) r (Indices (blk m) (colb m) (set_at (rowb m) (tid t) (Z.of_nat d)))
  end.

(** LinearSystemSolver.cpp lines 11-24: every term writes minus its error at its rows *)
Definition put_segment (n : nat) (o : Z) (k : nat) (x y : vec) : outcome vec :=
  if (0 <=? o)%Z && (o + Z.of_nat k <=? Z.of_nat n)%Z
  then Ok (fun i => if (o <=? Z.of_nat i)%Z && (Z.of_nat i <? o + Z.of_nat k)%Z then x (i - Z.to_nat o) else y i)
  else UB.
Fixpoint residuals (m : indices) (rows : nat) (l : list term) (y : vec) : outcome vec :=
  match l with
  | [] => Ok y
  | t :: r => do y' <- put_segment rows (rowb m (tid t)) (tdim t) (fun i => (- terr t i)%R) y; residuals m rows r y'
  end.

(** DenseQrLinearSystemSolver.cpp lines 60-73: every Jacobian, times the scaling
    of its variable (ErrorTermDs.cpp line 153), is written at the rows of the
    term and the columns of the variable *)
Definition put_block (rows cols : nat) (r c : Z) (h w : nat) (X Y : mat) : outcome mat :=
  if (0 <=? r)%Z && (r + Z.of_nat h <=? Z.of_nat rows)%Z && (0 <=? c)%Z && (c + Z.of_nat w <=? Z.of_nat cols)%Z
  then Ok (fun i j => if (r <=? Z.of_nat i)%Z && (Z.of_nat i <? r + Z.of_nat h)%Z &&
                         (c <=? Z.of_nat j)%Z && (Z.of_nat j <? c + Z.of_nat w)%Z
                      then X (i - Z.to_nat r) (j - Z.to_nat c) else Y i j)
  else UB.
Fixpoint row_blocks (m : indices) (rows cols : nat) (r : Z) (h : nat) (l : list (dvar * mat)) (Y : mat) : outcome mat :=
  match l with
  | [] => Ok Y
  | (v, X) :: l' =>
      do Y' <- put_block rows cols r (colb m (vid v)) h (vdim v) (fun i j => X i j * vscaling v)%R Y;
      row_blocks m rows cols r h l' Y'
  end.
Fixpoint jacobian (m : indices) (rows cols : nat) (l : list term) (Y : mat) : outcome mat :=
  match l with
  | [] => Ok Y
  | t :: r => do Y' <- row_blocks m rows cols (rowb m (tid t)) (tdim t) (tjac t) Y; jacobian m rows cols r Y'
  end.

(** Lines 173-183: the stored indices are written back *)
Fixpoint restore_variables (old : indices) (l : list dvar) (m : indices) : indices :=
  match l with
  | [] => m
  | v :: r => restore_variables old r
                (Indices (set_at (blk m) (vid v) (blk old (vid v))) (set_at (colb m) (vid v) (colb old (vid v))) (rowb m))
  end.
Fixpoint restore_terms (old : indices) (l : list term) (m : indices) : indices :=
  match l with
  | [] => m
  | t :: r => restore_terms old r (Indices (blk m) (colb m) (set_at (rowb m) (tid t) (rowb old (tid t))))
  end.

(** The prior error term: its variables, the number of rows of R and d, the
    number of columns of R, R and d *)
Record prior := Prior { pvars : list dvar; prows : nat; pdrows : nat; pcols : nat; pR : mat; pd : vec }.

(** MarginalizationPriorErrorTerm.cpp lines 17-40 *)
Definition make_prior (vs : list dvar) (drows : nat) (d : vec) (rows cols : nat) (R : mat) : outcome prior :=
  match vs with [] => Throw | _ => Ok (Prior vs rows drows cols R d) end.

Record result := Result { res_prior : prior; res_cov : option mat; res_top : list dvar }.

Section Marginalize.
(** HouseholderQR of a matrix with the given sizes: the orthogonal factor and
    the triangular one *)
Variable qr : nat -> nat -> mat -> mat * mat.
(** FullPivLU's inverse of a square matrix *)
Variable inverse : nat -> mat -> mat.

(** marginalize(): the indices afterwards, also when it throws, and the result.
    [nrem] is numberOfInputDesignVariablesToRemove, [ntop] numTopRowsInCov. *)
Definition marginalize (m : indices) (dvs : list dvar) (ets : list term) (nrem : Z) (ntop : nat)
  : indices * outcome result :=
  if repeated [] (map vid dvs) then (m, Throw)
  else if repeated [] (map tid ets) then (m, Throw)
  else
    let '(gone, rest, top) := partition nrem ntop 0 0 dvs in
    let '(m1, cols) := number_variables 0 0 dvs m in
    let '(m2, rows) := number_terms 0 ets m1 in
    match residuals m2 rows ets (fun _ => 0%R), jacobian m2 rows cols ets (fun _ _ => 0%R) with
    | Ok b, Ok J =>
        if rows <? cols then (m2, Throw)
        else
          let '(Q, R) := qr rows cols J in
          let d := fun i => bsum rows (fun k => Q k i * b k)%R in
          match (if 0 <? ntop
                 then if (rows =? cols) && (ntop <=? cols)
                      then let Ri := inverse cols R in Ok (Some (fun i j => bsum cols (fun k => Ri i k * Ri j k)%R))
                      else UB
                 else Ok None) with
          | Ok cov =>
              let n := cols - gone in
              match make_prior rest n (fun i => d (gone + i)) n n (fun i j => R (gone + i) (gone + j)) with
              | Ok p => (restore_terms m ets (restore_variables m dvs m2), Ok (Result p cov top))
              | _ => (m2, Throw)
              end
          | _ => (m2, UB)
          end
    | _, _ => (m2, UB)
    end.
End Marginalize.

(** MarginalizationPriorErrorTerm.cpp lines 59-79: the differences since the
    prior was made, one after the other; [ds] lists minimalDifference of each
    variable with its size *)
Fixpoint differences (cols : nat) (o : nat) (ds : list (nat * vec)) (y : vec) : outcome vec :=
  match ds with
  | [] => Ok y
  | (n, x) :: r => do y' <- put_segment cols (Z.of_nat o) n x y; differences cols (o + n) r y'
  end.
(** Lines 46-57 *)
Definition prior_error (p : prior) (ds : list (nat * vec)) : outcome vec :=
  do x <- differences (pcols p) 0 ds (fun _ => 0%R);
  if pdrows p =? prows p
  then Ok (fun i => - (pd p i - bsum (pcols p) (fun j => pR p i j * x j)))%R
  else Throw.
(** evaluateChiSquaredError with the identity as weight *)
Definition prior_cost (p : prior) (ds : list (nat * vec)) : outcome R :=
  do e <- prior_error p ds; Ok (bsum (prows p) (fun i => e i * e i)%R).

(** Lines 81-96: the Jacobians; [Ms] lists the Jacobian of minimalDifference of
    each variable with its number of rows.  Inactive variables are skipped by
    the container (JacobianContainer.hpp lines 120-127). *)
Fixpoint prior_jacobians (p : prior) (c : nat) (vs : list dvar) (Ms : list (nat * mat)) : outcome (list (dvar * mat)) :=
  match vs, Ms with
  | [], _ => Ok []
  | _ :: _, [] => UB
  | v :: vs', (n, M) :: Ms' =>
      if n =? vdim v then
        if c + vdim v <=? pcols p then
          do r <- prior_jacobians p (c + vdim v) vs' Ms';
          let J := fun i j => bsum (vdim v) (fun k => pR p i (c + k)%nat * M k j)%R in
          Ok (if vactive v then (v, J) :: r else r)
        else UB
      else Throw
  end.
