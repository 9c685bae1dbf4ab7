(** * Eliminating the marginalized variables of a Gauss-Newton system

    Models aslam_optimizer/aslam_backend/src/sparse_matrix_functions.cpp
    (applySchurComplement, buildDsi).  A block column of the sparse block
    matrix is the list of its stored blocks in the order of [std::map];
    entries of a block are real numbers.  Vectors are indexed by block and by
    position in the block, in place of the row offsets of rowBaseOfBlock.  In the
    result a missing block and a block of zeros are not told apart, because
    [block(r, c, true)] makes a block of zeros (sparse_block_matrix.hpp, lines
    121-140).  [Eigen::MatrixXd::inverse] is a parameter.  Rounding and the
    debug assertions are left out. *)
From Coq Require Import Reals List Arith Bool.
From Verif Require Import BsplModel.
Import ListNotations.
Local Open Scope R_scope.

Definition col : Type := list (nat * mat).
Definition bmat : Type := nat -> nat -> mat.
Definition bvec : Type := nat -> vec.

Fixpoint entry (l : col) (r : nat) : mat :=
  match l with
  | [] => fun _ _ => 0
  | (j, W) :: l' => if Nat.eqb r j then W else entry l' r
  end.

Definition set_block (A : bmat) (r c : nat) (M : mat) : bmat :=
  fun r' c' => if Nat.eqb r' r && Nat.eqb c' c then M else A r' c'.
Definition set_seg (b : bvec) (r : nat) (v : vec) : bvec :=
  fun r' => if Nat.eqb r' r then v else b r'.

Section Schur.
Variable inverse : nat -> mat -> mat.   (* Eigen's inverse of an n by n matrix *)
Variable dims : nat -> nat.             (* rows of a block *)
Variable H : nat -> col.                (* blockCols() *)
Variable rhs : bvec.
Variable lambda : R.
Variable na : nat.                      (* marginalizedStartingBlock *)
Variable nm : nat.                      (* invVi.size() *)
Variable lm : bool.                     (* doLevenbergMarquardt *)

(** Lines 28-36. *)
Definition invV (i : nat) : mat :=
  let V := entry (H (na + i)) (na + i) in
  inverse (dims (na + i))
    (if lm then (fun p q => if Nat.eqb p q then V p q + lambda else V p q) else V).

(** Lines 49-52: the inner loop over the blocks from [j] on. *)
Fixpoint inner (j n : nat) (Y : mat) (l : col) (A : bmat) {struct l} : bmat :=
  match l with
  | [] => A
  | (k, W) :: l' =>
      if Nat.ltb k na then
        inner j n Y l' (set_block A j k (fun p q => A j k p q - bsum n (fun v => Y p v * W q v)))
      else A
  end.

(** Lines 43-53: the loop over the blocks of one marginalized column. *)
Fixpoint outer (n : nat) (inv : mat) (ri : vec) (l : col) (A : bmat) (b : bvec) {struct l} : bmat * bvec :=
  match l with
  | [] => (A, b)
  | (j, W) :: l' =>
      if Nat.ltb j na then
        let Y := fun p v => bsum n (fun u => W p u * inv u v) in
        outer n inv ri l' (inner j n Y l A)
              (set_seg b j (fun p => b j p - bsum n (fun v => Y p v * ri v)))
      else (A, b)
  end.

(** Line 18 and line 21: the leading blocks of the matrix and of the vector. *)
Definition slice : bmat :=
  fun r c => if Nat.ltb r na && Nat.ltb c na then entry (H c) r else (fun _ _ => 0).

(** Lines 24-54: the loop over the marginalized blocks. *)
Fixpoint eliminate (m : nat) : bmat * bvec :=
  match m with
  | O => (slice, rhs)
  | S i =>
      let '(A, b) := eliminate i in
      outer (dims (na + i)) (invV i) (rhs (na + i)%nat) (H (na + i)%nat) A b
  end.

(** applySchurComplement, lines 8-60: [A] and [b]. *)
Definition schur : bmat * bvec :=
  let '(A, b) := eliminate nm in
  (if lm then
     (fun r c => if Nat.eqb r c && Nat.ltb r na
                 then (fun p q => if Nat.eqb p q then A r c p q + lambda else A r c p q)
                 else A r c)
   else A, b).

(** Lines 75-80. *)
Fixpoint back (l : col) (x : bvec) (out : vec) {struct l} : vec :=
  match l with
  | [] => out
  | (j, W) :: l' =>
      if Nat.ltb j na then
        back l' x (fun u => out u - bsum (dims j) (fun p => W p u * x j p))
      else out
  end.

(** buildDsi, lines 64-83. *)
Definition buildDsi (i : nat) (x : bvec) : vec :=
  fun p => bsum (dims (na + i)) (fun u => invV i p u * back (H (na + i)%nat) x (rhs (na + i)%nat) u).
End Schur.
