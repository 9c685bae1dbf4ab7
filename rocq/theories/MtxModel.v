(** * A matrix with an update pattern as a design variable

    /repo/aslam_optimizer/aslam_backend_expressions/src/MatrixTransformation.cpp and the node
    EuclideanExpressionNodeMatrixMultiply of EuclideanExpressionNode.cpp.

    A 3 x 3 matrix is the list of its nine entries, column by column: entry [i] of the code's
    loops is (i % 3, i / 3).  Simplifications: real arithmetic; the entries of the pattern are
    integers; debug assertions are off. *)
From Coq Require Import Reals ZArith List Bool.
From Verif Require Import Base.
Import ListNotations.
Local Open Scope R_scope.

Record matvar := MatVar {
  value : list R;             (* _A *)
  kept : list R;              (* _A_a *)
  pattern : list Z;           (* _UpdatePattern *)
  dimension : nat             (* _UpdateDimension *)
}.
Definition count_ones (pat : list Z) : nat := length (filter (fun p => Z.eqb p 1) pat).
(** MatrixTransformation.cpp 9-13. *)
Definition free_matrix (A : list R) : matvar := MatVar A A (repeat 1%Z 9) 9.
(** MatrixTransformation.cpp 15-23. *)
Definition patterned (A : list R) (pat : list Z) : matvar := MatVar A A pat (count_ones pat).
(** The loop of updateImplementation, MatrixTransformation.cpp 40-44: [dp] is read in every
    round, [UB] if that is past its end. *)
Fixpoint add_entries (pat : list Z) (A dp : list R) (j : nat) : outcome (list R) :=
  match pat, A with
  | p :: pat, a :: A =>
      match nth_error dp j with
      | Some d => obind (add_entries pat A dp (if Z.eqb p 1 then S j else j)) (fun r => Ok (a + IZR p * d :: r))
      | None => UB
      end
  | _, _ => Ok []
  end.
(** updateImplementation: MatrixTransformation.cpp 35-45. *)
Definition update (m : matvar) (dp : list R) : outcome matvar :=
  obind (add_entries (pattern m) (value m) dp 0) (fun A => Ok (MatVar A (value m) (pattern m) (dimension m))).
(** revertUpdateImplementation: MatrixTransformation.cpp 29-32. *)
Definition revert (m : matvar) : matvar := MatVar (kept m) (kept m) (pattern m) (dimension m).
(** setParametersImplementation: MatrixTransformation.cpp 99-103. *)
Definition set_parameters (m : matvar) (A : list R) : matvar := MatVar A (value m) (pattern m) (dimension m).
(** The columns with pattern one, of one row of the chain. *)
Fixpoint pick (pat : list Z) (row : list R) : list R :=
  match pat, row with
  | p :: pat, x :: row => if Z.eqb p 1 then x :: pick pat row else pick pat row
  | _, _ => []
  end.
(** evaluateJacobiansImplementation with a chain rule, MatrixTransformation.cpp 65-78, the
    chain given by its rows: the result has three rows, and a column of another length is
    assigned to a column of three. *)
Definition jacobian (m : matvar) (chain : list (list R)) : outcome (list (list R)) :=
  if (dimension m =? 0)%nat then Ok (repeat [] 3)
  else if (length chain =? 3)%nat then Ok (map (pick (pattern m)) chain) else UB.

Definition matvec (A : list R) (p : R * R * R) : R * R * R :=
  let '(x, y, z) := p in
  let a i := nth i A 0 in
  (a 0%nat * x + a 3%nat * y + a 6%nat * z, a 1%nat * x + a 4%nat * y + a 7%nat * z, a 2%nat * x + a 5%nat * y + a 8%nat * z).
(** A row of the chain times the 3 x 9 matrix [p0 I, p1 I, p2 I]: EuclideanExpressionNode.cpp
    122-123 and 130-132. *)
Definition full_row (p c : R * R * R) : list R :=
  let '(x, y, z) := p in
  let '(c0, c1, c2) := c in
  [c0 * x; c1 * x; c2 * x; c0 * y; c1 * y; c2 * y; c0 * z; c1 * z; c2 * z].

(** The product node: its operands as they are now and the copies it keeps,
    EuclideanExpressionNode.cpp 91-97. *)
Record product := Product { mat : matvar; vec : R * R * R; mat_copy : list R; vec_copy : R * R * R }.
Definition multiply (m : matvar) (p : R * R * R) : product := Product m p (value m) p.
(** toEuclideanImplementation: EuclideanExpressionNode.cpp 112-118. *)
Definition evaluate (n : product) : product * (R * R * R) :=
  (Product (mat n) (vec n) (value (mat n)) (vec n), matvec (value (mat n)) (vec n)).
(** The blocks emitted for the matrix and handed to the vector, with the chain rule given by
    its rows: EuclideanExpressionNode.cpp 128-134. *)
Definition row_times (c : R * R * R) (A : list R) : list R :=
  let '(c0, c1, c2) := c in
  let a i := nth i A 0 in
  [c0 * a 0%nat + c1 * a 1%nat + c2 * a 2%nat; c0 * a 3%nat + c1 * a 4%nat + c2 * a 5%nat; c0 * a 6%nat + c1 * a 7%nat + c2 * a 8%nat].
Definition blocks (n : product) (chain : list (R * R * R)) : outcome (list (list R) * list (list R)) :=
  obind (jacobian (mat n) (map (full_row (vec_copy n)) chain)) (fun J => Ok (J, map (fun c => row_times c (mat_copy n)) chain)).
Inductive change := Move (dp : list R) | Back | Set_matrix (A : list R) | Set_vector (p : R * R * R).
Definition alter (n : product) (c : change) : outcome product :=
  match c with
  | Move dp => obind (update (mat n) dp) (fun m => Ok (Product m (vec n) (mat_copy n) (vec_copy n)))
  | Back => Ok (Product (revert (mat n)) (vec n) (mat_copy n) (vec_copy n))
  | Set_matrix A => Ok (Product (set_parameters (mat n) A) (vec n) (mat_copy n) (vec_copy n))
  | Set_vector p => Ok (Product (mat n) p (mat_copy n) (vec_copy n))
  end.
