(** Model of the assembly of the Gauss-Newton system as a block matrix
      /repo/aslam_optimizer/aslam_backend/src/JacobianContainer.cpp 103-167
      /repo/aslam_optimizer/aslam_backend/src/ErrorTermDs.cpp 77-89
      /repo/aslam_optimizer/aslam_backend/include/aslam_backend/backend/implementation/ErrorTerm.hpp 96-109
      /repo/aslam_optimizer/aslam_backend/src/BlockCholeskyLinearSystemSolver.cpp 34-72, 150-176
    Simplifications: the Jacobians and the error of an error term are inputs
    (the virtual evaluateJacobians and the stored error); timers, the choice of
    library and its options are left out; only the debug build checks sizes and
    block indices, so a mismatch is undefined behaviour. *)
From Coq Require Import ZArith List Bool.
From Verif Require Import Base Arith OMap JacModel MEstModel SbmModel.
Import ListNotations.
Open Scope nat_scope.

Section Hes.
Variable A : Arith.
Notation num := (num A).
Notation mat := (mat A).
(** DesignVariable::scaling(). *)
Variable scaling : dvref -> num.

(** An error term when the system is built: the Jacobians it returns, and its
    error, square root information matrix (transposed), weight function and
    stored squared error. *)
Record hterm := HTerm { tjac : container A; tterm : eterm A }.

Definition mscale (a : num) (M : mat) : mat := map (vscale A a) M.

(** The block index of a design variable as an index into the Hessian. *)
Definition bindex (d : dvref) : outcome nat :=
  if (block d <? 0)%Z then UB else Ok (Z.to_nat (block d)).

(** JacobianContainer.cpp 103-129: the blocks of one block row, from the
    diagonal on. *)
Fixpoint correlated (n1 : nat) (J1 : mat) (b1 : nat) (l : list (dvref * mat)) (H : sbm A) : outcome (sbm A) :=
  match l with
  | [] => Ok H
  | (d, J) :: l' =>
      do b2 <- bindex d;
      do H' <- update A b1 b2 (plus A (mmul A (mindim d) (mtrans A n1 J1) J)) H;
      correlated n1 J1 b1 l' H'
  end.

(** [y.segment(o, length v) -= v]. *)
Definition sub_segment (o : nat) (v y : list num) : outcome (list num) :=
  add_segment A o (map (fun x => sub A (of_Z A 0) x) v) y.

(** 132-149: all blocks, in order of block index.  The right-hand side is
    written before the block is looked up. *)
Fixpoint build_block (e : list num) (l : list (dvref * mat)) (H : sbm A) (rhs : list num)
  : outcome (sbm A * list num) :=
  match l with
  | [] => Ok (H, rhs)
  | (d, J) :: l' =>
      do b <- bindex d;
      do rhs' <- sub_segment (base_of (rbi H) b) (mvec A (mtrans A (mindim d) J) e) rhs;
      do H' <- correlated (mindim d) J b l H;
      build_block e l' H' rhs'
  end.

(** 151-167: [Wt] is sqrtInvR transposed.  The map is copied and every Jacobian
    is multiplied by the scaling and by [Wt]. *)
Definition weighted (Wt : mat) (c : container A) : list (dvref * mat) :=
  map (fun x : Z * (dvref * mat) => let '(_, (d, J)) := x in
         (d, mmul A (mindim d) (mscale (scaling d) Wt) J)) (cmap c).
Definition evaluate_hessian (e : list num) (Wt : mat) (c : container A) (H : sbm A) (rhs : list num) :=
  build_block (mvec A Wt e) (weighted Wt c) H rhs.

(** ErrorTerm.hpp 96-109, ErrorTermDs.cpp 77-89. *)
Definition build_hessian (useM : bool) (t : hterm) (H : sbm A) (rhs : list num) :=
  evaluate_hessian (eerror (tterm t))
    (mscale (sqrt_weight A useM (tterm t)) (esqrt_t (tterm t))) (tjac t) H rhs.

(** BlockCholeskyLinearSystemSolver.cpp 34-55 and LinearSystemSolver.cpp (
    initMatrixStructure): design variable [i] gets block index [i]; the layout
    has one block for each design variable. *)
Definition init_structure (dims : list nat) : sbm A :=
  fresh A (partial_sums 0 dims) (partial_sums 0 dims).

(** 58-72. *)
Fixpoint build_terms (useM : bool) (ts : list hterm) (H : sbm A) (rhs : list num) :=
  match ts with
  | [] => Ok (H, rhs)
  | t :: ts' =>
      do r <- build_hessian useM t H rhs;
      build_terms useM ts' (fst r) (snd r)
  end.
Definition build_system (useM : bool) (ts : list hterm) (H : sbm A) (rhs : list num) :=
  build_terms useM ts (clear A false H) (map (fun _ => of_Z A 0) rhs).

(** 172-176: the squared length of J * rhs, for the dog-leg step. *)
Definition rhs_jtj_rhs (H : sbm A) (rhs : list num) : outcome num :=
  do y <- mul_vec A H rhs; Ok (dot A rhs y).
End Hes.
Arguments HTerm {A}. Arguments tjac {A}. Arguments tterm {A}.
