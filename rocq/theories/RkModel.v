(** * The matrices a linear solve allocates

    /repo/aslam_incremental_calibration/aslam_incremental_calibration/src/core/LinearSolver.cpp
    and src/algorithms/linalg.cpp.

    Only the allocation is modelled: which objects of the CHOLMOD and SuiteSparseQR libraries
    are in use, when they are released and how exceptions travel.  Whether the next call of
    the libraries works is given by an oracle, a function of the number of calls made.
    Objects are named after the variables of the code; the factorization, a member of the
    solver, is kept apart.  A is [rows] by [cols] and agrees with b.  The numerical part and
    std::bad_alloc are left out: rankTol, svGap, analyzeSVD and solveSVD do not throw on the
    sizes they get here. *)
From Coq Require Import ZArith List Bool Arith.
From Verif Require Import Base.
Import ListNotations.
Local Open Scope Z_scope.

Inductive obj :=
| J_CS | A_l | G_l | A_r | G_r | A_rt | Omega | A_rtQ | A_rtQFull | A_rtQ2 | A_rt2
| bSparse | A_rtb | QtbFull | Qtb | A_rtQQtb | bReducedSparse | b_r | A_rx_r | QtbmA | x_l.
Definition obj_eqb (x y : obj) : bool :=
  match x, y with
  | J_CS, J_CS | A_l, A_l | G_l, G_l | A_r, A_r | G_r, G_r | A_rt, A_rt | Omega, Omega | A_rtQ, A_rtQ
  | A_rtQFull, A_rtQFull | A_rtQ2, A_rtQ2 | A_rt2, A_rt2 | bSparse, bSparse | A_rtb, A_rtb
  | QtbFull, QtbFull | Qtb, Qtb | A_rtQQtb, A_rtQQtb | bReducedSparse, bReducedSparse | b_r, b_r
  | A_rx_r, A_rx_r | QtbmA, QtbmA | x_l, x_l => true
  | _, _ => false
  end.
(** InvalidOperationException and OutOfBoundException *)
Inductive exc := Invalid | Bound.
Inductive res (A : Type) := Ret (a : A) | Exc (e : exc) | DoubleFree.
Arguments Ret {A}. Arguments Exc {A}. Arguments DoubleFree {A}.
Record mem := Mem { factor : bool; live : list obj; calls : nat }.

(** ** Computations *)
Definition comp (A : Type) := (nat -> bool) -> mem -> res A * mem.
Definition ret {A} (a : A) : comp A := fun _ m => (Ret a, m).
Definition throw {A} (e : exc) : comp A := fun _ m => (Exc e, m).
Definition bind {A B} (c : comp A) (k : A -> comp B) : comp B := fun o m =>
  match c o m with
  | (Ret a, m) => k a o m
  | (Exc e, m) => (Exc e, m)
  | (DoubleFree, m) => (DoubleFree, m)
  end.
Definition catch {A} (c : comp A) (h : exc -> comp A) : comp A := fun o m =>
  match c o m with (Exc e, m) => h e o m | r => r end.
Definition works : comp bool := fun o m => (Ret (o (calls m)), Mem (factor m) (live m) (S (calls m))).
Definition take (x : obj) : comp bool := fun o m =>
  if o (calls m) then (Ret true, Mem (factor m) (x :: live m) (S (calls m)))
  else (Ret false, Mem (factor m) (live m) (S (calls m))).
Fixpoint without (x : obj) (l : list obj) : option (list obj) :=
  match l with
  | [] => None
  | y :: l => if obj_eqb x y then Some l
              else match without x l with Some l => Some (y :: l) | None => None end
  end.
Definition free (x : obj) : comp unit := fun _ m =>
  match without x (live m) with
  | Some l => (Ret tt, Mem (factor m) l (calls m))
  | None => (DoubleFree, m)
  end.
Fixpoint frees (l : list obj) : comp unit :=
  match l with [] => ret tt | x :: l => bind (free x) (fun _ => frees l) end.
Definition has_factor : comp bool := fun _ m => (Ret (factor m), m).
(** clear: LinearSolver.cpp 559-573. *)
Definition clear : comp unit := fun _ m => (Ret tt, Mem false (live m) (calls m)).
Definition take_factor : comp bool := fun o m =>
  (Ret (o (calls m)), Mem (o (calls m)) (live m) (S (calls m))).
Notation "x <- c ; k" := (bind c (fun x => k)) (at level 100, c at next level, right associativity).
Notation "c ;; k" := (bind c (fun _ => k)) (at level 100, right associativity).

(** ** linalg.cpp *)
(** columnSubmatrix and rowSubmatrix, 40-110, of a matrix with [n] columns (rows). *)
Definition submatrix (x : obj) (first last n : Z) : comp unit :=
  if last <? first then throw Bound
  else if n <=? last then throw Bound
  else if first <? 0 then throw Bound
  else ok <- take x; if ok : bool then ret tt else throw Invalid.
(** columnScalingMatrix: 136-164. *)
Definition scaling_matrix (x : obj) : comp unit :=
  ok <- take x; if ok : bool then ret tt else throw Invalid.
(** reduceLeftHandSide: 294-345; the factor has [n] columns, A_rt [rows] columns. *)
Definition reduce_left (rows n : Z) : comp unit :=
  ok <- take A_rtQFull; if negb ok then throw Invalid else
  catch (submatrix A_rtQ 0 n rows)
    (fun e => match e with Invalid => free A_rtQFull;; throw Invalid | Bound => throw Bound end);;
  free A_rtQFull;;
  ok <- take A_rtQ2; if negb ok then throw Invalid else
  ok <- take A_rt2; if negb ok then free A_rtQ2;; throw Invalid else
  ok <- take Omega;
  frees [A_rt2; A_rtQ2];;
  if negb ok then throw Invalid else ret tt.
(** reduceRightHandSide: 347-422. *)
Definition reduce_right (rows n : Z) : comp unit :=
  ok <- take bSparse; if negb ok then throw Invalid else
  ok <- take A_rtb; if negb ok then free bSparse;; throw Invalid else
  ok <- take QtbFull;
  free bSparse;;
  if negb ok then free A_rtb;; throw Invalid else
  catch (submatrix Qtb 0 n rows)
    (fun e => match e with Invalid => frees [A_rtb; QtbFull];; throw Invalid | Bound => throw Bound end);;
  free QtbFull;;
  ok <- take A_rtQQtb;
  free Qtb;;
  if negb ok then free A_rtb;; throw Invalid else
  ok <- take bReducedSparse;
  frees [A_rtb; A_rtQQtb];;
  if negb ok then throw Invalid else
  ok <- take b_r;
  free bReducedSparse;;
  if negb ok then throw Invalid else ret tt.
(** solveQR: 460-518. *)
Definition solve_qr : comp unit :=
  ok <- take A_rx_r; if negb ok then throw Invalid else
  ok <- works; if negb ok then free A_rx_r;; throw Invalid else
  free A_rx_r;;
  ok <- take QtbmA; if negb ok then throw Invalid else
  ok <- take x_l;
  free QtbmA;;
  if negb ok then throw Invalid else ret tt.

(** ** LinearSolver *)
Definition when (b : bool) (l : list obj) : list obj := if b then l else [].
Definition rethrow {A} (c : comp A) (l : list obj) : comp A := catch c (fun e => frees l;; throw e).
(** The factorization of A_l: LinearSolver.cpp 322-354, 469-495; [fits] tells whether the
    present one has its sizes; [l] is what else is released on failure. *)
Definition factorize (fits : bool) (l : list obj) : comp unit :=
  f <- has_factor;
  (if f && negb fits then clear else ret tt);;
  f <- has_factor;
  (if f : bool then ret tt
   else ok <- take_factor; if negb ok then frees (A_l :: l);; throw Invalid else ret tt);;
  ok <- works;
  free A_l;;
  if negb ok then frees l;; throw Invalid else ret tt.
(** solve: 299-463. *)
Definition solve (rows cols j : Z) (scale fits : bool) : comp unit :=
  submatrix A_l 0 (j - 1) cols;;
  (if scale then
     rethrow (scaling_matrix G_l) [A_l];;
     ok <- works; if negb ok then frees [G_l; A_l];; throw Invalid else ret tt
   else ret tt);;
  factorize fits (when scale [G_l]);;
  rethrow (submatrix A_r j (cols - 1) cols) (when scale [G_l]);;
  (if scale then
     rethrow (scaling_matrix G_r) [A_r; G_l];;
     ok <- works; if negb ok then frees [A_r; G_r; G_l];; throw Invalid else ret tt
   else ret tt);;
  ok <- take A_rt; if negb ok then frees (A_r :: when scale [G_l; G_r]);; throw Invalid else
  rethrow (reduce_left rows j) (A_r :: A_rt :: when scale [G_l; G_r]);;
  free Omega;;
  rethrow (reduce_right rows j) (A_r :: A_rt :: A_rtQ :: when scale [G_l; G_r]);;
  frees [A_rt; A_rtQ; b_r];;
  rethrow solve_qr (A_r :: when scale [G_l; G_r]);;
  frees (when scale [G_l; G_r]);;
  frees [A_r; x_l].
(** analyzeMarginal(A, j): 465-524. *)
Definition analyze (rows cols j : Z) (fits : bool) : comp unit :=
  submatrix A_l 0 (j - 1) cols;;
  factorize fits [];;
  submatrix A_r j (cols - 1) cols;;
  ok <- take A_rt; if negb ok then free A_r;; throw Invalid else
  rethrow (reduce_left rows j) [A_r; A_rt];;
  frees [A_r; A_rt; A_rtQ; Omega].
(** solveSystem and analyzeMarginal(): 243-286, 526-557. *)
Definition guarded (c : comp unit) : comp bool :=
  ok <- take J_CS; if negb ok then ret false else
  status <- catch (c;; ret true) (fun _ => ret false);
  free J_CS;;
  ret status.
Inductive op :=
| SolveSystem (rows cols j : Z) (scale fits : bool)
| AnalyzeMarginal (rows cols j : Z) (fits : bool)
| Clear.
Definition run (p : op) : comp bool :=
  match p with
  | SolveSystem rows cols j scale fits => guarded (solve rows cols j scale fits)
  | AnalyzeMarginal rows cols j fits => guarded (analyze rows cols j fits)
  | Clear => clear;; ret true
  end.
Fixpoint history (ps : list op) : comp (list bool) :=
  match ps with
  | [] => ret []
  | p :: ps => b <- run p; bs <- history ps; ret (b :: bs)
  end.
(** The constructor. *)
Definition start : mem := Mem false [] 0.
