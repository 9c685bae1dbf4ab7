(** * Model of the solver with marginal analysis of incremental calibration

    Models /repo/aslam_incremental_calibration/aslam_incremental_calibration/
    src/algorithms/linalg.cpp and src/core/LinearSolver.cpp.  Reals for doubles,
    matrices as functions with sizes; [stored] counts the stored entries of every
    column.  SuiteSparseQR and Eigen's JacobiSVD are parameters, the other cholmod
    functions are written out.  Simplifications: allocations do not fail, no
    pointer is null, timers and messages are left out, and the gap between
    singular values is not kept (only the exception of svGap is).  Without column
    scaling the factors are one. *)
From Coq Require Import Reals List Arith ZArith Bool.
From Verif Require Import Base BsplModel.
Import ListNotations.
Local Open Scope R_scope.

Record sparse := Sparse { nrow : nat; ncol : nat; entry : mat; stored : nat -> nat }.

(** linalg.cpp lines 42-73 and 75-106: columns or rows from the first to the
    last index, both included *)
Definition column_submatrix (A : sparse) (first last : Z) : outcome sparse :=
  if (last <? first)%Z then Throw
  else if (Z.of_nat (ncol A) <=? last)%Z then Throw
  else if (first <? 0)%Z then Throw
  else Ok (Sparse (nrow A) (Z.to_nat (last - first + 1)) (fun i c => entry A i (Z.to_nat first + c)%nat) (fun c => stored A (Z.to_nat first + c)%nat)).
Definition row_submatrix (A : sparse) (first last : Z) : outcome sparse :=
  if (last <? first)%Z then Throw
  else if (Z.of_nat (nrow A) <=? last)%Z then Throw
  else if (first <? 0)%Z then Throw
  else Ok (Sparse (Z.to_nat (last - first + 1)) (ncol A) (fun i c => entry A (Z.to_nat first + i)%nat c) (stored A)).

(** lines 108-130; the entries that are not stored are zero *)
Definition col_norm (A : sparse) (c : nat) : R := sqrt (bsum (nrow A) (fun i => entry A i c * entry A i c)).
(** lines 132-157 *)
Definition column_scaling (eps : R) (A : sparse) (c : nat) : R :=
  if Rlt_dec (col_norm A c) (sqrt (INR (nrow A) * eps)) then 0 else 1 / col_norm A c.
(** cholmod_l_scale *)
Definition scale_columns (G : vec) (A : sparse) : sparse := Sparse (nrow A) (ncol A) (fun i c => entry A i c * G c) (stored A).

(** lines 243-254 *)
Fixpoint rank_loop (sv : vec) (tol : R) (i rank : nat) : nat :=
  match i with
  | O => rank
  | S k => if Rlt_dec tol (sv i) then rank else rank_loop sv tol k (rank - 1)%nat
  end.
Definition estimate_rank (n : nat) (sv : vec) (tol : R) : nat := rank_loop sv tol (n - 1)%nat n.
(** lines 256-262 *)
Definition rank_tol (n : nat) (sv : vec) (eps : R) : outcome R :=
  if (n =? 0)%nat then Throw else Ok (sv 0%nat * eps * INR n).
(** lines 264-273; spqr_maxcolnorm *)
Fixpoint max_col_norm (A : sparse) (n : nat) : R :=
  match n with O => 0 | S k => Rmax (max_col_norm A k) (col_norm A k) end.
Definition qr_tol (A : sparse) (eps : R) : R := 20 * INR (nrow A + ncol A)%nat * eps * max_col_norm A (ncol A).

(** A numeric factorization: the number of columns of the factored matrix, the
    orthogonal matrix Q and the solution of R E' x = y *)
Record factor := Factor { f_n : nat; f_Q : mat; f_solve : vec -> vec }.

(** lines 285-334: A_r' Q with the first columns, and Omega *)
Definition transpose (A : sparse) : sparse := Sparse (ncol A) (nrow A) (fun i c => entry A c i) (fun _ => 0%nat).
Definition times_Q (F : factor) (A : sparse) : sparse :=
  Sparse (nrow A) (ncol A) (fun c i => bsum (ncol A) (fun k => entry A c k * f_Q F k i)) (fun _ => 0%nat).
Definition aat (A : sparse) : mat := fun c d => bsum (ncol A) (fun k => entry A c k * entry A d k).
Definition reduce_left (F : factor) (Art : sparse) : outcome (mat * sparse) :=
  do ArtQ <- column_submatrix (times_Q F Art) 0 (Z.of_nat (f_n F));
  Ok (fun c d => aat Art c d - aat ArtQ c d, ArtQ).
(** lines 336-405 *)
Definition column_vector (m : nat) (b : vec) : sparse := Sparse m 1 (fun i _ => b i) (fun _ => m).
Definition Q_times (F : factor) (m : nat) (b : vec) : vec := fun i => bsum m (fun k => f_Q F k i * b k).
Definition multiply (A B : sparse) : mat := fun c d => bsum (ncol A) (fun k => entry A c k * entry B k d).
Definition reduce_right (F : factor) (Art ArtQ : sparse) (m : nat) (b : vec) : outcome vec :=
  do Qtb <- row_submatrix (column_vector m (Q_times F m b)) 0 (Z.of_nat (f_n F));
  Ok (fun c => multiply Art (column_vector m b) c 0%nat - multiply ArtQ Qtb c 0%nat).
(** lines 420-442: [None] when a singular value used is zero, the result then
    has entries that are not finite *)
Definition solve_svd (n : nat) (b : vec) (U : mat) (sv : vec) (V : mat) (rank : nat) : option vec :=
  if existsb (fun k => if Req_EM_T (sv k) 0 then true else false) (seq 0 rank) then None
  else Some (fun c => bsum rank (fun k => V c k * / sv k * bsum n (fun d => U d k * b d))).
(** lines 444-501 *)
Definition solve_qr (F : factor) (m : nat) (b : vec) (Ar : sparse) (xr : vec) : vec :=
  f_solve F (Q_times F m (fun i => b i - bsum (ncol Ar) (fun c => entry Ar i c * xr c))).

(** ** LinearSolver *)
Record options := Options { scaling : bool; eps_norm : R; eps_svd : R; eps_qr : R; svd_tol : R; qr_tolerance : R }.
(** [sizes] are rows, columns and stored entries of the symbolic factorization;
    [rank] is -1 before the first analysis *)
Record state := State { sizes : option (nat * nat * nat); rank : Z; deficiency : Z; tolerance : R; nsv : nat; sv : vec; matU : mat; matV : mat }.
(** clear(), lines 559-573 *)
Definition empty : state := State None (-1) (-1) (-1) 0 (fun _ => 0) (fun _ _ => 0) (fun _ _ => 0).
Fixpoint count_stored (A : sparse) (n : nat) : nat := match n with O => 0%nat | S k => (count_stored A k + stored A k)%nat end.
(** lines 318-337 *)
Definition refresh (s : state) (A : sparse) : state :=
  let new := (nrow A, ncol A, count_stored A (ncol A)) in
  match sizes s with
  | Some (m, n, z) =>
      if (m =? nrow A)%nat && (n =? ncol A)%nat && (z =? count_stored A (ncol A))%nat then s
      else State (Some new) (rank empty) (deficiency empty) (tolerance empty) (nsv empty) (sv empty) (matU empty) (matV empty)
  | None => State (Some new) (rank s) (deficiency s) (tolerance s) (nsv s) (sv s) (matU s) (matV s)
  end.

Section Solver.
(** SuiteSparseQR_numeric: a tolerance and a matrix to its factorization *)
Variable qr : R -> sparse -> mat * (vec -> vec).
(** JacobiSVD of a square matrix *)
Variable svd : nat -> mat -> mat * vec * mat.
Variable o : options.

Definition scale_of (A : sparse) : vec := if scaling o then column_scaling (eps_norm o) A else fun _ => 1.
Definition factorize (A : sparse) : factor :=
  let t := if Req_EM_T (qr_tolerance o) (-1) then qr_tol A (eps_qr o) else qr_tolerance o in
  let '(Q, back) := qr t A in Factor (ncol A) Q back.
Definition with_svd (s : state) (n : nat) (Omega : mat) : state :=
  let '(U, D, V) := svd n Omega in State (sizes s) (rank s) (deficiency s) (tolerance s) n D U V.
(** lines 425-430: tolerance, rank and the exception of svGap *)
Definition with_rank (s : state) : outcome state :=
  do t <- (if Req_EM_T (svd_tol o) (-1) then rank_tol (nsv s) (sv s) (eps_svd o) else Ok (svd_tol o));
  let r := estimate_rank (nsv s) (sv s) t in
  if (r =? 0)%nat then Throw
  else Ok (State (sizes s) (Z.of_nat r) (Z.of_nat (nsv s) - Z.of_nat r) t (nsv s) (sv s) (matU s) (matV s)).

(** solve(), lines 295-464: the state afterwards and the step, [None] when it
    has entries that are not finite *)
Definition solve (s : state) (A : sparse) (nb : nat) (b : vec) (j : Z) : state * outcome (option vec) :=
  if negb (nrow A =? nb)%nat then (s, Throw)
  else
    match column_submatrix A 0 (j - 1) with
    | Ok Al0 =>
        let Gl := scale_of Al0 in
        let Al := scale_columns Gl Al0 in
        let s1 := refresh s Al in
        let F := factorize Al in
        match column_submatrix A j (Z.of_nat (ncol A) - 1) with
        | Ok Ar0 =>
            let Gr := scale_of Ar0 in
            let Ar := scale_columns Gr Ar0 in
            let Art := transpose Ar in
            match reduce_left F Art with
            | Ok (Omega, ArtQ) =>
                let s2 := with_svd s1 (ncol Ar) Omega in
                match reduce_right F Art ArtQ nb b with
                | Ok br =>
                    match with_rank s2 with
                    | Ok s3 =>
                        match solve_svd (ncol Ar) br (matU s3) (sv s3) (matV s3) (Z.to_nat (rank s3)) with
                        | Some xr =>
                            let xl := solve_qr F nb b Ar xr in
                            (s3, Ok (Some (fun c => if (c <? ncol Al)%nat then Gl c * xl c else Gr (c - ncol Al)%nat * xr (c - ncol Al)%nat)))
                        | None => (s3, Ok None)
                        end
                    | _ => (s2, Throw)
                    end
                | _ => (s2, Throw)
                end
            | _ => (s1, Throw)
            end
        | _ => (s1, Throw)
        end
    | _ => (s, Throw)
    end.

(** analyzeMarginal(A, j), lines 466-524: no scaling, and a rank that is already
    there is kept *)
Definition analyze_marginal (s : state) (A : sparse) (j : Z) : state * outcome unit :=
  match column_submatrix A 0 (j - 1) with
  | Ok Al =>
      let s1 := refresh s Al in
      let F := factorize Al in
      match column_submatrix A j (Z.of_nat (ncol A) - 1) with
      | Ok Ar =>
          match reduce_left F (transpose Ar) with
          | Ok (Omega, _) =>
              let s2 := with_svd s1 (ncol Ar) Omega in
              if (rank s2 =? -1)%Z then
                match with_rank s2 with Ok s3 => (s3, Ok tt) | _ => (s2, Throw) end
              else (s2, Ok tt)
          | _ => (s1, Throw)
          end
      | _ => (s1, Throw)
      end
  | _ => (s, Throw)
  end.
End Solver.

(** getNullSpace, getRowSpace and getCovariance, lines 162-188: number of rows,
    of columns and entries; an empty matrix without a rank *)
Definition has_rank (s : state) : bool := negb (rank s =? -1)%Z && (rank s <=? Z.of_nat (nsv s))%Z.
Definition null_space (s : state) : nat * nat * mat :=
  if has_rank s then (nsv s, (nsv s - Z.to_nat (rank s))%nat, fun c k => matV s c (Z.to_nat (rank s) + k)%nat) else (0%nat, 0%nat, fun _ _ => 0).
Definition row_space (s : state) : nat * nat * mat :=
  if has_rank s then (nsv s, Z.to_nat (rank s), matV s) else (0%nat, 0%nat, fun _ _ => 0).
Definition covariance (s : state) : nat * nat * mat :=
  if has_rank s
  then (nsv s, nsv s, fun c d => bsum (Z.to_nat (rank s)) (fun k => matV s c k * / sv s k * matV s d k))
  else (0%nat, 0%nat, fun _ _ => 0).
