(** Model of the multi-threaded evaluation of error terms.
      /repo/aslam_optimizer/aslam_backend/src/LinearSystemSolver.cpp
      /repo/aslam_optimizer/aslam_backend/include/aslam_backend/backend/implementation/
        CompressedColumnJacobianTransposeBuilder.hpp
      /repo/aslam_optimizer/aslam_backend/src/Optimizer2.cpp *)
From Coq Require Import ZArith List Bool.
From Verif Require Import Base Arith OMap JacModel CcmModel.
Import ListNotations.
Open Scope Z_scope.

(** ** Sharing out the error terms. *)

(** LinearSystemSolver.cpp 59-60: cumulative sums of int. *)
Fixpoint cumulate (k : nat) (from step : Z) : outcome (list Z) :=
  match k with
  | O => Ok [from]
  | S k => do nxt <- ret_i32 (from + step);
           do r <- cumulate k nxt step; Ok (from :: r)
  end.

Fixpoint pairs (l : list Z) : list (Z * Z) :=
  match l with
  | a :: r => match r with b :: _ => (a, b) :: pairs r | [] => [] end
  | [] => []
  end.

(** LinearSystemSolver.cpp 50-68 and the builder's copy, lines 57-76: the index
    range given to each thread.  [n] is the number of error terms. *)
Definition ranges (nThreads n : Z) : outcome (list (Z * Z)) :=
  if nThreads <=? 1 then Ok [(0, n)]
  else
    let k := Z.min nThreads n in
    if k =? 0 then UB
    else
      let per := Z.max 1 (cast_i32 (n / k)) in
      do idx <- cumulate (Z.to_nat k) 0 per;
      Ok (pairs (removelast idx ++ [cast_i32 n])).

(** The indices a job visits: [for (i = startIdx; i < endIdx; ++i)]. *)
Definition visits (r : Z * Z) : list nat :=
  seq (Z.to_nat (fst r)) (Z.to_nat (snd r - fst r)).

(** ** Evaluating the errors. *)
Section Eval.
Variable A : Arith.
Notation num := (num A).
(** unary minus *)
Variable opp : num -> num.
(** What error term [i] does: its dimension, evaluateError() and
    getWeightedError(); [None] when the call throws. *)
Variable dim : nat -> nat.
Variable err : nat -> option num.
Variable werr : nat -> option (list num).

(** Optimizer2.cpp 129-135: row bases are running sums of the dimensions. *)
Definition row (i : nat) : nat := list_sum (map dim (seq 0 i)).

(** The memory the jobs share: the per-thread sums, the stacked error vector,
    and the threads that ended by an exception. *)
Record shared := Shared { locals : list num; evec : list num; dead : list nat }.

(** LinearSystemSolver.cpp 12-23, one round of the loop in thread [t] for error
    term [i]; a thread that threw does nothing more (37-47).  A weighted error
    of another size than the segment is undefined behaviour in Eigen. *)
Definition visit (s : shared) (ti : nat * nat) : outcome shared :=
  let '(t, i) := ti in
  if existsb (Nat.eqb t) (dead s) then Ok s
  else
    match err i with
    | None => Ok (Shared (locals s) (evec s) (t :: dead s))
    | Some x =>
        do old <- load (locals s) t;
        do ls <- store t (add A old x) (locals s);
        match werr i with
        | None => Ok (Shared ls (evec s) (t :: dead s))
        | Some w =>
            if Nat.eqb (length w) (dim i) then
              do ev <- stores (combine (seq (row i) (length w)) (map opp w)) (evec s);
              Ok (Shared ls ev (dead s))
            else UB
        end
    end.

(** Executing the rounds in the order in which the scheduler ran them. *)
Definition execute (sched : list (nat * nat)) (s : shared) : outcome shared :=
  fold_left (fun o ti => do s <- o; visit s ti) sched (Ok s).

(** 82-93 with 50-79: the sum over the threads, or an exception when a job
    ended with one.  [sched] is the order of the rounds, [e] the error vector
    before the call.  With one thread the exception leaves directly. *)
Definition evaluate_error (nThreads n : Z) (sched : list (nat * nat)) (e : list num)
  : outcome (num * list num) :=
  let nt := Z.max 1 nThreads in
  do rs <- ranges nt n;
  do s <- execute sched (Shared (repeat (of_Z A 0) (Z.to_nat nt)) e []);
  match dead s with
  | [] => Ok (fold_left (add A) (locals s) (of_Z A 0), evec s)
  | _ => Throw
  end.
End Eval.
Arguments Shared {A}. Arguments locals {A}. Arguments evec {A}. Arguments dead {A}.

(** ** Numbering (Optimizer2.cpp 108-123). *)
Record rawdv := RawDv { rptr : nat; rdim : nat; ractive : bool }.
Fixpoint number_from (i : Z) (l : list rawdv) : list dvref :=
  match l with
  | [] => []
  | d :: r => DvRef (rptr d) i (rdim d) true :: number_from (i + 1) r
  end.
Definition number (l : list rawdv) : list dvref := number_from 0 (filter ractive l).
(** the column base of the block with a given index *)
Definition column_base (l : list rawdv) (d : dvref) : nat :=
  fold_left (fun s x => (s + rdim x)%nat)
    (firstn (Z.to_nat (block d)) (filter ractive l)) O.
