(** * The Levenberg-Marquardt loop of the first optimizer

    /repo/aslam_optimizer/aslam_backend/src/Optimizer.cpp, optimize() and setInitialLambda().

    The state of all design variables is an abstract value with its cost.  What building,
    reducing and solving the linear system gives in iteration [i] from a state and a damping
    is an oracle: [None] if the solver fails, otherwise the state the step leads to, the size
    of the step and the predicted decrease of getLmRho.  Simplifications: real arithmetic;
    every active design variable takes part in updates and reverts. *)
From Coq Require Import Reals ZArith List Bool.
From Verif Require Import Base.
Import ListNotations.
Local Open Scope R_scope.

Record options := Options {
  max_iterations : nat; delta_x : R; delta_j : R; do_lm : bool;
  lambda_init : R; gamma : R; beta : R; power : nat; mu_init : R
}.
Section Loop.
Variable X : Type.
Variable cost : X -> R.
Variable solve : nat -> X -> R -> option (X * R * R).
Variable o : options.

Record run := Run {
  now : X;                    (* the design variables *)
  saved : X;                  (* what revertUpdate restores *)
  j : R;                      (* _J *)
  best_j : R;                 (* _p_J *)
  lambda : R;
  mu : R;
  last_dx : R;
  last_dj : R;
  regressed : bool;           (* isLmRegression *)
  iterations : nat;
  failed : nat                (* failedIterations *)
}.
(** Optimizer.cpp 464-486; [kept] is what the variables would revert to. *)
Definition start (x kept : X) : run :=
  Run x kept (cost x) (cost x) 0 (mu_init o) (delta_x o + 1) (delta_j o + 1) false 0 0.
(** The condition of the loop: Optimizer.cpp 488-490. *)
Definition goes_on (s : run) : bool :=
  (iterations s <? max_iterations o)%nat &&
  (if Rlt_dec (delta_x o) (last_dx s) then true else false) &&
  (if Rlt_dec (delta_j o) (Rabs (last_dj s)) then true else false).
(** setInitialLambda without estimation: Optimizer.cpp 135-141. *)
Definition initial_lambda (l : R) : R := if Req_EM_T l 0 then lambda_init o else l.
(** The last lines of the loop: Optimizer.cpp 563-565. *)
Definition count (s : run) : run :=
  Run (now s) (saved s) (j s) (if Rlt_dec (j s) (best_j s) then j s else best_j s)
      (lambda s) (mu s) (last_dx s) (last_dj s) (regressed s) (S (iterations s)) (failed s).
(** revertLastStateUpdate and a larger damping: Optimizer.cpp 512-523 and 537-545. *)
Definition back (s : run) : run :=
  Run (saved s) (saved s) (j s) (best_j s) (lambda s * mu s) (mu s * 2) (last_dx s) (last_dj s) true (iterations s) (S (failed s)).
(** The new damping after a good step: Optimizer.cpp 547-560. *)
Definition relax (rho : R) (s : run) : run :=
  if Rlt_dec (/ 10 ^ 16) (lambda s) then
    let u1 := 1 / gamma o in
    let u2 := 1 - (beta o - 1) * (2 * rho - 1) ^ power o in
    Run (now s) (saved s) (j s) (best_j s) (lambda s * (if Rlt_dec u2 u1 then u1 else u2)) (beta o) (last_dx s) (last_dj s) false (iterations s) (failed s)
  else
    Run (now s) (saved s) (j s) (best_j s) (/ 10 ^ 15) (mu s) (last_dx s) (last_dj s) false (iterations s) (failed s).
(** One iteration: Optimizer.cpp 491-566. *)
Definition iterate (s : run) : run :=
  let l := if regressed s then lambda s else initial_lambda (lambda s) in
  let s := Run (now s) (saved s) (j s) (best_j s) l (mu s) (last_dx s) (last_dj s) (regressed s) (iterations s) (failed s) in
  match solve (iterations s) (now s) l with
  | None => count (back s)
  | Some (x, dx, predicted) =>
      let s := Run x (now s) (cost x) (best_j s) l (mu s) dx (best_j s - cost x) (regressed s) (iterations s) (failed s) in
      if do_lm o then
        let rho := (best_j s - j s) / predicted in
        count (if Rle_dec rho 0 then back s else relax rho s)
      else count s
  end.
Fixpoint loop (fuel : nat) (s : run) : run :=
  match fuel with
  | O => s
  | S fuel => if goes_on s then loop fuel (iterate s) else s
  end.
(** optimize(): there are at most maxIterations iterations. *)
Definition optimize (x kept : X) : run := loop (max_iterations o) (start x kept).
(** srv.JFinal: Optimizer.cpp 568. *)
Definition j_final (s : run) : R := j s.
End Loop.
Arguments now {X}. Arguments saved {X}. Arguments j {X}. Arguments best_j {X}. Arguments lambda {X}. Arguments mu {X}.
Arguments last_dx {X}. Arguments last_dj {X}. Arguments regressed {X}. Arguments iterations {X}. Arguments failed {X}.
Arguments goes_on {X}. Arguments j_final {X}. Arguments iterate {X}. Arguments optimize {X}. Arguments start {X}. Arguments loop {X}. Arguments Run {X}.
Arguments back {X}. Arguments relax {X}. Arguments count {X}.

(** The estimate of setInitialLambda, Optimizer.cpp 142-156: the diagonal blocks, missing or a
    list of rows; [i] is the index of the block. *)
Definition entry (H : list (list R)) (r c : nat) : option R :=
  match nth_error H r with Some row => nth_error row c | None => None end.
Fixpoint scan_block (H : list (list R)) (i k : nat) (n : nat) (maximum : R) : outcome R :=
  match n with
  | O => Ok maximum
  | S n =>
      match entry H k k with
      | None => UB
      | Some d =>
          if Rlt_dec maximum (Rabs d) then
            match entry H i k with Some v => scan_block H i (S k) n (Rabs v) | None => UB end
          else scan_block H i (S k) n maximum
      end
  end.
Fixpoint scan_blocks (bs : list (option (list (list R)))) (i : nat) (maximum : R) : outcome R :=
  match bs with
  | [] => Ok maximum
  | None :: bs => scan_blocks bs (S i) maximum
  | Some H :: bs => obind (scan_block H i 0 (length H) maximum) (fun m => scan_blocks bs (S i) m)
  end.
Definition estimate_lambda (scale : R) (bs : list (option (list (list R)))) : outcome R :=
  obind (scan_blocks bs 0 0) (fun m => Ok (m * scale)).
