(** Model of aslam_incremental_calibration's IncrementalEstimator.
    Source: /repo/aslam_incremental_calibration/aslam_incremental_calibration/
    src/core/IncrementalEstimator.cpp (line numbers below).

    The optimizer and the linear solver are external: each call carries what they do
    ([answer]): new values for the design variables (those outside the problem are not
    touched), iterations, costs, rank and log2 sum of singular values, or that they
    throw.  Doubles are IEEE binary64 (Coq.Floats.SpecFloat).  The matrices, tolerances,
    memory and flop counters that are stored together with the rank are one opaque value
    [rest].  restoreLinearSolver (507-537) rebuilds the solver's matrices and the
    variables' column indices, none of which is modelled; it is taken not to throw.
    Elapsed times and the warning on stderr are left out. *)
From Coq Require Import ZArith List Bool Arith.
From Coq Require Import Floats.SpecFloat.
From Verif Require Import Base OMap PermuteModel BatchModel IncModel.
Import ListNotations.
Open Scope nat_scope.

Definition fsub : spec_float -> spec_float -> spec_float := SFsub 53 1024.
Definition fmul : spec_float -> spec_float -> spec_float := SFmul 53 1024.
Definition fhalf : spec_float := S754_finite false 4503599627370496 (-53).
Definition fzero : spec_float := S754_zero false.

(** IncrementalEstimator::Options and Optimizer2Options::maxIterations *)
Record opts := Opts { delta : spec_float; check_validity : bool; max_iterations : Z }.

(** What optimize() and analyzeMarginal() leave behind *)
Record report := Report {
  r_values : world; iterations : Z; j_start : spec_float; j_final : spec_float;
  r_rank : Z; r_log2sum : spec_float; r_rest : Z }.
Inductive answer := Optimized (r : report) | Fails (values : world).

Record stats := Stats {
  gain : spec_float;        (* _informationGain *)
  log2sum : spec_float;     (* _svLog2Sum *)
  rank : Z;                 (* _rankTheta *)
  cost_start : spec_float;  (* _initialCost *)
  cost_final : spec_float;  (* _finalCost *)
  rest : Z }.
Record est := Est { prob : inc; vals : world; stat : stats }.

(** 45-63 *)
Definition empty_est (w : world) : est := Est empty_inc w (Stats fzero fzero (-1) fzero fzero 0).

(** 486-505  orderMarginalizedDesignVariables: exchange the group with the last one *)
Fixpoint index_of (x : nat) (l : list nat) : option nat :=
  match l with
  | [] => None
  | y :: r => if y =? x then Some 0 else match index_of x r with Some k => Some (S k) | None => None end
  end.
Definition swap_to_back (k m : nat) (ord : list nat) : list nat :=
  let b := last ord 0 in upd (upd ord k b) (length ord - 1) m.
Definition order_marginalized (m : nat) (s : inc) : inc * ending :=
  match index_of m (iorder s) with
  | None => (s, Threw)
  | Some k => if m =? last (iorder s) 0 then (s, Returned) else iset_ordering (swap_to_back k m (iorder s)) s
  end.

(** 259-266, 352-359  the index handed to the linear solver *)
Fixpoint total_dim (active : nat -> bool) (dim : nat -> nat) (ord : list nat) (s : inc) (acc : nat) : outcome nat :=
  match ord with
  | [] => Ok acc
  | g :: r => do n <- igroup_dim active dim g s; total_dim active dim r s (acc + n)
  end.
Definition marg_start (active : nat -> bool) (dim : nat -> nat) (m : nat) (s : inc) : outcome nat :=
  do cols <- total_dim active dim (iorder s) s 0;
  do n <- igroup_dim active dim m s;
  Ok (cols - n).

(** The optimizer changes only design variables of the problem. *)
Definition updated (s : inc) (w new : world) : world := fun d => if ihas_variable d s then new d else w d.

(** 252-335  reoptimize *)
Definition reoptimize (m : nat) (a : answer) (e : est) : est * ending :=
  match order_marginalized m (prob e) with
  | (p, Returned) =>
      match a with
      | Fails v => (Est p (updated p (vals e) v) (stat e), Threw)
      | Optimized r =>
          (Est p (updated p (vals e) (r_values r))
             (Stats fzero (r_log2sum r) (r_rank r) (j_start r) (j_final r) (r_rest r)), Returned)
      end
  | (p, x) => (Est p (vals e) (stat e), x)
  end.

Record verdict := Verdict { accepted : bool; info_gain : spec_float }.
(** 408-424 *)
Definition keep (o : opts) (force : bool) (st : stats) (r : report) : bool :=
  let valid := negb (check_validity o && ((iterations r =? max_iterations o)%Z || SFleb (j_start r) (j_final r))) in
  let g := fmul fhalf (fsub (r_log2sum r) (log2sum st)) in
  (((SFltb (delta o) g || (rank st <? r_rank r)%Z) && valid) || force).
(** 337-470  addBatch *)
Definition add_batch (m : nat) (o : opts) (force : bool) (b : option batch) (a : answer) (e : est) : est * ending * option verdict :=
  match add b (prob e) with
  | (p1, Returned) =>
      match order_marginalized m p1 with
      | (p2, Returned) =>
          let p3 := if force then p2 else isave (vals e) p2 in
          match a with
          | Fails v => (Est p3 (updated p3 (vals e) v) (stat e), Threw, None)
          | Optimized r =>
              let w := updated p3 (vals e) (r_values r) in
              let g := fmul fhalf (fsub (r_log2sum r) (log2sum (stat e))) in
              if keep o force (stat e) r
              then (Est p3 w (Stats g (r_log2sum r) (r_rank r) (j_start r) (j_final r) (r_rest r)), Returned, Some (Verdict true g))
              else
                let w' := irestore p3 w in
                match b with
                | None => (e, Threw, None)
                | Some (id, _) =>
                    match remove_batch id p3 with
                    | (p4, Returned) => (Est p4 w' (stat e), Returned, Some (Verdict false g))
                    | (p4, x) => (Est p4 w' (stat e), x, None)
                    end
                end
          end
      | (p2, x) => (Est p2 (vals e) (stat e), x, None)
      end
  | (p1, x) => (Est p1 (vals e) (stat e), x, None)
  end.

(** 472-478  removeBatch(idx) *)
Definition remove_at (m idx : nat) (a : answer) (e : est) : est * ending :=
  match remove idx (prob e) with
  | (p, Returned) => reoptimize m a (Est p (vals e) (stat e))
  | (p, x) => (Est p (vals e) (stat e), x)
  end.
(** 480-484  removeBatch(batch): unknown batches are ignored *)
Definition remove_known (m id : nat) (a : answer) (e : est) : est * ending :=
  match find_batch id (probs (prob e)) with
  | Some k => remove_at m k a e
  | None => (e, Returned)
  end.

(** Calls from outside; [ESet] is somebody changing a design variable. *)
Inductive eop :=
| EAdd (o : opts) (force : bool) (b : option batch) (a : answer)
| ERemove (idx : nat) (a : answer)
| ERemoveBatch (id : nat) (a : answer)
| EReoptimize (a : answer)
| ESet (d : nat) (v : Z).
Definition estep (m : nat) (e : est) (o : eop) : est * ending * option verdict :=
  match o with
  | EAdd o f b a => add_batch m o f b a e
  | ERemove i a => (remove_at m i a e, None)
  | ERemoveBatch id a => (remove_known m id a e, None)
  | EReoptimize a => (reoptimize m a e, None)
  | ESet d v => (Est (prob e) (fun x => if x =? d then v else vals e x) (stat e), Returned, None)
  end.
