(** Model of aslam_incremental_calibration's OptimizationProblem ("batch").
    Source: /repo/aslam_incremental_calibration/aslam_incremental_calibration/
    src/core/OptimizationProblem.cpp (line numbers below).

    Pointers are natural numbers and a null shared pointer is [None].  std::unordered_map
    and unordered_set are association lists kept sorted by key (their iteration order is
    never observable here).  The values of the design variables live outside the problem
    in [world]; a parameter matrix is an opaque integer.  [uses e] are the design
    variables of error term [e] (ErrorTerm::designVariable, external, fixed). *)
From Coq Require Import ZArith List Bool Arith.
From Verif Require Import Base OMap PermuteModel.
Import ListNotations.
Open Scope nat_scope.

Notation nget := (mget Nat.compare).
Notation nput := (mput Nat.compare).
Notation ndel := (mdel Nat.compare).
Notation nhas := (mhas Nat.compare).

Record problem := Prob {
  lookup : list (nat * nat);          (* _designVariablesLookup: variable -> group *)
  term_lookup : list (nat * unit);    (* _errorTermsLookup *)
  groups : list (nat * list nat);     (* _designVariables: group -> variables *)
  terms : list nat;                   (* _errorTerms *)
  order : list nat;                   (* _groupsOrdering *)
  backup : list (nat * Z) }.          (* _designVariablesBackup *)

Definition world := nat -> Z.

Inductive ending := Returned | Threw | Loops | Undefined.

(** 38-39 *)
Definition empty_problem : problem := Prob [] [] [] [] [] [].

(** 115-117, 139-142, 163-166 *)
Definition is_group (g : nat) (p : problem) : bool := nhas g (groups p).
Definition is_variable (d : nat) (p : problem) : bool := nhas d (lookup p).
Definition is_term (e : nat) (p : problem) : bool := nhas e (term_lookup p).

(** 53-60  getDesignVariablesGroup *)
Definition get_group (g : nat) (p : problem) : outcome (list nat) :=
  match nget g (groups p) with Some l => Ok l | None => Throw end.

(** 67-69 *)
Definition num_groups (p : problem) : nat := length (order p).

(** 71-89 (the loop of setGroupsOrdering; [seen] is groupsLookup).  The same code is in
    IncrementalOptimizationProblem.cpp:132-150. *)
Fixpoint ordering_ok (gs : list (nat * list nat)) (seen l : list nat) : bool :=
  match l with
  | [] => true
  | g :: r =>
      if negb (nhas g gs) then false
      else if existsb (Nat.eqb g) seen then false
      else ordering_ok gs (g :: seen) r
  end.
Definition set_ordering (l : list nat) (p : problem) : problem * ending :=
  if negb (length l =? length (order p)) then (p, Threw)
  else if ordering_ok (groups p) [] l
  then (Prob (lookup p) (term_lookup p) (groups p) (terms p) l (backup p), Returned)
  else (p, Threw).

(** 95-102  getGroupId(designVariable) *)
Definition group_of (d : nat) (p : problem) : outcome nat :=
  match nget d (lookup p) with Some g => Ok g | None => Throw end.

(** 104-113  getGroupDim; [active] and [dim] are DesignVariable::isActive and
    minimalDimensions (external) *)
Fixpoint sum_dims (active : nat -> bool) (dim : nat -> nat) (l : list nat) (acc : nat) : nat :=
  match l with
  | [] => acc
  | d :: r => sum_dims active dim r (if active d then acc + dim d else acc)
  end.
Definition group_dim (active : nat -> bool) (dim : nat -> nat) (g : nat) (p : problem) : outcome nat :=
  do l <- get_group g p; Ok (sum_dims active dim l 0).

(** 123-137  addDesignVariable; [_designVariables[groupId].push_back] creates the
    group when missing *)
Definition push_group (g d : nat) (gs : list (nat * list nat)) : list (nat * list nat) :=
  nput g (match nget g gs with Some l => l ++ [d] | None => [d] end) gs.
Definition add_variable (d : option nat) (g : nat) (p : problem) : problem * ending :=
  match d with
  | None => (p, Threw)
  | Some d =>
      if is_variable d p then (p, Threw)
      else
        (Prob (nput d g (lookup p)) (term_lookup p) (push_group g d (groups p)) (terms p)
              (if is_group g p then order p else order p ++ [g]) (backup p), Returned)
  end.

(** 144-161  addErrorTerm *)
Definition add_term (uses : nat -> list nat) (e : option nat) (p : problem) : problem * ending :=
  match e with
  | None => (p, Threw)
  | Some e =>
      if is_term e p then (p, Threw)
      else if forallb (fun d => is_variable d p) (uses e)
      then (Prob (lookup p) (nput e tt (term_lookup p)) (groups p) (terms p ++ [e]) (order p) (backup p), Returned)
      else (p, Threw)
  end.

(** 168-175 *)
Definition clear (p : problem) : problem := empty_problem.

(** 177-179, 195-198 *)
Definition num_variables (p : problem) : nat := length (lookup p).
Definition num_terms (p : problem) : nat := length (term_lookup p).

(** 243-257 (the loop of getGroupId(idx, ...)); if no group is found the group is 0.
    std::unordered_map::at throws.  The same code is in
    IncrementalOptimizationProblem.cpp:348-362. *)
Fixpoint locate (gs : list (nat * list nat)) (ord : list nat) (idx running : nat) : outcome (nat * nat) :=
  match ord with
  | [] => Ok (0, idx - running)
  | g :: r =>
      match nget g gs with
      | None => Throw
      | Some l => if idx <? running + length l then Ok (g, idx - running) else locate gs r idx (running + length l)
      end
  end.
(** 181-193, 238-258  designVariable(idx); operator[] out of range is undefined *)
Definition variable_at (gs : list (nat * list nat)) (ord : list nat) (n idx : nat) : outcome nat :=
  if n <=? idx then Throw
  else
    do '(g, k) <- locate gs ord idx 0;
    match nget g gs with
    | None => Throw
    | Some l => match nth_error l k with Some d => Ok d | None => UB end
    end.
Definition design_variable (idx : nat) (p : problem) : outcome nat :=
  variable_at (groups p) (order p) (num_variables p) idx.
(** 200-216  errorTerm(idx) *)
Definition error_term (idx : nat) (p : problem) : outcome nat :=
  if length (terms p) <=? idx then Throw
  else match nth_error (terms p) idx with Some e => Ok e | None => UB end.

(** 224-227 *)
Definition permute_terms (perm : list nat) (p : problem) : problem * ending :=
  match permute (terms p) perm with
  | Done l => (Prob (lookup p) (term_lookup p) (groups p) l (order p) (backup p), Returned)
  | Thrown l => (Prob (lookup p) (term_lookup p) (groups p) l (order p) (backup p), Threw)
  | PermuteModel.Loops => (p, Loops)
  end.
(** 229-236 *)
Definition permute_variables (perm : list nat) (g : nat) (p : problem) : problem * ending :=
  match nget g (groups p) with
  | None => (p, Threw)
  | Some l =>
      match permute l perm with
      | Done l' => (Prob (lookup p) (term_lookup p) (nput g l' (groups p)) (terms p) (order p) (backup p), Returned)
      | Thrown l' => (Prob (lookup p) (term_lookup p) (nput g l' (groups p)) (terms p) (order p) (backup p), Threw)
      | PermuteModel.Loops => (p, Loops)
      end
  end.

(** 260-265  saveDesignVariables: the loop over the lookup table *)
Definition save_all (keys : list nat) (w : world) (b : list (nat * Z)) : list (nat * Z) :=
  fold_left (fun b d => nput d (w d) b) keys b.
Definition save (w : world) (p : problem) : problem :=
  Prob (lookup p) (term_lookup p) (groups p) (terms p) (order p) (save_all (map fst (lookup p)) w (backup p)).
(** 267-271  restoreDesignVariables *)
Definition restore_all (b : list (nat * Z)) (w : world) : world :=
  fold_left (fun w e => fun d => if d =? fst e then snd e else w d) b w.
Definition restore (p : problem) (w : world) : world := restore_all (backup p) w.

(** Calls on a batch, and changes of parameters by others. *)
Inductive op :=
| AddVariable (d : option nat) (g : nat)
| AddTerm (e : option nat)
| SetOrdering (l : list nat)
| PermuteTerms (perm : list nat)
| PermuteVariables (perm : list nat) (g : nat)
| Save | Restore | Clear
| SetParameters (d : nat) (v : Z).

Definition step (uses : nat -> list nat) (s : problem * world) (o : op) : (problem * world) * ending :=
  let '(p, w) := s in
  match o with
  | AddVariable d g => let '(p', e) := add_variable d g p in ((p', w), e)
  | AddTerm t => let '(p', e) := add_term uses t p in ((p', w), e)
  | SetOrdering l => let '(p', e) := set_ordering l p in ((p', w), e)
  | PermuteTerms perm => let '(p', e) := permute_terms perm p in ((p', w), e)
  | PermuteVariables perm g => let '(p', e) := permute_variables perm g p in ((p', w), e)
  | Save => ((save w p, w), Returned)
  | Restore => ((p, restore p w), Returned)
  | Clear => ((clear p, w), Returned)
  | SetParameters d v => ((p, fun x => if x =? d then v else w x), Returned)
  end.
(** A history; a call that never returns leaves the rest undone. *)
Definition run (uses : nat -> list nat) (w0 : world) (h : list op) : problem * world :=
  fold_left (fun s o => fst (step uses s o)) h (empty_problem, w0).
