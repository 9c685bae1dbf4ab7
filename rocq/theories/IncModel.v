(** Model of aslam_incremental_calibration's IncrementalOptimizationProblem.
    Source: /repo/aslam_incremental_calibration/aslam_incremental_calibration/
    src/core/IncrementalOptimizationProblem.cpp (line numbers below).

    Same conventions as BatchModel.v.  A batch (boost::shared_ptr<OptimizationProblem>)
    is its address and its contents; the contents are those at the time of the call, so
    the model is faithful for batches that are not changed while they are in the problem
    ([touch] models such a change).  Reference counts do not overflow; decrementing 0
    wraps as size_t does.  Indices past the end are passed on as iterators, as the code
    does. *)
From Coq Require Import ZArith List Bool Arith.
From Verif Require Import Base OMap PermuteModel BatchModel.
Import ListNotations.
Open Scope nat_scope.

Notation batch := (nat * problem)%type.
Record inc := Inc {
  probs : list batch;                    (* _optimizationProblems *)
  counts : list (nat * (Z * nat));       (* _designVariablesCounts: variable -> (count, group) *)
  igroups : list (nat * list nat);       (* _designVariables *)
  iorder : list nat;                     (* _groupsOrdering *)
  ibackup : list (nat * Z) }.            (* _designVariablesBackup *)

(** 41-42 *)
Definition empty_inc : inc := Inc [] [] [] [] [].

(** 51-53, 55-84 *)
Definition num_problems (s : inc) : nat := length (probs s).
Definition get_problem (idx : nat) (s : inc) : outcome batch :=
  match nth_error (probs s) idx with Some b => Ok b | None => Throw end.
(** 91-94 *)
Definition ihas_variable (d : nat) (s : inc) : bool := nhas d (counts s).
(** 96-103 *)
Definition ihas_term (e : nat) (s : inc) : bool := existsb (fun b => is_term e (snd b)) (probs s).
(** 110-118 *)
Definition iget_group (g : nat) (s : inc) : outcome (list nat) :=
  match nget g (igroups s) with Some l => Ok l | None => Throw end.
(** 128-130 *)
Definition inum_groups (s : inc) : nat := length (igroups s).
(** 132-150 *)
Definition iset_ordering (l : list nat) (s : inc) : inc * ending :=
  if negb (length l =? length (iorder s)) then (s, Threw)
  else if ordering_ok (igroups s) [] l
  then (Inc (probs s) (counts s) (igroups s) l (ibackup s), Returned)
  else (s, Threw).
(** 157-164 *)
Definition igroup_of (d : nat) (s : inc) : outcome nat :=
  match nget d (counts s) with Some (_, g) => Ok g | None => Throw end.
(** 166-175 *)
Definition igroup_dim (active : nat -> bool) (dim : nat -> nat) (g : nat) (s : inc) : outcome nat :=
  do l <- iget_group g s; Ok (sum_dims active dim l 0).
(** 177-180 *)
Definition ihas_group (g : nat) (s : inc) : bool := nhas g (igroups s).

(** 194-210 of add(): one design variable with its group in the batch *)
Definition count_one (d g : nat) (s : inc) : inc * ending :=
  let ord := if ihas_group g s then iorder s else iorder s ++ [g] in
  match nget d (counts s) with
  | None => (Inc (probs s) (nput d (1%Z, g) (counts s)) (push_group g d (igroups s)) ord (ibackup s), Returned)
  | Some (c, g') =>
      if g' =? g
      then (Inc (probs s) (nput d ((c + 1)%Z, g') (counts s)) (igroups s) ord (ibackup s), Returned)
      else (Inc (probs s) (counts s) (igroups s) ord (ibackup s), Threw)
  end.
Definition ending_of {A} (o : outcome A) : ending :=
  match o with Ok _ => Returned | Throw => Threw | UB => Undefined | Hang => Loops end.
(** 192-210 the loop over problem->designVariable(i) *)
Fixpoint count_in (p : problem) (todo i : nat) (s : inc) : inc * ending :=
  match todo with
  | O => (s, Returned)
  | S t =>
      match design_variable i p with
      | Ok d =>
          match group_of d p with
          | Ok g => match count_one d g s with
                    | (s', Returned) => count_in p t (S i) s'
                    | (s', e) => (s', e)
                    end
          | o => (s, ending_of o)
          end
      | o => (s, ending_of o)
      end
  end.
(** 213-219 the loop over problem->errorTerm(i) *)
Fixpoint terms_new (p : problem) (todo i : nat) (s : inc) : ending :=
  match todo with
  | O => Returned
  | S t =>
      match error_term i p with
      | Ok e => if ihas_term e s then Threw else terms_new p t (S i) s
      | o => ending_of o
      end
  end.
(** 186-223  add *)
Definition add (b : option batch) (s : inc) : inc * ending :=
  match b with
  | None => (s, Threw)
  | Some (id, p) =>
      match count_in p (num_variables p) 0 s with
      | (s1, Returned) =>
          match terms_new p (num_terms p) 0 s1 with
          | Returned => (Inc (probs s1 ++ [(id, p)]) (counts s1) (igroups s1) (iorder s1) (ibackup s1), Returned)
          | e => (s1, e)
          end
      | (s1, e) => (s1, e)
      end
  end.

(** std::find and vector::erase of what it finds; erasing end() is undefined *)
Fixpoint erase_first (x : nat) (l : list nat) : option (list nat) :=
  match l with
  | [] => None
  | y :: r => if y =? x then Some r else match erase_first x r with Some r' => Some (y :: r') | None => None end
  end.
(** --count *)
Definition dec (c : Z) : Z := if (c =? 0)%Z then UINT64_MAX else (c - 1)%Z.
(** 241-256 of remove(): one design variable.  operator[] creates missing entries
    (0, 0) and empty groups. *)
Definition uncount_one (d : nat) (s : inc) : inc * ending :=
  let '(c, g) := match nget d (counts s) with Some x => x | None => (0%Z, 0) end in
  let c' := dec c in
  if (c' =? 0)%Z then
    let cs := ndel d (counts s) in
    match erase_first d (match nget g (igroups s) with Some l => l | None => [] end) with
    | None => (s, Undefined)
    | Some [] =>
        match erase_first g (iorder s) with
        | None => (s, Undefined)
        | Some ord => (Inc (probs s) cs (ndel g (igroups s)) ord (ndel d (ibackup s)), Returned)
        end
    | Some l => (Inc (probs s) cs (nput g l (igroups s)) (iorder s) (ndel d (ibackup s)), Returned)
    end
  else (Inc (probs s) (nput d (c', g) (counts s)) (igroups s) (iorder s) (ibackup s), Returned).
(** 239-257 *)
Fixpoint uncount_in (p : problem) (todo i : nat) (s : inc) : inc * ending :=
  match todo with
  | O => (s, Returned)
  | S t =>
      match design_variable i p with
      | Ok d => match uncount_one d s with
                | (s', Returned) => uncount_in p t (S i) s'
                | (s', e) => (s', e)
                end
      | o => (s, ending_of o)
      end
  end.
(** vector::erase(begin() + idx) *)
Fixpoint erase_at {A} (i : nat) (l : list A) : list A :=
  match l, i with
  | [], _ => []
  | _ :: r, O => r
  | y :: r, S j => y :: erase_at j r
  end.
(** 225-266  remove(iterator), remove(idx) *)
Definition remove (idx : nat) (s : inc) : inc * ending :=
  match nth_error (probs s) idx with
  | None => (s, Threw)
  | Some (_, p) =>
      match uncount_in p (num_variables p) 0 s with
      | (s1, Returned) => (Inc (erase_at idx (probs s1)) (counts s1) (igroups s1) (iorder s1) (ibackup s1), Returned)
      | (s1, e) => (s1, e)
      end
  end.
(** 388-403  remove(problem): the first batch with that address *)
Fixpoint find_batch (id : nat) (l : list batch) : option nat :=
  match l with
  | [] => None
  | (i, _) :: r => if i =? id then Some 0 else match find_batch id r with Some k => Some (S k) | None => None end
  end.
Definition remove_batch (id : nat) (s : inc) : inc * ending :=
  match find_batch id (probs s) with Some k => remove k s | None => (s, Threw) end.

(** 268-273: the backup is not cleared *)
Definition iclear (s : inc) : inc := Inc [] [] [] [] (ibackup s).

(** 275-278, 280-295, 343-363 *)
Definition inum_variables (s : inc) : nat := length (counts s).
Definition idesign_variable (idx : nat) (s : inc) : outcome nat :=
  variable_at (igroups s) (iorder s) (inum_variables s) idx.
(** 297-304 *)
Definition inum_terms (s : inc) : nat := fold_left (fun n b => n + num_terms (snd b)) (probs s) 0.
(** 370-386 of getErrorIdx *)
Fixpoint locate_batch (l : list batch) (k idx running : nat) : outcome (nat * nat) :=
  match l with
  | [] => Throw
  | b :: r =>
      if idx <? running + num_terms (snd b) then Ok (k, idx - running)
      else locate_batch r (S k) idx (running + num_terms (snd b))
  end.
(** 306-320 *)
Definition ierror_term (idx : nat) (s : inc) : outcome nat :=
  do '(k, i) <- locate_batch (probs s) 0 idx 0;
  match nth_error (probs s) k with Some b => error_term i (snd b) | None => Throw end.

(** 329-332 *)
Definition permute_problems (perm : list nat) (s : inc) : inc * ending :=
  match permute (probs s) perm with
  | Done l => (Inc l (counts s) (igroups s) (iorder s) (ibackup s), Returned)
  | Thrown l => (Inc l (counts s) (igroups s) (iorder s) (ibackup s), Threw)
  | PermuteModel.Loops => (s, Loops)
  end.
(** 334-341 *)
Definition ipermute_variables (perm : list nat) (g : nat) (s : inc) : inc * ending :=
  match nget g (igroups s) with
  | None => (s, Threw)
  | Some l =>
      match permute l perm with
      | Done l' => (Inc (probs s) (counts s) (nput g l' (igroups s)) (iorder s) (ibackup s), Returned)
      | Thrown l' => (Inc (probs s) (counts s) (nput g l' (igroups s)) (iorder s) (ibackup s), Threw)
      | PermuteModel.Loops => (s, Loops)
      end
  end.
(** 415-426 *)
Definition isave (w : world) (s : inc) : inc :=
  Inc (probs s) (counts s) (igroups s) (iorder s) (save_all (map fst (counts s)) w (ibackup s)).
Definition irestore (s : inc) (w : world) : world := restore_all (ibackup s) w.

Inductive iop :=
| IAdd (b : option batch)
| IRemove (idx : nat)
| IRemoveBatch (id : nat)
| ISetOrdering (l : list nat)
| IPermuteProblems (perm : list nat)
| IPermuteVariables (perm : list nat) (g : nat)
| ISave | IRestore | IClear
| ISetParameters (d : nat) (v : Z).

Definition istep (s : inc * world) (o : iop) : (inc * world) * ending :=
  let '(p, w) := s in
  match o with
  | IAdd b => let '(p', e) := add b p in ((p', w), e)
  | IRemove i => let '(p', e) := remove i p in ((p', w), e)
  | IRemoveBatch id => let '(p', e) := remove_batch id p in ((p', w), e)
  | ISetOrdering l => let '(p', e) := iset_ordering l p in ((p', w), e)
  | IPermuteProblems perm => let '(p', e) := permute_problems perm p in ((p', w), e)
  | IPermuteVariables perm g => let '(p', e) := ipermute_variables perm g p in ((p', w), e)
  | ISave => ((isave w p, w), Returned)
  | IRestore => ((p, irestore p w), Returned)
  | IClear => ((iclear p, w), Returned)
  | ISetParameters d v => ((p, fun x => if x =? d then v else w x), Returned)
  end.

(** The owner of the batch at position k changes its contents. *)
Definition touch (k : nat) (p : problem) (s : inc) : inc :=
  match nth_error (probs s) k with
  | Some (id, _) => Inc (upd (probs s) k (id, p)) (counts s) (igroups s) (iorder s) (ibackup s)
  | None => s
  end.
