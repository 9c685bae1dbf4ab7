(** * Setting up the first optimizer and moving its variables

    Models Optimizer::initialize and Optimizer::applyStateUpdate of
    aslam_optimizer/aslam_backend/src/Optimizer.cpp (lines 65-123 and 609-638).
    Design variables are known by their position in the problem.  Which error
    terms the problem reports for a variable (getErrors) is a parameter, and a
    [std::set] of terms is a list without repetition, its order being of no
    account.  Real numbers; the matrices that initialize also sizes are left out
    except for the row offsets; timers and messages are left out. *)
From Coq Require Import Reals List Arith Bool.
Import ListNotations.

Record dvar := mkDv { active : bool; marginalized : bool; dim : nat; scaling : R }.

(** Lines 72-81: the kept and the marginalized variables, in the problem's order. *)
Fixpoint sort_out (schur : bool) (i : nat) (l : list dvar) (kept gone : list nat) : list nat * list nat :=
  match l with
  | [] => (kept, gone)
  | v :: r =>
      if active v then
        if marginalized v && schur then sort_out schur (S i) r kept (gone ++ [i])
        else sort_out schur (S i) r (kept ++ [i]) gone
      else sort_out schur (S i) r kept gone
  end.

(** Lines 86-95: setBlockIndex of the listed variables, from [k] on. *)
Fixpoint number (k : nat) (l : list nat) (index : nat -> nat) : nat -> nat :=
  match l with
  | [] => index
  | i :: r => number (S k) r (fun j => if Nat.eqb j i then k else index j)
  end.

Definition dim_of (p : list dvar) (i : nat) : nat :=
  match nth_error p i with Some v => dim v | None => 0 end.
Definition scaling_of (p : list dvar) (i : nat) : R :=
  match nth_error p i with Some v => scaling v | None => 1%R end.

(** Line 108: [std::partial_sum]. *)
Fixpoint partial_sum (a : nat) (l : list nat) : list nat :=
  match l with
  | [] => []
  | x :: r => (a + x) :: partial_sum (a + x) r
  end.

(** Lines 99-102. *)
Definition insert (t : nat) (l : list nat) : list nat :=
  if existsb (Nat.eqb t) l then l else l ++ [t].
Fixpoint collect (errors : nat -> list nat) (vs : list nat) (l : list nat) : list nat :=
  match vs with
  | [] => l
  | i :: r => collect errors r (fold_left (fun s t => insert t s) (errors i) l)
  end.

(** [_designVariables], [_marginalizedStartingBlock], the block indices of all
    variables of the problem, the ends of the blocks and [_errorTerms]. *)
Record setup := mkSetup { order : list nat; start : nat; index : nat -> nat;
                          ends : list nat; terms : list nat }.

(** Optimizer::initialize; [None] is the exception of line 82. *)
Definition initialize (schur : bool) (errors : nat -> list nat) (p : list dvar) (old : nat -> nat) : option setup :=
  let '(kept, gone) := sort_out schur 0 p [] [] in
  match kept with
  | [] => None
  | _ =>
      let vs := kept ++ gone in
      Some (mkSetup vs (length kept)
              (number (length kept) gone (number 0 kept old))
              (partial_sum 0 (map (dim_of p) vs))
              (collect errors vs []))
  end.

(** SparseBlockMatrix::rowBaseOfBlock. *)
Definition row_base (s : setup) (k : nat) : nat :=
  match k with O => 0 | S j => nth j (ends s) 0 end.

Definition scale (p : list dvar) (i : nat) (s : list R) : list R := map (Rmult (scaling_of p i)) s.

(** Lines 612-621: the kept variables. *)
Fixpoint move_kept (p : list dvar) (l : list nat) (startIdx : nat) (dx : list R) : list (nat * list R) :=
  match l with
  | [] => []
  | i :: r =>
      let s := scale p i (firstn (dim_of p i) (skipn startIdx dx)) in
      let rest := move_kept p r (startIdx + dim_of p i) dx in
      if Nat.ltb 0 (dim_of p i) then (i, s) :: rest else rest
  end.

(** Lines 628-632: the marginalized ones, [ds] being what buildDsi gives. *)
Definition move_gone (p : list dvar) (l : list nat) (ds : list (list R)) : list (nat * list R) :=
  map (fun e => (fst e, scale p (fst e) (snd e))) (combine l ds).

(** [array().abs().maxCoeff()]; not defined by Eigen for an empty vector, 0 here. *)
Fixpoint max_abs (l : list R) : R :=
  match l with [] => 0%R | x :: r => Rmax (Rabs x) (max_abs r) end.

(** The calls of update, in order, and the value returned (lines 624 and 635). *)
Definition apply_update (p : list dvar) (s : setup) (dx : list R) (ds : list (list R)) : list (nat * list R) * R :=
  let gone := move_gone p (skipn (start s) (order s)) ds in
  (move_kept p (firstn (start s) (order s)) 0 dx ++ gone,
   fold_left (fun m e => Rmax m (max_abs (snd e))) gone (max_abs dx)).
