(** Model of the optimization problem container.
      /repo/aslam_optimizer/aslam_backend/src/OptimizationProblem.cpp
    Pointers to design variables and error terms are integers. *)
From Coq Require Import ZArith List Bool.
From Verif Require Import Base.
Import ListNotations.
Open Scope Z_scope.

(** The members _designVariables, _errorTerms and _errorTermMap.  The multimap
    is the list of its entries in iteration order. *)
Record prob := Prob { dvars : list Z; terms : list Z; links : list (Z * Z) }.

Definition empty : prob := Prob [] [] [].

(** std::multimap::insert: after the entries with an equal or smaller key. *)
Fixpoint insert (k v : Z) (l : list (Z * Z)) : list (Z * Z) :=
  match l with
  | [] => [(k, v)]
  | (k', v') :: r => if k <? k' then (k, v) :: l else (k', v') :: insert k v r
  end.

(** Lines 147-152 and 159-165, 187-193: erase the first match of a scan. *)
Fixpoint erase_link (d t : Z) (l : list (Z * Z)) : list (Z * Z) :=
  match l with
  | [] => []
  | (d', t') :: r => if (d' =? d) && (t' =? t) then r else (d', t') :: erase_link d t r
  end.
Fixpoint erase (x : Z) (l : list Z) : list Z :=
  match l with
  | [] => []
  | y :: r => if y =? x then r else y :: erase x r
  end.

(** std::set::insert *)
Fixpoint set_insert (x : Z) (s : list Z) : list Z :=
  match s with
  | [] => [x]
  | y :: r => if x <? y then x :: s else if x =? y then s else y :: set_insert x r
  end.

Definition mem (x : Z) (l : list Z) : bool := existsb (Z.eqb x) l.

Section Problem.
(** ErrorTerm::designVariable(i), in order; fixed while a term is in use. *)
Variable uses : Z -> list Z.
(** Somebody outside the problem keeps the error term alive (the problem does
    not own it, or another shared pointer exists). *)
Variable kept : Z -> bool.
(** Whether the debug assertions are compiled in (NDEBUG not defined). *)
Variable debug : bool.

(** Lines 22-42; the flag says that an exception left the call. *)
Definition add_dv (p : prob) (d : Z) : prob * bool :=
  if mem d (dvars p) then (p, true)
  else (Prob (dvars p ++ [d]) (terms p) (links p), false).

(** Lines 64-69. *)
Fixpoint link_all (p : prob) (t : Z) (ds : list Z) : prob * bool :=
  match ds with
  | [] => (p, false)
  | d :: r => if debug && negb (mem d (dvars p)) then (p, true)
              else link_all (Prob (dvars p) (terms p) (insert d t (links p))) t r
  end.

(** Lines 60-70. *)
Definition add_term (p : prob) (t : Z) : prob * bool :=
  link_all (Prob (dvars p) (terms p ++ [t]) (links p)) t (uses t).

(** Lines 137-166.  The function reads the term through its pointer: undefined
    when the term has been destroyed, that is, when neither the problem nor
    anybody else holds it. *)
Definition remove_term (p : prob) (t : Z) : outcome prob :=
  if kept t || mem t (terms p) then
    Ok (Prob (dvars p) (erase t (terms p))
             (fold_left (fun l d => erase_link d t l) (uses t) (links p)))
  else UB.

Fixpoint remove_terms (p : prob) (ts : list Z) : outcome prob :=
  match ts with
  | [] => Ok p
  | t :: r => do p <- remove_term p t; remove_terms p r
  end.

(** equal_range(dv) *)
Definition range (d : Z) (l : list (Z * Z)) : list Z :=
  map snd (filter (fun e => fst e =? d) l).

(** Lines 169-194. *)
Definition remove_dv (p : prob) (d : Z) : outcome prob :=
  do p <- remove_terms p (range d (links p));
  Ok (Prob (erase d (dvars p)) (terms p) (links p)).

(** Lines 124-134: the terms are added to the set the caller passes. *)
Definition get_errors (p : prob) (d : Z) (out : list Z) : list Z :=
  fold_left (fun s t => set_insert t s) (range d (links p)) out.

Inductive op := AddDv (d : Z) | AddTerm (t : Z) | RemoveTerm (t : Z) | RemoveDv (d : Z) | Clear.

(** One call; the state after a throwing call is kept. *)
Definition step (p : prob) (o : op) : outcome (prob * bool) :=
  match o with
  | AddDv d => Ok (add_dv p d)
  | AddTerm t => Ok (add_term p t)
  | RemoveTerm t => do p <- remove_term p t; Ok (p, false)
  | RemoveDv d => do p <- remove_dv p d; Ok (p, false)
  | Clear => Ok (empty, false)
  end.

Fixpoint run (p : prob) (os : list op) : outcome (prob * list bool) :=
  match os with
  | [] => Ok (p, [])
  | o :: r => do '(p, f) <- step p o; do '(p, fs) <- run p r; Ok (p, f :: fs)
  end.
End Problem.
