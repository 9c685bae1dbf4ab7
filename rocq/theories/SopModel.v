(** * Ownership of design variables and error terms in the simple optimization problem

    Models aslam_optimizer/aslam_backend/src/SimpleOptimizationProblem.cpp.
    Objects are numbers, standing for addresses of distinct objects; design
    variables and error terms share the numbering.  A [boost::shared_ptr] is an
    object together with its control block; [sm::null_deleter] gives a pointer
    that never deletes.  A control block deletes its object when the last
    pointer that uses it goes away, and deleting an object a second time is
    undefined behaviour, [None] here.  Simplified: constructors and destructors
    of the objects themselves do nothing else, the standard vector destroys its
    elements from the front, and allocation never fails. *)
From Coq Require Import List Arith Bool.
Import ListNotations.

(** The deleter of a pointer: none, or the one of the control block [k]. *)
Inductive handle := Borrowed | Counted (k : nat).
Definition entry : Type := (nat * handle)%type.

(** [_designVariables], [_errorTerms], the shared pointers kept by the user,
    the number of control blocks made so far and the objects deleted so far
    (SimpleOptimizationProblem.hpp, members). *)
Record st := mkSt { dvs : list entry; ets : list entry; held : list entry;
                    fresh : nat; deleted : list nat }.
Definition init : st := mkSt [] [] [] 0 [].

Definition uses (k : nat) (e : entry) : bool :=
  match snd e with Borrowed => false | Counted j => Nat.eqb j k end.

(** One pointer goes away while the pointers [rest] remain. *)
Definition release (e : entry) (rest : list entry) (del : list nat) : option (list nat) :=
  match snd e with
  | Borrowed => Some del
  | Counted k =>
      if existsb (uses k) rest then Some del
      else if existsb (Nat.eqb (fst e)) del then None
      else Some (fst e :: del)
  end.

(** [std::vector::clear] of pointers, while the pointers [others] remain. *)
Fixpoint release_all (l others : list entry) (del : list nat) : option (list nat) :=
  match l with
  | [] => Some del
  | e :: l' =>
      match release e (l' ++ others) del with
      | None => None
      | Some d => release_all l' others d
      end
  end.

(** The pointer [boost::shared_ptr<T>(p)] or
    [boost::shared_ptr<T>(p, sm::null_deleter())]: lines 27-30 and 50-54. *)
Definition wrap (s : st) (o : nat) (own : bool) : entry :=
  (o, if own then Counted (fresh s) else Borrowed).
Definition fresh' (s : st) (own : bool) : nat := if own then S (fresh s) else fresh s.

(** [isDesignVariableInProblem], lines 65-72, and the loops of lines 24-26 and 38-40. *)
Definition is_in (s : st) (o : nat) : bool := existsb (Nat.eqb o) (map fst (dvs s)).

(** The first of the user's pointers to [o], and the others. *)
Fixpoint take (o : nat) (l : list entry) : option (entry * list entry) :=
  match l with
  | [] => None
  | e :: l' =>
      if Nat.eqb o (fst e) then Some (e, l')
      else match take o l' with None => None | Some (x, r) => Some (x, e :: r) end
  end.

(** What a program does: add a variable or a term by address, the problem
    becoming its owner or not; add one by a shared pointer that the user keeps
    a copy of; make a shared pointer of the user's own; let one go; clear the
    problem.  Destroying the problem releases the same pointers as [Clear]. *)
Inductive op :=
| AddDv (o : nat) (own : bool)
| AddDvShared (o : nat)
| AddEt (o : nat) (own : bool)
| AddEtShared (o : nat)
| Make (o : nat)
| Drop (o : nat)
| Clear.

(** One call: [None] is undefined behaviour, the boolean tells whether the call
    was carried out.  A refused addition is the exception of lines 25 and 39,
    thrown before the pointer is made.  Operations on a pointer that the user
    does not have are no program and change nothing. *)
Definition step (s : st) (p : op) : option (st * bool) :=
  match p with
  | AddDv o own => (* lines 21-31 *)
      if is_in s o then Some (s, false)
      else Some (mkSt (dvs s ++ [wrap s o own]) (ets s) (held s) (fresh' s own) (deleted s), true)
  | AddDvShared o => (* lines 35-42 *)
      match take o (held s) with
      | None => Some (s, false)
      | Some (e, _) =>
          if is_in s o then Some (s, false)
          else Some (mkSt (dvs s ++ [e]) (ets s) (held s) (fresh s) (deleted s), true)
      end
  | AddEt o own => (* lines 48-55 *)
      Some (mkSt (dvs s) (ets s ++ [wrap s o own]) (held s) (fresh' s own) (deleted s), true)
  | AddEtShared o => (* lines 59-62 *)
      match take o (held s) with
      | None => Some (s, false)
      | Some (e, _) =>
          Some (mkSt (dvs s) (ets s ++ [e]) (held s) (fresh s) (deleted s), true)
      end
  | Make o =>
      Some (mkSt (dvs s) (ets s) (wrap s o true :: held s) (fresh' s true) (deleted s), true)
  | Drop o =>
      match take o (held s) with
      | None => Some (s, false)
      | Some (e, r) =>
          match release e (ets s ++ dvs s ++ r) (deleted s) with
          | None => None
          | Some d => Some (mkSt (dvs s) (ets s) r (fresh s) d, true)
          end
      end
  | Clear => (* lines 75-79: the error terms first *)
      match release_all (ets s) (dvs s ++ held s) (deleted s) with
      | None => None
      | Some d =>
          match release_all (dvs s) (held s) d with
          | None => None
          | Some d' => Some (mkSt [] [] (held s) (fresh s) d', true)
          end
      end
  end.

Fixpoint run (s : st) (h : list op) : option (st * list bool) :=
  match h with
  | [] => Some (s, [])
  | p :: h' =>
      match step s p with
      | None => None
      | Some (s', b) =>
          match run s' h' with None => None | Some (s'', bs) => Some (s'', b :: bs) end
      end
  end.

(** [designVariable(i)], [errorTerm(i)] without the range check of the debug
    build, lines 87-111: [None] is a read past the end. *)
Definition variable (s : st) (i : nat) : option nat := nth_error (map fst (dvs s)) i.
Definition term (s : st) (i : nat) : option nat := nth_error (map fst (ets s)) i.
