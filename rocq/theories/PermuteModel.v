(** Model of aslam_incremental_calibration's in-place [permute].
    Source: /repo/aslam_incremental_calibration/aslam_incremental_calibration/
    include/aslam_incremental_calibration/algorithms/permute.tpp *)
From Coq Require Import List Arith.
Import ListNotations.

Section Permute.
Context {A : Type}.

(** std::swap(container[i], container[k]) *)
Fixpoint upd (l : list A) (i : nat) (x : A) : list A :=
  match l, i with
  | [], _ => []
  | _ :: r, O => x :: r
  | y :: r, S i' => y :: upd r i' x
  end.

Definition swap (l : list A) (i k : nat) : list A :=
  match nth_error l i, nth_error l k with
  | Some x, Some y => upd (upd l i y) k x
  | _, _ => l
  end.

(** permute.tpp:41-43  [I k = permutation[i]; while (k < i) k = permutation[k];]
    Every value visited is below [i], so more than [i] rounds means that the loop
    never ends; the fuel is the size of the index vector, and running out of it is
    reported as [None].  [perm[k]] with [k < i] is always in bounds. *)
Fixpoint chase (fuel : nat) (perm : list nat) (i k : nat) : option nat :=
  if k <? i then
    match fuel with
    | O => None
    | S f => chase f perm i (nth k perm 0)
    end
  else Some k.

(** How a call ends, with the container as the caller then sees it. *)
Inductive presult :=
| Done (c : list A)
| Thrown (c : list A)
| Loops.

(** permute.tpp:36-46  the loop from index [i]; [todo] counts remaining rounds. *)
Fixpoint permute_from (todo i : nat) (c : list A) (perm : list nat) : presult :=
  match todo with
  | O => Done c
  | S todo' =>
      if length c <=? nth i perm 0 then Thrown c
      else
        match chase (length perm) perm i (nth i perm 0) with
        | None => Loops
        | Some k => permute_from todo' (S i) (if i <? k then swap c i k else c) perm
        end
  end.

(** permute.tpp:30-47.  Index type: unsigned (size_t, as in all callers). *)
Definition permute (c : list A) (perm : list nat) : presult :=
  if negb (length c =? length perm) then Thrown c
  else permute_from (length c) 0 c perm.

End Permute.
Arguments presult : clear implicits.
