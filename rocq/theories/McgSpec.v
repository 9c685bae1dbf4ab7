(** * What the graph of cameras should say *)
From Coq Require Import List Arith Bool.
From Verif Require Import McgModel.
Import ListNotations.

(** What camera [a] saw in a view. *)
Fixpoint seen (a : nat) (v : list entry) : option (nat * list bool) :=
  match v with [] => None | (c, x) :: r => if c =? a then Some x else seen a r end.

(** The number of corners both cameras saw in a view, with the observations, if
    there are any. *)
Definition shared1 (a b : nat) (v : list entry) : list (nat * (nat * nat)) :=
  match seen a v, seen b v with
  | Some (i, ca), Some (j, cb) => if common ca cb =? 0 then [] else [(common ca cb, (i, j))]
  | _, _ => []
  end.
Definition shared (a b : nat) (vs : list (list entry)) : list (nat * (nat * nat)) := flat_map (shared1 a b) vs.

Fixpoint total (l : list (nat * (nat * nat))) : nat :=
  match l with [] => 0 | (w, _) :: r => w + total r end.

(** Each camera is at most once in each view. *)
Definition once (vs : list (list entry)) : Prop := forall v, In v vs -> NoDup (map fst v).

(** The laws of transformations. *)
Definition group {T : Type} (mul : T -> T -> T) (inv : T -> T) (one : T) : Prop :=
  (forall a b c, mul a (mul b c) = mul (mul a b) c) /\
  (forall a, mul one a = a) /\ (forall a, mul a one = a) /\
  (forall a, mul (inv a) a = one) /\ (forall a, mul a (inv a) = one).
