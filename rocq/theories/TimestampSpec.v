(** Geometry for the timestamp corrector. *)
From Coq Require Import QArith List.
Import ListNotations.
Open Scope Q_scope.

Notation pt := (Q * Q)%type.
(** Twice the signed area: non-negative iff [c] is on or above the line from [a] to
    [b] (when [a] is left of [b]). *)
Definition det (a b c : pt) : Q :=
  (fst b - fst a) * (snd c - snd a) - (snd b - snd a) * (fst c - fst a).
(** Value at [x] of the line through [a] and [b]. *)
Definition line (a b : pt) (x : Q) : Q := snd a + (x - fst a) * ((snd b - snd a) / (fst b - fst a)).

(** Consecutive elements of a list. *)
Definition segment_of (l : list pt) (a b : pt) : Prop := exists l1 l2, l = l1 ++ a :: b :: l2.
Definition corner_of (l : list pt) (a b c : pt) : Prop := exists l1 l2, l = l1 ++ a :: b :: c :: l2.

(** [sub l m]: [l] is obtained from [m] by dropping elements. *)
Inductive sub : list pt -> list pt -> Prop :=
| sub_nil : sub [] []
| sub_keep x l m : sub l m -> sub (x :: l) (x :: m)
| sub_drop x l m : sub l m -> sub l (x :: m).

(** The samples a user may rely on: those later (in remote time) than every sample
    kept before. *)
Fixpoint accepted_from (last : option Q) (samples : list pt) : list pt :=
  match samples with
  | [] => []
  | (x, y) :: r =>
      match last with
      | Some t => if Qlt_le_dec t x then (x, y) :: accepted_from (Some x) r else accepted_from last r
      | None => (x, y) :: accepted_from (Some x) r
      end
  end.
Definition accepted : list pt -> list pt := accepted_from None.
