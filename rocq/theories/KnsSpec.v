(** * What a refinement of knots should be *)
From Coq Require Import ZArith List Arith Bool.
Import ListNotations.
Local Open Scope Z_scope.

(** The second list is the first with the middles of some gaps put in; [ok] says
    which gaps may be split. *)
Inductive refines (ok : Z -> Z -> Prop) : list Z -> list Z -> Prop :=
| r_nil : refines ok [] []
| r_one k : refines ok [k] [k]
| r_keep a b l r : refines ok (b :: l) r -> refines ok (a :: b :: l) (a :: r)
| r_split a b l r : ok a b -> refines ok (b :: l) r -> refines ok (a :: b :: l) (a :: (a + b) / 2 :: r).

(** A gap may be split if half of it is longer than [maxk] and its middle is in
    none of the disabled segments. *)
Definition may_split (maxk : Z) (dis : list (Z * Z)) (a b : Z) : Prop :=
  maxk < (a + b) / 2 - a /\ forall u v, In (u, v) dis -> ~ (u <= (a + b) / 2 < v).

(** All gaps are longer than [g]. *)
Definition gaps (g : Z) (l : list Z) : Prop :=
  forall i a b, nth_error l i = Some a -> nth_error l (S i) = Some b -> g < b - a.

(** The time lies strictly inside gap number [i]. *)
Definition inside (t : Z) (l : list Z) (i : nat) : Prop :=
  exists a b, nth_error l i = Some a /\ nth_error l (S i) = Some b /\ a < t < b.

(** The errors that fall strictly inside gap number [k], and how many they are. *)
Definition in_gap (l : list Z) (k : nat) (t : Z) : bool := (nth k l 0 <? t) && (t <? nth (S k) l 0).
Fixpoint gap_error (l : list Z) (k : nat) (data : list (Z * Z)) : Z :=
  match data with [] => 0 | (t, e) :: r => (if in_gap l k t then e else 0) + gap_error l k r end.
Fixpoint gap_count (l : list Z) (k : nat) (data : list (Z * Z)) : Z :=
  match data with [] => 0 | (t, e) :: r => (if in_gap l k t then 1 else 0) + gap_count l k r end.

(** The errors come in time order. *)
Fixpoint in_order (data : list (Z * Z)) : Prop :=
  match data with [] => True | (t, _) :: r => (forall u e, In (u, e) r -> t <= u) /\ in_order r end.
