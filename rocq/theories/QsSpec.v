(** * Four segments that make a quadrilateral *)
From Coq Require Import Reals List.
From Verif Require Import QsModel.
Import ListNotations.
Local Open Scope R_scope.

Definition pt := (R * R)%type.
Definition minus (a b : pt) : pt := (fst a - fst b, snd a - snd b).
Definition cross (u v : pt) : R := fst u * snd v - snd u * fst v.
Definition dot (u v : pt) : R := fst u * fst v + snd u * snd v.
Definition norm (u : pt) : R := sqrt (dot u u).

(** From where it starts to where it ends; its angle is the opposite direction. *)
Definition course (s : segment) : pt := minus (s_p1 s) (s_p0 s).
Definition proper (s : segment) : Prop :=
  4 <= s_length s /\ norm (course s) = s_length s /\
  fst (course s) = - s_length s * cos (s_theta s) /\ snd (course s) = - s_length s * sin (s_theta s).

(** [p] is where the lines of the two segments cross; they are not nearly parallel. *)
Definition on_line (s : segment) (p : pt) : Prop := cross (course s) (minus p (s_p0 s)) = 0.
Definition crossing (s t : segment) (p : pt) : Prop :=
  1 / 10000000000 <= Rabs (cross (course s) (course t)) /\ on_line s p /\ on_line t p.

(** [t] may come after [s]: it turns clockwise and the lines cross near the end of
    the one and the start of the other (and not at first coordinate -1, which the
    code takes for parallel lines). *)
Definition successor (s t : segment) : Prop :=
  cross (course s) (course t) < 0 /\
  exists p, crossing s t p /\ fst p <> -1 /\ norm (minus p (s_p1 s)) <= s_length s /\ norm (minus p (s_p0 t)) <= s_length s.

(** The angle from direction [u] to direction [v]. *)
Definition turn (u v : pt) (phi : R) : Prop :=
  - PI < phi < PI /\ norm u * norm v * cos phi = dot u v /\ norm u * norm v * sin phi = cross u v.

(** The corners of the four lines make a quadrilateral passed round clockwise
    once, not too small and not too thin. *)
Definition quadrilateral (a b c d : segment) (p q r s : pt) : Prop :=
  (crossing a b p /\ crossing b c q /\ crossing c d r /\ crossing d a s) /\
  (fst p <> -1 /\ fst q <> -1 /\ fst r <> -1 /\ fst s <> -1) /\
  (exists w x y z, turn (minus q p) (minus r q) w /\ turn (minus r q) (minus s r) x /\ turn (minus s r) (minus p s) y /\ turn (minus p s) (minus q p) z /\
     w + x + y + z = - (2 * PI)) /\
  (6 <= norm (minus p r) /\ 6 <= norm (minus q s)) /\
  (let sides := [norm (minus q p); norm (minus r q); norm (minus s r); norm (minus p s)] in
   (forall e, In e sides -> 6 <= e) /\ (forall e f, In e sides -> In f sides -> e <= 32 * f)).

(** The same without the exception. *)
Definition outline (a b c d : segment) (p q r s : pt) : Prop :=
  (crossing a b p /\ crossing b c q /\ crossing c d r /\ crossing d a s) /\
  (exists w x y z, turn (minus q p) (minus r q) w /\ turn (minus r q) (minus s r) x /\ turn (minus s r) (minus p s) y /\ turn (minus p s) (minus q p) z /\
     w + x + y + z = - (2 * PI)) /\
  (6 <= norm (minus p r) /\ 6 <= norm (minus q s)) /\
  (let sides := [norm (minus q p); norm (minus r q); norm (minus s r); norm (minus p s)] in
   (forall e, In e sides -> 6 <= e) /\ (forall e f, In e sides -> In f sides -> e <= 32 * f)).

(** Coordinates of any picture. *)
Definition in_reach (s : segment) : Prop :=
  (Rabs (fst (s_p0 s)) <= 1000000000 /\ Rabs (snd (s_p0 s)) <= 1000000000) /\
  (Rabs (fst (s_p1 s)) <= 1000000000 /\ Rabs (snd (s_p1 s)) <= 1000000000) /\ s_length s <= 1000000000.
(** [t] starts in the picture and not far from the end of [s]. *)
Definition starts_near (width height : R) (s t : segment) : Prop :=
  0 <= fst (s_p0 t) <= width /\ 0 <= snd (s_p0 t) <= height /\
  Rabs (fst (s_p0 t) - fst (s_p1 s)) <= s_length s / 2 /\ Rabs (snd (s_p0 t) - snd (s_p1 s)) <= s_length s / 2.

(** The same four, starting from another one. *)
Definition rotation {A} (l l' : list A) : Prop := exists m n, l = m ++ n /\ l' = n ++ m.

(** The total magnitude of the gradients that satisfy a predicate. *)
Definition weight (keep : R -> Prop) (dec : forall t, {keep t} + {~ keep t}) (votes : list (R * R)) : R :=
  fold_right (fun v acc => if dec (fst v) then snd v + acc else acc) 0 votes.
