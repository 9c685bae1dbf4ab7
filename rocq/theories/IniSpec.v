(** * What the first guess of the intrinsics has to be *)
From Coq Require Import Reals List Arith Permutation Sorted.
From Verif Require Import DistModel IniModel.
Import ListNotations.
Local Open Scope R_scope.

Definition sq_dist (p q : v2) : R := (u0 p - u0 q) * (u0 p - u0 q) + (u1 p - u1 q) * (u1 p - u1 q).
Definition dist (p q : v2) : R := sqrt (sq_dist p q).
Definition on_circle (c : v2) (r : R) (p : v2) : Prop := dist p c = r.
(** All points lie on one line. *)
Definition straight (pts : list v2) : Prop :=
  exists u v w, (u <> 0 \/ v <> 0) /\ forall p, In p pts -> u * u0 p + v * u1 p = w.

Fixpoint total (l : list R) : R := match l with [] => 0 | x :: r => x + total r end.
Definition mean (l : list R) : R := total l / INR (length l).
(** How much the squared distances from [c] differ from point to point *)
Definition spread (pts : list v2) (c : v2) : R :=
  total (map (fun p => total (map (fun q => (sq_dist p c - sq_dist q c) * (sq_dist p c - sq_dist q c)) pts)) pts).
(** [c] is the one point with the most equal squared distances, [r] the mean
    distance from there. *)
Definition fitted (pts : list v2) (c : v2) (r : R) : Prop :=
  (forall c', c' <> c -> spread pts c < spread pts c') /\ r = mean (map (fun p => dist p c) pts).

(** The middle of a list: the mean of the two middle values after sorting, which
    are the same one for an odd length. *)
Definition is_median (f : R) (l : list R) : Prop :=
  exists s, Permutation l s /\ StronglySorted Rle s /\
    f = (nth ((length s - 1) / 2) s 0 + nth (length s / 2) s 0) / 2.
(** A sorting function: rearranges, and in order if all are numbers. *)
Definition sorts (srt : list (option R) -> list (option R)) : Prop :=
  forall l, Permutation l (srt l) /\
    forall m, srt l = map Some m -> StronglySorted Rle m.

(** The corners of a row of a completely seen target *)
Definition row_of (v : view) (cols r : nat) (pts : list v2) : Prop :=
  length pts = cols /\ forall c, (c < cols)%nat -> corner v (cols * r + c) = nth_error pts c.
Definition whole (v : view) (rows cols : nat) : Prop :=
  forall i, (i < rows * cols)%nat -> exists p, corner v i = Some p.

(** The pairs of rows that are compared. *)
Definition row_pairs (rows cols : nat) : list (nat * nat) :=
  flat_map (fun j => map (pair j) (seq (S j) (cols - S j))) (seq 0 rows).
(** What a pair of rows contributes: the distance of the points common to their
    circles over pi, and nothing if there are none, or none farther apart than
    2e-10. *)
Definition contributes (v : view) (cols : nat) (jk : nat * nat) (g : option R) : Prop :=
  exists p1 p2 c1 r1 c2 r2,
    row_of v cols (fst jk) p1 /\ row_of v cols (snd jk) p2 /\ fitted p1 c1 r1 /\ fitted p2 c2 r2 /\
    match g with
    | Some x => exists a b, a <> b /\ (forall q, (on_circle c1 r1 q /\ on_circle c2 r2 q) <-> (q = a \/ q = b)) /\ x = dist a b / PI
    | None => forall a b, on_circle c1 r1 a -> on_circle c2 r2 a -> on_circle c1 r1 b -> on_circle c2 r2 b -> dist a b < 2 / 10 ^ 10
    end.
Inductive collects {A} (P : A -> option R -> Prop) : list A -> list R -> Prop :=
| collects_nil : collects P [] []
| collects_none a l gs : P a None -> collects P l gs -> collects P (a :: l) gs
| collects_some a l g gs : P a (Some g) -> collects P l gs -> collects P (a :: l) (g :: gs).
Inductive guesses : list view -> list R -> Prop :=
| guesses_nil : guesses [] []
| guesses_part v rows cols obs gs : v_target v = Some (rows, cols) -> ~ whole v rows cols -> guesses obs gs -> guesses (v :: obs) gs
| guesses_whole v rows cols obs g gs : v_target v = Some (rows, cols) -> whole v rows cols ->
    collects (contributes v cols) (row_pairs rows cols) g -> guesses obs gs -> guesses (v :: obs) (g ++ gs).

(** An observation the method is meant for: if the target is seen as a whole, it
    has no more columns than rows, no row is straight and no two rows have the
    same circle. *)
Definition suitable (v : view) : Prop :=
  exists rows cols, v_target v = Some (rows, cols) /\
    (whole v rows cols -> (cols <= rows)%nat /\
       (forall r pts, (r < rows)%nat -> row_of v cols r pts -> ~ straight pts) /\
       (forall j k p1 p2 c r, (j < k < cols)%nat -> row_of v cols j p1 -> row_of v cols k p2 -> fitted p1 c r -> ~ fitted p2 c r)).
