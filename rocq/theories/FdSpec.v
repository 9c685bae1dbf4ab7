(** * Specification: derivatives and their bounds *)
From Coq Require Import Reals List.
From Coquelicot Require Import Coquelicot.
Import ListNotations.
Local Open Scope R_scope.

(** Between [x - h] and [x + h] the function has three derivatives, the first one
    [g1], and the third one is bounded by [M]. *)
Definition bends3 (g g1 : R -> R) (x h M : R) : Prop :=
  exists g2 g3, forall s, x - h <= s <= x + h ->
    is_derive g s (g1 s) /\ is_derive g1 s (g2 s) /\ is_derive g2 s (g3 s) /\ Rabs (g3 s) <= M.
(** The same with five derivatives. *)
Definition bends5 (g g1 : R -> R) (x h M : R) : Prop :=
  exists g2 g3 g4 g5, forall s, x - h <= s <= x + h ->
    is_derive g s (g1 s) /\ is_derive g1 s (g2 s) /\ is_derive g2 s (g3 s) /\ is_derive g3 s (g4 s) /\
    is_derive g4 s (g5 s) /\ Rabs (g5 s) <= M.

(** Component [c] of a vector replaced. *)
Definition with_component (x : list R) (c : nat) (v : R) : list R :=
  map (fun i => if Nat.eqb i c then v else nth i x 0) (seq 0 (length x)).
(** Entry of a matrix given by columns. *)
Definition entry (J : list (list R)) (r c : nat) : R := nth r (nth c J []) 0.
(** The design variables after component [k] of variable [i] was moved by [s]. *)
Definition nudged {val : Type} (dim : nat -> nat) (move : nat -> val -> list R -> val) (v : nat -> val) (i k : nat) (s : R) : nat -> val :=
  fun j => if Nat.eqb j i then move i (v i) (with_component (repeat 0 (dim i)) k s) else v j.
(** A vector whose components before (after) component [c] are lower by [d]. *)
Definition lower_before (x : list R) (c : nat) (d : R) : list R := map (fun i => nth i x 0 - (if Nat.ltb i c then d else 0)) (seq 0 (length x)).
Definition lower_after (x : list R) (c : nat) (d : R) : list R := map (fun i => nth i x 0 - (if Nat.ltb c i then d else 0)) (seq 0 (length x)).
