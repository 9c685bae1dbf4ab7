(** * What decoding a tag means *)
From Coq Require Import NArith ZArith List Bool Arith.
From Verif Require Import TagModel.
Import ListNotations.
Local Open Scope nat_scope.

(** The number of positions in which two 64 bit words differ. *)
Definition bit (w : N) (i : nat) : bool := N.testbit w (N.of_nat i).
Definition differing (a b : N) : nat := length (filter (fun i => xorb (bit a i) (bit b i)) (seq 0 64)).

(** A word as a picture of [d] by [d] cells: row 0 at the bottom, bit 0 bottom
    right, the bits running to the left and then up. *)
Definition picture (d : nat) (w : N) (y x : nat) : bool := bit w (y * d + (d - 1 - x)).
(** The picture after a quarter turn: the cell in row [y], column [x] shows what
    was in row [x], column [d - 1 - y]. *)
Definition turn (d : nat) (g : nat -> nat -> bool) (y x : nat) : bool := g x (d - 1 - y).
(** The word of a picture. *)
Fixpoint bits_word (n : nat) (f : nat -> bool) : N :=
  match n with O => 0%N | S m => (N.b2n (f 0%nat) + 2 * bits_word m (fun i => f (S i)))%N end.
Definition word_of (d : nat) (g : nat -> nat -> bool) : N := bits_word (d * d) (fun i => g (i / d) (d - 1 - i mod d)).
Definition turn_word (d : nat) (w : N) : N := word_of d (turn d (picture d w)).
Fixpoint turns (d k : nat) (w : N) : N := match k with O => w | S j => turn_word d (turns d j w) end.
(** A word that only has bits in the picture. *)
Definition fits (d : nat) (w : N) : Prop := (w < 2 ^ N.of_nat (d * d))%N.

(** Different codes differ in at least [D] cells however one is turned; no code
    comes within [D] cells of itself by turning it. *)
Definition code (codes : list N) (i : nat) : N := nth i codes 0%N.
Definition separated (d : nat) (codes : list N) (D : nat) : Prop :=
  forall i j k, i < length codes -> j < length codes -> i <> j -> D <= differing (turns d k (code codes i)) (code codes j).
Definition oriented (d : nat) (codes : list N) (D : nat) : Prop :=
  forall i k, i < length codes -> 1 <= k <= 3 -> D <= differing (turns d k (code codes i)) (code codes i).
