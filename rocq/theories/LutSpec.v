(** * What a lookup grid means *)
From Coq Require Import Reals ZArith List Bool.
From Verif Require Import LutModel.
Import ListNotations.
Local Open Scope R_scope.

(** The area of a grid: [w] by [h] cells of side [pp], and one cell more below
    and to the left, whose positions round to the first row and column. *)
Definition covered {T} (g : grid T) (p : R * R) : Prop :=
  - g_pp g < fst p - g_x0 g < IZR (g_w g) * g_pp g /\ - g_pp g < snd p - g_y0 g < IZR (g_h g) * g_pp g.
(** Not further than [range] from [q] in either direction. *)
Definition near (range : R) (q p : R * R) : Prop := Rabs (fst p - fst q) <= range /\ Rabs (snd p - snd q) <= range.
