(** * What fitting a segment must achieve *)
From Coq Require Import Reals List.
From Verif Require Import Base KinModel LfModel.
Import ListNotations.
Local Open Scope R_scope.

(** A line through [q] with the direction [u] of length one *)
Definition is_direction (u : point) : Prop := fst u * fst u + snd u * snd u = 1.
(** The distance of a point from it, with a sign, and the position of its foot *)
Definition off (q u : point) (a : xyweight) : R := fst u * (py a - snd q) - snd u * (px a - fst q).
Definition along (u : point) (a : point) : R := fst a * fst u + snd a * snd u.
Definition foot (q u : point) (a : xyweight) : point := (px a + snd u * off q u a, py a - fst u * off q u a).
(** Weighted sum of the squared distances *)
Definition error (q u : point) (l : list xyweight) : R := fold_right (fun a s => pw a * (off q u a * off q u a) + s) 0 l.
Definition weight_of (l : list xyweight) : R := fold_right (fun a s => pw a + s) 0 l.
