(** * What grouping pixels of similar gradients means *)
From Coq Require Import Reals List Arith ZArith Relations.
From Verif Require Import GfModel.
Import ListNotations.
Local Open Scope R_scope.

Definition pixel := (nat * nat)%type.
(** The value of an image at a pixel *)
Definition value (m : image) (q : pixel) : R := nth (snd q * width m + fst q) (pixels m) 0.
Definition within (m : image) (q : pixel) : Prop := (fst q < width m)%nat /\ (snd q < height m)%nat.
Definition on_border (m : image) (q : pixel) : Prop :=
  within m q /\ (fst q = 0 \/ snd q = 0 \/ fst q = width m - 1 \/ snd q = height m - 1)%nat.
(** The eight neighbours of a pixel *)
Definition neighbours (p q : pixel) : Prop :=
  p <> q /\ (fst p <= fst q + 1 /\ fst q <= fst p + 1 /\ snd p <= snd q + 1 /\ snd q <= snd p + 1)%nat.
(** Directions [s] and [t] differ by at most thirty degrees *)
Definition close (s t : R) : Prop := exists k : Z, Rabs (t - s + 2 * PI * IZR k) <= PI / 6.
(** Neighbouring pixels with strong gradients of close directions *)
Definition similar (theta mag : image) (p q : pixel) : Prop :=
  within theta p /\ within theta q /\ neighbours p q /\ 4 / 1000 <= value mag p /\ 4 / 1000 <= value mag q /\ close (value theta p) (value theta q).
(** Linked by a chain of such pixels *)
Definition chained (theta mag : image) : pixel -> pixel -> Prop := clos_refl_sym_trans pixel (similar theta mag).
(** A direction within an interval of angles *)
Definition angle_in (lo hi t : R) : Prop := exists k : Z, lo <= t + 2 * PI * IZR k <= hi.
(** Images of the directions and magnitudes of gradients: of equal size, without
    gradient on the outermost pixels *)
Definition gradient_images (theta mag : image) : Prop :=
  length (pixels theta) = (width theta * height theta)%nat /\ length (pixels mag) = (width mag * height mag)%nat /\
  width mag = width theta /\ height mag = height theta /\ forall q, on_border mag q -> value mag q = 0.
(** All pixels of an image, row by row *)
Definition all_pixels (m : image) : list pixel := flat_map (fun y => map (fun x => (x, y)) (seq 0 (width m))) (seq 0 (height m)).
(** The pixels with a label, and their number *)
Definition members (m : image) (label : pixel -> nat) (k : nat) : list pixel := filter (fun q => (label q =? k)%nat) (all_pixels m).
