(** * What smoothing must achieve, and what it does at the borders *)
From Coq Require Import Reals List Arith ZArith Bool.
From Verif Require Import Base BsplModel BsplSpec GfModel.
Import ListNotations.
Local Open Scope R_scope.

Definition pixel (m : image) (x y : nat) : R := nth (y * width m + x)%nat (pixels m) 0.
Definition complete (m : image) : Prop := length (pixels m) = (width m * height m)%nat.
Definition weight (f : list R) (j : nat) : R := nth j f 0.
Definition mass (f : list R) : R := total (length f) (weight f).

(** The position nearest to [k] on a line of [n] pixels *)
Definition clamped (n : nat) (k : Z) : nat := Z.to_nat (Z.max 0 (Z.min k (Z.of_nat n - 1))).
(** Convolution centred on pixel [p], the line continued by its end values *)
Definition convolved (n : nat) (f : list R) (line : nat -> R) (p : nat) : R :=
  total (length f) (fun j => line (clamped n (Z.of_nat p + Z.of_nat (length f / 2) - Z.of_nat j)) * weight f j).

(** Row [y] as the code leaves it: the first row is convolved; in the others the
    end pixels replace the whole window near the borders, and in the second row
    the window reaches back into the end of the first. *)
Definition smeared (m : image) (f : list R) (x y : nat) : R :=
  let n := length f in
  let w := width m in
  if (y =? 0)%nat then convolved w f (fun k => pixel m k y) x
  else if (x <? n - n / 2)%nat then
    if (y =? 1)%nat
    then total n (fun j => (if (j <=? x + n / 2)%nat then pixel m 0 1 else pixel m (w + x + n / 2 - j) 0) * weight f j)
    else pixel m 0 y * mass f
  else if (x <? w - n / 2)%nat then convolved w f (fun k => pixel m k y) x
  else pixel m (w - 1) y * mass f.

(** Smoothing weights: not negative and adding up to one; symmetric *)
Definition averaging (f : list R) : Prop := (forall j, (j < length f)%nat -> 0 <= weight f j) /\ mass f = 1.
Definition symmetric (f : list R) : Prop :=
  exists h, length f = (2 * h + 1)%nat /\ forall k, (k <= h)%nat -> weight f (h - k) = weight f (h + k).
