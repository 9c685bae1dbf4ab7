(** * Pixels, rays and what a map entry means *)
From Coq Require Import Reals ZArith.
From Verif Require Import KinModel UdModel.
Local Open Scope R_scope.

(** Where the camera sees direction [X]. *)
Definition seen_at (distort : pt -> pt) (c : camera) (X : v3) : pt :=
  let d := distort (x0 X / x2 X, x1 X / x2 X) in (fu c * fst d + cu c, fv c * snd d + cv c).
(** The direction of pixel (u, v) of a camera without distortion. *)
Definition ray_of (c : camera) (u v : R) : v3 := V3 ((u - cu c) / fu c) ((v - cv c) / fv c) 1.
(** Where a camera without distortion sees a point of the normalised image plane. *)
Definition pixel_of (c : camera) (p : pt) : pt := (fu c * fst p + cu c, fv c * snd p + cv c).
(** The position an entry stands for: the fraction holds 32nds of a pixel, x in the low
    five bits and y in the next five. *)
Definition position (e : entry) : pt :=
  (IZR (e_x e) + IZR (e_frac e mod 32) / 32, IZR (e_y e) + IZR (e_frac e / 32) / 32).
Definition within (eps : R) (p q : pt) : Prop := Rabs (fst p - fst q) <= eps /\ Rabs (snd p - snd q) <= eps.
(** Sample positions: nine by nine, from the first pixel to one beyond the last. *)
Definition is_sample (s : Z * Z) : Prop := (0 <= fst s <= 8 /\ 0 <= snd s <= 8)%Z.
(** The undistorted samples are finite as single-precision numbers. *)
Definition spot_ok (undistort : pt -> pt) (c : camera) : Prop :=
  forall s, is_sample s -> Rabs (fst (sample undistort c (fst s) (snd s))) <= FLT_MAX /\ Rabs (snd (sample undistort c (fst s) (snd s))) <= FLT_MAX.
Definition no_distortion : pt -> pt := fun p => p.
