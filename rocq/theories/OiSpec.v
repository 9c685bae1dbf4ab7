(** * What the first guess of an omnidirectional camera has to be *)
From Coq Require Import Reals List Arith.
From Verif Require Import KinModel DistModel PinModel OmniModel IniModel IniSpec OiModel.
Import ListNotations.
Local Open Scope R_scope.

Definition dot4 (a b : v4) : R := q0 a * q0 b + q1 a * q1 b + q2 a * q2 b + q3 a * q3 b.
(** The squared length of the product of a matrix, given by rows, and a vector *)
Definition residual (P : list v4) (x : v4) : R := total (map (fun r => dot4 r x * dot4 r x) P).
(** The solution of P x = 0 in the least squares sense: a vector of length one
    with the least residual. *)
Definition null_solution (P : list v4) (x : v4) : Prop :=
  dot4 x x = 1 /\ forall y, dot4 y y = 1 -> residual P x <= residual P y.

(** The image of [p] in a camera with the parameter one, without distortion and
    with the given focal length and principal point, as the unit sphere is
    projected from its pole. *)
Definition sphere_image (f cu cv : R) (p : v3) : v2 :=
  V2 (f * (x0 p / (x2 p + v3_norm p)) + cu) (f * (x1 p / (x2 p + v3_norm p)) + cv).
(** All points of the row lie in the plane through the camera with unit normal
    [n], as the points of a straight line do. *)
Definition plane_seen (f cu cv : R) (n : v3) (pts : list v2) : Prop :=
  v3_dot n n = 1 /\
  forall k, In k pts -> exists p, 0 < x2 p + v3_norm p /\ v3_dot n p = 0 /\ k = sphere_image f cu cv p.
(** The plane is close to the optical axis. *)
Definition radial (n : v3) : Prop := 95 / 100 < sqrt (x0 n * x0 n + x1 n * x1 n).
Definition three_different (pts : list v2) : Prop :=
  exists p q s, In p pts /\ In q pts /\ In s pts /\ p <> q /\ p <> s /\ q <> s.

(** The distances between the corners seen and the images of their target
    points, for those with an image *)
Definition errors (D : distortion) (M : omni) (T : v3 -> v3) (b : board) (n : nat) : list R :=
  flat_map (fun i => match corner (b_view b) i, omni_project D M (T (b_point b i)) with
                     | Some y, (Val k, true) => [dist y k]
                     | _, _ => []
                     end) (seq 0 n).

(** The rows of the targets: an observation, the size of its target and a row *)
Definition row_in (bs : list board) (b : board) (rows cols r : nat) : Prop :=
  In b bs /\ v_target (b_view b) = Some (rows, cols) /\ (r < rows)%nat.
