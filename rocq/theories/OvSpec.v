(** * When a pixel of one camera is in view of the other *)
From Coq Require Import Reals ZArith Bool List.
From Verif Require Import KinModel OvModel.
Local Open Scope R_scope.

Definition length3 (r : v3) : R := sqrt (x0 r ^ 2 + x1 r ^ 2 + x2 r ^ 2).
(** The point of the ray [r] at distance [t] from the camera. *)
Definition on_beam (r : v3) (t : R) : v3 := V3 (t / length3 r * x0 r) (t / length3 r * x1 r) (t / length3 r * x2 r).
(** A point of one frame in the other: rotate, then shift. *)
Definition move (C : m3) (t : v3) (p : v3) : v3 :=
  V3 (m00 C * x0 p + m01 C * x1 p + m02 C * x2 p + x0 t)
     (m10 C * x0 p + m11 C * x1 p + m12 C * x2 p + x1 t)
     (m20 C * x0 p + m21 C * x1 p + m22 C * x2 p + x2 t).
(** Camera [c] sees exactly the points in [view], however they are scaled. *)
Definition views (c : camera) (view : v3 -> bool) : Prop :=
  forall p s, 0 < s -> sees c (V4 (s * x0 p) (s * x1 p) (s * x2 p) s) = view p.
(** Pixels have rays that are directions: the last coordinate is zero, the others not all. *)
Definition has_rays (c : camera) : Prop :=
  forall k p, back c k = Some p -> q3 p = 0 /\ 0 < q0 p ^ 2 + q1 p ^ 2 + q2 p ^ 2.
Definition ray3 (p : v4) : v3 := V3 (q0 p) (q1 p) (q2 p).
(** Some sampled point of the beam of pixel (x, y) is in view. The sampled points lie
    at the sample distances plus the length of the ray. *)
Definition covered (c : camera) (view : v3 -> bool) (motion : v3 -> v3) (ds : list Z) (scale : R) (x y : Z) : bool :=
  match back c (IZR x / scale, IZR y / scale) with
  | None => false
  | Some p => existsb (fun d => view (motion (on_beam (ray3 p) (length3 (ray3 p) + IZR d)))) ds
  end.
Definition all_pixels (w h : Z) : list (Z * Z) :=
  flat_map (fun x => map (fun y => (Z.of_nat x, Z.of_nat y)) (seq 0 (Z.to_nat h))) (seq 0 (Z.to_nat w)).
Definition count (w h : Z) (f : Z -> Z -> bool) : Z := Z.of_nat (length (filter (fun p => f (fst p) (snd p)) (all_pixels w h))).
(** From the first frame back to the second when [move C t] goes the other way. *)
Definition move_back (C : m3) (t : v3) (p : v3) : v3 :=
  let a := x0 p - x0 t in let b := x1 p - x1 t in let c := x2 p - x2 t in
  V3 (m00 C * a + m10 C * b + m20 C * c) (m01 C * a + m11 C * b + m21 C * c) (m02 C * a + m12 C * b + m22 C * c).
Definition rotation (C : m3) : Prop := m3_mul (m3_tr C) C = m3_I /\ m3_mul C (m3_tr C) = m3_I.
(** [k] is the size [n] times the scale, rounded down, and not empty. *)
Definition fits (n : Z) (scale : R) (k : Z) : Prop := (0 < k)%Z /\ IZR k <= IZR n * scale < IZR k + 1.
Definition distances (ds : list Z) : Prop := forall d, In d ds -> (0 <= d)%Z.
(** The mask holds 255 on the pixels in [f] and 0 on the others. *)
Definition shows (m : mask) (w h : Z) (f : Z -> Z -> bool) : Prop :=
  rows (buf m) = h /\ cols (buf m) = w /\
  forall x y, (0 <= x < w)%Z -> (0 <= y < h)%Z -> px (buf m) x y = if f x y then 255%Z else 0%Z.
Definition sized (m : mask) (w h : Z) : Prop := rows (buf m) = h /\ cols (buf m) = w.
