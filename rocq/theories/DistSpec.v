(** * Specification: what Jacobians and inverses mean for camera models

    Independent of the code: only curves, derivatives and composition. *)

From Coquelicot Require Import Coquelicot.
From Coq Require Import Reals List.
From Verif Require Import KinModel KinCurve DistModel.
Import ListNotations.
Local Open Scope R_scope.

(** [f] has derivative [d] at [t], coefficient by coefficient. *)
Definition v2_derive (f : R -> v2) (t : R) (d : v2) : Prop :=
  is_derive (fun s => u0 (f s)) t (u0 d) /\ is_derive (fun s => u1 (f s)) t (u1 d).

(** The same for functions that may also produce no value: they produce one
    in a neighbourhood of [t], and that value has derivative [d]. *)
Definition v2_rderive (f : R -> res v2) (t : R) (d : v2) : Prop :=
  exists g, locally t (fun s => f s = Val (g s)) /\ v2_derive g t d.
Definition v3_rderive (f : R -> res v3) (t : R) (d : v3) : Prop :=
  exists g, locally t (fun s => f s = Val (g s)) /\ v3_derive g t d.

(** [J] is the Jacobian of [f] at [y]: whatever differentiable way the
    argument moves through [y], the value moves with velocity [J] times the
    velocity of the argument. *)
Definition jacobian (f : v2 -> v2) (y : v2) (J : m2) : Prop :=
  forall c t d, c t = y -> v2_derive c t d -> v2_derive (fun s => f (c s)) t (m2_vec J d).

(** [cols] are the columns of the Jacobian with respect to parameters:
    moving all parameters with velocities [dp] moves the value with velocity
    the combination of the columns with coefficients [dp]. *)
Fixpoint combine_cols (cols : list v2) (dp : list R) : v2 :=
  match cols, dp with
  | c :: cs, x :: xs => v2_add (v2_scale x c) (combine_cols cs xs)
  | _, _ => V2 0 0
  end.

(** A curve of parameter vectors of length [n] with velocity [dp]. *)
Definition list_derive (n : nat) (p : R -> list R) (t : R) (dp : list R) : Prop :=
  length dp = n /\ forall i, (i < n)%nat -> is_derive (fun s => nth i (p s) 0) t (nth i dp 0).
Definition parameter_jacobian (n : nat) (f : list R -> v2) (p0 : list R) (cols : list v2) : Prop :=
  length cols = n /\
  forall p t dp, (forall i, (i < n)%nat -> nth i (p t) 0 = nth i p0 0) -> list_derive n p t dp ->
    v2_derive (fun s => f (p s)) t (combine_cols cols dp).

(** [B] is the two-sided inverse of the matrix [A]. *)
Definition inverse_of (A B : m2) : Prop := m2_mul A B = m2_I /\ m2_mul B A = m2_I.

(** Distance from the optical axis in the normalised image plane. *)
Definition radius (y : v2) : R := sqrt (u0 y * u0 y + u1 y * u1 y).
(** Two points on the same side of the same ray from the centre. *)
Definition same_direction (a b : v2) : Prop := exists s, 0 < s /\ a = v2_scale s b.
