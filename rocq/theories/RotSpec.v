(** * What a three-parameter rotation must satisfy *)

From Coquelicot Require Import Coquelicot.
From Coq Require Import Reals.
From Verif Require Import KinModel KinSpec KinCurve.
Local Open Scope R_scope.

(** Along every moving parameter, [S p] times the parameter rate is the
    angular velocity of the rotation [C p]. *)
Definition rates_to_velocity (C S : v3 -> m3) (dom : v3 -> Prop) : Prop :=
  forall (p : R -> v3) (t : R) (pd : v3), v3_derive p t pd -> dom (p t) ->
  exists Cdot, m3_derive (fun s => C (p s)) t Cdot /\
    angular_velocity (C (p t)) Cdot (m3_vec (S (p t)) pd).

(** [J p v] is the Jacobian of [w p v] with respect to the parameter and its
    rate: it gives the derivative of [w] along every curve of both. *)
Definition velocity_jacobian (w : v3 -> v3 -> v3) (J : v3 -> v3 -> m3 * m3 -> Prop) (dom : v3 -> Prop) : Prop :=
  forall (p v : R -> v3) (t : R) (pd vd : v3) (JJ : m3 * m3),
  v3_derive p t pd -> v3_derive v t vd -> dom (p t) -> J (p t) (v t) JJ ->
  v3_derive (fun s => w (p s) (v s)) t (v3_add (m3_vec (fst JJ) pd) (m3_vec (snd JJ) vd)).

(** The elementary rotations of this library's active convention. *)
Definition rot_x (a : R) : m3 := M3 1 0 0  0 (cos a) (- sin a)  0 (sin a) (cos a).
Definition rot_y (a : R) : m3 := M3 (cos a) 0 (sin a)  0 1 0  (- sin a) 0 (cos a).
Definition rot_z (a : R) : m3 := M3 (cos a) (- sin a) 0  (sin a) (cos a) 0  0 0 1.
