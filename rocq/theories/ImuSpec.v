(** * What an inertial measurement unit measures

    Rigid-body kinematics, independent of the expressions: a body moves, a sensor
    is mounted on it, and the sensor reads the acceleration of its own point minus
    gravity and the angular velocity of its own axes. *)
From Coquelicot Require Import Coquelicot.
From Coq Require Import Reals List.
From Verif Require Import KinModel KinCurve.
Local Open Scope R_scope.

(** [f] has the second derivative [A] at time [t]. *)
Definition accelerates (f : R -> v3) (t : R) (A : v3) : Prop :=
  exists v, locally t (fun s => v3_derive f s (v s)) /\ v3_derive v t A.
(** The axes [Q] (columns, in the world) turn at time [t] with the angular velocity
    [w], in their own coordinates. *)
Definition turns (Q : R -> m3) (t : R) (w : v3) : Prop := m3_derive Q t (m3_mul (Q t) (crossMx w)).

(** The body is at [P] with axes [Q]; at time [t] its acceleration is [a], its
    angular velocity (in its own coordinates) is [w] with rate [dw]. *)
Definition body_motion (P : R -> v3) (Q : R -> m3) (t : R) (a w dw : v3) : Prop :=
  accelerates P t a /\ exists W, W t = w /\ locally t (fun s => turns Q s (W s)) /\ v3_derive W t dw.

(** The point of the body with body coordinates [r]. *)
Definition mounted (P : R -> v3) (Q : R -> m3) (r : v3) (s : R) : v3 := v3_add (P s) (m3_vec (Q s) r).
(** The axes of a sensor which is turned against the body by [C] (from body to
    sensor coordinates). *)
Definition sensor_axes (Q : R -> m3) (C : m3) (s : R) : m3 := m3_mul (Q s) (m3_tr C).
(** Acceleration [A] minus gravity [g], in the coordinates of those axes. *)
Definition specific_force (axes : m3) (A g : v3) : v3 := m3_vec (m3_tr axes) (v3_sub A g).

(** ** Expressions and motions *)
From Verif Require Import ExprModel ImuModel.
Import ListNotations.

(** The expressions have the values of the motion of a body at time [t]; [dw] is
    the true angular acceleration. *)
Definition follows (inv4 : m4 -> m4) (th : env) (P : R -> v3) (Q : R -> m3) (t : R) (C_b_w : rexp) (a_w w : eexp) (dw : v3) : Prop :=
  value_r inv4 th C_b_w = m3_tr (Q t) /\ body_motion P Q t (value_e inv4 th a_w) (value_e inv4 th w) dw.
(** The matrix has a one at place [k] of the diagonal. *)
Definition selects (th : env) (m : mexp) (k : nat) : Prop :=
  value_m th m = match k with 0%nat => M3 1 0 0 0 0 0 0 0 0 | 1%nat => M3 0 0 0 0 1 0 0 0 0 | _ => M3 0 0 0 0 0 0 0 0 1 end.

(** No design variable has changed since the term was evaluated or made. *)
Definition fresh (ops : list eop) : Prop := ops = [] \/ exists before, ops = before ++ [EEvaluate].

(** A measurement is used when its corrected time lies strictly inside. *)
Definition used (tmin tmax offset : R) (im : sample) : bool :=
  if Rlt_dec tmin (im_stamp im + offset) then if Rlt_dec (im_stamp im + offset) tmax then true else false else false.
