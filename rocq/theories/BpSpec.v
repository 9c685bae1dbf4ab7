(** * What a pose curve must satisfy *)
From Coquelicot Require Import Coquelicot.
From Coq Require Import Reals List Arith.
From Verif Require Import Base KinModel KinSpec KinCurve RotSpec TfModel TfSpec BsplModel BsplSpec BpModel.
Local Open Scope R_scope.

(** A rotation parametrisation: its matrices are rotations; S and the velocity
    Jacobian are the derivatives of RotSpec where [dom] holds. *)
Definition parametrises (K : rotk) (dom : v3 -> Prop) : Prop :=
  (forall p, SO3 (kC K p)) /\ rates_to_velocity (kC K) (kS K) dom /\
  (forall p v, kW K p v = m3_vec (kS K p) v) /\
  velocity_jacobian (kW K) (fun p v J => kJ K p v = Some J) dom /\
  forall p v, dom p -> exists J, kJ K p v = Some J.

(** The coefficients of [b] (there are [N]) move with a parameter s: at s they
    are [y s], giving the spline [bs s]; at s = 0 they are those of [b] and
    their rates are [yd]. *)
Definition moving (b : bspline) (N : nat) (y : R -> nat -> R) (yd : nat -> R) (bs : R -> bspline) : Prop :=
  (forall s, set_coef_vector b N (y s) = Ok (bs s)) /\
  (forall i, (i < N)%nat -> y 0 i = coef_vector b i) /\
  (forall i, (i < N)%nat -> is_derive (fun s => y s i) 0 (yd i)).

(** A matrix with [n] columns times a vector. *)
Definition times3 (n : nat) (J : nat -> v3) (u : nat -> R) : v3 :=
  V3 (total n (fun m => x0 (J m) * u m)) (total n (fun m => x1 (J m) * u m)) (total n (fun m => x2 (J m) * u m)).
Definition times4 (n : nat) (J : nat -> v4) (u : nat -> R) : v4 :=
  V4 (total n (fun m => q0 (J m) * u m)) (total n (fun m => q1 (J m) * u m))
     (total n (fun m => q2 (J m) * u m)) (total n (fun m => q3 (J m) * u m)).
Definition times6 (n : nat) (J : nat -> v6) (u : nat -> R) : v6 :=
  V6 (times3 n (fun m => hd3 (J m)) u) (times3 n (fun m => tl3 (J m)) u).
(** The rates of the coefficients with the given indices. *)
Definition picked (yd : nat -> R) (idx : list nat) (m : nat) : R := yd (nth m idx 0%nat).
(** The rotation parameters of the curve at time [t] are in [dom]. *)
Definition rotation_ok (dom : v3 -> Prop) (b : bspline) (t : R) : Prop :=
  forall c, eval b t = Ok c -> dom (V3 (c 3%nat) (c 4%nat) (c 5%nat)).
