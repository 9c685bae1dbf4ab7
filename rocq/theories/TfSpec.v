(** * What rigid transformations, their perturbations and covariances are *)

From Coquelicot Require Import Coquelicot.
From Coq Require Import Reals.
From Verif Require Import KinModel KinSpec KinCurve TfModel.
Local Open Scope R_scope.

(** A rigid motion x -> C x + t, as a matrix on homogeneous coordinates. *)
Definition rigid (M : m4) (C : m3) (t : v3) : Prop :=
  SO3 C /\
  forall p, m4_vec M p =
    let h := v3_add (m3_vec C (V3 (q0 p) (q1 p) (q2 p))) (v3_scale (q3 p) t) in
    V4 (x0 h) (x1 h) (x2 h) (q3 p).
Definition SE3 (M : m4) : Prop := exists C t, rigid M C t.

(** A matrix that moves with a parameter. *)
Definition m4_derive (f : R -> m4) (t : R) (D : m4) : Prop :=
  v4_derive (fun s => r40 (f s)) t (r40 D) /\ v4_derive (fun s => r41 (f s)) t (r41 D) /\
  v4_derive (fun s => r42 (f s)) t (r42 D) /\ v4_derive (fun s => r43 (f s)) t (r43 D).

(** The infinitesimal motion d = (rho, phi) takes the point (p, w) to
    (w rho - phi x p, 0): a translation by rho and a rotation by -phi. *)
Definition twist (d : v6) (p : v4) : v4 :=
  let h := v3_sub (v3_scale (q3 p) (hd3 d)) (v3_cross (tl3 d) (V3 (q0 p) (q1 p) (q2 p))) in
  V4 (x0 h) (x1 h) (x2 h) 0.
(** The curve of matrices [M] is at time [t] perturbed from the left by [d]. *)
Definition perturbed (M : R -> m4) (t : R) (d : v6) : Prop :=
  exists D, m4_derive M t D /\ forall p, m4_vec D p = twist d (m4_vec (M t) p).

(** Covariances: symmetric, and of non-negative variance in every direction. *)
Definition cov6 (U : m6) : Prop :=
  (forall u v, v6_dot u (m6_vec U v) = v6_dot v (m6_vec U u)) /\ forall v, 0 <= v6_dot v (m6_vec U v).
Definition cov4 (U : m4) : Prop :=
  (forall u v, v4_dot u (m4_vec U v) = v4_dot v (m4_vec U u)) /\ forall v, 0 <= v4_dot v (m4_vec U v).

(** [V] is the covariance of J d when [U] is that of d: for all directions
    the variances agree, i.e. u.(V v) = (J^T u).(U (J^T v)). [JT] is the
    adjoint of the map [J]. *)
Definition propagates66 (J : v6 -> v6) (U V : m6) : Prop :=
  exists JT : v6 -> v6, (forall u d, v6_dot u (J d) = v6_dot (JT u) d) /\
    forall u v, v6_dot u (m6_vec V v) = v6_dot (JT u) (m6_vec U (JT v)).
Definition propagates64 (J : v6 -> v4) (U : m6) (V : m4) : Prop :=
  exists JT : v4 -> v6, (forall u d, v4_dot u (J d) = v6_dot (JT u) d) /\
    forall u v, v4_dot u (m4_vec V v) = v6_dot (JT u) (m6_vec U (JT v)).
Definition propagates44 (J : v4 -> v4) (U V : m4) : Prop :=
  exists JT : v4 -> v4, (forall u d, v4_dot u (J d) = v4_dot (JT u) d) /\
    forall u v, v4_dot u (m4_vec V v) = v4_dot (JT u) (m4_vec U (JT v)).
Definition propagates43 (J : v4 -> v3) (U : m4) (V : m3) : Prop :=
  exists JT : v3 -> v4, (forall u d, v3_dot u (J d) = v4_dot (JT u) d) /\
    forall u v, v3_dot u (m3_vec V v) = v4_dot (JT u) (m4_vec U (JT v)).
Definition propagates34 (J : v3 -> v4) (U : m3) (V : m4) : Prop :=
  exists JT : v4 -> v3, (forall u d, v4_dot u (J d) = v3_dot (JT u) d) /\
    forall u v, v4_dot u (m4_vec V v) = v3_dot (JT u) (m3_vec U (JT v)).

(** The Euclidean point that the homogeneous coordinates (p, w) stand for. *)
Definition stands_for (p : v4) (e : v3) : Prop :=
  q3 p <> 0 /\ q0 p = q3 p * x0 e /\ q1 p = q3 p * x1 e /\ q2 p = q3 p * x2 e.
