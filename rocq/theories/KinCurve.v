(** * Derivatives of vector, quaternion and matrix valued functions of time *)

From Coquelicot Require Import Coquelicot.
From Coq Require Import Reals Psatz Nsatz.
From Verif Require Import KinModel KinSpec KinProofs KinExp.
Local Open Scope R_scope.

(** [f] has derivative [d] at [t], coefficient by coefficient. *)
Definition v3_derive (f : R -> v3) (t : R) (d : v3) : Prop :=
  is_derive (fun s => x0 (f s)) t (x0 d) /\ is_derive (fun s => x1 (f s)) t (x1 d) /\
  is_derive (fun s => x2 (f s)) t (x2 d).
Definition v4_derive (f : R -> v4) (t : R) (d : v4) : Prop :=
  is_derive (fun s => q0 (f s)) t (q0 d) /\ is_derive (fun s => q1 (f s)) t (q1 d) /\
  is_derive (fun s => q2 (f s)) t (q2 d) /\ is_derive (fun s => q3 (f s)) t (q3 d).
Definition m3_derive (f : R -> m3) (t : R) (D : m3) : Prop :=
  (is_derive (fun s => m00 (f s)) t (m00 D) /\ is_derive (fun s => m01 (f s)) t (m01 D) /\
   is_derive (fun s => m02 (f s)) t (m02 D)) /\
  (is_derive (fun s => m10 (f s)) t (m10 D) /\ is_derive (fun s => m11 (f s)) t (m11 D) /\
   is_derive (fun s => m12 (f s)) t (m12 D)) /\
  (is_derive (fun s => m20 (f s)) t (m20 D) /\ is_derive (fun s => m21 (f s)) t (m21 D) /\
   is_derive (fun s => m22 (f s)) t (m22 D)).

(** [w] is the angular velocity, in rotated coordinates, of the rotation [C]
    with rate [Cdot]: this library's convention is Cdot = -[w]x C. *)
Definition angular_velocity (C Cdot : m3) (w : v3) : Prop :=
  Cdot = m3_mul (m3_scale (-1) (crossMx w)) C.

Lemma derive_continuous (f : R -> R) (t d : R) : is_derive f t d -> continuous f t.
Proof. intros H. apply (ex_derive_continuous (V := R_NormedModule) f t). exists d. exact H. Qed.

(** A strict lower bound on a continuous function holds nearby. *)
Lemma locally_gt (f : R -> R) t c : continuous f t -> c < f t -> locally t (fun s => c < f s).
Proof.
  intros H L. apply (H (fun y => c < y)). apply (open_gt c). exact L.
Qed.
Lemma locally_lt (f : R -> R) t c : continuous f t -> f t < c -> locally t (fun s => f s < c).
Proof.
  intros H L. apply (H (fun y => y < c)). apply (open_lt c). exact L.
Qed.

Lemma v3_derive_ext_loc f g t d : locally t (fun s => f s = g s) -> v3_derive f t d -> v3_derive g t d.
Proof.
  intros H (A & B & C). unfold v3_derive.
  split; [ | split]; (eapply is_derive_ext_loc; [ | eassumption]);
    (eapply filter_imp; [ | exact H]); intros s ->; reflexivity.
Qed.
Lemma v4_derive_ext_loc f g t d : locally t (fun s => f s = g s) -> v4_derive f t d -> v4_derive g t d.
Proof.
  intros H (A & B & C & D). unfold v4_derive.
  split; [ | split; [ | split]]; (eapply is_derive_ext_loc; [ | eassumption]);
    (eapply filter_imp; [ | exact H]); intros s ->; reflexivity.
Qed.

(** Replace the derivative of an abstract function by its value. *)
Ltac derive_sub H :=
  match type of H with
  | is_derive ?f ?t ?d =>
      let E := fresh in
      assert (E : Derive (fun s : R => f s) t = d) by exact (is_derive_unique f t d H);
      rewrite ?E; clear E
  end.
Ltac derive_ex H :=
  match type of H with
  | is_derive ?f ?t ?d =>
      let E := fresh "EX" in assert (E : ex_derive f t) by (exists d; exact H)
  end.
(** The side conditions of [auto_derive]. *)
Ltac derive_side := repeat (split; [first [eassumption | lra] | ]); try exact I; try assumption; try lra.

(** The length of a moving vector. *)
Lemma norm_derive_scalar (x y z : R -> R) (t dx dy dz : R) :
  is_derive x t dx -> is_derive y t dy -> is_derive z t dz ->
  0 < x t * x t + y t * y t + z t * z t ->
  is_derive (fun s => sqrt (x s * x s + y s * y s + z s * z s)) t
    ((x t * dx + y t * dy + z t * dz) / sqrt (x t * x t + y t * y t + z t * z t)).
Proof.
  intros A B C P.
  derive_ex A. derive_ex B. derive_ex C.
  auto_derive.
  - repeat (split; [eassumption | ]). exact I.
  - derive_sub A. derive_sub B. derive_sub C. field. apply Rgt_not_eq. apply sqrt_lt_R0, P.
Qed.

Lemma norm_pos_dot v : 0 < v3_norm v -> 0 < v3_dot v v.
Proof. intros P. rewrite <- v3_norm_sq. nra. Qed.

Lemma norm_derive (a : R -> v3) (t : R) (d : v3) : v3_derive a t d -> 0 < v3_norm (a t) ->
  is_derive (fun s => v3_norm (a s)) t (v3_dot (a t) d / v3_norm (a t)).
Proof.
  intros (A & B & C) P. apply norm_pos_dot in P.
  exact (norm_derive_scalar (fun s => x0 (a s)) (fun s => x1 (a s)) (fun s => x2 (a s)) t _ _ _ A B C P).
Qed.
