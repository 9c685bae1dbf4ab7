(** * Properties of the matrix and quaternion expressions *)
From Coquelicot Require Import Coquelicot.
From Coq Require Import Reals List Arith Lra Lia.
From Verif Require Import BsplModel BsdProofs KinModel KinSpec GqModel GqSpec GqLin GqInv GqProofs.
Import ListNotations.
Local Open Scope R_scope.

(** evaluateJacobians of an expression with one column: the blocks, applied to any
    direction of the design variables, give the rate of the value. *)
Theorem C108_jacobian : forall K inverse th d e m,
  shaped K e m 1 -> supported K e -> regular K inverse th d e ->
  forall r, (r < m)%nat ->
    is_derive (fun s => value K inverse (moved K th d s) e r 0%nat) 0
      (applied (jacobians K inverse th e DIdentity) d r).
Proof.
  intros K inverse th d e m S U G r Hr.
  rewrite (sweep K inverse th d e m 1 S U DIdentity I I r). cbn [applyInto].
  apply (rate_derive K inverse th d e m 1 S G r 0%nat Hr). lia.
Qed.
Print Assumptions C108_jacobian.

(** With a matrix in front: the rate of that matrix times the value. *)
Theorem C108_factor : forall K inverse th d e m M,
  shaped K e m 1 -> supported K e -> regular K inverse th d e ->
  forall r,
    is_derive (fun s => bsum m (fun j => M r j * value K inverse (moved K th d s) e j 0%nat)) 0
      (applied (jacobians K inverse th e (DMatrix m M)) d r).
Proof.
  intros K inverse th d e m M S U G r.
  rewrite (sweep K inverse th d e m 1 S U (DMatrix m M) I eq_refl r). cbn [applyInto]. unfold mmul.
  apply bsum_derive. intros j Hj.
  apply derive_scal_const. apply (rate_derive K inverse th d e m 1 S G j 0%nat Hj). lia.
Qed.
Print Assumptions C108_factor.

(** Of any shape and with any linear differential of the caller: there is one rate of the
    value, and the blocks give what the differential makes of it. *)
Theorem C108_differential : forall K inverse th d e m n,
  shaped K e m n -> supported K e -> regular K inverse th d e ->
  exists rate : mat,
    (forall r c, (r < m)%nat -> (c < n)%nat ->
       is_derive (fun s => value K inverse (moved K th d s) e r c) 0 (rate r c)) /\
    (forall D, linear_diff D -> accepts D m ->
       forall r, applied (jacobians K inverse th e D) d r = applyInto D rate r).
Proof.
  intros K inverse th d e m n S U G. exists (rate K inverse th d e).
  split; [apply (rate_derive K inverse th d e m n S G)|].
  intros D L A r. apply (sweep K inverse th d e m n S U D L).
  destruct D; cbn [accepts ready] in *; try exact I; [exact A | destruct A].
Qed.
Print Assumptions C108_differential.

(** The quaternion operations in every mode: associative, with norms that multiply, an
    inverse on both sides, and rotations that compose and keep lengths; the modes differ in
    the sign of i * j. *)
Theorem C108_quaternions : forall m a b c v,
  quatMult m a (quatMult m b c) = quatMult m (quatMult m a b) c /\
  v4_dot (quatMult m a b) (quatMult m a b) = v4_dot a a * v4_dot b b /\
  (v4_dot a a <> 0 -> quatMult m a (invert a) = V4 0 0 0 1 /\ quatMult m (invert a) a = V4 0 0 0 1) /\
  rotated m a (rotated m b v) = rotated m (quatMult m a b) v /\
  v3_dot (rotated m a v) (rotated m a v) = v4_dot a a * v4_dot a a * v3_dot v v /\
  (unit4 a -> invert a = conjugate a) /\
  quatMult m (V4 1 0 0 0) (V4 0 1 0 0) = V4 0 0 (if traditional m then 1 else -1) 0 /\
  toq m (ofq m a) = a.
Proof.
  intros m a b c v. destruct a as [a1 a2 a3 a4], b as [b1 b2 b3 b4], c as [c1 c2 c3 c4], v as [v1 v2 v3].
  split; [apply assoc|]. split; [apply norm_mult|]. split; [apply inverse_sides|].
  split; [apply rotated_comp|]. split; [apply rotated_norm|]. split; [apply unit_invert|].
  split; [apply ij|]. apply toq_ofq.
Qed.
Print Assumptions C108_quaternions.

(** A unit quaternion variable moved from the left has no Jacobian although it moves. *)
Theorem C108_left_refuted : forall m, exists K inverse th d r x,
  K 0%nat = Kquaternion m LEFT_TRANSLATED /\
  is_derive (fun s => value K inverse (moved K th d s) (Evar 0) r 0%nat) 0 x /\ x <> 0 /\
  jacobians K inverse th (Evar 0) DIdentity = [].
Proof.
  intros m.
  exists (fun _ => Kquaternion m LEFT_TRANSLATED), (fun _ A => A),
    (fun _ r => ofq m (V4 0 0 0 1) r 0%nat), (fun _ r => if (r =? 0)%nat then 1 else 0),
    (if real_first m then 1%nat else 0%nat), 1.
  split; [reflexivity|]. split; [apply left_moves|]. split; [lra | reflexivity].
Qed.
Print Assumptions C108_left_refuted.

(** The exponential of a vector expression forgets what is done to it afterwards: a factor
    [s] does not reach the Jacobian, which for s = 2 is half the rate. *)
Theorem C108_exp_of_vector_refuted : forall m,
  (forall K inverse th s r c,
     jacobians K inverse th (Escale (Eqexp m (Evector 0)) s) DIdentity =
     jacobians K inverse th (Eqexp m (Evector 0)) DIdentity /\
     mscale (value K inverse th (Eqexp m (Evector 0))) s r c =
     value K inverse th (Escale (Eqexp m (Evector 0)) s) r c) /\
  exists K inverse th d r,
    is_derive (fun s => value K inverse (moved K th d s) (Escale (Eqexp m (Evector 0)) 2) r 0%nat) 0 (-2) /\
    applied (jacobians K inverse th (Escale (Eqexp m (Evector 0)) 2) DIdentity) d r = -1.
Proof.
  intros m. split; [intros; split; reflexivity|].
  exists (fun _ => Kvector 3), (fun _ A => A),
    (fun _ r => if (r =? 0)%nat then PI / 2 else 0), (fun _ r => if (r =? 0)%nat then 1 else 0),
    (if real_first m then 0%nat else 3%nat).
  apply exp_scaled.
Qed.
Print Assumptions C108_exp_of_vector_refuted.

(** (I + x x')^-1 x at x = (1, 0) moving along (0, 1): the second row moves with 1/2; and a
    unit quaternion moved from the right, inverted and rotating a vector. *)
Definition inverse2 (n : nat) (A : mat) : mat :=
  let det := A 0%nat 0%nat * A 1%nat 1%nat - A 0%nat 1%nat * A 1%nat 0%nat in
  fun r c => (match r, c with
              | 0, 0 => A 1 1 | 0, _ => - A 0 1 | _, 0 => - A 1 0 | _, _ => A 0 0
              end)%nat / det.
Example C108_ex :
  let K := fun i => match i with 0%nat => Kvector 2 | 1%nat => Kquaternion (Mode true true) RIGHT_TRANSLATED
                               | _ => Kvector 3 end in
  let e := Emul 2 (Einv 2 (Eadd (Econst midentity) (Emul 1 (Evar 0) (Etrans (Evar 0))))) (Evar 0) in
  let e' := Eqrot (Mode true true) (Eqinv (Mode true true) (Evar 1)) (Evar 2) in
  let th := fun i r => match r with 0%nat => 1 | _ => 0 end in
  let d := fun i r => match r with 1%nat => 1 | _ => 0 end in
  shaped K e 2 1 /\ supported K e /\ regular K inverse2 th d e /\
  applied (jacobians K inverse2 th e DIdentity) d 1 = 1 / 2 /\
  shaped K e' 3 1 /\ supported K e' /\ regular K inverse2 th d e' /\
  applied (jacobians K inverse2 th e' DIdentity) d 2 = 2.
Proof.
  intros K e e' th d.
  split; [apply S_mul; [apply S_inv, S_add; [apply S_const | apply S_mul; [|apply S_trans]]|]; exact (S_var K 0)|].
  split; [cbn [supported e]; unfold K; cbv beta iota; tauto|].
  split.
  { cbn [regular e]. split; [|exact I]. split; [tauto|].
    apply filter_forall. intros s r c Hr Hc.
    assert (P : forall x, bsum 2 x = x 0%nat + x 1%nat) by (intros x; cbn [bsum]; ring).
    cbn [value]. rewrite !P. unfold inverse2, madd, midentity, mmul, mtrans, moved, K, stepped, column. cbn [bsum size].
    destruct r as [|[|r]]; [| |lia]; (destruct c as [|[|c]]; [| |lia]); cbn [Nat.eqb Nat.ltb Nat.leb andb];
      generalize (th 0%nat 0%nat + s * d 0%nat 0%nat), (th 0%nat 1%nat + s * d 0%nat 1%nat);
      intros a b; assert (N : 1 + a * a + b * b <> 0) by nra;
      (split; field; nra). }
  split.
  { cbn [jacobians e K app applied addBlock size bsum].
    unfold byApplication. cbn [applyBasisVectorInto applyInto value].
    unfold invDiff, inverse2, madd, mneg, midentity, mmul, mtrans, basis, column, K, th, d. cbn [bsum size Nat.eqb Nat.ltb Nat.leb andb].
    field. }
  assert (S' : shaped K e' 3 1) by (apply S_qrot; [apply S_qinv; exact (S_var K 1) | exact (S_var K 2)]).
  assert (U' : supported K e') by (cbn [supported e']; unfold K; cbv beta iota; tauto).
  split; [exact S'|]. split; [exact U'|].
  split.
  { cbn [regular e']. split; [|exact I]. split; [exact I|].
    cbn [value]. unfold K, toq, column, v4_dot, th. cbn [size real_first Nat.eqb Nat.ltb Nat.leb andb q0 q1 q2 q3]. lra. }
  rewrite (sweep K inverse2 th d e' 3 1 S' U' DIdentity I I 2). cbn [applyInto rate e' value].
  assert (Q : toq (Mode true true) (column (size (K 1%nat)) (th 1%nat)) = V4 0 0 0 1) by reflexivity.
  assert (V : col3 (column (size (K 2%nat)) (th 2%nat)) 0 = V3 1 0 0) by reflexivity.
  assert (V' : col3 (rate K inverse2 th d (Evar 2)) 0 = V3 0 1 0) by reflexivity.
  assert (Q' : toq (Mode true true) (rate K inverse2 th d (Evar 1)) = V4 0 1 0 0).
  { cbn [rate]. unfold K at 1. unfold toq at 1. cbn [real_first]. rewrite !dUpdate_column by lia.
    replace (toq (Mode true true) (column 4 (th 1%nat))) with (V4 0 0 0 1) by reflexivity.
    unfold ofq, quatMult, multTraditional, pure, d. cbn [traditional real_first Nat.eqb q0 q1 q2 q3 x0 x1 x2]. f_equal; ring. }
  cbn [rate] in Q', V'. rewrite Q, V, Q', V', !toq_ofq.
  replace (qinvDiff (Mode true true) (V4 0 0 0 1) (V4 0 1 0 0)) with (V4 0 (-1) 0 0).
  2:{ unfold qinvDiff, quatMult, multTraditional, conjugate, v4_scale, v4_neg, v4_dot. cbv zeta.
      cbn [traditional q0 q1 q2 q3]. f_equal; field. }
  replace (invert (V4 0 0 0 1)) with (V4 0 0 0 1).
  2:{ unfold invert, conjugate, v4_scale, v4_dot. cbv zeta. cbn [q0 q1 q2 q3]. f_equal; field. }
  unfold madd, of3, qrotDiffL, rotated, quatMultPure, quatMult, multTraditional, multTraditionalPureRight,
    conjugate, v4_add, imag. cbn [traditional Nat.eqb q0 q1 q2 q3 x0 x1 x2 v3_at]. ring.
Qed.
