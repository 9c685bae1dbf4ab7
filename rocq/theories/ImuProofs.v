(** * Proofs about the inertial error terms *)
From Coquelicot Require Import Coquelicot.
From Coq Require Import Reals List Arith Lia Psatz.
From Verif Require Import KinModel KinSpec KinProofs KinExp KinCurve RotModel RotVec TfModel TfProofs BpModel BpProofs
  ExprModel ExprSpec ExprProofs ExprChart ImuModel ImuSpec.
Import ListNotations.
Local Open Scope R_scope.

Lemma v3_derive_unique f t a b : v3_derive f t a -> v3_derive f t b -> a = b.
Proof.
  intros (A & B & C) (A' & B' & C'). destruct a as [ a0 a1 a2 ], b as [ b0 b1 b2 ]. cbn [x0 x1 x2] in *.
  assert (U : forall (g : R -> R) (x y : R), is_derive g t x -> is_derive g t y -> x = y).
  { intros g x y X Y. rewrite <- (is_derive_unique _ _ _ X). exact (is_derive_unique _ _ _ Y). }
  f_equal; eapply U; eassumption.
Qed.
Lemma accelerates_unique f t A B : accelerates f t A -> accelerates f t B -> A = B.
Proof.
  intros (v & V & DV) (u & U & DU). apply (v3_derive_unique u t); [ | exact DU ].
  apply (v3_derive_ext_loc v); [ | exact DV ]. eapply filter_imp; [ | exact (filter_and _ _ V U) ].
  intros s [X Y]. exact (v3_derive_unique _ _ _ _ X Y).
Qed.
Lemma turns_unique Q t a b : SO3 (Q t) -> turns Q t a -> turns Q t b -> a = b.
Proof.
  intros S A B. pose proof (m3_derive_unique _ _ _ _ A B) as E. pose proof (SO3_tr_l _ S) as I.
  assert (F : crossMx a = crossMx b).
  { transitivity (m3_mul (m3_tr (Q t)) (m3_mul (Q t) (crossMx a))).
    - transitivity (m3_mul (m3_mul (m3_tr (Q t)) (Q t)) (crossMx a)); [ rewrite I; kring | generalize (Q t); kring ].
    - rewrite E. transitivity (m3_mul (m3_mul (m3_tr (Q t)) (Q t)) (crossMx b)); [ generalize (Q t); kring | rewrite I; kring ]. }
  pose proof (f_equal m21 F) as F0. pose proof (f_equal m02 F) as F1. pose proof (f_equal m10 F) as F2.
  destruct a as [ a0 a1 a2 ], b as [ b0 b1 b2 ]. revert F0 F1 F2. kunf. intros. f_equal; lra.
Qed.

(** dw x r + w x (w x r) *)
Definition swing (w dw r : v3) : v3 :=
  v3_add (m3_vec (crossMx dw) r) (m3_vec (crossMx w) (m3_vec (crossMx w) r)).
Lemma lever_acceleration P Q t a w dw r : body_motion P Q t a w dw ->
  accelerates (mounted P Q r) t (v3_add a (m3_vec (Q t) (swing w dw r))).
Proof.
  intros ((V & HV & DV) & W & EW & HW & DW).
  exists (fun s => v3_add (V s) (m3_vec (Q s) (m3_vec (crossMx (W s)) r))). split.
  - eapply filter_imp; [ | exact (filter_and _ _ HV HW) ]. intros s [X Y].
    eapply v3_derive_eq; [ exact (v3_derive_add _ _ s _ _ X (m3_vec_derive Q (fun _ => r) s _ _ Y (v3_derive_const r s))) | ].
    generalize (V s), (Q s), (W s). kring.
  - pose proof (locally_singleton _ _ HW) as Y.
    assert (C : v3_derive (fun s => m3_vec (crossMx (W s)) r) t (m3_vec (crossMx dw) r)).
    { apply (v3_derive_ext_loc (fun s => m3_vec (m3_neg (crossMx r)) (W s))).
      - exists (mkposreal 1 Rlt_0_1). intros s _. generalize (W s). unfold m3_neg. kring.
      - eapply v3_derive_eq; [ exact (m3_vec_derive (fun _ => m3_neg (crossMx r)) W t _ _ (m3_derive_const _ t) DW) | ].
        generalize (W t). unfold m3_neg. kring. }
    eapply v3_derive_eq; [ exact (v3_derive_add _ _ t _ _ DV (m3_vec_derive Q _ t _ _ Y C)) | ].
    cbv beta. rewrite !EW. unfold swing. clear. generalize (Q t). kring.
Qed.
(** The specific force of a mounted sensor, in the terms of the code. *)
Lemma mounted_force P Q t a w dw r C A g : SO3 (Q t) -> body_motion P Q t a w dw -> accelerates (mounted P Q r) t A ->
  specific_force (sensor_axes Q C t) A g =
  m3_vec C (v3_add (m3_vec (m3_tr (Q t)) (v3_sub a g)) (swing w dw r)).
Proof.
  intros S B HA. rewrite (accelerates_unique _ _ _ _ HA (lever_acceleration _ _ _ _ _ _ _ B)).
  pose proof (SO3_tr_l _ S) as I. unfold specific_force, sensor_axes.
  transitivity (m3_vec C (v3_add (m3_vec (m3_tr (Q t)) (v3_sub a g)) (m3_vec (m3_mul (m3_tr (Q t)) (Q t)) (swing w dw r)))).
  - generalize (Q t), (swing w dw r). kring.
  - rewrite I. f_equal. f_equal. generalize (swing w dw r). kring.
Qed.
(** The axes of a mounted sensor turn with the body. *)
Lemma mounted_turn Q t w C : SO3 C -> turns Q t w -> turns (sensor_axes Q C) t (m3_vec C w).
Proof.
  intros S T. unfold turns, sensor_axes.
  eapply m3_derive_eq; [ exact (m3_mul_derive Q (fun _ => m3_tr C) t _ _ T (m3_derive_const _ t)) | ].
  pose proof (SO3_cross C w S) as X. pose proof (SO3_tr_l C S) as I. destruct S as [I' _].
  transitivity (m3_mul (Q t) (m3_mul (m3_mul (m3_tr C) (m3_mul (crossMx (m3_vec C w)) C)) (m3_tr C))).
  - rewrite <- X. transitivity (m3_mul (Q t) (m3_mul (m3_mul (m3_mul (m3_tr C) C) (crossMx w)) (m3_tr C))).
    + rewrite I. generalize (Q t). kring.
    + generalize (Q t), (crossMx w). kring.
  - transitivity (m3_mul (m3_mul (m3_mul (Q t) (m3_tr C)) (crossMx (m3_vec C w))) (m3_mul C (m3_tr C))).
    + generalize (Q t), (crossMx (m3_vec C w)). kring.
    + rewrite I'. generalize (Q t), (crossMx (m3_vec C w)). kring.
Qed.

(** A vector that is not zero has a lever arm it turns. *)
Lemma some_arm v : v <> v3_zero -> exists r, m3_vec (crossMx v) r <> v3_zero.
Proof.
  intros N. destruct v as [ a b c ].
  assert (K : a <> 0 \/ b <> 0 \/ c <> 0).
  { destruct (Req_dec a 0) as [ -> | ]; [ | tauto ]. destruct (Req_dec b 0) as [ -> | ]; [ | tauto ].
    destruct (Req_dec c 0) as [ -> | ]; [ | tauto ]. exfalso. apply N. reflexivity. }
  destruct K as [ K | [ K | K ] ].
  - exists (V3 0 1 0). intros E. apply (f_equal x2) in E. revert E. kunf. cbn. lra.
  - exists (V3 1 0 0). intros E. apply (f_equal x2) in E. revert E. kunf. cbn. lra.
  - exists (V3 1 0 0). intros E. apply (f_equal x1) in E. revert E. kunf. cbn. lra.
Qed.
