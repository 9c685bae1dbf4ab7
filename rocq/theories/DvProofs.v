(** * Design variables: histories, differences, Jacobians *)

From Coquelicot Require Import Coquelicot.
From Coq Require Import Reals Psatz List Arith Bool Lia.
From Verif Require Import Base KinModel KinSpec KinProofs KinExp KinAxis KinCurve KinJac KinProps DvModel DvSpec.
Import ListNotations.
Local Close Scope Z_scope.
Local Open Scope R_scope.

Lemma is_column_true n m : is_column n m = true <-> mrows m = n /\ mcols m = 1%nat.
Proof.
  unfold is_column. rewrite andb_true_iff, !Nat.eqb_eq. reflexivity.
Qed.

Definition undone {X} (v0 : X) apply assign (l : list op) : X :=
  value_after v0 apply assign (ORevert :: l).

Lemma undone_revert {X} (v0 : X) ap asg l : undone v0 ap asg (ORevert :: l) = undone v0 ap asg l.
Proof. reflexivity. Qed.

(** ** Plain variables *)
Lemma run_app {K} (l1 l2 : list op) : forall x : dv K,
  run x (l1 ++ l2) = do y <- run x l1; run y l2.
Proof.
  induction l1 as [ | o l1 IH]; intros x; cbn [run app]; [reflexivity | ].
  destruct (step x o); cbn [obind]; [apply IH | reflexivity..].
Qed.

Lemma history {K} (v0 : kval K) (l : list op) :
  Forall (well_sized (kdim K) (kpar K)) l ->
  run (make v0) l = Ok (Dv (value_after v0 (kstep K) (kput K) (rev l))
                           (undone v0 (kstep K) (kput K) (rev l))).
Proof.
  induction l as [ | o l IH] using rev_ind; intros H; [reflexivity | ].
  apply Forall_app in H. destruct H as [Hl Ho]. apply Forall_inv in Ho.
  rewrite run_app, (IH Hl). cbn [obind run]. rewrite rev_app_distr. cbn [rev app].
  destruct o as [d | | m]; cbn [step].
  - unfold update. cbn [well_sized] in Ho. rewrite Ho, Nat.ltb_irrefl. cbn [obind].
    rewrite <- Ho at 1. rewrite firstn_all. reflexivity.
  - reflexivity.
  - unfold set_parameters. destruct Ho as (A & B & C).
    rewrite (proj2 (is_column_true _ _) (conj A B)). reflexivity.
Qed.

(** ** Rotations *)
Definition rot_apply (q : v4) (d : list R) : v4 := updateQuat q (v3_of d).

Lemma rot_run_app (l1 l2 : list op) : forall x : rot,
  rot_run x (l1 ++ l2) = do y <- rot_run x l1; rot_run y l2.
Proof.
  induction l1 as [ | o l1 IH]; intros x; cbn [rot_run app]; [reflexivity | ].
  destruct (rot_step x o); cbn [obind]; [apply IH | reflexivity..].
Qed.

Lemma rot_history (q : v4) (C : m3) (l : list op) : C = quat2r q ->
  Forall (well_sized 3 4) l ->
  let v := value_after q rot_apply v4_of (rev l) in
  rot_run (Rot q q C) l = Ok (Rot v (undone q rot_apply v4_of (rev l)) (quat2r v)).
Proof.
  intros ->. cbv zeta. induction l as [ | o l IH] using rev_ind; intros H; [reflexivity | ].
  apply Forall_app in H. destruct H as [Hl Ho]. apply Forall_inv in Ho.
  rewrite rot_run_app, (IH Hl). cbn [obind rot_run]. rewrite rev_app_distr. cbn [rev app].
  destruct o as [d | | m]; cbn [rot_step].
  - unfold rot_update. cbn [well_sized] in Ho. rewrite Ho. reflexivity.
  - reflexivity.
  - unfold rot_set_parameters. destruct Ho as (A & B & D).
    rewrite (proj2 (is_column_true _ _) (conj A B)). reflexivity.
Qed.

(** Steps that keep the length exactly: none, or an angle of 2^-13 or more. *)
Definition exact_step (d : v3) : Prop := d = v3_zero \/ eps4 <= v3_norm d.

Lemma exact_unit d : exact_step d -> unit4 (axisAngle2quat d).
Proof.
  intros [-> | H].
  - rewrite exp_zero. unfold unit4, quatIdentity. cbn [q0 q1 q2 q3]. ring.
  - apply exp_unit_big, H.
Qed.

Lemma update_unit q d : unit4 q -> exact_step d -> unit4 (updateQuat q d).
Proof.
  intros U E. rewrite update_is_product.
  apply (proj1 (proj2 (proj2 (proj2 (proj2 (proj2 (C52_group (axisAngle2quat d) q q)))))) (exact_unit d E) U).
Qed.

Definition unit_op (o : op) : Prop :=
  match o with
  | OUpdate d => exact_step (v3_of d)
  | ORevert => True
  | OSet m => unit4 (v4_of (mdata m))
  end.

Lemma value_unit_both q l : unit4 q -> Forall unit_op l ->
  unit4 (value_after q rot_apply v4_of l) /\ unit4 (undone q rot_apply v4_of l).
Proof.
  intros U. induction l as [ | o l IH]; intros H; [split; exact U | ].
  inversion H as [ | ? ? Ho Hl]; subst. destruct (IH Hl) as [A B]. destruct o as [d | | m].
  - split; [apply update_unit; assumption | exact A].
  - split; exact B.
  - split; [exact Ho | exact A].
Qed.
Lemma value_unit q l : unit4 q -> Forall unit_op l -> unit4 (value_after q rot_apply v4_of l).
Proof. intros U H. apply (value_unit_both q l U H). Qed.

(** ** Differences *)
Lemma list_sub_self l : list_sub l l = repeat 0 (length l).
Proof.
  induction l as [ | x l IH]; [reflexivity | ]. cbn [list_sub length repeat]. rewrite IH.
  replace (x - x) with 0 by ring. reflexivity.
Qed.
Lemma list_add_sub (a b : list R) : length a = length b -> list_add b (list_sub a b) = a.
Proof.
  revert b. induction a as [ | x a IH]; intros [ | y b] H; try discriminate; [reflexivity | ].
  cbn [list_add list_sub]. rewrite IH by (cbn in H; lia). f_equal. ring.
Qed.
Lemma list_sub_add (b d : list R) : length b = length d -> list_sub (list_add b d) b = d.
Proof.
  revert d. induction b as [ | x b IH]; intros [ | y d] H; try discriminate; [reflexivity | ].
  cbn [list_add list_sub]. rewrite IH by (cbn in H; lia). f_equal. ring.
Qed.
Lemma list_add_length a : forall b, length (list_add a b) = Nat.min (length a) (length b).
Proof.
  induction a as [ | x a IH]; intros [ | y b]; cbn [list_add length]; try reflexivity.
  rewrite IH. reflexivity.
Qed.

Lemma qplus_assoc p q r : qplus p (qplus q r) = qplus (qplus p q) r.
Proof. kring. Qed.
Lemma qplus_inv q : unit4 q -> qplus q (quatInv q) = quatIdentity /\ qplus (quatInv q) q = quatIdentity.
Proof. intros U. apply (C52_group q q q). exact U. Qed.
Lemma qplus_id_r q : qplus q quatIdentity = q. Proof. kring. Qed.
Lemma qplus_id_l q : qplus quatIdentity q = q. Proof. kring. Qed.
Lemma qplus_unit p q : unit4 p -> unit4 q -> unit4 (qplus p q).
Proof. intros A B. apply (C52_group p q q); assumption. Qed.
Lemma quatInv_unit q : unit4 q -> unit4 (quatInv q).
Proof. intros A. apply (C52_group q q q); assumption. Qed.

Lemma v4_of_to q : v4_of (v4_to q) = q.
Proof. destruct q as [a b c d]. reflexivity. Qed.
Lemma v3_of_to v : v3_of (v3_to v) = v.
Proof. destruct v as [a b c]. reflexivity. Qed.

(** The step that the difference names takes the reference to the value. *)
Lemma difference_step x r l : unit4 r ->
  quat2AxisAngle (qplus x (quatInv r)) = Some l ->
  axisAngle2quat l = qplus x (quatInv r) -> updateQuat r l = x.
Proof.
  intros U _ E. rewrite update_is_product, E, <- qplus_assoc.
  rewrite (proj2 (qplus_inv r U)). apply qplus_id_r.
Qed.

(** A step away from the reference is the difference. *)
Lemma step_difference r d : unit4 r ->
  qplus (updateQuat r d) (quatInv r) = axisAngle2quat d.
Proof.
  intros U. rewrite update_is_product, <- qplus_assoc, (proj1 (qplus_inv r U)). apply qplus_id_r.
Qed.
