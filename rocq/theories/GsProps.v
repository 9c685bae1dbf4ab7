(** * C107: Jacobians of scalar expressions *)
From Coq Require Import Reals List Arith Lra Lia.
From Verif Require Import GsModel GsSpec GsProofs.
Import ListNotations.
Local Open Scope R_scope.

(** Without quotients the blocks give the rate of the value for every motion of the
    design variables, and every row of a matrix applied on the left its multiple. *)
Theorem C107_derivative : forall th d e, without_quotients e ->
  derivable_pt_lim (fun s => value (along th d s) e) 0 (applied (jacobians th e None) d 0) /\
  forall c r, (r < length c)%nat ->
    applied (jacobians th e (Some c)) d r = nth r c 0 * applied (jacobians th e None) d 0.
Proof.
  intros th d e W. rewrite jacobians_rate. cbn [factor nth]. rewrite Rmult_1_l. split.
  - apply rate_derivative, W.
  - intros c r _. rewrite jacobians_rate. reflexivity.
Qed.
Print Assumptions C107_derivative.

(** Exactly the design variables that occur get a block, of the height of the matrix
    applied on the left, and exactly they are reported. *)
Theorem C107_variables : forall th e i,
  (In i (variables e) <-> occurs i e) /\
  (forall ch, (exists J, In (i, J) (jacobians th e ch)) <-> occurs i e) /\
  rows 1 (jacobians th e None) /\ (forall c, rows (length c) (jacobians th e (Some c))).
Proof.
  intros th e i. split; [apply variables_occurs|]. split; [intros ch; apply blocks_occur|].
  split; [apply (rows_ok th e None) | intros c; apply (rows_ok th e (Some c))].
Qed.
Print Assumptions C107_variables.

(** A quotient gives each side the factor of the other one: the rate is right for all
    motions of the two sides only where the value is -1. *)
Theorem C107_quotient_swapped : forall th d a b, without_quotients a -> without_quotients b ->
  value th b <> 0 ->
  exists da db,
    derivable_pt_lim (fun s => value (along th d s) a) 0 da /\
    derivable_pt_lim (fun s => value (along th d s) b) 0 db /\
    derivable_pt_lim (fun s => value (along th d s) (Gdiv a b)) 0
      (1 / value th b * da + - value th a / (value th b * value th b) * db) /\
    applied (jacobians th (Gdiv a b) None) d 0 =
      - value th a / (value th b * value th b) * da + 1 / value th b * db.
Proof.
  intros th d a b Ha Hb N. exists (rate th d a), (rate th d b).
  split; [apply rate_derivative, Ha|]. split; [apply rate_derivative, Hb|].
  split; [apply quotient_derivative; assumption|].
  rewrite jacobians_rate. cbn [factor nth rate]. ring.
Qed.
Print Assumptions C107_quotient_swapped.

(** The Jacobian of x / y at x = 1, y = 2 when x moves: -1/4 where 1/2 is the rate. *)
Theorem C107_quotient_refuted :
  exists th d e, derivable_pt_lim (fun s => value (along th d s) e) 0 (1 / 2) /\
    applied (jacobians th e None) d 0 = - (1 / 4) /\
    ~ derivable_pt_lim (fun s => value (along th d s) e) 0 (applied (jacobians th e None) d 0).
Proof.
  pose (th := fun i : nat => match i with O => 1 | _ => 2 end).
  pose (d := fun i : nat => match i with O => 1 | _ => 0 end).
  exists th, d, (Gdiv (Gvar 0) (Gvar 1)).
  assert (D : derivable_pt_lim (fun s => value (along th d s) (Gdiv (Gvar 0) (Gvar 1))) 0 (1 / 2)).
  { replace (1 / 2) with (1 / value th (Gvar 1) * rate th d (Gvar 0) +
      - value th (Gvar 0) / (value th (Gvar 1) * value th (Gvar 1)) * rate th d (Gvar 1)).
    - apply quotient_derivative; cbn [without_quotients]; try exact I.
      cbn [value]. unfold th. lra.
    - cbn [value rate]. unfold th, d. field. }
  assert (E : applied (jacobians th (Gdiv (Gvar 0) (Gvar 1)) None) d 0 = - (1 / 4)).
  { cbn [jacobians applied times app nth value]. unfold th, d. field. }
  split; [exact D|]. split; [exact E|].
  intros F. rewrite E in F. pose proof (uniqueness_limite _ _ _ _ D F). lra.
Qed.
Print Assumptions C107_quotient_refuted.

(** The design variable: a step is undone, and the difference to a reference is the
    step from the reference. *)
Theorem C107_variable : forall v dp x,
  p (update v dp) = p v + dp /\ p (revert (update v dp)) = p v /\
  p (setParameters v x) = x /\ p (revert (setParameters v x)) = p v /\
  p (update (setParameters v x) (minimalDifference v x)) = p v.
Proof.
  intros v dp x. unfold update, revert, setParameters, minimalDifference. cbn [p p_p].
  split; [reflexivity|]. split; [reflexivity|]. split; [reflexivity|]. split; [reflexivity|]. lra.
Qed.
Print Assumptions C107_variable.

(** x * y - (-x) at x = 3, y = 5 moving by (1, 10): 36, and two rows of it. *)
Example C107_ex :
  let e := Gsub (Gmul (Gvar 0) (Gvar 1)) (Gneg (Gcast (Gvar 0))) in
  let th := fun i : nat => match i with O => 3 | _ => 5 end in
  let d := fun i : nat => match i with O => 1 | _ => 10 end in
  without_quotients e /\ applied (jacobians th e None) d 0 = 36 /\
  applied (jacobians th e (Some [2; -1])) d 1 = -36 /\ variables e = [0; 1; 0]%nat.
Proof.
  cbv zeta. split; [cbn [without_quotients]; repeat (split; try exact I)|].
  cbn [jacobians applied times app nth value map variables].
  split; [ring|]. split; [ring | reflexivity].
Qed.
