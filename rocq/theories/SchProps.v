(** * C121: eliminating marginalized variables keeps the solution *)
From Coq Require Import Reals List Arith Bool Sorted Lia Lra.
From Verif Require Import BsplModel BsplProofs SchModel SchSpec SchProofs.
Import ListNotations.
Local Open Scope R_scope.

(** A vector solves the damped system of all variables exactly when its kept
    part solves the reduced system and the other parts are those of the
    back-substitution. *)
Theorem C121_elimination : forall inverse dims H rhs lambda na nm lm,
  let mu := if lm : bool then lambda else 0 in
  system inverse dims H mu na nm ->
  forall x,
    solves_full dims (na + nm) H mu rhs x <->
    solves dims na (fst (schur inverse dims H rhs lambda na nm lm))
                   (snd (schur inverse dims H rhs lambda na nm lm)) x /\
    (forall i p, (i < nm)%nat -> (p < dims (na + i))%nat ->
       x (na + i)%nat p = buildDsi inverse dims H rhs lambda na lm i x p).
Proof.
  intros inverse dims H rhs lambda na nm lm mu S x.
  exact (main inverse dims H rhs lambda na nm lm S x).
Qed.
Print Assumptions C121_elimination.

(** What the optimizer does: any solution of the reduced system, completed by
    the back-substitution from it, solves the system of all variables. *)
Theorem C121_step : forall inverse dims H rhs lambda na nm lm dx,
  let mu := if lm : bool then lambda else 0 in
  system inverse dims H mu na nm ->
  solves dims na (fst (schur inverse dims H rhs lambda na nm lm))
                 (snd (schur inverse dims H rhs lambda na nm lm)) dx ->
  solves_full dims (na + nm) H mu rhs
    (join na dx (fun i => buildDsi inverse dims H rhs lambda na lm i dx)).
Proof.
  intros inverse dims H rhs lambda na nm lm dx mu S D.
  apply (main inverse dims H rhs lambda na nm lm S).
  assert (J : forall ds c, (c < na)%nat -> join na dx ds c = dx c).
  { intros ds c C. unfold join. destruct (Nat.ltb_spec c na); [reflexivity | lia]. }
  split.
  - intros r p R P. rewrite <- (D r p R P). unfold times. apply bsum_ext. intros c C.
    apply bsum_ext. intros q _. rewrite (J _ c C). reflexivity.
  - intros i p I P.
    rewrite (dsi_ok inverse dims H rhs lambda na nm lm S).
    unfold join at 1. destruct (Nat.ltb_spec (na + i) na) as [X | _]; [lia |].
    replace (na + i - na)%nat with i by lia.
    rewrite (dsi_ok inverse dims H rhs lambda na nm lm S).
    apply bsum_ext. intros u _. f_equal. f_equal. unfold pull. apply bsum_ext. intros c C.
    apply bsum_ext. intros q _. rewrite (J _ c C). reflexivity.
Qed.
Print Assumptions C121_step.

(** Marginalized variables that are coupled with each other are not noticed:
    everything else is in order, and the step is not a solution. *)
Theorem C121_coupled_refuted : exists H rhs dx,
  (forall c, StronglySorted lt (map fst (H c))) /\
  (forall c p q, at_ H c c p q = at_ H c c q p) /\
  (forall c, (1 <= c)%nat -> (c < 3)%nat -> are_inverse 1 (at_ H c c) (inv1 1 (at_ H c c))) /\
  solves (fun _ => 1%nat) 1 (fst (schur inv1 (fun _ => 1%nat) H rhs 0 1 2 false))
                            (snd (schur inv1 (fun _ => 1%nat) H rhs 0 1 2 false)) dx /\
  ~ solves_full (fun _ => 1%nat) 3 H 0 rhs
      (join 1 dx (fun i => buildDsi inv1 (fun _ => 1%nat) H rhs 0 1 false i dx)).
Proof.
  exists (fun c => match c with
                   | 0%nat => [(0%nat, fun _ _ => 1)]
                   | 1%nat => [(1%nat, fun _ _ => 2)]
                   | 2%nat => [(1%nat, fun _ _ => 1); (2%nat, fun _ _ => 2)]
                   | _ => []
                   end).
  exists (fun r _ => match r with 0%nat => 0 | _ => 3 end), (fun _ _ => 0).
  split; [intros [|[|[|c]]]; simpl; repeat constructor |].
  split; [intros [|[|[|c]]] p q; reflexivity |].
  split.
  { intros c C1 C2 p q P Q. replace p with 0%nat by lia. replace q with 0%nat by lia.
    destruct c as [|[|[|c]]]; try lia; unfold at_, inv1, ident; simpl; split; field. }
  split.
  - intros r p R P. cbn beta in P. replace r with 0%nat by lia. replace p with 0%nat by lia.
    unfold times, symm; simpl. lra.
  - intros F. specialize (F 1%nat 0%nat (le_S _ _ (le_n _)) (le_n _)).
    unfold times, symm, join, buildDsi, invV, inv1, at_ in F; simpl in F. lra.
Qed.
Print Assumptions C121_coupled_refuted.

(** A kept variable of two dimensions and two marginalized ones, with damping. *)
Definition exH (c : nat) : col :=
  match c with
  | 0%nat => [(0%nat, fun p q => if Nat.eqb p q then 4 else 1)]
  | 1%nat => [(0%nat, fun p _ => INR p + 1); (1%nat, fun _ _ => 5)]
  | 2%nat => [(0%nat, fun p _ => 2 - INR p); (2%nat, fun _ _ => 2)]
  | _ => []
  end.
Definition exd (r : nat) : nat := match r with 0 => 2 | _ => 1 end%nat.

Example C121_ex : system inv1 exd exH 1 1 2.
Proof.
  constructor.
  - intros [|[|[|c]]]; simpl; repeat constructor.
  - intros r c p q A B C _ _. assert (r = 1 /\ c = 2)%nat as [-> ->] by lia. reflexivity.
  - intros c p q A B P Q. destruct c as [|[|[|c]]]; try lia; reflexivity.
  - intros c M A B E p q P Q.
    assert (D : exd c = 1%nat) by (destruct c as [|c]; [lia | reflexivity]). rewrite D in *.
    replace p with 0%nat by lia. replace q with 0%nat by lia.
    pose proof (E 0%nat 0%nat) as E0. unfold inv1, ident; simpl.
    assert (N : M 0%nat 0%nat <> 0).
    { rewrite E0. destruct c as [|[|[|c]]]; try lia; unfold damped, ident, at_; simpl; lra. }
    split; field; exact N.
Qed.
