(** The optimization problem container. *)
From Coq Require Import ZArith List Bool Lia Permutation.
From Verif Require Import Base ProbModel ProbSpec ProbProofs.
Import ListNotations.
Open Scope Z_scope.

(** After any history of calls within the contract, the problem holds the design
    variables and error terms the history says, in order of insertion, and
    asking for the error terms of a design variable gives exactly the terms in
    the problem that use it. *)
Theorem C29_histories : forall uses kept debug os,
  allowed_history uses kept debug ([], []) os ->
  exists p fs, run uses kept debug empty os = Ok (p, fs) /\
    history uses ([], []) os (dvars p, terms p) fs /\ NoDup (dvars p) /\
    forall d t, In t (get_errors p d []) <-> In t (terms p) /\ In d (uses t).
Proof.
  intros uses kept debug os H.
  destruct (run_ok uses kept debug os empty) as (p & fs & E & I & Hh).
  - split; [constructor | ]. split; constructor.
  - exact H.
  - exists p, fs. split; [exact E | ]. split; [exact Hh | ]. split; [apply I | ].
    intros d t. rewrite (get_errors_in uses kept p d [] t I). cbn [In]. tauto.
Qed.
Print Assumptions C29_histories.

(** The specification fixes the outcome of a history. *)
Theorem C29_spec_deterministic : forall uses os s s1 s2 f1 f2,
  history uses s os s1 f1 -> history uses s os s2 f2 -> s1 = s2 /\ f1 = f2.
Proof.
  intros uses os. induction os as [ | o os IH]; intros s s1 s2 f1 f2 H1 H2.
  - inversion H1; inversion H2; subst; auto.
  - inversion H1 as [ | a b c d e g h D1 K1]; subst. inversion H2 as [ | a' b' c' d' e' g' h' D2 K2]; subst.
    assert (X : c = c' /\ d = d').
    { inversion D1; subst; inversion D2; subst; try contradiction; auto;
        repeat match goal with H : taken _ _ _ |- _ => apply taken_fun in H end; subst; auto. }
    destruct X as (<- & <-). destruct (IH _ _ _ _ _ K1 K2) as (<- & <-). auto.
Qed.
Print Assumptions C29_spec_deterministic.

Definition uses0 (t : Z) : list Z := match t with 1 => [10; 11] | 2 => [11] | 3 => [12; 10] | _ => [] end.

Example C29_ex_history :
  let os := [AddDv 10; AddDv 11; AddDv 10; AddDv 12; AddTerm 1; AddTerm 2; AddTerm 3; AddTerm 1;
             RemoveDv 11; RemoveTerm 3; AddTerm 3] in
  allowed_history uses0 (fun _ => false) true ([], []) os /\
  run uses0 (fun _ => false) true empty os
  = Ok (Prob [10; 12] [3] [(10, 3); (12, 3)],
        [false; false; true; false; false; false; false; false; false; false; false]).
Proof.
  split; [ | reflexivity].
  repeat (constructor; [cbn; try exact I; try (split; [right; repeat constructor; cbn; lia | ]; intros _ d Hd; cbn in *; lia);
    try (right; auto; lia) | intros s' f H; inversion H; subst; clear H;
    repeat match goal with
    | H : taken _ _ _ |- _ => apply taken_fun in H; vm_compute in H; subst
    | H : ~ In _ _ |- _ => cbn in H; try (exfalso; lia); clear H
    | H : In _ _ |- _ => cbn in H; try (exfalso; lia); clear H
    end; cbn [app]]).
  all: constructor.
Qed.

(** Removing a design variable removes exactly the error terms that use it, and
    keeps the others in order. *)
Theorem C29_remove_variable : forall uses kept debug os d,
  allowed_history uses kept debug ([], []) os ->
  exists p fs p', run uses kept debug empty os = Ok (p, fs) /\
    remove_dv uses kept p d = Ok p' /\
    terms p' = filter (fun t => negb (existsb (Z.eqb d) (uses t))) (terms p) /\
    ~ In d (dvars p') /\
    (forall x, x <> d -> In x (dvars p') <-> In x (dvars p)) /\
    (forall x t, In t (get_errors p' x []) -> In t (terms p') /\ x <> d).
Proof.
  intros uses kept debug os d H.
  destruct (run_ok uses kept debug os empty) as (p & fs & E & I & _).
  - split; [constructor | ]. split; constructor.
  - exact H.
  - destruct (remove_dv_ok uses kept p d I) as (p' & E' & D & I' & T).
    exists p, fs, p'. split; [exact E | ]. split; [exact E' | ]. split; [exact T | ]. rewrite D. split.
    + destruct I as (N & _). destruct (in_dec Z.eq_dec d (dvars p)) as [Hd | Hd].
      * assert (X := Permutation_NoDup (erase_perm _ _ Hd) N). now inversion X.
      * now rewrite erase_none.
    + split.
      * intros x Nx. split; [apply erase_incl | ]. intro Hx.
        destruct (in_dec Z.eq_dec d (dvars p)) as [Hd | Hd].
        -- apply (Permutation_in _ (erase_perm _ _ Hd)) in Hx. destruct Hx; [congruence | assumption].
        -- now rewrite erase_none.
      * intros x t Ht. apply (get_errors_in uses kept p' x [] t I') in Ht.
        destruct Ht as [[] | (Ht & Hu)]. split; [exact Ht | ]. intros ->.
        rewrite T in Ht. apply filter_In in Ht. destruct Ht as (_ & Ht).
        apply negb_true_iff in Ht. apply mem_in in Hu. unfold mem in Hu. congruence.
Qed.
Print Assumptions C29_remove_variable.

Example C29_ex_remove :
  remove_dv uses0 (fun _ => false) (Prob [10; 11] [1; 2; 4] [(10, 1); (11, 1); (11, 2)]) 10
  = Ok (Prob [11] [2; 4] [(11, 2)]).
Proof. reflexivity. Qed.

(** A term the problem owns that names the same design variable twice is used
    after its destruction when that variable is removed. *)
Theorem C29_repeated_use_refuted : exists uses d t,
  run uses (fun _ => false) true empty [AddDv d; AddTerm t; RemoveDv d] = UB /\
  (exists p fs, run uses (fun _ => true) true empty [AddDv d; AddTerm t; RemoveDv d] = Ok (p, fs)).
Proof.
  exists (fun _ => [5; 5]), 5, 1. split; [reflexivity | ]. eexists _, _. reflexivity.
Qed.
Print Assumptions C29_repeated_use_refuted.

(** A release build accepts an error term on a design variable that is not in
    the problem. *)
Theorem C29_missing_variable_refuted : exists uses t p,
  run uses (fun _ => true) false empty [AddTerm t] = Ok (p, [false]) /\
  In t (terms p) /\ exists d, In d (uses t) /\ ~ In d (dvars p).
Proof.
  exists (fun _ => [5]), 1. eexists. split; [reflexivity | ]. split; [now left | ].
  exists 5. split; [now left | exact (fun f => f)].
Qed.
Print Assumptions C29_missing_variable_refuted.

(** A debug build throws for such a term but leaves it in the problem, and only
    partly registered. *)
Theorem C29_rejected_term_refuted : exists uses d d' t p,
  run uses (fun _ => true) true empty [AddDv d; AddTerm t] = Ok (p, [false; true]) /\
  In t (terms p) /\ In d' (uses t) /\ In t (get_errors p d []) /\ ~ In t (get_errors p d' []).
Proof.
  exists (fun _ => [5; 6]), 5, 6, 1. eexists. split; [reflexivity | ].
  split; [now left | ]. split; [right; now left | ]. split; [now left | exact (fun f => f)].
Qed.
Print Assumptions C29_rejected_term_refuted.
