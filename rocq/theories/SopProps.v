(** * C120: the simple optimization problem deletes what it owns, once *)
From Coq Require Import List Arith Bool Lia.
From Verif Require Import SopModel SopSpec SopProofs.
Import ListNotations.

(** The problem holds the accepted variables and terms in the order they were
    added, and it answers every call as the book does; in particular no object
    is deleted twice, which would be [None]. *)
Theorem C120_contents : forall h, handed_once h ->
  exists s, run init h = Some (s, answers blank h) /\
    (forall i, variable s i = nth_error (map fst (vars (after h))) i) /\
    (forall i, term s i = nth_error (map fst (terms (after h))) i) /\
    (forall o, is_in s o = true <-> In o (map fst (vars (after h)))).
Proof.
  intros h N. destruct (run_ok h init blank init_rel N) as [s [E R]].
  exists s. split; [exact E |]. fold (after h) in R. split; [| split].
  - intros i. unfold variable. rewrite <- (r_dvs _ _ R), map_fst_owning. reflexivity.
  - intros i. unfold term. rewrite <- (r_ets _ _ R), map_fst_owning. reflexivity.
  - intros o. unfold is_in. rewrite eqb_in, <- (r_dvs _ _ R), map_fst_owning. reflexivity.
Qed.
Print Assumptions C120_contents.

(** At every moment the deleted objects are exactly those that were handed to
    an owner and that nothing keeps alive any more, each deleted once. *)
Theorem C120_deleted : forall h s a, handed_once h -> run init h = Some (s, a) ->
  NoDup (deleted s) /\
  forall o, In o (deleted s) <-> In o (given (after h)) /\ ~ kept (after h) o.
Proof.
  intros h s a N E. destruct (run_ok h init blank init_rel N) as [s' [E' R]].
  rewrite E in E'. injection E' as E1 E2; subst s'. fold (after h) in R.
  destruct (r_fair _ _ R) as [D1 D2]. split; [exact D1 |].
  intros o. rewrite D2, (kept_owned s _ o R). reflexivity.
Qed.
Print Assumptions C120_deleted.

(** Clearing the problem when the user has let all pointers go deletes all
    objects handed over and no other. *)
Theorem C120_cleared : forall h, handed_once (h ++ [Clear]) -> mine (after h) = [] ->
  exists s a, run init (h ++ [Clear]) = Some (s, a) /\
    variable s 0 = None /\ term s 0 = None /\
    forall o, In o (deleted s) <-> In o (given (after h)).
Proof.
  intros h N M. destruct (C120_contents _ N) as [s [E [V [T _]]]].
  assert (A : after (h ++ [Clear]) = mkBook [] [] (mine (after h)) (given (after h))).
  { unfold after. rewrite fold_left_app. reflexivity. }
  exists s, (answers blank (h ++ [Clear])). split; [exact E |].
  split; [rewrite V, A; reflexivity |]. split; [rewrite T, A; reflexivity |].
  intros o. rewrite (proj2 (C120_deleted _ s _ N E) o), A, M. unfold kept; simpl. tauto.
Qed.
Print Assumptions C120_cleared.

(** Whatever the program does, no variable is twice in the problem. *)
Theorem C120_distinct : forall h s a i j o, run init h = Some (s, a) ->
  variable s i = Some o -> variable s j = Some o -> i = j.
Proof.
  intros h s a i j o E I J.
  assert (N : NoDup (map fst (dvs s))) by (apply (run_nodup h init s a); [constructor | exact E]).
  unfold variable in *. rewrite NoDup_nth_error in N. apply N.
  - apply nth_error_Some. rewrite I. discriminate.
  - rewrite I, J; reflexivity.
Qed.
Print Assumptions C120_distinct.

(** Variables are checked for repetition but terms are not: a term added twice
    with ownership is deleted twice when the problem is cleared. *)
Theorem C120_term_twice_refuted : forall e,
  (exists s, run init [AddEt e true; AddEt e true] = Some (s, [true; true])) /\
  run init [AddEt e true; AddEt e true; Clear] = None /\
  exists s, run init [AddDv e true; AddDv e true; Clear] = Some (s, [true; false; true]) /\ deleted s = [e].
Proof.
  intros e. split; [eexists; reflexivity |]. split.
  - unfold run, step, release_all, release; simpl. rewrite Nat.eqb_refl. reflexivity.
  - unfold run, step, is_in; simpl. rewrite Nat.eqb_refl. simpl. eexists; split; reflexivity.
Qed.
Print Assumptions C120_term_twice_refuted.

(** Variables 1 (owned), 2 (borrowed) and 3 (shared with the user, also as a
    second use in the terms), term 4 owned; 3 outlives the clearing. *)
Example C120_ex :
  let h := [AddDv 1 true; AddDv 2 false; Make 3; AddDvShared 3; AddDv 1 true; AddEt 4 true; AddEtShared 3; Drop 9] in
  handed_once h /\ handed_once (h ++ [Clear]) /\ handed_once (h ++ [Drop 3; Clear]) /\
  answers blank h = [true; true; true; true; false; true; true; false] /\
  map fst (vars (after h)) = [1; 2; 3] /\ map fst (terms (after h)) = [4; 3] /\
  (exists s a, run init (h ++ [Clear]) = Some (s, a) /\ deleted s = [1; 4]) /\
  mine (after (h ++ [Drop 3])) = [] /\
  (exists s a, run init (h ++ [Drop 3; Clear]) = Some (s, a) /\ deleted s = [3; 1; 4]).
Proof.
  assert (N : NoDup [1; 3; 4]) by (repeat constructor; simpl; lia).
  split; [exact N |]. split; [exact N |]. split; [exact N |].
  split; [reflexivity |]. split; [reflexivity |]. split; [reflexivity |].
  split; [eexists; eexists; vm_compute; split; reflexivity |]. split; [reflexivity |].
  eexists; eexists; vm_compute; split; reflexivity.
Qed.
