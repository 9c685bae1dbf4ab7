(** * C117: the Levenberg-Marquardt loop of the first optimizer *)
From Coq Require Import Reals List Bool Arith Lia Lra.
From Verif Require Import Base OlmModel OlmSpec OlmProofs.
Import ListNotations.
Local Open Scope R_scope.

(** The loop ends by its own condition after at most the allowed number of iterations. *)
Theorem C117_ends X (cost : X -> R) solve o x kept :
  (iterations (optimize cost solve o x kept) <= max_iterations o)%nat /\ goes_on o (optimize cost solve o x kept) = false.
Proof. split; [apply loop_counts | apply loop_ends]. Qed.
Print Assumptions C117_ends.

(** With Levenberg-Marquardt, steps that are predicted to decrease the cost and a solver that
    does not fail, no iteration increases the cost of the state, the final state is the best
    one, and the reported cost is at least its cost and equal to it if the last step was kept. *)
Theorem C117_descends X (cost : X -> R) solve o x kept n : do_lm o = true -> predicts solve -> never_fails solve ->
  let s := loop cost solve o n (start cost o x kept) in
  cost (now (loop cost solve o (S n) (start cost o x kept))) <= cost (now s) /\ cost (now s) <= cost x /\
  best_j s = cost (now s) /\ cost (now s) <= j_final s /\ (regressed s = false -> j_final s = cost (now s)).
Proof.
  intros D P N s. destruct (loop_settled X cost solve o x kept n D P N) as [B [LJ [RJ B0]]]. fold s in B, LJ, RJ, B0.
  assert (V : settled X cost x s) by (split; [exact B | split; [exact LJ | split; [exact RJ | exact B0]]]).
  rewrite loop_S. fold s. split.
  - destruct (goes_on o s); [|lra]. exact (proj2 (step_settled X cost solve o x s D P N V)).
  - split; [lra|]. split; [exact B|]. unfold j_final. split; [lra|]. intros R. rewrite (RJ R). exact B.
Qed.
Print Assumptions C117_descends.
Definition plain (n : nat) : options := Options n 0 0 true 1 3 2 3 2.
Definition halving (i : nat) (x l : R) : option (R * R * R) := Some (x / 2, 1, 1).
Example C117_ex : predicts halving /\ never_fails halving /\ now (iterate Rabs halving (plain 3) (start Rabs (plain 3) 8 8)) = 4.
Proof.
  split; [intros i x l x' dx p [= _ _ <-]; lra|]. split; [intros i x l; discriminate|].
  unfold iterate, halving. cbn [plain do_lm start now best_j j iterations].
  destruct (Rle_dec ((Rabs 8 - Rabs (8 / 2)) / 1) 0) as [H|H].
  - rewrite !Rabs_pos_eq in H by lra. lra.
  - unfold count. cbn [now]. match goal with |- context [relax ?o ?r ?s] => rewrite (proj1 (relax_now R o r s)) end. cbn [now]. lra.
Qed.

(** The damping is never negative, and positive from the first iteration on. *)
Theorem C117_damping X (cost : X -> R) solve o x kept n : positive o ->
  let s := loop cost solve o n (start cost o x kept) in 0 <= lambda s /\ ((0 < iterations s)%nat -> 0 < lambda s).
Proof. intros P s. destruct (loop_damped X cost solve o x kept n P) as [A [_ [B _]]]. split; assumption. Qed.
Print Assumptions C117_damping.
Example C117_damping_ex : positive (plain 3).
Proof. unfold positive. cbn. lra. Qed.

(** Without Levenberg-Marquardt every step is kept, also one that increases the cost, and the
    reported cost is that of the final state. *)
Theorem C117_gauss_newton X (cost : X -> R) solve o s x dx p : do_lm o = false -> regressed s = false ->
  solve (iterations s) (now s) (initial_lambda o (lambda s)) = Some (x, dx, p) ->
  now (iterate cost solve o s) = x /\ j_final (iterate cost solve o s) = cost x /\ best_j (iterate cost solve o s) = Rmin (cost x) (best_j s).
Proof.
  intros D R E. unfold iterate. rewrite R. cbn [now best_j iterations]. rewrite E, D. unfold j_final. cbn [count now j best_j].
  split; [reflexivity|]. split; [reflexivity|]. unfold Rmin. destruct (Rlt_dec _ _), (Rle_dec _ _); lra.
Qed.
Print Assumptions C117_gauss_newton.

(** If the last step was taken back, the reported cost is that of the rejected state. *)
Theorem C117_reported_refuted X (cost : X -> R) solve o s x dx p : do_lm o = true -> best_j s = cost (now s) -> regressed s = false ->
  solve (iterations s) (now s) (initial_lambda o (lambda s)) = Some (x, dx, p) -> 0 < p -> cost (now s) < cost x ->
  now (iterate cost solve o s) = now s /\ j_final (iterate cost solve o s) = cost x /\ cost (now (iterate cost solve o s)) < j_final (iterate cost solve o s).
Proof.
  intros D B R E P C. unfold iterate. rewrite R. cbn [now best_j iterations]. rewrite E, D. cbn [best_j j].
  destruct (Rle_dec ((best_j s - cost x) / p) 0) as [H|H].
  - unfold j_final. cbn [count back now saved j]. split; [reflexivity|]. split; [reflexivity | exact C].
  - exfalso. apply H, rho_sign; [exact P | lra].
Qed.
Print Assumptions C117_reported_refuted.
Example C117_reported_ex : j_final (iterate (fun x => x) (fun _ x _ => Some (x + 1, 1, 1)) (plain 1) (start (fun x => x) (plain 1) 5 5)) = 6 /\
  now (iterate (fun x => x) (fun _ x _ => Some (x + 1, 1, 1)) (plain 1) (start (fun x => x) (plain 1) 5 5)) = 5.
Proof.
  destruct (C117_reported_refuted R (fun x => x) (fun _ x _ => Some (x + 1, 1, 1)) (plain 1) (start (fun x => x) (plain 1) 5 5) (5 + 1) 1 1
    eq_refl eq_refl eq_refl eq_refl ltac:(lra) ltac:(cbn; lra)) as [A [B _]].
  split; [rewrite B; lra | exact A].
Qed.

(** A failure of the solver after a step that was kept takes that step back, and the cost of
    the step is still reported; a failure in the first iteration puts the variables to
    whatever they kept from before the optimization. *)
Theorem C117_failure_refuted X (cost : X -> R) solve o s x dx p : do_lm o = true -> best_j s = cost (now s) -> regressed s = false ->
  solve (iterations s) (now s) (initial_lambda o (lambda s)) = Some (x, dx, p) -> 0 < p -> cost x < cost (now s) ->
  let s1 := iterate cost solve o s in
  now s1 = x /\ ((forall l, solve (iterations s1) x l = None) ->
  now (iterate cost solve o s1) = now s /\ j_final (iterate cost solve o s1) = cost x /\
  j_final (iterate cost solve o s1) < cost (now (iterate cost solve o s1))).
Proof.
  intros D B R E P C s1.
  assert (Q : now s1 = x /\ saved s1 = now s /\ j s1 = cost x).
  { unfold s1, iterate. rewrite R. cbn [now best_j iterations]. rewrite E, D. cbn [best_j j].
    destruct (Rle_dec ((best_j s - cost x) / p) 0) as [H|H]; [apply rho_sign in H; [lra | exact P]|].
    match goal with |- context [relax o ?r ?s] => destruct (relax_now X o r s) as [R1 [R2 [R3 _]]] end.
    unfold count. cbn [now saved j]. rewrite R1, R2, R3. cbn [now saved j]. split; [reflexivity|]. split; reflexivity. }
  destruct Q as [Q1 [Q2 Q3]]. split; [exact Q1|]. intros F. unfold iterate. cbn [now iterations].
  rewrite Q1, F. unfold j_final. cbn [count back now saved j]. rewrite Q2, Q3. split; [reflexivity|]. split; [reflexivity | exact C].
Qed.
Print Assumptions C117_failure_refuted.
Theorem C117_first_failure_refuted X (cost : X -> R) solve o x kept : (forall l, solve O x l = None) ->
  now (iterate cost solve o (start cost o x kept)) = kept /\ j_final (iterate cost solve o (start cost o x kept)) = cost x.
Proof. intros F. unfold iterate. cbn [start now iterations regressed]. rewrite F. split; reflexivity. Qed.
Print Assumptions C117_first_failure_refuted.
Definition once (i : nat) (x l : R) : option (R * R * R) := match i with O => Some (x - 2, 1, 1) | S _ => None end.
Example C117_failure_ex : let s := iterate (fun x => x) once (plain 2) (start (fun x => x) (plain 2) 5 5) in
  now s = 5 - 2 /\ now (iterate (fun x => x) once (plain 2) s) = 5 /\ j_final (iterate (fun x => x) once (plain 2) s) = 5 - 2.
Proof.
  intros s. destruct (C117_failure_refuted R (fun x => x) once (plain 2) (start (fun x => x) (plain 2) 5 5) (5 - 2) 1 1
    eq_refl eq_refl eq_refl eq_refl ltac:(lra) ltac:(cbn; lra)) as [A B]. fold s in A, B.
  destruct B as [B1 [B2 _]]; [intros l; unfold s; rewrite iterate_counts; reflexivity|].
  split; [exact A|]. split; [exact B1 | exact B2].
Qed.

(** The estimate of the first damping looks at the row of the block's number instead of the
    diagonal: a larger diagonal entry is replaced by one beside the diagonal, and a block
    whose number is not below its size is read out of range. *)
Theorem C117_estimate_refuted scale a b c : Rabs a < Rabs c -> 0 < Rabs a ->
  estimate_lambda scale [Some [[a; b]; [b; c]]] = Ok (Rabs b * scale) /\
  estimate_lambda scale [Some [[a]]; Some [[c]]] = UB.
Proof.
  intros H A. unfold estimate_lambda. cbn [scan_blocks scan_block length entry nth_error].
  destruct (Rlt_dec 0 (Rabs a)) as [K|K]; [|contradiction]. cbn [scan_block entry nth_error].
  destruct (Rlt_dec (Rabs a) (Rabs c)) as [K'|K']; [|contradiction]. cbn [obind scan_blocks scan_block length entry nth_error].
  destruct (Rlt_dec (Rabs a) (Rabs c)) as [K''|K'']; [|contradiction]. split; reflexivity.
Qed.
Print Assumptions C117_estimate_refuted.
Example C117_estimate_ex : estimate_lambda 1 [Some [[1; 0]; [0; 5]]] = Ok 0.
Proof.
  destruct (C117_estimate_refuted 1 1 0 5) as [E _]; [rewrite !Rabs_pos_eq; lra | rewrite Rabs_pos_eq; lra|].
  rewrite E. f_equal. rewrite Rabs_R0. ring.
Qed.
