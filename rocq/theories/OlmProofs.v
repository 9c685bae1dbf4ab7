(** * Lemmas on the first optimizer *)
From Coq Require Import Reals List Bool Arith Lia Lra.
From Verif Require Import Base OlmModel OlmSpec.
Local Open Scope R_scope.

Section Run.
Variable X : Type.
Variable cost : X -> R.
Variable solve : nat -> X -> R -> option (X * R * R).
Variable o : options.
Notation iterate := (iterate cost solve o).
Notation loop := (loop cost solve o).

Definition settled (x0 : X) (s : run X) : Prop :=
  best_j s = cost (now s) /\ best_j s <= j s /\ (regressed s = false -> j s = best_j s) /\ best_j s <= cost x0.
Lemma loop_S n : forall s, loop (S n) s = if goes_on o (loop n s) then iterate (loop n s) else loop n s.
Proof.
  induction n as [|n IH]; intros s; [reflexivity|].
  change (loop (S (S n)) s) with (if goes_on o s then loop (S n) (iterate s) else s).
  change (loop (S n) s) with (if goes_on o s then loop n (iterate s) else s).
  destruct (goes_on o s) eqn:G; [apply IH | now rewrite G].
Qed.
Lemma relax_now rho (s : run X) : now (relax o rho s) = now s /\ saved (relax o rho s) = saved s /\ j (relax o rho s) = j s /\
  best_j (relax o rho s) = best_j s /\ regressed (relax o rho s) = false /\ iterations (relax o rho s) = iterations s /\
  last_dx (relax o rho s) = last_dx s /\ last_dj (relax o rho s) = last_dj s.
Proof. unfold relax. destruct (Rlt_dec (/ 10 ^ 16) (lambda s)); cbn; repeat (split; [reflexivity|]); reflexivity. Qed.
Lemma rho_sign a p : 0 < p -> (a / p <= 0 <-> a <= 0).
Proof.
  intros P. split; intros H.
  - replace a with (a / p * p) by (field; lra). nra.
  - unfold Rdiv. assert (I : 0 < / p) by (apply Rinv_0_lt_compat; exact P). nra.
Qed.
Lemma step_settled x0 s : do_lm o = true -> predicts solve -> never_fails solve -> settled x0 s ->
  settled x0 (iterate s) /\ cost (now (iterate s)) <= cost (now s).
Proof.
  intros D P N [B [LJ [RJ B0]]]. unfold OlmModel.iterate.
  set (l := if regressed s then lambda s else initial_lambda o (lambda s)). cbn [now best_j iterations saved mu regressed failed].
  destruct (solve (iterations s) (now s) l) as [[[x dx] p]|] eqn:E; [|destruct (N _ _ _ E)]. rewrite D.
  apply P in E. cbn [best_j j]. destruct (Rle_dec ((best_j s - cost x) / p) 0) as [H|H].
  - apply rho_sign in H; [|exact E]. unfold settled. cbn [count back now saved j best_j regressed].
    destruct (Rlt_dec (cost x) (best_j s)) as [C|C]; [exfalso; lra|].
    split; [|lra]. split; [exact B|]. split; [lra|]. split; [discriminate | lra].
  - assert (A : cost x < best_j s) by (rewrite rho_sign in H; [lra | exact E]).
    match goal with |- context [relax o ?r ?s] => destruct (relax_now r s) as [R1 [R2 [R3 [R4 [R5 _]]]]] end.
    unfold settled, count. cbn [now saved j best_j regressed]. rewrite R1, R3, R4, R5. cbn [now j best_j].
    destruct (Rlt_dec (cost x) (best_j s)) as [C|C]; [|contradiction].
    split; [|lra]. split; [reflexivity|]. split; [lra|]. split; [reflexivity | lra].
Qed.
Lemma start_settled x kept : settled x (start cost o x kept).
Proof. unfold settled, start. cbn. split; [reflexivity|]. split; [lra|]. split; [reflexivity | lra]. Qed.
Lemma loop_settled x kept n : do_lm o = true -> predicts solve -> never_fails solve -> settled x (loop n (start cost o x kept)).
Proof.
  intros D P N. induction n as [|n IH]; [apply start_settled|]. rewrite loop_S.
  destruct (goes_on o _); [|exact IH]. now apply step_settled.
Qed.
Lemma iterate_counts s : iterations (iterate s) = S (iterations s).
Proof.
  unfold OlmModel.iterate. cbn [now best_j iterations saved mu regressed failed].
  destruct (solve _ _ _) as [[[x dx] p]|]; [|reflexivity]. destruct (do_lm o); [|reflexivity].
  cbn [count iterations]. f_equal. destruct (Rle_dec _ 0); [reflexivity|].
  match goal with |- context [relax o ?r ?s] => destruct (relax_now r s) as [_ [_ [_ [_ [_ [R6 _]]]]]] end. rewrite R6. reflexivity.
Qed.
Lemma loop_counts x kept n : (iterations (loop n (start cost o x kept)) <= n)%nat.
Proof.
  induction n as [|n IH]; [cbn; lia|]. rewrite loop_S. destruct (goes_on o _); [rewrite iterate_counts|]; lia.
Qed.
(** The loop is not cut short by the bound of the model. *)
Lemma loop_ends x kept : goes_on o (loop (max_iterations o) (start cost o x kept)) = false.
Proof.
  assert (H : forall n, goes_on o (loop n (start cost o x kept)) = false \/ iterations (loop n (start cost o x kept)) = n).
  { induction n as [|n IH]; [right; reflexivity|]. rewrite loop_S. destruct (goes_on o (loop n (start cost o x kept))) eqn:G; [|left; exact G].
    destruct IH as [IH|IH]; [discriminate|]. right. now rewrite iterate_counts, IH. }
  destruct (H (max_iterations o)) as [E|E]; [exact E|]. unfold goes_on. rewrite E, Nat.ltb_irrefl. reflexivity.
Qed.
Definition damped (s : run X) : Prop := 0 <= lambda s /\ 0 < mu s /\ ((0 < iterations s)%nat -> 0 < lambda s) /\ (regressed s = true -> 0 < lambda s).
Lemma relax_damped rho (s : run X) : positive o -> 0 < lambda s -> 0 < mu s -> 0 < lambda (relax o rho s) /\ 0 < mu (relax o rho s).
Proof.
  intros [_ [G [B _]]] L M. unfold relax. destruct (Rlt_dec (/ 10 ^ 16) (lambda s)); cbn [lambda mu].
  - split; [|exact B]. assert (U : 0 < 1 / gamma o) by (apply Rdiv_lt_0_compat; lra). apply Rmult_lt_0_compat; [exact L|].
    destruct (Rlt_dec _ (1 / gamma o)); lra.
  - split; [|exact M]. apply Rinv_0_lt_compat, pow_lt. lra.
Qed.
Lemma step_damped s : positive o -> damped s -> damped (iterate s).
Proof.
  intros P [L [M [_ Rg]]]. unfold OlmModel.iterate.
  set (l := if regressed s then lambda s else initial_lambda o (lambda s)).
  assert (Hl : 0 < l).
  { unfold l, initial_lambda. destruct (regressed s); [now apply Rg|]. destruct (Req_EM_T (lambda s) 0); [exact (proj1 P) | lra]. }
  cbn [now best_j iterations saved mu regressed failed].
  destruct (solve _ _ _) as [[[x dx] p]|].
  - destruct (do_lm o).
    + cbn [best_j j]. destruct (Rle_dec _ 0).
      * unfold damped. cbn [count back lambda mu iterations regressed]. assert (0 < l * mu s) by (now apply Rmult_lt_0_compat).
        split; [lra|]. split; [lra|]. split; intros _; lra.
      * match goal with |- context [relax o ?r ?s] => destruct (relax_damped r s P Hl M) as [R1 R2] end.
        unfold damped. cbn [count lambda mu iterations regressed]. split; [lra|]. split; [exact R2|]. split; intros _; exact R1.
    + unfold damped. cbn [count lambda mu iterations regressed]. split; [lra|]. split; [exact M|]. split; intros _; exact Hl.
  - unfold damped. cbn [count back lambda mu iterations regressed]. assert (0 < l * mu s) by (now apply Rmult_lt_0_compat).
    split; [lra|]. split; [lra|]. split; intros _; lra.
Qed.
Lemma loop_damped x kept n : positive o -> damped (loop n (start cost o x kept)).
Proof.
  intros P. induction n as [|n IH].
  - unfold damped. cbn. split; [lra|]. split; [exact (proj2 (proj2 (proj2 P)))|]. split; [lia | discriminate].
  - rewrite loop_S. destruct (goes_on o _); [apply step_damped; assumption | exact IH].
Qed.
End Run.
