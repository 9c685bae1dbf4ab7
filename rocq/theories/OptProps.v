(** Properties of the non-linear optimiser (C23, C24, C25, C38, C39, C40, C41). *)
From Coq Require Import ZArith Reals List Bool Lia Lra Floats.SpecFloat.
From Verif Require Import Base Arith F64Proofs RArith OptModel OptSpec OptProofs
  OptReal OptWitness.
Import ListNotations.
Open Scope Z_scope.

(** *** C23: the cost of the result *)

(** Whatever the policy and the arithmetic: the reported costs are the costs of
    the values the problem had at the start and has at the end, and the final
    values are those of the last step that was kept. *)
Theorem C23_reported_costs : forall A V (w : World A V) k o p n ds s r,
  settled ds -> optimize w k o p n ds = Ok (s, r) ->
  JStart r = cost w (values ds) /\
  JFinal r = cost w (values (dvs s)) /\
  JFinal r = kept_cost (cost w (values ds)) (log s) /\
  values (dvs s) = kept_values (values ds) (log s).
Proof.
  intros A V w k o p n ds s r Hs H.
  apply optimize_cases in H. destruct H as (s0 & H0 & HL & ->).
  cbn [JStart JFinal].
  assert (T0 := tracked_start _ _ _ _ _ H0 Hs).
  edestruct (loop_inv (w := w) (k := k) (tracked w (values ds)) o)
    as ((T1 & T2 & T3 & T4) & _); [ | exact T0 | exact HL | ].
  - intros ? ? ? _ T R. exact (tracked_step T R).
  - split; [ | split; [exact T2 | split; [exact T3 | exact T4]]].
    apply start_cases in H0. destruct H0 as (-> & _). reflexivity.
Qed.
Print Assumptions C23_reported_costs.

(** In binary64, with Levenberg-Marquardt or dog-leg and costs that are never
    NaN: the final cost is at most the initial cost, and each kept step did not
    raise the cost. *)
Theorem C23_cost_never_rises : forall V (w : World F64 V) k o p n ds s r,
  settled ds -> p <> PGN F64 ->
  (forall x, valid64 (cost w x) /\ ordered (cost w x)) ->
  optimize w k o p n ds = Ok (s, r) ->
  le F64 (JFinal r) (JStart r) = true /\
  forall l1 e l2, log s = l1 ++ e :: l2 -> accepted e = true ->
    le F64 (ev_cost e) (kept_cost (cost w (values ds)) l1) = true.
Proof.
  intros V w k o p n ds s r Hs Hp Hc H.
  destruct (C23_reported_costs F64 V w k o p n ds s r Hs H) as (RJ & _).
  apply optimize_cases in H. destruct H as (s0 & H0 & HL & ->).
  cbn [JStart JFinal] in *. rewrite RJ.
  pose (leq := fun x y : spec_float => le F64 x y = true).
  pose (good := fun x : spec_float => valid64 x /\ ordered x).
  assert (L1 : forall x, good x -> leq x x).
  { intros x (G1 & G2). apply f64_le_refl; assumption. }
  assert (L2 : forall x y z, good x -> good y -> good z ->
                 leq x y -> leq y z -> leq x z).
  { intros x y z (G1 & _) (G2 & _) (G3 & _). apply f64_le_trans; assumption. }
  assert (L3 : forall a b, good a -> good b ->
                 lt F64 (sub F64 a b) (of_Z F64 0) = false -> leq b a).
  { intros a b (G1 & G2) (G3 & G4) X. apply f64_sub_sign; assumption. }
  assert (Hr : reverts (effective_policy k p) = true).
  { destruct p as [ | c m | t]; [congruence | | ]; destruct k; reflexivity. }
  assert (M0 : monotone w leq (values ds) s0).
  { eapply (@monotone_start F64 V w k leq good); try eassumption. }
  edestruct (loop_inv (w := w) (k := k) (monotone w leq (values ds)) o)
    as (M & _); [ | exact M0 | exact HL | ].
  - intros ? ? ? _ T R.
    eapply (@monotone_step F64 V w k leq good); eassumption.
  - destruct M as (_ & _ & M1 & M2). split; [exact M1 | exact M2].
Qed.
Print Assumptions C23_cost_never_rises.

Ltac bools C :=
  repeat match type of C with
         | andb _ _ = true =>
             let C' := fresh "C" in
             apply andb_prop in C; destruct C as (C & C'); try bools C'
         end;
  try (apply same_eq in C); try (apply lsame_eq in C); try (apply osame_eq in C);
  try (apply Z.eqb_eq in C); try (apply Nat.eqb_eq in C);
  try (apply negb_true_iff in C).
Lemma settled_x z : settled (x_at z).
Proof. constructor; [discriminate | constructor]. Qed.

(** The least-squares problem x - 5 from 0. *)
Example C23_ex_quad :
  settled (x_at 0) /\ LM <> PGN F64 /\
  match optimize (quad true) SparseCholesky (opts 10) LM 1 (x_at 0) with
  | Ok (s, r) => JStart r = f 25 /\ lt F64 (JFinal r) (f 1) = true /\
                 count (@accepted F64 _) (log s) = 2
  | _ => False
  end.
Proof.
  split; [ | split; [discriminate | ]].
  - constructor; [discriminate | constructor].
  - vm_compute. auto.
Qed.
(** Costs that are numbers at every point. *)
Example C23_ex_hyp : forall x,
  let w := scripted (fun v => if SFeqb v (f 0) then f 100 else f 10) [] in
  valid64 (cost w x) /\ ordered (cost w x).
Proof.
  intros x w. unfold w, scripted, cost, scalar.
  destruct x as [ | v [ | ? ?]];
    try (split; [vm_compute; reflexivity | vm_compute; discriminate]).
  destruct (SFeqb v (f 0)); split;
    first [vm_compute; reflexivity | vm_compute; discriminate].
Qed.

(** A cost that is NaN at the new point counts as an improvement: the step is
    kept and NaN is reported as the final cost of a run without failures. *)
Definition nan_beyond_0 (v : spec_float) : spec_float :=
  if SFeqb v (f 0) then f 1 else S754_nan.
Theorem C23_nan_accepted_refuted :
  exists (w : World F64 spec_float) k o p n ds s r,
    p <> PGN F64 /\ settled ds /\ optimize w k o p n ds = Ok (s, r) /\
    JStart r = f 1 /\ JFinal r = S754_nan /\ n_failed r = 0 /\
    le F64 (JFinal r) (JStart r) = false.
Proof.
  edestruct (ran (optimize (scripted nan_beyond_0 [(true, f 1)]) SparseCholesky
                    (opts 1) LM 1 (x_at 0))
    (fun s r => same (JStart r) (f 1) && same (JFinal r) S754_nan
                && (n_failed r =? 0) && negb (le F64 (JFinal r) (JStart r))))
    as (s & r & E & C); [vm_compute; reflexivity | ].
  exists (scripted nan_beyond_0 [(true, f 1)]), SparseCholesky, (opts 1), LM,
    1%nat, (x_at 0), s, r.
  bools C. split; [discriminate | ].
  split; [exact (settled_x 0) | ]. split; [exact E | ]. auto 6.
Qed.
Print Assumptions C23_nan_accepted_refuted.

Definition up_world : World F64 spec_float :=
  scripted (fun v => if SFeqb v (f 0) then f 10 else f 100) [(true, f 1)].
(** Gauss-Newton keeps a step that raises the cost. *)
Theorem C23_gauss_newton_refuted :
  exists (w : World F64 spec_float) k o n ds s r,
    settled ds /\ (forall x, valid64 (cost w x) /\ ordered (cost w x)) /\
    optimize w k o (PGN F64) n ds = Ok (s, r) /\
    lt F64 (JStart r) (JFinal r) = true.
Proof.
  edestruct (ran (optimize up_world SparseCholesky (opts 1) (PGN F64) 1 (x_at 0))
    (fun s r => lt F64 (JStart r) (JFinal r)))
    as (s & r & E & C); [vm_compute; reflexivity | ].
  exists up_world, SparseCholesky, (opts 1), 1%nat, (x_at 0), s, r.
  split; [exact (settled_x 0) | ].
  split; [ | split; [exact E | exact C]].
  intro x. unfold up_world, scripted, cost, scalar.
  destruct x as [ | v [ | ? ?]];
    try (split; [vm_compute; reflexivity | vm_compute; discriminate]).
  destruct (SFeqb v (f 0)); split;
    first [vm_compute; reflexivity | vm_compute; discriminate].
Qed.
Print Assumptions C23_gauss_newton_refuted.

(** *** C24: counters and termination *)

(** The run ends, whatever the solver answers and whatever the costs are. *)
Theorem C24_terminates : forall A V (w : World A V) k o p n ds,
  optimize w k o p n ds <> Hang.
Proof.
  intros A V w k o p n ds H. unfold optimize in H.
  destruct (start w k o p n ds) as [s0 | | | ] eqn:E; try discriminate H.
  - cbn [obind] in H.
    destruct (loop w _ k o s0) eqn:EL; try discriminate H.
    revert EL. apply loop_total.
    + exact (counted_start _ _ _ _ _ _ E).
    + apply start_cases in E. destruct E as (-> & _).
      cbn [iterations failures]. lia.
  - unfold start in E. destruct (negb _); [discriminate | ].
    destruct (Nat.eqb n 0); discriminate.
Qed.
Print Assumptions C24_terminates.

(** What the counters of the result mean, and their bounds. *)
Theorem C24_counters : forall A V (w : World A V) k o p n ds s r,
  optimize w k o p n ds = Ok (s, r) ->
  n_iterations r = count (@solved A V) (log s) /\
  n_failed r = count (fun e => negb (solved e)) (log s)
               + count (@rejected A V) (log s) /\
  (solver_failure r = true <-> exists e, In e (log s) /\ ev_step e = None) /\
  0 <= n_iterations r <= Z.max 0 (max_iter o) /\
  0 <= n_failed r <= Z.max 0 (max_iter o) /\
  (log s <> [] -> Z.of_nat (length (log s)) < 2 * max_iter o).
Proof.
  intros A V w k o p n ds s r H.
  apply optimize_cases in H. destruct H as (s0 & H0 & HL & ->).
  cbn [n_iterations n_failed solver_failure].
  edestruct (loop_inv (w := w) (k := k) (counted o) o)
    as ((T1 & T2 & T3 & T4 & T5 & T6) & _);
    [ | exact (counted_start _ _ _ _ _ _ H0) | exact HL | ].
  { intros ? ? ? C T R. exact (counted_step C T R). }
  split; [exact T1 | ]. split.
  { rewrite T2. clear. induction (log s) as [ | e l IH]; [reflexivity | ].
    cbn [count]. rewrite IH.
    generalize (count (fun e => negb (solved e)) l), (count (@rejected A V) l).
    intros a b. unfold accepted, rejected, solved.
    destruct (ev_step e), (ev_kept e); cbn [andb negb]; lia. }
  split.
  { rewrite T3, existsb_exists. split; intros (e & I1 & I2); exists e; split;
      try assumption; unfold solved in *; destruct (ev_step e);
      try discriminate I2; reflexivity. }
  split; [split; [rewrite T1; apply count_nonneg | exact T4] | ].
  split; [split; [rewrite T2; apply count_nonneg | exact T5] | exact T6].
Qed.
Print Assumptions C24_counters.

(** The run refuses a problem without active variables or error terms, and
    nothing else makes it throw. *)
Theorem C24_throws : forall A V (w : World A V) k o p n ds,
  (existsb (@active A V) ds = false \/ n = 0%nat <->
   start w k o p n ds = Throw).
Proof.
  intros A V w k o p n ds. unfold start.
  destruct (existsb (@active A V) ds); cbn [negb]; [ | tauto].
  destruct n; cbn [Nat.eqb]; [tauto | ].
  split; [intros [X | X]; discriminate X | intro X; discriminate X].
Qed.
Print Assumptions C24_throws.

(** Five passes with a limit of three: two solver failures and three solved
    passes. *)
Example C24_ex_five :
  match optimize (scripted (fun v => sub F64 (f 100) (mul F64 v (f 10)))
                    [(true, f 1); (false, f 1); (true, f 1); (false, f 1);
                     (true, f 1)])
          SparseCholesky (opts 3) LM 1 (x_at 0) with
  | Ok (s, r) => length (log s) = 5%nat /\ n_iterations r = 3 /\
                 n_failed r = 2 /\ solver_failure r = true
  | _ => False
  end.
Proof. vm_compute. auto. Qed.

(** *** C25: convergence *)

(** As long as the solver has not failed, a pass that is followed by another one
    moved by more than the step threshold and changed the cost by more than the
    cost threshold. *)
Theorem C25_stops_on_convergence : forall A V (w : World A V) k o p n ds s r,
  settled ds -> optimize w k o p n ds = Ok (s, r) ->
  forall l1 e l2, log s = l1 ++ e :: l2 -> l2 <> [] ->
    Forall (fun e => solved e = true) (l1 ++ [e]) ->
    exists dx m, ev_step e = Some dx /\ maxabs A dx = Some m /\
      lt A (conv_dX o) m = true /\
      lt A (conv_dJ o)
        (absv A (sub A (kept_cost (cost w (values ds)) l1) (ev_cost e))) = true.
Proof.
  intros A V w k o p n ds s r Hs H l1 e l2 HE HN HF.
  apply optimize_cases in H. destruct H as (s0 & H0 & HL & ->).
  edestruct (loop_inv (w := w) (k := k) (going w (values ds) o) o)
    as ((_ & _ & T) & _); [ | exact (going_start _ _ _ _ _ H0 Hs) | exact HL | ].
  { intros ? ? ? C X R. exact (going_step C X R). }
  destruct (T _ _ _ HE HF) as (dx & m & E1 & E2 & E3).
  exists dx, m. destruct l2; [congruence | ]. tauto.
Qed.
Print Assumptions C25_stops_on_convergence.

(** A run that ends below both limits ended because a threshold was met, and no
    solve had failed. *)
Theorem C25_ends_for_a_reason : forall A V (w : World A V) k o p n ds s r,
  optimize w k o p n ds = Ok (s, r) ->
  n_iterations r < max_iter o -> n_failed r < max_iter o ->
  solver_failure r = false /\
  (lt A (conv_dX o) (dXFinal r) = false \/
   lt A (conv_dJ o) (absv A (dJFinal r)) = false).
Proof.
  intros A V w k o p n ds s r H L1 L2.
  apply optimize_cases in H. destruct H as (s0 & H0 & HL & ->).
  cbn [n_iterations n_failed solver_failure dXFinal dJFinal] in *.
  edestruct (loop_inv (w := w) (k := k) (counted o) o) as (_ & T);
    [ | exact (counted_start _ _ _ _ _ _ H0) | exact HL | ].
  { intros ? ? ? C X R. exact (counted_step C X R). }
  unfold continues in T.
  rewrite (proj2 (Z.ltb_lt _ _) L1), (proj2 (Z.ltb_lt _ _) L2) in T.
  cbn [andb] in T.
  destruct (solver_failed s), (lt A (conv_dX o) (dX s)),
    (lt A (conv_dJ o) (absv A (dJ s))); cbn in T; try discriminate T; auto.
Qed.
Print Assumptions C25_ends_for_a_reason.

Example C25_ex_two_passes :
  exists s r e1 e2,
    optimize (quad true) SparseCholesky (opts 10) LM 1 (x_at 0) = Ok (s, r) /\
    log s = [e1; e2] /\ Forall (fun e => solved e = true) [e1] /\
    n_iterations r = 2 /\ n_failed r = 0 /\
    lt F64 (conv_dX (opts 10)) (dXFinal r) = false.
Proof.
  edestruct (ran (optimize (quad true) SparseCholesky (opts 10) LM 1 (x_at 0))
    (fun s r => match log s with
                | [e1; e2] => solved e1
                | _ => false end && (n_iterations r =? 2) && (n_failed r =? 0)
                && negb (lt F64 (conv_dX (opts 10)) (dXFinal r))))
    as (s & r & E & C); [vm_compute; reflexivity | ].
  exists s, r. bools C.
  destruct (log s) as [ | e1 [ | e2 [ | ? ?]]]; try discriminate C.
  exists e1, e2. split; [exact E | ]. split; [reflexivity | ].
  split; [constructor; [exact C | constructor] | auto].
Qed.

(** After one failed solve the thresholds are ignored for the rest of the run:
    here every later step is zero and changes nothing, yet the loop goes on to
    the iteration limit. *)
Theorem C25_after_failure_refuted :
  exists (w : World F64 spec_float) k o p n ds s r,
    settled ds /\ optimize w k o p n ds = Ok (s, r) /\
    exists e0 rest, log s = e0 :: rest /\ ev_step e0 = None /\
      length rest = 20%nat /\ n_iterations r = max_iter o /\
      Forall (fun e : event F64 spec_float => ev_step e = Some [f 0] /\ ev_cost e = f 1 /\
                       ev_at e = values ds) rest.
Proof.
  edestruct (ran (optimize (scripted (fun _ => f 1) [(false, f 1)]) SparseCholesky
                    (opts 20) LM 1 (x_at 0))
    (fun s r => match log s with
                | e0 :: rest =>
                    osame (ev_step e0) None && Nat.eqb (length rest) 20 &&
                    forallb (fun e : event F64 spec_float => osame (ev_step e) (Some [f 0]) &&
                       same (ev_cost e) (f 1) &&
                       lsame (ev_at e) (values (x_at 0))) rest
                | _ => false end && (n_iterations r =? 20)))
    as (s & r & E & C); [vm_compute; reflexivity | ].
  exists (scripted (fun _ => f 1) [(false, f 1)]), SparseCholesky, (opts 20), LM,
    1%nat, (x_at 0), s, r.
  split; [exact (settled_x 0) | ]. split; [exact E | ].
  apply andb_prop in C. destruct C as (C & C1). apply Z.eqb_eq in C1.
  destruct (log s) as [ | e0 rest]; [discriminate C | ].
  apply andb_prop in C. destruct C as (C & C2). bools C.
  exists e0, rest. split; [reflexivity | ]. split; [exact C | ].
  split; [exact C0 | ]. split; [exact C1 | ].
  rewrite forallb_forall in C2. apply Forall_forall. intros e He.
  specialize (C2 e He). bools C2. auto.
Qed.
Print Assumptions C25_after_failure_refuted.

(** *** C38: which linearisation a step is computed from *)

Theorem C38_gauss_newton_fresh : forall A V (w : World A V) k o n ds s e q,
  reached w k o (PGN A) n ds s -> In e (log s) -> In q (ev_queries e) ->
  q_jac q = ev_at e /\ q_res q = ev_at e.
Proof.
  intros A V w k o n ds s e q H He Hq.
  apply gn_all_fresh in H; [ | destruct k; reflexivity].
  destruct H as (_ & _ & H). rewrite Forall_forall in H.
  specialize (H e He). rewrite Forall_forall in H. exact (H q Hq).
Qed.
Print Assumptions C38_gauss_newton_fresh.

Theorem C38_dog_leg_fresh : forall A V (w : World A V) k o t n ds s e q,
  reached w k o (PDL t) n ds s -> In e (log s) -> In q (ev_queries e) ->
  q_jac q = ev_at e /\ q_res q = ev_at e.
Proof.
  intros A V w k o t n ds s e q H He Hq.
  apply dl_all_fresh in H; [ | destruct k; reflexivity].
  destruct H as (_ & _ & H). rewrite Forall_forall in H.
  specialize (H e He). rewrite Forall_forall in H. exact (H q Hq).
Qed.
Print Assumptions C38_dog_leg_fresh.

(** Levenberg-Marquardt with a Cholesky solver, provided the gain ratio is
    positive after every accepted step. *)
Theorem C38_levenberg_fresh : forall A V (w : World A V) k o c m n ds s e q,
  k = SparseCholesky \/ k = BlockCholesky -> settled ds ->
  reached w k o (PLM c m) n ds s -> positive_gains (log s) ->
  In e (log s) -> In q (ev_queries e) ->
  q_jac q = ev_at e /\ q_res q = ev_at e.
Proof.
  intros A V w k o c m n ds s e q Hk Hs H HG He Hq.
  eapply lm_all_fresh in H; [ | exact Hk | exact Hs | ].
  - destruct H as (_ & _ & _ & _ & _ & H). apply H in HG.
    destruct HG as (_ & HG). rewrite Forall_forall in HG.
    specialize (HG e He). rewrite Forall_forall in HG. exact (HG q Hq).
  - destruct Hk as [-> | ->]; reflexivity.
Qed.
Print Assumptions C38_levenberg_fresh.

(** With the sparse Cholesky solver the normal matrix of each pass is damped by
    exactly the square of the policy's current damping. *)
Theorem C38_damping_applied : forall A V (w : World A V) o c m n ds s s' e q m',
  reached w SparseCholesky o (PLM c m) n ds s ->
  continues o s = true -> pass w SparseCholesky s = Ok s' ->
  log s' = log s ++ [e] -> In q (ev_queries e) ->
  snd (pol s') = PLM c m' ->
  q_diag q = mul A (lambda m') (lambda m').
Proof.
  intros A V w o c m n ds s s' e q m' H C P HL Hq Hp.
  assert (HA : augmented (ls s) = true).
  { revert H. apply (reached_inv (fun s => augmented (ls s) = true)).
    - intros s0 H0. apply fresh_start in H0.
      destruct H0 as (_ & _ & _ & _ & _ & _ & ->). reflexivity.
    - intros s0 s1 e0 _ X R. rewrite (augmented_step R). exact X. }
  apply pass_cases in P. destruct P as (e' & R).
  assert (e' = e).
  { assert (X := pass_log R). rewrite HL in X. apply app_inv_head in X.
    injection X as ->. reflexivity. }
  subst e'.
  assert (X : exists b p l1 g r, policy_solve w SparseCholesky (oJ s)
             (prev_failed s) (values (dvs s)) (pol s) (ls s)
             = Ok (b, p, l1, ev_queries e, g, r) /\ pol s' = (b, p)).
  { destruct R as [b p l1 qs g Q E | b p l1 qs g dx ds1 mm Q U M R L E
                  | b p l1 qs g dx ds1 mm Q U M L E];
      subst s'; cbn [ev_queries pol]; do 5 eexists; split; [exact Q | reflexivity | exact Q | reflexivity | exact Q | reflexivity]. }
  destruct X as (b & p & l1 & g & r & Q & Ep). rewrite Ep in Hp. cbn [snd] in Hp.
  assert (F := lm_diag _ _ _ _ _ _ eq_refl HA Q Hp). rewrite Forall_forall in F.
  exact (F q Hq).
Qed.
Print Assumptions C38_damping_applied.

Lemma optimize_reaches : forall A V (w : World A V) k o p n ds,
  match optimize w k o p n ds with
  | Ok (s, _) => reached w k o p n ds s
  | _ => True
  end.
Proof.
  intros. destruct (optimize w k o p n ds) as [[s r] | | | ] eqn:E; try easy.
  eapply optimize_reached. exact E.
Qed.

(** A run with a rejected step in the middle and positive gains. *)
Definition table (v : spec_float) : spec_float :=
  if SFeqb v (f 0) then f 100 else if SFeqb v (f 1) then f 10 else f 20.
Definition steps3 : list (bool * spec_float) := [(true, f 1); (true, f 1); (true, f 1)].
Fixpoint gains_ok (prev : bool) (l : list (event F64 spec_float)) : bool :=
  match l with
  | [] => true
  | e :: r =>
      (negb prev || match ev_gain e with
                    | Some g => negb (le F64 g (of_Z F64 0))
                    | None => true end) && gains_ok (accepted e) r
  end.
Lemma gains_ok_spec : forall l prev, gains_ok prev l = true -> positive_gains l.
Proof.
  induction l as [ | a l IH]; intros prev H l1 e0 e l2 g E HA HG.
  - destruct l1; discriminate E.
  - cbn [gains_ok] in H. apply andb_prop in H. destruct H as (H1 & H2).
    destruct l1 as [ | b l1]; cbn [app] in E; injection E as E1 E2.
    + subst a l. cbn [gains_ok] in H2. rewrite HA, HG in H2.
      apply andb_prop in H2. destruct H2 as (H2 & _). cbn [negb orb] in H2.
      now apply negb_true_iff in H2.
    + eapply (IH _ H2); eassumption.
Qed.
Example C38_ex_run :
  exists s r,
    optimize (scripted table steps3) SparseCholesky (opts 6) LM 1 (x_at 0)
      = Ok (s, r) /\
    positive_gains (log s) /\ count (@rejected F64 _) (log s) = 2 /\
    length (log s) = 4%nat /\
    length (concat (map (@ev_queries F64 _) (log s))) = 4%nat.
Proof.
  edestruct (ran (optimize (scripted table steps3) SparseCholesky (opts 6) LM 1 (x_at 0))
    (fun s r => gains_ok false (log s)
                && (count (@rejected F64 _) (log s) =? 2)
                && Nat.eqb (length (log s)) 4
                && Nat.eqb (length (concat (map (@ev_queries F64 _) (log s)))) 4))
    as (s & r & E & C); [vm_compute; reflexivity | ].
  exists s, r. bools C. apply gains_ok_spec in C. auto.
Qed.
Example C38_ex_dog :
  match optimize (scripted table steps3) SparseCholesky (opts 6) DOG 1 (x_at 0) with
  | Ok (s, r) => length (concat (map (@ev_queries F64 _) (log s))) = 2%nat
  | _ => False
  end.
Proof. vm_compute. reflexivity. Qed.

(** With the dense QR solver a retry after a rejected step uses the residual of
    the rejected point, although all gains are positive. *)
Theorem C38_dense_qr_refuted :
  exists (w : World F64 spec_float) o c m n ds s r e q,
    settled ds /\ optimize w DenseQr o (PLM c m) n ds = Ok (s, r) /\
    positive_gains (log s) /\ In e (log s) /\ In q (ev_queries e) /\
    ev_at e = [f 1] /\ q_jac q = [f 1] /\ q_res q = [f 2] /\
    q_res q <> ev_at e.
Proof.
  edestruct (ran (optimize (scripted table steps3) DenseQr (opts 6) LM 1 (x_at 0))
    (fun s r => gains_ok false (log s) && match nth_error (log s) 2 with
                | Some e => match ev_queries e with
                            | [q] => lsame (ev_at e) [f 1] && lsame (q_jac q) [f 1]
                                     && lsame (q_res q) [f 2]
                            | _ => false end
                | _ => false end))
    as (s & r & E & C); [vm_compute; reflexivity | ].
  apply andb_prop in C. destruct C as (G & C). apply gains_ok_spec in G.
  destruct (nth_error (log s) 2) as [e | ] eqn:Ee; [ | discriminate C].
  destruct (ev_queries e) as [ | q [ | ? ?]] eqn:Eq; try discriminate C.
  bools C.
  exists (scripted table steps3), (opts 6), (lm_default F64),
    (Lm F64 (f 0) (f 0) []), 1%nat, (x_at 0), s, r, e, q.
  split; [exact (settled_x 0) | ]. split; [exact E | ]. split; [exact G | ].
  split; [exact (nth_error_In _ _ Ee) | ]. split; [rewrite Eq; left; reflexivity | ].
  split; [exact C | ]. split; [assumption | ]. split; [assumption | ].
  intro X. rewrite C in X. assert (Y : [f 2] = [f 1]) by congruence.
  vm_compute in Y. discriminate Y.
Qed.
Print Assumptions C38_dense_qr_refuted.

Definition flat_world : World F64 spec_float :=
  scripted (fun _ => f 1) [(false, f 1); (true, f 1); (true, f 1)].
(** Sparse Cholesky: a zero gain after an accepted step keeps the Jacobian and
    right-hand side of an earlier point. *)
Theorem C38_zero_gain_refuted :
  exists (w : World F64 spec_float) o c m n ds s r e q,
    settled ds /\ optimize w SparseCholesky o (PLM c m) n ds = Ok (s, r) /\
    In e (log s) /\ In q (ev_queries e) /\
    ev_at e = [f 2] /\ q_jac q = [f 0] /\ q_res q = [f 0].
Proof.
  edestruct (ran (optimize flat_world SparseCholesky (opts 4) LM 1 (x_at 0))
    (fun s r => match nth_error (log s) 3 with
                | Some e => match ev_queries e with
                            | [q] => lsame (ev_at e) [f 2] && lsame (q_jac q) [f 0]
                                     && lsame (q_res q) [f 0]
                            | _ => false end
                | _ => false end))
    as (s & r & E & C); [vm_compute; reflexivity | ].
  destruct (nth_error (log s) 3) as [e | ] eqn:Ee; [ | discriminate C].
  destruct (ev_queries e) as [ | q [ | ? ?]] eqn:Eq; try discriminate C.
  bools C.
  exists flat_world, (opts 4), (lm_default F64),
    (Lm F64 (f 0) (f 0) []), 1%nat, (x_at 0), s, r, e, q.
  split; [exact (settled_x 0) | ]. split; [exact E | ].
  split; [exact (nth_error_In _ _ Ee) | ]. split; [rewrite Eq; left; reflexivity | ].
  auto.
Qed.
Print Assumptions C38_zero_gain_refuted.

(** Dog leg: when the first solve fails, the next pass takes a step without
    asking the solver, from whatever the failed solve left behind. *)
Theorem C38_dog_leg_after_failure_refuted :
  exists (w : World F64 spec_float) k o t n ds s r e0 e1 rest,
    optimize w k o (PDL t) n ds = Ok (s, r) /\
    log s = e0 :: e1 :: rest /\ ev_step e0 = None /\
    ev_queries e1 = [] /\ ev_step e1 = Some [f 1] /\ accepted e1 = true.
Proof.
  edestruct (ran (optimize (scripted table [(false, f 1); (true, f 1); (true, f 1)])
                    SparseCholesky (opts 6) DOG 1 (x_at 0))
    (fun s r => match log s with
                | e0 :: e1 :: _ =>
                    osame (ev_step e0) None && Nat.eqb (length (ev_queries e1)) 0
                    && osame (ev_step e1) (Some [f 1]) && accepted e1
                | _ => false end))
    as (s & r & E & C); [vm_compute; reflexivity | ].
  destruct (log s) as [ | e0 [ | e1 rest]] eqn:El; try discriminate C.
  bools C.
  exists (scripted table [(false, f 1); (true, f 1); (true, f 1)]),
    SparseCholesky, (opts 6),
    (Dl F64 [] [] [] (f 0) (f 0) (f 0) (f 0) (f 0) (f 0) NoStep), 1%nat, (x_at 0),
    s, r, e0, e1, rest.
  split; [exact E | ]. split; [exact El | ]. split; [exact C | ].
  split; [apply length_zero_iff_nil; assumption | ]. auto.
Qed.
Print Assumptions C38_dog_leg_after_failure_refuted.

(** Block Cholesky: after a rejected step the matrix is not damped by the
    square of the damping; here it is even "damped" by a negative amount. *)
Theorem C38_block_cholesky_damping_refuted :
  exists (w : World F64 spec_float) o c m n ds s r e q,
    optimize w BlockCholesky o (PLM c m) n ds = Ok (s, r) /\
    In e (log s) /\ In q (ev_queries e) /\ lt F64 (q_diag q) (f 0) = true.
Proof.
  edestruct (ran (optimize (scripted table steps3) BlockCholesky (opts 6) LM 1 (x_at 0))
    (fun s r => match nth_error (log s) 2 with
                | Some e => match ev_queries e with
                            | [q] => lt F64 (q_diag q) (f 0)
                            | _ => false end
                | _ => false end))
    as (s & r & E & C); [vm_compute; reflexivity | ].
  destruct (nth_error (log s) 2) as [e | ] eqn:Ee; [ | discriminate C].
  destruct (ev_queries e) as [ | q [ | ? ?]] eqn:Eq; try discriminate C.
  exists (scripted table steps3), (opts 6), (lm_default F64),
    (Lm F64 (f 0) (f 0) []), 1%nat, (x_at 0), s, r, e, q.
  split; [exact E | ].
  split; [exact (nth_error_In _ _ Ee) | ]. split; [rewrite Eq; left; reflexivity | ].
  exact C.
Qed.
Print Assumptions C38_block_cholesky_damping_refuted.

(** Dense QR: whether the damping reaches the system depends on a flag that is
    never written; with one of its two values it never does. *)
Theorem C38_dense_qr_undamped_refuted :
  exists (w : World F64 spec_float) o c m n ds s r,
    optimize w DenseQr o (PLM c m) n ds = Ok (s, r) /\
    (2 <= length (log s))%nat /\
    Forall (fun e => ev_queries e <> [] /\
                     Forall (fun q : query F64 spec_float => q_diag q = f 0) (ev_queries e)) (log s).
Proof.
  edestruct (ran (optimize (scripted table steps3) DenseQr (opts 6) LM 1 (x_at 0))
    (fun s r => Nat.leb 2 (length (log s)) &&
       forallb (fun e : event F64 spec_float => match ev_queries e with
                         | [q] => same (q_diag q) (f 0)
                         | _ => false end) (log s)))
    as (s & r & E & C); [vm_compute; reflexivity | ].
  apply andb_prop in C. destruct C as (C & C1). apply Nat.leb_le in C.
  exists (scripted table steps3), (opts 6), (lm_default F64),
    (Lm F64 (f 0) (f 0) []), 1%nat, (x_at 0), s, r.
  split; [exact E | ]. split; [exact C | ].
  rewrite forallb_forall in C1. apply Forall_forall. intros e He.
  specialize (C1 e He). destruct (ev_queries e) as [ | q [ | ? ?]]; try discriminate C1.
  split; [discriminate | ]. constructor; [ | constructor]. now apply same_eq.
Qed.
Print Assumptions C38_dense_qr_undamped_refuted.

(** *** C39: damping and trust radius after a failure *)

Open Scope R_scope.
(** Exact arithmetic: the damping of Levenberg-Marquardt is always positive, and
    each pass that follows a failed or rejected one multiplies it by a factor of
    at least two that itself doubles. *)
Theorem C39_damping_escalates : forall V (w : World RA V) k o c m0 n ds s,
  sane c -> k <> SparseQr -> reached w k o (PLM c m0) n ds s ->
  exists m : lm RA, snd (pol s) = PLM c m /\ 0 < lambda m /\ 1 <= mu m /\
    forall l e s', log s = l ++ [e] -> accepted e = false ->
      pass w k s = Ok s' ->
      exists m' : lm RA, snd (pol s') = PLM c m' /\
        lambda m' = 2 * mu m * lambda m /\ mu m' = 2 * mu m /\
        lambda m' >= 2 * lambda m.
Proof.
  intros V w k o c m0 n ds s Hc Hk H.
  assert (I := lm_sane_reached Hc Hk H).
  assert (I' := I). destruct I' as (m & P & Hl & Hm & _ & _ & Hp).
  exists m. split; [exact P | split; [exact Hl | split; [exact Hm | ]]].
  intros l e s' El Ea Ep.
  rewrite El, last_accepted_app, Ea in Hp.
  apply pass_cases in Ep. destruct Ep as (e' & R).
  destruct (lm_sane_step Hc I R) as (_ & X).
  destruct (X Hp) as (m1 & m' & P1 & P2 & P3 & P4).
  rewrite P in P1. injection P1 as <-.
  exists m'. split; [exact P2 | split; [exact P3 | split; [exact P4 | ]]].
  rewrite P3. nra.
Qed.
Print Assumptions C39_damping_escalates.

(** A solver that always fails, seen over the reals. *)
Definition failing : World RA R :=
  MkWorld (A := RA) (fun v _ => v) (fun _ => 1) (fun _ _ => [1]) (fun _ _ => 1)
    (fun _ => (false, [1])) (fun x _ => x) false.
Definition default_R : lm_cfg RA := lm_default RA.
Definition ds_R : list (dvar RA R) := [DV RA 0 0 1 1 true].
Definition opts_R : options RA := Options RA 0 0 5.
Example C39_ex_sane : sane default_R.
Proof. unfold sane, default_R, lm_default. cbn. repeat split; lra. Qed.
Example C39_ex_reached :
  exists s l e s', reached failing SparseCholesky opts_R
      (PLM default_R (Lm RA 0 0 [])) 1 ds_R s /\
    log s = l ++ [e] /\ accepted e = false /\
    pass failing SparseCholesky s = Ok s'.
Proof.
  do 4 eexists. split; [ | split; [ | split]].
  - eapply Reached_pass.
    + apply Reached_start. cbv -[Rplus Rmult Rdiv IZR]. reflexivity.
    + unfold continues. cbn [iterations failures solver_failed dX dJ max_iter opts_R].
      cbn [conv_dX conv_dJ opts_R lt absv RA].
      apply andb_true_intro. split; [reflexivity | ].
      apply orb_true_intro. left. apply andb_true_intro.
      split; apply rlt_true; [lra | ]. rewrite Rabs_pos_eq; lra.
    + unfold pass, policy_solve, lm_solve. cbn -[Rplus Rmult Rdiv IZR]. reflexivity.
  - cbn [log]. exact (eq_refl ([] ++ [_])).
  - reflexivity.
  - cbn -[Rplus Rmult Rdiv IZR]. reflexivity.
Qed.

(** The dog-leg policy judges a rejected step against the cost before the last
    kept step.  A rejected step can then look excellent, the radius is not
    reduced, and the very same step is tried and rejected to the end. *)
Theorem C39_dog_leg_repeats_refuted :
  exists (w : World F64 spec_float) k o t n ds s r e0 e1 rest,
    optimize w k o (PDL t) n ds = Ok (s, r) /\
    log s = e0 :: e1 :: rest /\ accepted e0 = true /\
    rejected e1 = true /\ (18 <= length rest)%nat /\
    Forall (fun e => rejected e = true /\ ev_step e = ev_step e1 /\
                     ev_at e = ev_at e1) rest.
Proof.
  edestruct (ran (optimize (scripted table steps3) SparseCholesky (opts 20) DOG 1 (x_at 0))
    (fun s r => match log s with
                | e0 :: e1 :: rest =>
                    accepted e0 && rejected e1 && Nat.leb 18 (length rest) &&
                    forallb (fun e : event F64 spec_float => rejected e && osame (ev_step e) (ev_step e1)
                                      && lsame (ev_at e) (ev_at e1)) rest
                | _ => false end))
    as (s & r & E & C); [vm_compute; reflexivity | ].
  destruct (log s) as [ | e0 [ | e1 rest]] eqn:El; try discriminate C.
  apply andb_prop in C. destruct C as (C & C1).
  apply andb_prop in C. destruct C as (C & C2). apply Nat.leb_le in C2.
  apply andb_prop in C. destruct C as (C & C3).
  exists (scripted table steps3), SparseCholesky, (opts 20),
    (Dl F64 [] [] [] (f 0) (f 0) (f 0) (f 0) (f 0) (f 0) NoStep), 1%nat, (x_at 0),
    s, r, e0, e1, rest.
  split; [exact E | ]. split; [exact El | ]. split; [exact C | ].
  split; [exact C3 | ]. split; [exact C2 | ].
  rewrite forallb_forall in C1. apply Forall_forall. intros e He.
  specialize (C1 e He). bools C1. auto.
Qed.
Print Assumptions C39_dog_leg_repeats_refuted.

(** *** C40: the dog-leg step *)

(** Exact arithmetic: as long as no solve has failed, the step of a pass is not
    longer than the trust radius. *)
Theorem C40_step_within_radius : forall V (w : World RA V) k o t n ds s s',
  reached w k o (PDL t) n ds s -> pass w k s = Ok s' ->
  Forall (fun e => solved e = true) (log s') ->
  exists (t' : dl RA) e dx, snd (pol s') = PDL t' /\ log s' = log s ++ [e] /\
    ev_step e = Some dx /\ norm RA dx <= delta t'.
Proof.
  intros V w k o t n ds s s' H P F.
  assert (I : dl_inv s) by (eapply dl_inv_reached; [ | exact H]; destruct k; reflexivity).
  apply pass_cases in P. destruct P as (e & R).
  destruct (dl_inv_step I R) as (_ & X).
  destruct (X F) as (t' & dx & X1 & X2 & _ & X4).
  exists t', e, dx. split; [exact X1 | ]. split; [exact (pass_log R) | ].
  split; [exact X2 | exact X4].
Qed.
Print Assumptions C40_step_within_radius.

(** The point the policy takes when the radius lies between the length of the
    steepest-descent step and that of the Gauss-Newton step: on the segment
    between the two, exactly on the boundary of the trust region. *)
Theorem C40_dog_leg_point : forall (sd gn : list R) (rad : R),
  length sd = length gn -> norm RA sd <= rad -> rad < norm RA gn ->
  let t := dl_position RA sd gn (norm RA sd) rad in
  0 <= t <= 1 /\
  norm RA (vadd RA sd (vscale RA t (vsub RA gn sd))) = rad.
Proof.
  intros sd gn rad HL H1 H2 t.
  split; [exact (position_range sd gn HL H1 H2) | ].
  assert (N1 := norm_nonneg sd).
  assert (HLd : length sd = length (vsub RA gn sd)).
  { symmetry. apply vsub_length. symmetry. exact HL. }
  assert (D0 := rdot_nonneg (vsub RA gn sd)).
  assert (E1 := norm_square sd). assert (E2 := norm_square gn).
  assert (EL := @gn_is_line sd gn HL).
  apply position_norm; [exact HL | lra | | ].
  - destruct D0 as [D0 | D0]; [assumption | exfalso].
    assert (CS : rdot sd (vsub RA gn sd) = 0).
    { destruct (Req_dec (rdot sd (vsub RA gn sd)) 0) as [ | Hc]; [assumption | exfalso].
      assert (Q := rdot_nonneg (vadd RA sd (vscale RA
        (- (rdot sd sd + 1) / (2 * rdot sd (vsub RA gn sd))) (vsub RA gn sd)))).
      rewrite (rdot_line sd _ _ HLd), <- D0 in Q.
      assert (X : 2 * (- (rdot sd sd + 1) / (2 * rdot sd (vsub RA gn sd)))
                  * rdot sd (vsub RA gn sd) = - (rdot sd sd + 1))
        by (field; assumption).
      rewrite X in Q. lra. }
    rewrite CS, <- D0 in EL. nra.
  - assert (0 <= rdot (vsub RA gn sd) (vsub RA gn sd)
                 * (rad * rad - norm RA sd * norm RA sd))
      by (apply Rmult_le_pos; nra).
    nra.
Qed.
Print Assumptions C40_dog_leg_point.

(** Steepest descent (1,0), Gauss-Newton (1,2), radius 2. *)
Example C40_ex_point :
  length [1; 0] = length [1; 2] /\ norm RA [1; 0] <= 2 /\ 2 < norm RA [1; 2].
Proof.
  split; [reflexivity | ]. rewrite !norm_rdot. cbn [rdot]. split.
  - replace (1 * 1 + (0 * 0 + 0)) with 1 by ring. rewrite sqrt_1. lra.
  - rewrite <- (sqrt_square 2) at 1 by lra. apply sqrt_lt_1; lra.
Qed.
(** A first pass over the reals. *)
Definition unit_world : World RA R :=
  MkWorld (A := RA) (fun v _ => v) (fun _ => 1) (fun _ _ => [1]) (fun _ _ => 1)
    (fun _ => (true, [1])) (fun x _ => x) false.
(** One unknown: a dog-leg solve with a willing solver yields a step. *)
Lemma unit_step : forall J b x s l, exists s' l' qs d,
  dl_solve unit_world SparseCholesky J b false x s l = Ok (s', l', qs, Some [d]).
Proof.
  intros J b x s l. unfold dl_solve. generalize (dl_radius b s). intro rad.
  destruct (le RA rad _ && _)%bool.
  - do 4 eexists. reflexivity.
  - unfold lin_solve. cbn [unit_world answer]. unfold dl_choose.
    cbn [dx_sd dx_gn dl_cauchy]. change (lin_rhs unit_world _) with [1%R].
    cbn [vscale map length Nat.eqb].
    destruct (le RA _ _); do 4 eexists; reflexivity.
Qed.
Example C40_ex_reached :
  exists s s', reached unit_world SparseCholesky opts_R
      (PDL (Dl RA [] [] [] 0 0 0 0 0 0 NoStep)) 1 ds_R s /\
    pass unit_world SparseCholesky s = Ok s' /\
    Forall (fun e => solved e = true) (log s').
Proof.
  edestruct (start unit_world SparseCholesky opts_R
               (PDL (Dl RA [] [] [] 0 0 0 0 0 0 NoStep)) 1 ds_R)
    as [s | | | ] eqn:S0; try discriminate S0.
  assert (S1 := S0). apply start_cases in S1. destruct S1 as (S1 & _).
  exists s.
  assert (X : exists s', pass unit_world SparseCholesky s = Ok s' /\
                         Forall (fun e => solved e = true) (log s')).
  { rewrite S1. unfold pass, policy_solve.
    cbn [pol fst snd oJ prev_failed dvs ls effective_policy policy_start].
    edestruct unit_step as (t & l & qs & d & ->). cbn [obind].
    cbn [apply_update ds_R active length dim Nat.leb Nat.add option_map maxabs fold_left].
    cbn [lin_error reverts opJ].
    destruct (lt RA _ _); eexists; (split; [reflexivity | ]); cbn [log app];
      repeat constructor. }
  destruct X as (s' & X1 & X2). exists s'.
  split; [apply Reached_start; exact S0 | split; assumption].
Qed.

(** *** C41: which part of the step reaches which variable *)

Close Scope R_scope.
Open Scope Z_scope.
(** The linear system gives the [i]-th design variable, if it is active, the
    block number and column offset that count the active variables before it;
    the update takes exactly the entries from that offset on, as many as the
    variable has dimensions, multiplies them by its scaling, and leaves
    everything else alone. *)
Theorem C41_slices : forall A V (w : World A V) ds dx ds1 i d,
  apply_update w 0 ds dx = Some ds1 -> nth_error ds i = Some d ->
  nth_error (layout 0 0 ds) i = Some
    (if active d then Some (length (actives_before ds i),
                            columns (actives_before ds i)) else None) /\
  (active d = true ->
     (columns (actives_before ds i) + dim d <= length dx)%nat /\
     nth_error ds1 i = Some
       (if Nat.ltb 0 (dim d) then
          DV A (boxplus w (cur d)
                 (map (fun v => mul A v (scale d))
                    (firstn (dim d) (skipn (columns (actives_before ds i)) dx))))
             (cur d) (dim d) (scale d) true
        else d)) /\
  (active d = false -> nth_error ds1 i = Some d).
Proof.
  intros A V w ds dx ds1 i d HU HN.
  split; [exact (layout_nth ds 0 0 i HN) | ].
  destruct (apply_nth w ds 0 dx i HU HN) as (H1 & H2).
  split; intro Ha; rewrite Ha in H1; cbn [andb] in H1; [ | exact H1].
  split; [exact (H2 Ha) | exact H1].
Qed.
Print Assumptions C41_slices.

(** An optimisation never touches an inactive design variable, and never
    changes dimension, scaling or activity of any. *)
Theorem C41_inactive_untouched : forall A V (w : World A V) k o p n ds s r i d,
  optimize w k o p n ds = Ok (s, r) -> nth_error ds i = Some d ->
  exists d', nth_error (dvs s) i = Some d' /\
    active d' = active d /\ dim d' = dim d /\ scale d' = scale d /\
    (active d = false -> d' = d).
Proof.
  intros A V w k o p n ds s r i d H HN.
  apply optimize_reached in H. apply frozen_reached in H.
  revert i HN. induction H as [ | a b la lb Hab _ IH]; intros i HN.
  - destruct i; discriminate HN.
  - destruct i as [ | i]; cbn [nth_error] in *.
    + injection HN as <-. exists b. split; [reflexivity | exact Hab].
    + exact (IH i HN).
Qed.
Print Assumptions C41_inactive_untouched.

(** Three variables of dimensions 1, 2 and 1, the second one inactive. *)
Definition three : list (dvar F64 Z) :=
  [DV F64 10 0 1 (f 1) true; DV F64 20 0 2 (f 1) false; DV F64 30 0 1 (f 2) true].
Definition count_up : World F64 Z :=
  MkWorld (A := F64) (fun v dx => v + Z.of_nat (length dx))
    (fun _ => f 1) (fun _ _ => [f 1; f 1]) (fun _ g => f 1)
    (fun _ => (true, [f 1; f 1])) (fun x _ => x) false.
Example C41_ex_three :
  layout 0 0 three = [Some (0, 0); None; Some (1, 1)]%nat /\
  option_map (@values F64 Z) (apply_update count_up 0 three [f 3; f 4])
  = Some [11; 20; 31] /\
  match optimize count_up SparseCholesky (opts 3) LM 1 three with
  | Ok (s, _) => values (dvs s) = [11; 20; 31]
  | _ => False
  end.
Proof. vm_compute. auto. Qed.
