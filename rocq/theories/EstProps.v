(** Properties of the incremental estimator (C21, C22, C37). *)
From Coq Require Import ZArith List Arith Bool Lia Permutation.
From Coq Require Import Floats.SpecFloat.
From Verif Require Import Base OMap PermuteModel BatchModel BatchSpec BatchProofs IncModel IncSpec IncProofs EstModel EstSpec EstProofs.
Import ListNotations.
Open Scope nat_scope.

(** Whatever the optimizer did, a rejected batch leaves no trace: same batches,
    reference counts, groups and ordering, every design variable (of the problem or not)
    has its old value, and the stored statistics are the old ones. *)
Theorem C21_rejected : forall uses m e, reachable_est uses m e -> forall o f id b a e' g, built uses b ->
  ~ In id (map fst (probs (prob e))) ->
  estep m e (EAdd o f (Some (id, b)) a) = (e', Returned, Some (Verdict false g)) ->
  same_problem (prob e') (prob e) /\ (forall d, vals e' d = vals e d) /\ stat e' = stat e.
Proof.
  intros uses m e R o f id b a e' g B N E. destruct (reachable_fine uses m e R) as (grp & Fe).
  assert (F : fits b (prob e)).
  { destruct (fits_dec uses (prob e) grp b (f_good _ _ _ _ Fe) B) as [F|F]; auto. exfalso.
    destruct (proj2 (add_cases uses (prob e) grp id b (f_good _ _ _ _ Fe) B) F) as (p' & E' & _).
    cbn [estep] in E. unfold add_batch in E. rewrite E' in E. discriminate. }
  destruct (add_batch_cases uses m id b o f a e grp Fe B F) as [A _]. cbn [estep] in E. rewrite E in A.
  inversion A; subst; auto.
Qed.
Print Assumptions C21_rejected.

(** A batch that is already in the problem (possible only without error terms) can be
    rejected too; then the same batches remain, though perhaps in another order. *)
Theorem C21_rejected_again : forall uses m e, reachable_est uses m e -> forall o f id b a e' g, built uses b ->
  (forall b', In (id, b') (probs (prob e)) -> b' = b) ->
  estep m e (EAdd o f (Some (id, b)) a) = (e', Returned, Some (Verdict false g)) ->
  Permutation (probs (prob e')) (probs (prob e)) /\ (forall d, vals e' d = vals e d) /\ stat e' = stat e.
Proof.
  intros uses m e R o f id b a e' g B U E. destruct (reachable_fine uses m e R) as (grp & Fe).
  assert (F : fits b (prob e)).
  { destruct (fits_dec uses (prob e) grp b (f_good _ _ _ _ Fe) B) as [F|F]; auto. exfalso.
    destruct (proj2 (add_cases uses (prob e) grp id b (f_good _ _ _ _ Fe) B) F) as (p' & E' & _).
    cbn [estep] in E. unfold add_batch in E. rewrite E' in E. discriminate. }
  destruct (add_batch_cases uses m id b o f a e grp Fe B F) as [A _]. cbn [estep] in E. rewrite E in A.
  inversion A as [| | |? ? ? k HA HK HF HP HW HS]; subst; auto. conj; auto. cbn [prob]. rewrite HP.
  destruct (find_batch_spec _ _ _ HF) as (b' & En).
  assert (b' = b).
  { apply nth_error_In in En. apply in_app_iff in En. destruct En as [En|[En|[]]]; [auto|congruence]. }
  subst b'. apply (Permutation_cons_inv (a := (id, b))). rewrite <- (erase_at_perm k _ _ En).
  symmetry. apply Permutation_cons_append.
Qed.
Print Assumptions C21_rejected_again.

(** addBatch decides by the documented criterion, keeps the batch and takes over the
    optimizer's values and statistics exactly when it should, and reports that. *)
Theorem C22_criterion : forall uses m e, reachable_est uses m e -> forall o f id b r, built uses b -> fits b (prob e) ->
  (In m (iorder (prob e)) \/ exists d, group_of d b = Ok m) ->
  exists e' acc, let g := SFmul 53 1024 fhalf (SFsub 53 1024 (r_log2sum r) (log2sum (stat e))) in
  estep m e (EAdd o f (Some (id, b)) (Optimized r)) = (e', Returned, Some (Verdict acc g)) /\
  (acc = true <-> should_keep o f (stat e) r) /\
  (acc = true -> probs (prob e') = probs (prob e) ++ [(id, b)] /\
     (forall d, vals e' d = if ihas_variable d (prob e') then r_values r d else vals e d) /\
     stat e' = Stats g (r_log2sum r) (r_rank r) (j_start r) (j_final r) (r_rest r)).
Proof.
  intros uses m e R o f id b r B F Hm. destruct (reachable_fine uses m e R) as (grp & Fe).
  destruct (add_batch_cases uses m id b o f (Optimized r) e grp Fe B F) as [A _].
  assert (K : keep o f (stat e) r = true <-> should_keep o f (stat e) r).
  { unfold keep, should_keep, informative, solution_valid. fold (fsub (r_log2sum r) (log2sum (stat e))).
    fold (fmul fhalf (fsub (r_log2sum r) (log2sum (stat e)))).
    rewrite orb_true_iff, andb_true_iff, orb_true_iff, negb_true_iff, Z.ltb_lt, andb_false_iff, orb_false_iff, Z.eqb_neq.
    destruct (check_validity o), f; intuition congruence. }
  cbn [estep].
  inversion A as [p1 H1 H2 H3 H4|p1 v w H1 H2 H3 H4|p1 r' w H1 H2 H3 H4 g' H5|p1 r' w k H1 H2 H3 H4 H5 H6 H7].
  - exfalso. destruct Hm as [Hm|(d & Hm)]; [contradiction|exact (H1 d Hm)].
  - discriminate.
  - injection H1 as <-. eexists _, true. cbv zeta. split; [reflexivity|]. split; [tauto|]. intros _. cbn [prob vals stat]. conj; auto.
  - injection H1 as <-. eexists _, false. cbv zeta. split; [reflexivity|]. split; [|discriminate].
    rewrite <- K. split; congruence.
Qed.
Print Assumptions C22_criterion.

(** A call that cannot be carried out throws: a null batch or one that does not fit, a
    problem without variables to marginalize, or a failing optimizer. *)
Theorem C22_throws : forall uses m e, reachable_est uses m e -> forall o f b a,
  (forall id p, b = Some (id, p) -> built uses p) ->
  (b = None \/ (exists id p, b = Some (id, p) /\ ~ fits p (prob e)) \/
   (exists id p, b = Some (id, p) /\ ~ In m (iorder (prob e)) /\ forall d, group_of d p <> Ok m) \/ (exists v, a = Fails v)) ->
  exists e', estep m e (EAdd o f b a) = (e', Threw, None) /\ stat e' = stat e.
Proof.
  intros uses m e R o f b a Hb Hc. destruct (reachable_fine uses m e R) as (grp & Fe). cbn [estep].
  destruct b as [[id p]|]; [|eexists; cbn; auto]. specialize (Hb id p eq_refl).
  destruct (fits_dec uses (prob e) grp p (f_good _ _ _ _ Fe) Hb) as [F|F].
  - destruct (add_batch_cases uses m id p o f a e grp Fe Hb F) as [A G].
    assert (X : forall r, a = Optimized r -> ~ In m (iorder (prob e)) /\ forall d, group_of d p <> Ok m).
    { intros r ->. destruct Hc as [H|[(i & q & [= <- <-] & H)|[(i & q & [= <- <-] & H)|(v & H)]]]; try discriminate; tauto. }
    inversion A as [p1 H1 H2 H3 H4|p1 v w H1 H2 H3 H4|p1 r' w H1 H2 H3 H4 g' H5|p1 r' w k H1 H2 H3 H4 H5 H6 H7]; eauto.
    + exfalso. destruct (X r' H1) as [X1 X2]. revert G. rewrite <- H5. cbn [fst prob]. intros (grp' & [G' _ _]).
      unfold add_batch in H5. destruct (proj1 (add_cases uses (prob e) grp id p (f_good _ _ _ _ Fe) Hb) F) as (q & EA & P1 & _ & grp1 & G1).
      rewrite EA in H5. rewrite (proj2 (order_marginalized_spec uses m q grp1 G1)) in H5; [discriminate|].
      intros I. rewrite (proj2 (c_order _ _ _ (g_coherent _ _ _ G1)) m), in_map_iff in I. destruct I as ([d y] & Ey & I). cbn in Ey. subst y.
      apply (mem_shows uses q grp1 d m G1) in I. destruct I as (x & Hx & I). unfold live in Hx. rewrite P1, map_app in Hx. apply in_app_iff in Hx.
      destruct Hx as [Hx|[<- |[]]]; [|exact (X2 d I)]. apply X1. rewrite (proj2 (c_order _ _ _ (g_coherent _ _ _ (f_good _ _ _ _ Fe))) m).
      apply in_map_iff. exists (d, m). split; auto. apply (mem_shows uses (prob e) grp d m (f_good _ _ _ _ Fe)). eauto.
    + exfalso. destruct (X r' H1) as [X1 X2].
      unfold add_batch in H7. destruct (proj1 (add_cases uses (prob e) grp id p (f_good _ _ _ _ Fe) Hb) F) as (q & EA & P1 & _ & grp1 & G1).
      rewrite EA in H7. rewrite (proj2 (order_marginalized_spec uses m q grp1 G1)) in H7; [discriminate|].
      intros I. rewrite (proj2 (c_order _ _ _ (g_coherent _ _ _ G1)) m), in_map_iff in I. destruct I as ([d y] & Ey & I). cbn in Ey. subst y.
      apply (mem_shows uses q grp1 d m G1) in I. destruct I as (x & Hx & I). unfold live in Hx. rewrite P1, map_app in Hx. apply in_app_iff in Hx.
      destruct Hx as [Hx|[<- |[]]]; [|exact (X2 d I)]. apply X1. rewrite (proj2 (c_order _ _ _ (g_coherent _ _ _ (f_good _ _ _ _ Fe))) m).
      apply in_map_iff. exists (d, m). split; auto. apply (mem_shows uses (prob e) grp d m (f_good _ _ _ _ Fe)). eauto.
  - destruct (proj2 (add_cases uses (prob e) grp id p (f_good _ _ _ _ Fe) Hb) F) as (p' & E' & _).
    unfold add_batch. rewrite E'. eexists. cbn. auto.
Qed.
Print Assumptions C22_throws.

(** Removing by index takes out that batch, whatever the optimizer does then. *)
Theorem C22_remove : forall uses m e, reachable_est uses m e -> forall i a, i < length (probs (prob e)) ->
  probs (prob (fst (fst (estep m e (ERemove i a))))) = firstn i (probs (prob e)) ++ skipn (S i) (probs (prob e)).
Proof.
  intros uses m e R i a L. destruct (reachable_fine uses m e R) as (grp & [G ML Hb]). cbn [estep fst]. unfold remove_at.
  destruct (nth_error (probs (prob e)) i) as [[id b]|] eqn:En; [|apply nth_error_None in En; lia].
  destruct (remove_ok uses (prob e) grp i id b G En) as (p' & ER & P & _). rewrite ER.
  destruct (remove_fine uses m (prob e) grp i p' G ML Hb ER) as (G' & ML' & Hb' & _).
  rewrite (proj2 (reoptimize_fine uses m a (Est p' (vals e) (stat e)) grp (Build_fine uses m (Est p' (vals e) (stat e)) grp G' ML' Hb'))). cbn [prob].
  rewrite P. now apply erase_at_split.
Qed.
Print Assumptions C22_remove.

(** Removing by address removes the first batch with it; an unknown batch is ignored. *)
Theorem C22_remove_batch : forall uses m e, reachable_est uses m e -> forall id a,
  (~ In id (map fst (probs (prob e))) -> estep m e (ERemoveBatch id a) = (e, Returned, None)) /\
  (In id (map fst (probs (prob e))) -> exists i b, nth_error (probs (prob e)) i = Some (id, b) /\
     ~ In id (map fst (firstn i (probs (prob e)))) /\ estep m e (ERemoveBatch id a) = estep m e (ERemove i a)).
Proof.
  intros uses m e R id a. cbn [estep]. unfold remove_known. split; intros H.
  - apply (proj2 (find_batch_none uses id (probs (prob e)))) in H. now rewrite H.
  - destruct (find_batch id (probs (prob e))) as [k|] eqn:F; [|now apply (proj1 (find_batch_none uses id (probs (prob e)))) in F].
    destruct (find_batch_spec _ _ _ F) as (b & En). exists k, b. conj; auto.
    clear - F. revert k F. induction (probs (prob e)) as [|[j c] l IH]; cbn; [discriminate|]. intros k. destruct (Nat.eqb_spec j id) as [-> |N].
    + intros [= <-]. cbn. auto.
    + destruct (find_batch id l) as [i|]; [|discriminate]. intros [= <-]. cbn. intros [X|X]; [contradiction|]. exact (IH i eq_refl X).
Qed.
Print Assumptions C22_remove_batch.

(** Reoptimizing changes only the values and the statistics. *)
Theorem C22_reoptimize : forall uses m e, reachable_est uses m e -> forall r,
  (In m (iorder (prob e)) -> exists e', estep m e (EReoptimize (Optimized r)) = (e', Returned, None) /\
     probs (prob e') = probs (prob e) /\ (forall d, ihas_variable d (prob e') = ihas_variable d (prob e)) /\
     (forall d, vals e' d = if ihas_variable d (prob e) then r_values r d else vals e d) /\
     stat e' = Stats (S754_zero false) (r_log2sum r) (r_rank r) (j_start r) (j_final r) (r_rest r)) /\
  (~ In m (iorder (prob e)) -> estep m e (EReoptimize (Optimized r)) = (e, Threw, None)).
Proof.
  intros uses m e R r. destruct (reachable_fine uses m e R) as (grp & [G ML Hb]). cbn [estep]. unfold reoptimize. split; intros H.
  - destruct (order_good uses m (prob e) grp G H) as (ord & -> & _). eexists. split; [reflexivity|]. conj; auto.
  - rewrite (proj2 (order_marginalized_spec uses m (prob e) grp G) H). now destruct e.
Qed.
Print Assumptions C22_reoptimize.

(** In every reachable state the variables to marginalize are the last ones of the
    enumeration, and the index given to the linear solver is the number of columns before. *)
Theorem C37_marginalized_last : forall uses m e, reachable_est uses m e -> let p := prob e in
  (exists d, igroup_of d p = Ok m) -> forall active dim,
  exists others marg,
    (forall i, idesign_variable i p = match nth_error (others ++ marg) i with Some d => Ok d | None => Throw end) /\
    (forall d, In d others -> igroup_of d p <> Ok m) /\ (forall d, In d marg <-> igroup_of d p = Ok m) /\
    marg_start active dim m p = Ok (list_sum (map dim (filter active others))).
Proof.
  intros uses m e R p (d0 & Hd0) active dim. destruct (reachable_fine uses m e R) as (grp & [G ML Hb]). fold p in G, ML, Hb.
  pose proof (g_coherent _ _ _ G) as C. pose proof (mem_nodup uses p grp G) as N.
  destruct (grouped_enum _ _ _ (c_groups _ _ _ C) (c_order _ _ _ C) N) as [P1 P2].
  assert (Im : In m (iorder p)).
  { apply (proj2 (c_order _ _ _ C) m), in_map_iff. exists (d0, m). split; auto. apply (mem_shows uses p grp d0 m G).
    now apply (shows_group_of uses p grp d0 m G). }
  destruct (ML Im) as (l & El). exists (enum (igroups p) l), (glist m p).
  assert (Ee : enum (igroups p) (iorder p) = enum (igroups p) l ++ glist m p).
  { rewrite El. unfold enum. rewrite flat_map_app. cbn [flat_map]. rewrite app_nil_r. reflexivity. }
  assert (Gm : forall d g, In d (glist g p) <-> igroup_of d p = Ok g).
  { intros d g. rewrite (glist_in p _ grp d g C). unfold igroup_of. rewrite (c_counts _ _ _ C). destruct (refcount d p); intuition congruence. }
  conj.
  - intros i. unfold idesign_variable. rewrite <- Ee. apply variable_at_spec; auto.
    rewrite (Permutation_length P1). unfold inum_variables, mem. rewrite !map_length. reflexivity.
  - intros d Hd. unfold enum in Hd. apply in_flat_map in Hd. destruct Hd as (g & Hg & Hd). change (group_list (igroups p) g) with (glist g p) in Hd.
    apply Gm in Hd. rewrite Hd. intros [= ->]. pose proof (proj1 (c_order _ _ _ C)) as No. rewrite El in No. apply NoDup_remove_2 in No.
    apply No. now rewrite app_nil_r.
  - intros d. apply Gm.
  - unfold marg_start. rewrite total_dim_spec by exact P2. cbn [obind].
    destruct (nget m (igroups p)) as [lm|] eqn:Em; [|exfalso; exact (P2 m Im Em)].
    rewrite (igroup_dim_spec active dim m p lm Em). cbn [obind]. f_equal. rewrite Ee, filter_app, map_app, list_sum_app.
    unfold glist. rewrite Em. lia.
Qed.
Print Assumptions C37_marginalized_last.

(** *** Examples and counterexamples *)
Definition e_uses (n : nat) : list nat := match n with 1 => [10; 20] | 2 => [11; 20] | _ => [] end.
Definition e_w : nat -> Z := fun d => Z.of_nat d.
(** group 1 is marginalized *)
Definition b1 : problem := fst (run e_uses e_w [AddVariable (Some 20) 1; AddVariable (Some 10) 2; AddTerm (Some 1)]).
Definition b2 : problem := fst (run e_uses e_w [AddVariable (Some 11) 3; AddVariable (Some 20) 1; AddTerm (Some 2)]).
Definition b3 : problem := fst (run e_uses e_w [AddVariable (Some 20) 1]).
Definition b4 : problem := fst (run e_uses e_w [AddVariable (Some 12) 2]).
Lemma e_built : built e_uses b1 /\ built e_uses b2 /\ built e_uses b3 /\ built e_uses b4.
Proof. conj; do 2 eexists; reflexivity. Qed.
Definition e_opts : opts := Opts (S754_finite false 4503599627370496 (-55)) true 20.
Definition one : spec_float := S754_finite false 4503599627370496 (-52).
Definition two : spec_float := S754_finite false 4503599627370496 (-51).
(** the cost goes from 2 to 1, rank 1, log2 sum as given *)
Definition rep (s : spec_float) : report := Report (fun _ => 77%Z) 5 two one 1 s 9.
Definition e_1 : est := fst (fst (estep 1 (empty_est e_w) (EAdd e_opts false (Some (100, b1)) (Optimized (rep one))))).
Lemma fits_empty b w : fits b (prob (empty_est w)).
Proof. split; intros ? ? ? ?; contradiction. Qed.
Lemma e_1_reachable : reachable_est e_uses 1 e_1.
Proof. apply rest_add; [constructor|apply e_built|apply fits_empty]. Qed.
Lemma lookup_in p d g : sorted Nat.compare (lookup p) -> group_of d p = Ok g -> In (d, g) (lookup p).
Proof.
  unfold group_of. intros S. destruct (nget d (lookup p)) eqn:E; [|discriminate]. intros [= ->]. now apply (mget_in _ Natcompare_order).
Qed.
Lemma term_in p e : sorted Nat.compare (term_lookup p) -> is_term e p = true -> In (e, tt) (term_lookup p).
Proof.
  unfold is_term. rewrite nhas_iff. intros S H. destruct (nget e (term_lookup p)) as [[]|] eqn:E; [|congruence]. now apply (mget_in _ Natcompare_order).
Qed.
Lemma e_fits : fits b2 (prob e_1) /\ fits b3 (prob e_1).
Proof.
  split; split; intros b x; intros.
  - destruct H as [<- |[]]. apply lookup_in in H0; [|cbn; auto]. apply lookup_in in H1; [|cbn; auto].
    cbn in H0, H1. intuition congruence.
  - destruct H as [<- |[]]. apply term_in in H0; [|cbn; auto]. destruct H0 as [[= <-] |[]]. reflexivity.
  - destruct H as [<- |[]]. apply lookup_in in H0; [|cbn; auto]. apply lookup_in in H1; [|cbn; auto].
    cbn in H0, H1. intuition congruence.
  - reflexivity.
Qed.
Example C21_ex : reachable_est e_uses 1 e_1 /\ ~ In 101 (map fst (probs (prob e_1))) /\ built e_uses b2 /\
  exists e' g, estep 1 e_1 (EAdd e_opts false (Some (101, b2)) (Optimized (Report (fun _ => 88%Z) 5 two one 1 one 9))) =
    (e', Returned, Some (Verdict false g)) /\ vals e' 20 = 77%Z.
Proof.
  split; [apply e_1_reachable|]. split; [cbn; lia|]. split; [apply e_built|]. eexists _, _. split; reflexivity.
Qed.
Example C22_ex : fits b2 (prob e_1) /\ In 1 (iorder (prob e_1)) /\
  should_keep e_opts false (stat e_1) (rep two) /\ ~ should_keep e_opts false (stat e_1) (rep one).
Proof.
  split; [apply e_fits|]. split; [cbn; auto|]. split.
  - right. split; [left; reflexivity|]. intros _. split; [discriminate|reflexivity].
  - intros [H|[[H|H] _]]; [discriminate|discriminate|discriminate].
Qed.
Example C37_ex : idesign_variable 0 (prob e_1) = Ok 10 /\ idesign_variable 1 (prob e_1) = Ok 20 /\
  marg_start (fun _ => true) (fun _ => 3) 1 (prob e_1) = Ok 3.
Proof. conj; reflexivity. Qed.

(** If the optimizer throws, or the batch has nothing to marginalize, addBatch throws but
    the batch stays in the problem. *)
Theorem C21_throw_keeps_batch_refuted : exists uses m e o id b v e', reachable_est uses m e /\ built uses b /\
  estep m e (EAdd o false (Some (id, b)) (Fails v)) = (e', Threw, None) /\ probs (prob e') <> probs (prob e) /\
  exists d, vals e' d <> vals e d.
Proof.
  exists e_uses, 1, (empty_est e_w), e_opts, 100, b1, (fun _ => 77%Z). eexists. split; [constructor|]. split; [apply e_built|].
  split; [reflexivity|]. split; [discriminate|]. exists 20. discriminate.
Qed.
Print Assumptions C21_throw_keeps_batch_refuted.
Theorem C21_no_group_keeps_batch_refuted : exists uses m e o id b a e', reachable_est uses m e /\ built uses b /\
  estep m e (EAdd o false (Some (id, b)) a) = (e', Threw, None) /\ probs (prob e') <> probs (prob e).
Proof.
  exists e_uses, 1, (empty_est e_w), e_opts, 103, b4, (Optimized (rep one)). eexists. split; [constructor|]. split; [apply e_built|].
  split; [reflexivity|]. discriminate.
Qed.
Print Assumptions C21_no_group_keeps_batch_refuted.

(** Rejecting a batch that is in the problem already removes the other occurrence, so
    the order of the batches changes. *)
Theorem C21_order_refuted : exists uses m e o id b a e' g, reachable_est uses m e /\ built uses b /\ In (id, b) (probs (prob e)) /\
  estep m e (EAdd o false (Some (id, b)) a) = (e', Returned, Some (Verdict false g)) /\
  map fst (probs (prob e)) = [102; 101] /\ map fst (probs (prob e')) = [101; 102].
Proof.
  set (e0 := fst (fst (estep 1 (empty_est e_w) (EAdd e_opts true (Some (102, b3)) (Optimized (rep one)))))).
  exists e_uses, 1, (fst (fst (estep 1 e0 (EAdd e_opts true (Some (101, b2)) (Optimized (rep one)))))), e_opts, 102, b3, (Optimized (rep one)).
  eexists _, _. split.
  - apply rest_add; [apply rest_add; [constructor|apply e_built|apply fits_empty]|apply e_built|].
    split; intros b x; intros.
    + destruct H as [<- |[]]. apply lookup_in in H0; [|cbn; auto]. apply lookup_in in H1; [|cbn; auto].
      cbn in H0, H1. intuition congruence.
    + destruct H as [<- |[]]. discriminate.
  - split; [apply e_built|]. split; [now left|]. split; [reflexivity|]. split; reflexivity.
Qed.
Print Assumptions C21_order_refuted.
