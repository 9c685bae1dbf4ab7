(** Properties of incremental problems (C18, C19, C20, C36). *)
From Coq Require Import ZArith List Arith Bool Lia Permutation.
From Verif Require Import Base OMap PermuteModel PermuteSpec PermuteProofs BatchModel BatchSpec BatchProofs IncModel IncSpec IncProofs.
Import ListNotations.
Open Scope nat_scope.

(** After any history without rejected add() calls the problem shows exactly the
    variables, groups and error terms of its batches. *)
Theorem C18_union : forall uses h s, reachable uses h s -> let p := fst s in
  (forall d, ihas_variable d p = true <-> exists b, In b (live p) /\ is_variable d b = true) /\
  (forall d g, igroup_of d p = Ok g <-> exists b, In b (live p) /\ group_of d b = Ok g) /\
  (forall d, ihas_variable d p = false -> igroup_of d p = Throw) /\
  (forall g, ihas_group g p = true <-> exists b d, In b (live p) /\ group_of d b = Ok g) /\
  (forall e, ihas_term e p = true <-> exists b, In b (live p) /\ is_term e b = true) /\
  (forall e d, ihas_term e p = true -> In d (uses e) -> ihas_variable d p = true).
Proof.
  intros uses h s R p. destruct (reachable_good uses h s R) as (grp & G). fold p in G.
  assert (V : forall d, ihas_variable d p = true <-> exists b, In b (live p) /\ is_variable d b = true).
  { intros d. rewrite (shows_variable uses p grp d G). apply refcount_pos. }
  pose proof (g_built _ _ _ G) as FB. rewrite Forall_forall in FB. conj; auto.
  - intros d g. exact (shows_group_of uses p grp d g G).
  - intros d. unfold ihas_variable, igroup_of. rewrite nhas_false. now intros ->.
  - intros g. unfold ihas_group. rewrite nhas_iff, (grouped_has _ _ _ (c_groups _ _ _ (g_coherent _ _ _ G))), in_map_iff. split.
    + intros ([d x] & <- & H). apply (mem_shows uses p grp d x G) in H. destruct H as (b & H). exists b, d. exact H.
    + intros (b & d & H). exists (d, g). split; auto. apply (mem_shows uses p grp d g G). eauto.
  - intros e. apply ihas_term_spec.
  - intros e d He Hd. apply V. apply ihas_term_spec in He. destruct He as (b & Hb & He). exists b. split; auto.
    destruct (built_described uses b (FB b Hb)) as (vs & ts & D). apply (d_has _ _ _ _ D), (d_closed _ _ _ _ D e); auto. now apply (d_thas _ _ _ _ D).
Qed.
Print Assumptions C18_union.

(** No error term is in two of the batches, and a variable has the same group in all. *)
Theorem C18_batches_compatible : forall uses h s, reachable uses h s -> let p := fst s in
  (forall i j bi bj e, i <> j -> nth_error (live p) i = Some bi -> nth_error (live p) j = Some bj ->
     is_term e bi = true -> is_term e bj = false) /\
  (forall bi bj d gi gj, In bi (live p) -> In bj (live p) -> group_of d bi = Ok gi -> group_of d bj = Ok gj -> gi = gj).
Proof.
  intros uses h s R p. destruct (reachable_good uses h s R) as (grp & G). fold p in G.
  pose proof (g_built _ _ _ G) as FB. rewrite Forall_forall in FB. split.
  - assert (X : forall l, (forall b, In b l -> built uses b) -> NoDup (flat_map terms l) ->
      forall i j bi bj e, i < j -> nth_error l i = Some bi -> nth_error l j = Some bj -> is_term e bi = true -> is_term e bj = true -> False).
    { clear. induction l as [|b l IH]; intros FB N i j bi bj e L Ei Ej Ti Tj; [destruct i; discriminate|].
      destruct j as [|j]; [lia|]. cbn in Ej. pose proof (nth_error_In _ _ Ej) as Hj. cbn in N. destruct i as [|i]; cbn in Ei.
      - injection Ei as ->. apply (term_terms uses) in Ti; [|apply FB; now left]. apply (term_terms uses) in Tj; [|apply FB; now right].
        revert N Ti. clear - Hj Tj. intros N Ti. apply in_split in Ti. destruct Ti as (l1 & l2 & E). rewrite E, <- app_assoc in N.
        apply NoDup_remove_2 in N. apply N, in_or_app. right. apply in_or_app. right. apply in_flat_map. eauto.
      - eapply (IH _ _ i j bi bj e); eauto. lia. Unshelve.
        + intros x Hx. apply FB. now right.
        + clear - N. induction (terms b); auto. inversion N; auto. }
    intros i j bi bj e N Ei Ej Ti. destruct (is_term e bj) eqn:Tj; auto. exfalso.
    destruct (Nat.lt_ge_cases i j) as [L|L].
    + exact (X (live p) FB (g_terms _ _ _ G) i j bi bj e L Ei Ej Ti Tj).
    + exact (X (live p) FB (g_terms _ _ _ G) j i bj bi e ltac:(lia) Ej Ei Tj Ti).
  - intros bi bj d gi gj Hi Hj Ei Ej. rewrite <- (g_group _ _ _ G bi d gi Hi Ei). exact (g_group _ _ _ G bj d gj Hj Ej).
Qed.
Print Assumptions C18_batches_compatible.

(** What each call does to the batches.  A batch is added exactly when it fits;
    removing erases one batch and keeps the others in order; no other call adds or
    drops a batch, and none has undefined behaviour. *)
Theorem C18_batches : forall uses h s, reachable uses h s -> let p := fst s in
  (forall id b, built uses b ->
     (fits b p -> snd (istep s (IAdd (Some (id, b)))) = Returned /\ probs (fst (fst (istep s (IAdd (Some (id, b)))))) = probs p ++ [(id, b)]) /\
     (~ fits b p -> snd (istep s (IAdd (Some (id, b)))) = Threw)) /\
  (forall i, i < length (probs p) -> snd (istep s (IRemove i)) = Returned /\
     probs (fst (fst (istep s (IRemove i)))) = firstn i (probs p) ++ skipn (S i) (probs p)) /\
  (forall i, length (probs p) <= i -> istep s (IRemove i) = (s, Threw)) /\
  (forall id, ~ In id (map fst (probs p)) -> istep s (IRemoveBatch id) = (s, Threw)) /\
  (forall id, In id (map fst (probs p)) -> snd (istep s (IRemoveBatch id)) = Returned /\
     exists i b, nth_error (probs p) i = Some (id, b) /\ ~ In id (map fst (firstn i (probs p))) /\
       probs (fst (fst (istep s (IRemoveBatch id)))) = firstn i (probs p) ++ skipn (S i) (probs p)) /\
  (forall perm, Permutation (probs p) (probs (fst (fst (istep s (IPermuteProblems perm)))))) /\
  (forall perm, is_permutation_of_indices (length (probs p)) perm -> snd (istep s (IPermuteProblems perm)) = Returned /\
     gathers (probs p) perm (probs (fst (fst (istep s (IPermuteProblems perm)))))) /\
  (forall l, probs (fst (fst (istep s (ISetOrdering l)))) = probs p) /\
  (forall perm g, probs (fst (fst (istep s (IPermuteVariables perm g)))) = probs p) /\
  (forall d v, probs (fst (fst (istep s (ISetParameters d v)))) = probs p) /\
  probs (fst (fst (istep s ISave))) = probs p /\ probs (fst (fst (istep s IRestore))) = probs p /\
  probs (fst (fst (istep s IClear))) = [].
Proof.
  intros uses h [p w] R. destruct (reachable_good uses h _ R) as (grp & G). cbn [fst istep] in *.
  assert (RM : forall i, i < length (probs p) -> exists p', remove i p = (p', Returned) /\ probs p' = firstn i (probs p) ++ skipn (S i) (probs p)).
  { intros i L. destruct (nth_error (probs p) i) as [[id b]|] eqn:E; [|apply nth_error_None in E; lia].
    destruct (remove_ok uses p grp i id b G E) as (p' & -> & P & _). exists p'. split; auto. rewrite P. now apply erase_at_split. }
  conj.
  - intros id b B. destruct (add_cases uses p grp id b G B) as [A1 A2]. split; intros F.
    + destruct (A1 F) as (p' & -> & P & _). cbn. auto.
    + destruct (A2 F) as (p' & -> & _). reflexivity.
  - intros i L. destruct (RM i L) as (p' & -> & P). cbn. auto.
  - intros i L. unfold remove. apply nth_error_None in L. now rewrite L.
  - intros id N. unfold remove_batch. now rewrite (proj2 (find_batch_none uses id (probs p)) N).
  - intros id H. unfold remove_batch. destruct (find_batch id (probs p)) as [k|] eqn:F; [|now apply (proj1 (find_batch_none uses id (probs p))) in F].
    destruct (find_batch_spec _ _ _ F) as (b & E). assert (L : k < length (probs p)) by (apply nth_error_Some; congruence).
    destruct (RM k L) as (p' & -> & P). cbn. split; auto. exists k, b. conj; auto.
    clear - F. revert k F. induction (probs p) as [|[j c] l IH]; cbn; [discriminate|]. intros k. destruct (Nat.eqb_spec j id) as [-> |N].
    + intros [= <-]. cbn. auto.
    + destruct (find_batch id l) as [m|]; [|discriminate]. intros [= <-]. cbn. intros [X|X]; [contradiction|]. exact (IH m eq_refl X).
  - intros perm. unfold permute_problems. pose proof (permute_perm (probs p) perm) as P. destruct (permute (probs p) perm); cbn; auto.
  - intros perm H. unfold permute_problems. destruct (permute_gathers (probs p) perm H) as (l & -> & Hl). cbn. auto.
  - intros l. unfold iset_ordering. destruct (length l =? length (iorder p)); cbn; auto. destruct (ordering_ok (igroups p) [] l); auto.
  - intros perm g. unfold ipermute_variables. destruct (nget g (igroups p)); auto. destruct (permute l perm); auto.
  - reflexivity.
  - reflexivity.
  - reflexivity.
  - reflexivity.
Qed.
Print Assumptions C18_batches.

(** The calls that change no batch list leave the groups and their order alone too,
    unless that is their purpose: a new ordering is taken exactly when it is a
    permutation of the groups, otherwise nothing changes. *)
Theorem C18_set_ordering : forall uses h s, reachable uses h s -> forall l, let p := fst s in
  (snd (istep s (ISetOrdering l)) = Returned <-> NoDup l /\ forall g, In g l <-> ihas_group g p = true) /\
  (snd (istep s (ISetOrdering l)) = Returned -> iorder (fst (fst (istep s (ISetOrdering l)))) = l) /\
  (snd (istep s (ISetOrdering l)) <> Returned -> istep s (ISetOrdering l) = (s, Threw)).
Proof.
  intros uses h [p w] R l. destruct (reachable_good uses h _ R) as (grp & G). cbn [fst istep] in *.
  destruct (set_ordering_ok_inc uses p grp l G) as (p' & e & -> & _ & _ & _ & _ & H). cbn [fst snd].
  assert (O : ordered l (mem (counts p)) <-> NoDup l /\ forall g, In g l <-> ihas_group g p = true).
  { unfold ordered, ihas_group. split; intros [A B]; split; auto; intros g; rewrite B, nhas_iff, (grouped_has _ _ _ (c_groups _ _ _ (g_coherent _ _ _ G))); reflexivity. }
  destruct H as [(-> & H1 & H2) | (-> & H1 & ->)]; conj; try tauto; try discriminate; auto.
  - split; [discriminate|]. intros X. apply O in X. contradiction.
Qed.
Print Assumptions C18_set_ordering.

(** Calls that must not have undefined behaviour have none. *)
Theorem C18_defined : forall uses h s, reachable uses h s -> forall o,
  (forall id b, o = IAdd (Some (id, b)) -> built uses b) -> snd (istep s o) <> Undefined.
Proof.
  intros uses h [p w] R o H. destruct (reachable_good uses h _ R) as (grp & G). cbn [fst] in *.
  destruct (is_add o) eqn:Eo.
  - destruct o as [[[id b]|]| | | | | | | | |]; try discriminate. specialize (H id b eq_refl). cbn [istep].
    destruct (add_cases uses p grp id b G H) as [A1 A2]. destruct (fits_dec uses p grp b G H) as [F|F].
    + destruct (A1 F) as (p' & -> & _). discriminate.
    + destruct (A2 F) as (p' & -> & _). discriminate.
  - apply (other_step uses p w grp o G Eo).
Qed.
Print Assumptions C18_defined.

(** A rejected add() leaves the batches, and so the error terms, and the saved values as
    they were; a null batch changes nothing at all. *)
Theorem C19_rejected_add : forall uses h s, reachable uses h s -> forall b,
  (forall id p, b = Some (id, p) -> built uses p) -> snd (istep s (IAdd b)) <> Returned ->
  snd (istep s (IAdd b)) = Threw /\ snd (fst (istep s (IAdd b))) = snd s /\
  probs (fst (fst (istep s (IAdd b)))) = probs (fst s) /\ ibackup (fst (fst (istep s (IAdd b)))) = ibackup (fst s) /\
  (forall i, ierror_term i (fst (fst (istep s (IAdd b)))) = ierror_term i (fst s)) /\
  (b = None -> fst (istep s (IAdd b)) = s).
Proof.
  intros uses h [p w] R b H. destruct (reachable_good uses h _ R) as (grp & G). cbn [fst istep] in *.
  destruct b as [[id b]|]; [|cbn; intros _; conj; auto].
  specialize (H id b eq_refl). destruct (add_cases uses p grp id b G H) as [A1 A2]. destruct (fits_dec uses p grp b G H) as [F|F].
  - destruct (A1 F) as (p' & -> & _). cbn. congruence.
  - destruct (A2 F) as (p' & -> & P & B). cbn. intros _. conj; auto; [|discriminate].
    intros i. unfold ierror_term. now rewrite P.
Qed.
Print Assumptions C19_rejected_add.

Definition inc_uses (e : nat) : list nat := match e with 1 => [10] | 2 => [11] | _ => [] end.
Definition w_zero : nat -> Z := fun _ => 0%Z.
Definition batch1 : problem := fst (run inc_uses w_zero [AddVariable (Some 10) 5; AddTerm (Some 1)]).
(** shares an error term with batch1 *)
Definition batch2 : problem := fst (run inc_uses w_zero [AddVariable (Some 11) 6; AddVariable (Some 10) 5; AddTerm (Some 1)]).
(** has variable 10 in another group *)
Definition batch3 : problem := fst (run inc_uses w_zero [AddVariable (Some 10) 7]).
Definition batch4 : problem := fst (run inc_uses w_zero [AddVariable (Some 11) 6; AddTerm (Some 2)]).
Lemma built_batches : built inc_uses batch1 /\ built inc_uses batch2 /\ built inc_uses batch3 /\ built inc_uses batch4.
Proof. conj; do 2 eexists; reflexivity. Qed.

Definition s_one : inc * world := fst (istep (empty_inc, w_zero) (IAdd (Some (100, batch1)))).
Lemma s_one_reachable : reachable inc_uses [IAdd (Some (100, batch1))] s_one.
Proof. apply (reach_add inc_uses [] (empty_inc, w_zero) 100 batch1); [constructor|apply built_batches|reflexivity]. Qed.

Example C18_ex : let s := fst (istep s_one (IAdd (Some (101, batch4)))) in
  reachable inc_uses [IAdd (Some (100, batch1)); IAdd (Some (101, batch4)); IRemove 0] (fst (istep s (IRemove 0))) /\
  ihas_variable 10 (fst s) = true /\ ihas_variable 10 (fst (fst (istep s (IRemove 0)))) = false /\
  map (fun i => idesign_variable i (fst s)) [0; 1; 2] = [Ok 10; Ok 11; Throw].
Proof.
  cbv zeta. split; [|conj; reflexivity].
  apply (reach_other inc_uses [IAdd (Some (100, batch1)); IAdd (Some (101, batch4))]); [|reflexivity].
  apply (reach_add inc_uses [IAdd (Some (100, batch1))]); [apply s_one_reachable|apply built_batches|reflexivity].
Qed.

Example C19_ex : snd (istep s_one (IAdd (Some (101, batch2)))) = Threw.
Proof. reflexivity. Qed.

(** But a rejected batch leaves its design variables behind: here variable 11 is in no
    batch and no call on the batches will remove it. *)
Theorem C19_variables_left_refuted : exists uses h s id b d, reachable uses h s /\ built uses b /\
  snd (istep s (IAdd (Some (id, b)))) = Threw /\
  ihas_variable d (fst s) = false /\ ihas_variable d (fst (fst (istep s (IAdd (Some (id, b)))))) = true /\
  (forall x, In x (live (fst (fst (istep s (IAdd (Some (id, b))))))) -> is_variable d x = false) /\
  let s' := fst (istep (fst (istep s (IAdd (Some (id, b))))) (IRemove 0)) in
  num_problems (fst s') = 0 /\ inum_variables (fst s') = 2.
Proof.
  exists inc_uses, [IAdd (Some (100, batch1))], s_one, 101, batch2, 11. conj.
  - apply s_one_reachable.
  - apply built_batches.
  - reflexivity.
  - reflexivity.
  - reflexivity.
  - intros x [<- |[]]. reflexivity.
  - split; reflexivity.
Qed.
Print Assumptions C19_variables_left_refuted.

Lemma no_ordering s l : iorder (fst s) = [5; 7] -> igroups (fst s) = [(5, [10])] -> snd (istep s (ISetOrdering l)) = Threw.
Proof.
  destruct s as [p w]. cbn [fst istep]. intros Eo Eg. unfold iset_ordering. rewrite Eo, Eg.
  destruct l as [|a [|b [|c l]]]; try reflexivity.
  assert (X : ordering_ok [(5, [10])] [] [a; b] = false); [|rewrite X; reflexivity].
  unfold ordering_ok, mhas. cbn [mget]. destruct (Nat.compare_spec a 5), (Nat.compare_spec b 5); subst; cbn; auto.
Qed.

(** And a group mismatch leaves a group in the ordering that has no variables: then no
    ordering that lists the groups is accepted, and enumeration can fail. *)
Theorem C19_group_left_refuted : exists uses h s id b, reachable uses h s /\ built uses b /\
  snd (istep s (IAdd (Some (id, b)))) = Threw /\
  let s' := fst (istep s (IAdd (Some (id, b)))) in
  (forall l, snd (istep s' (ISetOrdering l)) = Threw) /\
  exists id2 b2, built uses b2 /\ let s2 := istep s' (IAdd (Some (id2, b2))) in
    snd s2 = Returned /\ inum_variables (fst (fst s2)) = 2 /\ idesign_variable 1 (fst (fst s2)) = Throw.
Proof.
  exists inc_uses, [IAdd (Some (100, batch1))], s_one, 101, batch3. conj.
  - apply s_one_reachable.
  - apply built_batches.
  - reflexivity.
  - cbv zeta. split.
    + intros l. apply no_ordering; reflexivity.
    + exists 102, batch4. conj; [apply built_batches| | | ]; reflexivity.
Qed.
Print Assumptions C19_group_left_refuted.

(** The groups are listed once each; every variable and every error term is found at
    exactly one index; other indices are rejected. *)
Theorem C20_enumeration : forall uses h s, reachable uses h s -> let p := fst s in
  NoDup (iorder p) /\ inum_groups p = length (iorder p) /\
  (forall g, In g (iorder p) <-> exists b d, In b (live p) /\ group_of d b = Ok g) /\
  exists vs ts,
    NoDup vs /\ inum_variables p = length vs /\
    (forall i, idesign_variable i p = match nth_error vs i with Some d => Ok d | None => Throw end) /\
    (forall d, In d vs <-> exists b, In b (live p) /\ is_variable d b = true) /\
    NoDup ts /\ inum_terms p = length ts /\
    (forall i, ierror_term i p = match nth_error ts i with Some e => Ok e | None => Throw end) /\
    (forall e, In e ts <-> exists b, In b (live p) /\ is_term e b = true).
Proof.
  intros uses h s R p. destruct (reachable_good uses h s R) as (grp & G). fold p in G.
  pose proof (g_coherent _ _ _ G) as C. pose proof (mem_nodup uses p grp G) as N. destruct (c_order _ _ _ C) as [No Ho].
  destruct (grouped_enum _ _ _ (c_groups _ _ _ C) (c_order _ _ _ C) N) as [P1 P2].
  assert (Hg : forall g, In g (iorder p) <-> exists b d, In b (live p) /\ group_of d b = Ok g).
  { intros g. rewrite Ho, in_map_iff. split.
    + intros ([d x] & <- & H). apply (mem_shows uses p grp d x G) in H. destruct H as (b & H). exists b, d. exact H.
    + intros (b & d & H). exists (d, g). split; auto. apply (mem_shows uses p grp d g G). eauto. }
  conj; auto.
  - unfold inum_groups. rewrite <- (map_length fst). apply Permutation_length, NoDup_Permutation; auto.
    + apply (sorted_nodup _ Natcompare_order), (c_groups _ _ _ C).
    + intros g. rewrite Ho, <- (grouped_has _ _ _ (c_groups _ _ _ C)). split.
      * intros Hi. apply in_map_iff in Hi. destruct Hi as ([x l] & Ex & Hi). cbn in Ex. subst x.
        apply (mget_in _ Natcompare_order) in Hi; [congruence|apply (c_groups _ _ _ C)].
      * intros Hi. destruct (nget g (igroups p)) as [l|] eqn:E; [|congruence].
        apply (mget_in _ Natcompare_order) in E; [|apply (c_groups _ _ _ C)]. apply in_map_iff. exists (g, l). auto.
  - exists (enum (igroups p) (iorder p)), (flat_map terms (live p)).
    assert (L : inum_variables p = length (enum (igroups p) (iorder p))).
    { rewrite (Permutation_length P1). unfold inum_variables, mem. rewrite !map_length. reflexivity. }
    conj; auto.
    + eapply Permutation_NoDup; [apply Permutation_sym, P1|exact N].
    + intros i. unfold idesign_variable. now apply variable_at_spec.
    + intros d. rewrite <- refcount_pos, <- (shows_variable uses p grp d G). split.
      * intros H. apply (Permutation_in _ P1) in H. rewrite mem_fst in H. apply in_map_iff in H. destruct H as ([x y] & Ex & H).
        cbn in Ex. subst x. unfold ihas_variable. apply nhas_iff. apply (mget_in _ Natcompare_order) in H; [congruence|apply C].
      * intros H. apply (Permutation_in _ (Permutation_sym P1)). rewrite mem_fst. unfold ihas_variable in H. apply nhas_iff in H.
        destruct (nget d (counts p)) as [y|] eqn:E; [|congruence]. apply (mget_in _ Natcompare_order) in E; [|apply C].
        apply in_map_iff. exists (d, y). auto.
    + apply G.
    + exact (inum_terms_spec uses p grp G).
    + intros i. exact (ierror_term_spec uses p grp i G).
    + intros e. rewrite in_flat_map. pose proof (g_built _ _ _ G) as FB. rewrite Forall_forall in FB.
      split; intros (b & Hb & He); exists b; split; auto; apply (term_terms uses b e (FB b Hb)); auto.
Qed.
Print Assumptions C20_enumeration.

(** Groups hold the variables of that group, and nothing else. *)
Theorem C20_groups : forall uses h s, reachable uses h s -> let p := fst s in
  (forall g, ihas_group g p = false -> iget_group g p = Throw) /\
  (forall g, ihas_group g p = true -> exists l, iget_group g p = Ok l /\ NoDup l /\ forall d, In d l <-> igroup_of d p = Ok g).
Proof.
  intros uses h s R p. destruct (reachable_good uses h s R) as (grp & G). fold p in G.
  pose proof (g_coherent _ _ _ G) as C. pose proof (mem_nodup uses p grp G) as N. split; intros g; unfold ihas_group, iget_group.
  - rewrite nhas_false. now intros ->.
  - rewrite nhas_iff. destruct (c_groups _ _ _ C) as [_ Cg]. specialize (Cg g). destruct (nget g (igroups p)) as [l|]; [|congruence].
    destruct Cg as [_ P]. intros _. exists l. conj; auto.
    + eapply Permutation_NoDup; [apply Permutation_sym, P|]. revert N. unfold in_group. clear. induction (mem (counts p)) as [|[a b] ms IH]; cbn; [constructor|].
      intros N. inversion N as [|? ? N1 N2]; subst. destruct (b =? g); cbn; auto. constructor; auto.
      intros X. apply N1. apply in_map_iff in X. destruct X as (y & Ey & X). apply filter_In in X. apply in_map_iff. exists y. tauto.
    + intros d. rewrite (shows_group_of uses p grp d g G), <- (mem_shows uses p grp d g G), <- in_group_in.
      split; apply Permutation_in; [|apply Permutation_sym]; exact P.
Qed.
Print Assumptions C20_groups.

Example C20_ex : let s := fst (istep s_one (IAdd (Some (101, batch4)))) in
  iorder (fst s) = [5; 6] /\ iget_group 6 (fst s) = Ok [11] /\ map (fun i => ierror_term i (fst s)) [0; 1; 2] = [Ok 1; Ok 2; Throw].
Proof. cbv zeta. conj; reflexivity. Qed.

(** Restoring gives every variable of the problem the value it had when it was last
    saved while in the problem, and leaves all others alone, provided clear() was not
    called. *)
Theorem C36_restore : forall uses h s sv, last_saved uses h s sv -> ~ In IClear h ->
  forall d, snd (fst (istep s IRestore)) d =
    if ihas_variable d (fst s) then match sv d with Some v => v | None => snd s d end else snd s d.
Proof.
  intros uses h [p w] sv L NC d. destruct (saved_backup uses h _ sv L NC) as (B1 & B2 & grp & G). cbn [fst snd istep] in *.
  unfold irestore. rewrite restore_all_spec by apply G. rewrite B1. specialize (B2 d).
  destruct (ihas_variable d p); auto. now rewrite B2.
Qed.
Print Assumptions C36_restore.

(** Without further calls in between, restoring undoes any change of the variables in the problem. *)
Theorem C36_save_restore : forall uses h s, reachable uses h s -> forall w',
  let s1 := fst (istep s ISave) in
  forall d, snd (fst (istep (fst s1, w') IRestore)) d =
    if ihas_variable d (fst s) then snd s d else
    match nget d (ibackup (fst s)) with Some v => v | None => w' d end.
Proof.
  intros uses h [p w] R w' s1 d. destruct (reachable_good uses h _ R) as (grp & G). unfold s1. cbn [fst snd istep] in *.
  unfold irestore, isave. cbn [ibackup]. rewrite restore_all_spec by apply save_all_sorted, G. rewrite save_all_spec.
  unfold ihas_variable. destruct (in_dec Nat.eq_dec d (map fst (counts p))) as [I|I].
  - assert (nhas d (counts p) = true) as ->; auto. apply nhas_iff. apply in_map_iff in I. destruct I as ([x y] & Ex & I). cbn in Ex. subst x.
    apply (mget_in _ Natcompare_order) in I; [congruence|apply G].
  - assert (nhas d (counts p) = false) as ->; auto. apply nhas_false. destruct (nget d (counts p)) as [y|] eqn:E; auto.
    apply (mget_in _ Natcompare_order) in E; [|apply G]. exfalso. apply I, in_map_iff. exists (d, y). auto.
Qed.
Print Assumptions C36_save_restore.

Example C36_ex : exists s sv, last_saved inc_uses [IAdd (Some (100, batch1)); ISave; ISetParameters 10 9%Z] s sv /\
  ihas_variable 10 (fst s) = true /\ sv 10 = Some 0%Z /\ snd s 10 = 9%Z.
Proof.
  eexists _, _. split.
  - apply (saved_other inc_uses [IAdd (Some (100, batch1)); ISave]); [|reflexivity].
    apply (saved_other inc_uses [IAdd (Some (100, batch1))]); [|reflexivity].
    apply (saved_add inc_uses []); [apply saved_start with (w := w_zero)|apply built_batches|reflexivity].
  - conj; reflexivity.
Qed.

(** After clear() a restore still overwrites variables that are no longer in the problem. *)
Theorem C36_after_clear_refuted : exists uses h s d, reachable uses h s /\ ihas_variable d (fst s) = false /\
  live (fst s) = [] /\ snd (fst (istep s IRestore)) d <> snd s d.
Proof.
  exists inc_uses, [IAdd (Some (100, batch1)); ISave; IClear; ISetParameters 10 9%Z].
  eexists. exists 10. split.
  - apply (reach_other inc_uses [IAdd (Some (100, batch1)); ISave; IClear]); [|reflexivity].
    apply (reach_other inc_uses [IAdd (Some (100, batch1)); ISave]); [|reflexivity].
    apply (reach_other inc_uses [IAdd (Some (100, batch1))]); [|reflexivity]. apply s_one_reachable.
  - conj; try reflexivity. discriminate.
Qed.
Print Assumptions C36_after_clear_refuted.

(** A batch must not be changed while it is in the problem: a variable added to it later
    is removed without ever having been counted, which wraps its count around. *)
Definition batch1' : problem := fst (run inc_uses w_zero [AddVariable (Some 10) 5; AddTerm (Some 1); AddVariable (Some 12) 5]).
Theorem C18_changed_batch_refuted : exists uses h s p', reachable uses h s /\ built uses p' /\
  let s' := istep (touch 0 p' (fst s), snd s) (IRemove 0) in
  live (fst (fst s')) = [] /\ ihas_variable 12 (fst (fst s')) = true /\
  nget 12 (counts (fst (fst s'))) = Some (UINT64_MAX, 0).
Proof.
  exists inc_uses, [IAdd (Some (100, batch1))], s_one, batch1'. conj.
  - apply s_one_reachable.
  - do 2 eexists. reflexivity.
  - cbv zeta. conj; reflexivity.
Qed.
Print Assumptions C18_changed_batch_refuted.
