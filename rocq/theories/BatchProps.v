(** Properties of optimization problem batches (C17). *)
From Coq Require Import ZArith List Arith Bool Lia Permutation.
From Verif Require Import Base OMap PermuteModel PermuteProofs BatchModel BatchSpec BatchProofs.
Import ListNotations.
Open Scope nat_scope.

(** After any history, including failing calls, a batch holds exactly the variables
    and error terms whose addition was accepted since the last clear(). *)
Theorem C17_membership : forall uses w0 h, let p := fst (run uses w0 h) in let c := contents_of uses w0 h in
  (forall d, is_variable d p = true <-> In d (map fst (members c))) /\
  (forall d g, group_of d p = Ok g <-> In (d, g) (members c)) /\
  (forall d, ~ In d (map fst (members c)) -> group_of d p = Throw) /\
  (forall e, is_term e p = true <-> In e (errors c)) /\
  num_variables p = length (members c) /\ num_terms p = length (errors c).
Proof.
  intros uses w0 h p c. pose proof (run_represents uses w0 h) as R. fold p c in R. conj.
  - intros d. rewrite (is_variable_member p _ c) by exact R. apply member_spec.
  - intros d g. unfold group_of. pose proof (mget_in _ Natcompare_order d g _ (r_lookup_sorted _ _ _ R)) as G. split.
    + destruct (nget d (lookup p)) eqn:E; [|discriminate]. intros [= ->].
      apply (Permutation_in _ (r_lookup _ _ _ R)), G. reflexivity.
    + intros H. apply (Permutation_in _ (Permutation_sym (r_lookup _ _ _ R))), G in H. now rewrite H.
  - intros d N. unfold group_of. destruct (nget d (lookup p)) eqn:E; auto. exfalso. apply N.
    apply (mget_in _ Natcompare_order) in E; [|apply R]. apply (Permutation_in _ (r_lookup _ _ _ R)) in E.
    apply (in_map fst) in E. exact E.
  - intros e. rewrite (is_term_in p _ c) by exact R. apply existsb_in.
  - apply Permutation_length, R.
  - unfold num_terms. rewrite <- (map_length fst). apply Permutation_length, R.
Qed.
Print Assumptions C17_membership.

(** Nothing is stored twice, and every error term finds its design variables. *)
Theorem C17_well_formed : forall uses w0 h, let p := fst (run uses w0 h) in let c := contents_of uses w0 h in
  NoDup (map fst (members c)) /\ NoDup (errors c) /\
  forall e d, is_term e p = true -> In d (uses e) -> is_variable d p = true.
Proof.
  intros uses w0 h p c. pose proof (run_represents uses w0 h) as R. fold p c in R. conj.
  - apply R.
  - apply (Permutation_NoDup (r_tlookup _ _ _ R)), (sorted_nodup _ Natcompare_order), R.
  - intros e d. rewrite (is_term_in p _ c), (is_variable_member p _ c) by exact R. rewrite existsb_in, member_spec.
    revert e d. unfold c, contents_of. clear.
    assert (G : forall h c, (forall e d, In e (errors c) -> In d (uses e) -> In d (map fst (members c))) ->
      forall e d, In e (errors (fold_left (effect uses) h c)) -> In d (uses e) -> In d (map fst (members (fold_left (effect uses) h c)))).
    { clear h. induction h as [|o h IH]; intros c H; cbn [fold_left]; [exact H|]. apply IH. clear IH.
      destruct o as [[d|] g|[e|]|l|perm|perm g| | | |d v]; cbn [effect]; auto.
      - destruct (member d c); auto. cbn [errors members]. intros e x He Hx. rewrite map_app, in_app_iff. eauto.
      - destruct (existsb (Nat.eqb e) (errors c)); auto. destruct (forallb (fun d => member d c) (uses e)) eqn:E; auto.
        cbn [errors members]. intros e' x He Hx. apply in_app_iff in He. destruct He as [He|[<- |[]]]; eauto.
        rewrite forallb_forall in E. now apply member_spec, E. }
    apply G. intros e d [].
Qed.
Print Assumptions C17_well_formed.

(** The group ordering lists every non-empty group once; each group holds its
    variables; enumeration by index goes through the groups in order, so it visits every
    variable exactly once, and every error term once; other indices throw. *)
Theorem C17_enumeration : forall uses w0 h, let p := fst (run uses w0 h) in let c := contents_of uses w0 h in
  NoDup (order p) /\ num_groups p = length (order p) /\
  (forall g, In g (order p) <-> exists d, In (d, g) (members c)) /\
  (forall g, is_group g p = true <-> In g (order p)) /\
  (forall g, ~ In g (order p) -> get_group g p = Throw) /\
  exists ls ts,
    Forall2 (fun g l => get_group g p = Ok l /\ Permutation l (in_group g (members c))) (order p) ls /\
    (forall i, design_variable i p = match nth_error (concat ls) i with Some d => Ok d | None => Throw end) /\
    Permutation (concat ls) (map fst (members c)) /\
    (forall i, error_term i p = match nth_error ts i with Some e => Ok e | None => Throw end) /\
    Permutation ts (errors c).
Proof.
  intros uses w0 h p c. pose proof (run_represents uses w0 h) as R. fold p c in R.
  pose proof (r_groups _ _ _ R) as G. destruct (r_order _ _ _ R) as [No Ho].
  assert (Hg : forall g, is_group g p = true <-> In g (order p)).
  { intros g. unfold is_group. now rewrite nhas_iff, (grouped_has _ _ _ G), Ho. }
  destruct (grouped_enum _ _ _ G (r_order _ _ _ R) (r_nodup _ _ _ R)) as [P1 P2]. conj; auto.
  - intros g. rewrite Ho, in_map_iff. split; [intros ([d x] & <- & H); cbn; eauto|intros (d & H); exists (d, g); auto].
  - intros g N. unfold get_group. destruct (nget g (groups p)) eqn:E; auto. exfalso. apply N, Hg, nhas_iff. congruence.
  - exists (map (group_list (groups p)) (order p)), (terms p). conj.
    + clear - G P2. revert P2. generalize (order p). induction l as [|g l IH]; intros P2; cbn; constructor.
      * unfold get_group, group_list. destruct G as [_ G]. specialize (G g). specialize (P2 g (or_introl eq_refl)).
        destruct (nget g (groups p)); [tauto|congruence].
      * apply IH. intros x Hx. apply P2. now right.
    + intros i. unfold design_variable. rewrite variable_at_spec; auto.
      * unfold enum. now rewrite flat_map_concat_map.
      * rewrite (Permutation_length P1), map_length. apply Permutation_length, R.
    + rewrite <- flat_map_concat_map. exact P1.
    + intros i. unfold error_term. destruct (Nat.leb_spec (length (terms p)) i) as [L|L].
      * apply nth_error_None in L. now rewrite L.
      * destruct (nth_error (terms p) i) eqn:E; auto. apply nth_error_None in E. lia.
    + apply R.
Qed.
Print Assumptions C17_enumeration.

(** Calls are accepted exactly when they should be, and apart from a permutation that
    throws half-way a rejected call changes nothing. *)
Theorem C17_accepts : forall uses w0 h o, let s := run uses w0 h in let c := contents_of uses w0 h in
  match o with
  | PermuteTerms _ | PermuteVariables _ _ => True
  | _ => (snd (step uses s o) = Returned <-> accepted uses c o) /\
         (snd (step uses s o) <> Returned -> snd (step uses s o) = Threw /\ fst (step uses s o) = s)
  end.
Proof.
  intros uses w0 h o s c. pose proof (run_represents uses w0 h) as R. fold s c in R. destruct s as [p w]. cbn [fst snd] in R.
  destruct o as [d g|e|l|perm|perm g| | | |d v]; cbn [step accepted]; auto.
  - destruct d as [d|]; cbn [add_variable]; [|split; [split; [discriminate|intros (x & X & _); discriminate]|auto]].
    rewrite (is_variable_member p w c d R). pose proof (member_spec d c) as M. destruct (member d c); cbn.
    + split; [|auto]. split; [discriminate|]. intros (x & [= <-] & N). tauto.
    + split; [|tauto]. split; auto. intros _. exists d. split; auto. intros X. apply M in X. discriminate.
  - destruct e as [e|]; cbn [add_term]; [|split; [split; [discriminate|intros (x & X & _); discriminate]|auto]].
    rewrite (is_term_in p w c e R). pose proof (existsb_in e (errors c)) as M. destruct (existsb (Nat.eqb e) (errors c)); cbn [snd fst].
    + split; [|auto]. split; [discriminate|]. intros (x & [= <-] & N & _). tauto.
    + rewrite (forallb_member p w c _ R). destruct (forallb (fun d => member d c) (uses e)) eqn:E; cbn [snd fst].
      * split; [|tauto]. split; auto. intros _. exists e. conj; auto.
        -- intros X. apply M in X. discriminate.
        -- intros d Hd. rewrite forallb_forall in E. now apply member_spec, E.
      * split; [|auto]. split; [discriminate|]. intros (x & [= <-] & N & Ha). exfalso.
        assert (forallb (fun d => member d c) (uses e) = true); [|congruence].
        apply forallb_forall. intros d Hd. apply member_spec. auto.
  - pose proof (set_ordering_ok _ _ _ l (r_groups _ _ _ R) (r_order _ _ _ R)) as S. unfold ordered in S. unfold set_ordering.
    destruct (length l =? length (order p)); cbn [negb].
    + destruct (ordering_ok (groups p) [] l); cbn [fst snd].
      * split; [|tauto]. split; auto. intros _. now apply S.
      * split; [|auto]. split; [discriminate|]. intros X. apply S in X. destruct X; discriminate.
    + cbn [fst snd]. split; [|auto]. split; [discriminate|]. intros X. apply S in X. destruct X; discriminate.
  - cbn. tauto.
  - cbn. tauto.
  - cbn. tauto.
  - cbn. tauto.
Qed.
Print Assumptions C17_accepts.

(** The values of the design variables are what saving, restoring and others' changes
    make them: restoring brings back the value a variable had when last saved. *)
Theorem C17_save_restore : forall uses w0 h d, snd (run uses w0 h) d = values (contents_of uses w0 h) d.
Proof. intros uses w0 h d. apply (run_represents uses w0 h). Qed.
Print Assumptions C17_save_restore.

Definition no_permute (o : op) : bool := match o with PermuteTerms _ | PermuteVariables _ _ => false | _ => true end.

(** Without permutations everything stays in order of addition. *)
Theorem C17_addition_order : forall uses w0 h, forallb no_permute h = true ->
  let p := fst (run uses w0 h) in let c := contents_of uses w0 h in
  terms p = errors c /\ forall g, In g (order p) -> get_group g p = Ok (in_group g (members c)).
Proof.
  intros uses w0 h Hn p c.
  assert (X : terms p = errors c /\ forall g, nget g (groups p) = match in_group g (members c) with [] => None | l => Some l end).
  { unfold p, c, run, contents_of. revert Hn.
    assert (R0 : represents empty_problem w0 (Contents [] [] (fun _ => None) w0)) by exact (run_represents uses w0 []).
    assert (T0 : terms empty_problem = [] /\ forall g, nget g (groups empty_problem) = match in_group g [] with [] => None | l => Some l end) by (split; auto).
    change (@nil nat) with (errors (Contents [] [] (fun _ => None) w0)) in T0 at 1.
    change (in_group ?g []) with (in_group g (members (Contents [] [] (fun _ => None) w0))) in T0.
    revert R0 T0. generalize (Contents [] [] (fun _ => None) w0) as c0. generalize empty_problem as p0. generalize w0 as w. clear.
    induction h as [|o h IH]; intros w p c R [T1 T2] Hn; [split; auto|]. cbn [fold_left forallb] in *.
    apply andb_prop in Hn. destruct Hn as [Ho Hn]. pose proof (step_represents uses p w c o R) as R'.
    assert (T' : terms (fst (fst (step uses (p, w) o))) = errors (effect uses c o) /\
      forall g, nget g (groups (fst (fst (step uses (p, w) o)))) = match in_group g (members (effect uses c o)) with [] => None | l => Some l end).
    { destruct o as [[d|] g|[e|]|l|perm|perm g| | | |d v]; cbn [step effect fst snd add_variable add_term no_permute] in *; auto; try discriminate.
      - rewrite (is_variable_member p w c d R). destruct (member d c); [auto|]. cbn [fst snd terms groups members errors]. split; auto.
        intros g'. rewrite in_group_app. assert (E : in_group g' [(d, g)] = if g =? g' then [d] else []).
        { unfold in_group. cbn [filter snd]. destruct (g =? g'); reflexivity. }
        rewrite E. unfold push_group. destruct (Nat.eq_dec g' g) as [-> |N].
        + rewrite nget_put_same, Nat.eqb_refl, T2. destruct (in_group g (members c)); reflexivity.
        + rewrite nget_put_other by auto. destruct (Nat.eqb_spec g g'); [congruence|]. now rewrite app_nil_r.
      - rewrite (is_term_in p w c e R). destruct (existsb (Nat.eqb e) (errors c)); [auto|].
        rewrite (forallb_member p w c _ R). destruct (forallb (fun d => member d c) (uses e)); [|auto].
        cbn [fst snd terms groups members errors]. split; auto. now rewrite T1.
      - unfold set_ordering. destruct (negb (length l =? length (order p))); [auto|]. destruct (ordering_ok (groups p) [] l); auto. }
    destruct (fst (step uses (p, w) o)) as [p' w']. now apply (IH w'). }
  destruct X as [X1 X2]. split; [exact X1|]. intros g Hg.
  pose proof (run_represents uses w0 h) as R. fold p c in R. apply (r_order _ _ _ R) in Hg.
  unfold get_group. rewrite X2. destruct (in_group g (members c)) eqn:E; [|reflexivity]. apply in_group_nil in E. contradiction.
Qed.
Print Assumptions C17_addition_order.

(** The dimension of a group is the sum of the dimensions of its active variables. *)
Theorem C17_group_dim : forall uses w0 h active dim g, let p := fst (run uses w0 h) in let c := contents_of uses w0 h in
  In g (order p) ->
  group_dim active dim g p = Ok (list_sum (map dim (filter active (in_group g (members c))))).
Proof.
  intros uses w0 h active dim g p c Hg. pose proof (run_represents uses w0 h) as R. fold p c in R.
  destruct (r_groups _ _ _ R) as [_ G]. specialize (G g). unfold group_dim, get_group.
  destruct (nget g (groups p)) as [l|].
  - destruct G as [_ P]. cbn [obind]. f_equal.
    assert (S : forall l acc, sum_dims active dim l acc = acc + list_sum (map dim (filter active l))).
    { clear. induction l as [|d l IH]; intros acc; cbn [sum_dims filter map list_sum]; [cbn; lia|].
      rewrite IH. destruct (active d); cbn [map]; [|lia]. change (list_sum (dim d :: ?x)) with (dim d + list_sum x). lia. }
    rewrite S. rewrite Nat.add_0_l.
    clear - P. induction P as [|x l l' P IH|x y l|l l' l'' P1 IH1 P2 IH2]; cbn; auto.
    + destruct (active x); cbn in *; auto.
    + destruct (active x), (active y); cbn; lia.
    + congruence.
  - apply in_group_nil in G. apply (r_order _ _ _ R) in Hg. contradiction.
Qed.
Print Assumptions C17_group_dim.

Definition ex_uses (e : nat) : list nat := match e with 1 => [10; 11] | 2 => [12; 10] | _ => [99] end.
Definition ex_history : list op :=
  [AddVariable (Some 10) 5; AddVariable (Some 11) 3; AddVariable (Some 12) 5; AddVariable (Some 10) 4; AddTerm (Some 1);
   AddTerm (Some 3); AddTerm (Some 2); Save; SetParameters 10 77%Z; SetOrdering [3; 5]; SetOrdering [3; 3]; PermuteVariables [1; 0] 5; Restore].
Example C17_ex : members (contents_of ex_uses (fun _ => 0%Z) ex_history) = [(10, 5); (11, 3); (12, 5)] /\
  errors (contents_of ex_uses (fun _ => 0%Z) ex_history) = [1; 2] /\
  map (fun i => design_variable i (fst (run ex_uses (fun _ => 0%Z) ex_history))) [0; 1; 2; 3] = [Ok 11; Ok 12; Ok 10; Throw] /\
  snd (run ex_uses (fun _ => 0%Z) ex_history) 10 = 0%Z.
Proof. conj; reflexivity. Qed.
