(** Proofs about batches. *)
From Coq Require Import ZArith List Arith Bool Lia Permutation.
From Verif Require Import Base OMap PermuteModel PermuteSpec PermuteProofs BatchModel BatchSpec.
Import ListNotations.
Open Scope nat_scope.

Lemma nsorted_put {V} k (v : V) m : sorted Nat.compare m -> sorted Nat.compare (nput k v m).
Proof. apply mput_sorted, Natcompare_order. Qed.
Lemma nget_put_same {V} k (v : V) m : nget k (nput k v m) = Some v.
Proof. apply mget_put_same, Natcompare_order. Qed.
Lemma nget_put_other {V} k k' (v : V) m : k <> k' -> nget k (nput k' v m) = nget k m.
Proof. intros. apply mget_put_other; auto using Natcompare_order. Qed.

Lemma member_spec d c : member d c = true <-> In d (map fst (members c)).
Proof.
  unfold member. rewrite existsb_exists, in_map_iff. split.
  - intros (m & H & E). apply Nat.eqb_eq in E. eauto.
  - intros (m & E & H). exists m. split; auto. now apply Nat.eqb_eq.
Qed.
Lemma in_group_in d g ms : In d (in_group g ms) <-> In (d, g) ms.
Proof.
  unfold in_group. rewrite in_map_iff. split.
  - intros ([x y] & <- & H). apply filter_In in H. destruct H as [H E]. apply Nat.eqb_eq in E. cbn in *. now subst.
  - intros H. exists (d, g). split; auto. apply filter_In. split; auto. apply Nat.eqb_refl.
Qed.
Lemma in_group_app g a b : in_group g (a ++ b) = in_group g a ++ in_group g b.
Proof. unfold in_group. now rewrite filter_app, map_app. Qed.

(** ** Enumeration of the groups in order *)
Definition group_list (gs : list (nat * list nat)) (g : nat) : list nat :=
  match nget g gs with Some l => l | None => [] end.
Definition enum (gs : list (nat * list nat)) (ord : list nat) : list nat := flat_map (group_list gs) ord.

Lemma locate_spec gs ord : (forall g, In g ord -> nget g gs <> None) -> forall idx running, running <= idx ->
  idx < running + length (enum gs ord) ->
  exists g k l, locate gs ord idx running = Ok (g, k) /\ nget g gs = Some l /\
    nth_error l k = nth_error (enum gs ord) (idx - running) /\ k < length l.
Proof.
  induction ord as [|g ord IH]; intros H idx running L1 L2; cbn [enum flat_map length] in *; [lia|].
  cbn [locate]. destruct (nget g gs) as [l|] eqn:G.
  2:{ exfalso. apply (H g); [now left|exact G]. }
  assert (GL : group_list gs g = l) by (unfold group_list; now rewrite G).
  rewrite GL in *. rewrite app_length in L2. destruct (Nat.ltb_spec idx (running + length l)) as [C|C].
  - exists g, (idx - running), l. conj; auto; try lia. rewrite nth_error_app1 by lia. reflexivity.
  - destruct (IH (fun x Hx => H x (or_intror Hx)) idx (running + length l)) as (g' & k & l' & E1 & E2 & E3 & E4); [lia|unfold enum; lia|].
    exists g', k, l'. conj; auto. rewrite E3. unfold enum. rewrite nth_error_app2 by lia. f_equal. lia.
Qed.

Lemma variable_at_spec gs ord n : (forall g, In g ord -> nget g gs <> None) -> n = length (enum gs ord) ->
  forall idx, variable_at gs ord n idx = match nth_error (enum gs ord) idx with Some d => Ok d | None => Throw end.
Proof.
  intros H -> idx. unfold variable_at. destruct (Nat.leb_spec (length (enum gs ord)) idx) as [L|L].
  - apply nth_error_None in L. now rewrite L.
  - destruct (locate_spec gs ord H idx 0) as (g & k & l & E1 & E2 & E3 & E4); [lia|lia|].
    rewrite E1. cbn [obind]. rewrite E2, E3, Nat.sub_0_r.
    destruct (nth_error (enum gs ord) idx) eqn:E; auto. apply nth_error_None in E. lia.
Qed.

Lemma NoDup_app_intro {A} (a b : list A) : NoDup a -> NoDup b -> (forall x, In x a -> ~ In x b) -> NoDup (a ++ b).
Proof.
  induction 1 as [|x a N1 N2 IH]; cbn; auto. intros Nb D. constructor.
  - rewrite in_app_iff. intros [H|H]; [auto|]. apply (D x); auto.
  - apply IH; auto.
Qed.

Lemma enum_perm gs ord ms : NoDup ord -> NoDup (map fst ms) ->
  (forall g, In g ord <-> In g (map snd ms)) ->
  (forall g, In g ord -> Permutation (group_list gs g) (in_group g ms)) ->
  Permutation (enum gs ord) (map fst ms).
Proof.
  intros No Nm Hg Hp.
  assert (I : forall x, In x (enum gs ord) <-> In x (map fst ms)).
  { intros x. unfold enum. rewrite in_flat_map, in_map_iff. split.
    - intros (g & H1 & H2). apply (Permutation_in _ (Hp g H1)) in H2. apply in_group_in in H2. exists (x, g). auto.
    - intros ([y g] & E & H). cbn in E. subst y. exists g.
      assert (G : In g ord) by (apply Hg, in_map_iff; exists (x, g); auto). split; auto.
      apply (Permutation_in _ (Permutation_sym (Hp g G))). now apply in_group_in. }
  apply NoDup_Permutation; auto.
  assert (U : forall x g g', In (x, g) ms -> In (x, g') ms -> g = g').
  { clear - Nm. induction ms as [|[a b] ms IH]; cbn; [tauto|]. intros x g g' H1 H2. inversion Nm as [|? ? N1 N2]; subst.
    assert (F : forall g, In (a, g) ms -> False).
    { intros h Hh. apply N1, in_map_iff. exists (a, h). auto. }
    destruct H1 as [H1|H1], H2 as [H2|H2]; try congruence.
    - injection H1 as <- <-. exfalso. eauto.
    - injection H2 as <- <-. exfalso. eauto.
    - eauto. }
  assert (Hg' : forall g, In g ord -> In g (map snd ms)) by (intros g; apply Hg).
  clear Hg I. unfold enum. induction No as [|g ord N1 N2 IH]; cbn; [constructor|].
  apply NoDup_app_intro.
  - apply (Permutation_NoDup (Permutation_sym (Hp g (or_introl eq_refl)))).
    unfold in_group. clear - Nm. induction ms as [|[a b] ms IH]; cbn in *; [constructor|]. inversion Nm; subst.
    destruct (b =? g); cbn; auto. constructor; auto. rewrite in_map_iff. intros ([x y] & E & H).
    apply filter_In in H. apply H1, in_map_iff. exists (x, y). tauto.
  - apply IH; intros; [apply Hp|apply Hg']; now right.
  - intros x H1 H2. apply in_flat_map in H2. destruct H2 as (g' & H2 & H3).
    apply (Permutation_in _ (Hp g (or_introl eq_refl))), in_group_in in H1.
    apply (Permutation_in _ (Hp g' (or_intror H2))), in_group_in in H3.
    apply N1. now rewrite (U x g g').
Qed.

(** ** The groups table *)
Definition grouped (gs : list (nat * list nat)) (ms : list (nat * nat)) : Prop :=
  sorted Nat.compare gs /\
  forall g, match nget g gs with
            | Some l => l <> [] /\ Permutation l (in_group g ms)
            | None => in_group g ms = []
            end.
Definition ordered (ord : list nat) (ms : list (nat * nat)) : Prop :=
  NoDup ord /\ forall g, In g ord <-> In g (map snd ms).

Lemma in_group_nil g ms : in_group g ms = [] <-> ~ In g (map snd ms).
Proof.
  split.
  - intros E H. apply in_map_iff in H. destruct H as ([d g'] & <- & H). cbn in E.
    apply in_group_in in H. rewrite E in H. contradiction.
  - intros N. destruct (in_group g ms) as [|d l] eqn:E; auto. exfalso. apply N. apply in_map_iff. exists (d, g).
    split; auto. apply in_group_in. rewrite E. now left.
Qed.

Lemma grouped_has gs ms g : grouped gs ms -> (nget g gs <> None <-> In g (map snd ms)).
Proof.
  intros [S H]. specialize (H g). destruct (nget g gs) as [l|].
  - destruct H as [N P]. split; [intros _|discriminate].
    destruct (in_dec Nat.eq_dec g (map snd ms)) as [I|I]; auto.
    apply in_group_nil in I. rewrite I in P. apply Permutation_sym, Permutation_nil in P. congruence.
  - apply in_group_nil in H. tauto.
Qed.
Lemma nhas_iff {V} k (m : list (nat * V)) : nhas k m = true <-> nget k m <> None.
Proof. unfold mhas. destruct (nget k m); split; congruence. Qed.
Lemma nhas_false {V} k (m : list (nat * V)) : nhas k m = false <-> nget k m = None.
Proof. unfold mhas. destruct (nget k m); split; congruence. Qed.

Lemma grouped_enum gs ord ms : grouped gs ms -> ordered ord ms -> NoDup (map fst ms) ->
  Permutation (enum gs ord) (map fst ms) /\ forall g, In g ord -> nget g gs <> None.
Proof.
  intros G [No Ho] N. split.
  - apply enum_perm; auto. intros g Hg. destruct G as [S H]. specialize (H g). unfold group_list.
    destruct (nget g gs); [tauto|]. apply in_group_nil in H. apply Ho in Hg. contradiction.
  - intros g Hg. apply (grouped_has gs ms); auto. now apply Ho.
Qed.

Lemma grouped_push gs ms d g : grouped gs ms -> grouped (push_group g d gs) (ms ++ [(d, g)]).
Proof.
  intros [S H]. unfold push_group. split; [now apply nsorted_put|]. intros g'.
  rewrite in_group_app. assert (E : in_group g' [(d, g)] = if g =? g' then [d] else []).
  { unfold in_group. cbn [filter snd]. destruct (g =? g'); reflexivity. }
  rewrite E. destruct (Nat.eq_dec g' g) as [-> |N].
  - rewrite nget_put_same, Nat.eqb_refl. specialize (H g). destruct (nget g gs) as [l|].
    + split; [destruct l; discriminate|]. now apply Permutation_app_tail.
    + rewrite H. split; [discriminate|reflexivity].
  - rewrite nget_put_other by auto. destruct (Nat.eqb_spec g g'); [congruence|]. rewrite !app_nil_r. apply H.
Qed.
Lemma ordered_push gs ord ms d g : grouped gs ms -> ordered ord ms ->
  ordered (if nhas g gs then ord else ord ++ [g]) (ms ++ [(d, g)]).
Proof.
  intros G [No Ho]. pose proof (grouped_has gs ms g G) as Hh. unfold ordered. rewrite map_app. cbn [map snd].
  destruct (nhas g gs) eqn:E.
  - apply nhas_iff, Hh in E. split; auto. intros g'. rewrite Ho, in_app_iff. cbn. intuition. now subst.
  - apply nhas_false in E. assert (~ In g (map snd ms)) by (intros X; apply Hh in X; congruence). split.
    + apply NoDup_app_intro; auto; [repeat constructor; auto|]. intros x Hx [<- |[]]. apply Ho in Hx. contradiction.
    + intros g'. rewrite !in_app_iff, Ho. tauto.
Qed.
Lemma grouped_permute gs ms g l l' : grouped gs ms -> nget g gs = Some l -> Permutation l l' -> grouped (nput g l' gs) ms.
Proof.
  intros [S H] G P. split; [now apply nsorted_put|]. intros g'. destruct (Nat.eq_dec g' g) as [-> |N].
  - rewrite nget_put_same. specialize (H g). rewrite G in H. destruct H as [H1 H2]. split.
    + intros ->. apply Permutation_sym, Permutation_nil in P. congruence.
    + now rewrite <- P.
  - rewrite nget_put_other by auto. apply H.
Qed.

Lemma ordering_ok_spec gs l : forall seen, ordering_ok gs seen l = true <->
  (forall g, In g l -> nget g gs <> None) /\ NoDup l /\ (forall g, In g l -> ~ In g seen).
Proof.
  induction l as [|g l IH]; intros seen; cbn [ordering_ok].
  - split; [|reflexivity]. intros _. conj; [intros ? []|constructor|intros ? []].
  - destruct (nhas g gs) eqn:E; cbn [negb].
    2:{ split; [discriminate|]. intros (H & _). exfalso. apply (H g); [now left|]. now apply nhas_false. }
    apply nhas_iff in E. destruct (existsb (Nat.eqb g) seen) eqn:Es.
    { split; [discriminate|]. intros (_ & _ & H). exfalso. apply existsb_exists in Es. destruct Es as (x & Hx & Ex).
      apply Nat.eqb_eq in Ex. subst x. apply (H g); [now left|exact Hx]. }
    assert (Ng : ~ In g seen).
    { intros X. assert (existsb (Nat.eqb g) seen = true); [|congruence]. apply existsb_exists. exists g. split; auto. apply Nat.eqb_refl. }
    rewrite IH. split.
    + intros (H1 & H2 & H3). conj.
      * intros x [<- |Hx]; auto.
      * constructor; auto. intros X. apply (H3 g); [exact X|now left].
      * intros x [<- |Hx]; auto. intros X. apply (H3 x Hx). now right.
    + intros (H1 & H2 & H3). inversion H2; subst. conj; auto.
      * intros x Hx. apply H1. now right.
      * intros x Hx [<- |X]; [contradiction|]. apply (H3 x); auto. now right.
Qed.

Lemma set_ordering_ok gs ord ms l : grouped gs ms -> ordered ord ms ->
  ((length l =? length ord) = true /\ ordering_ok gs [] l = true <-> ordered l ms).
Proof.
  intros G [No Ho]. rewrite ordering_ok_spec, Nat.eqb_eq. split.
  - intros (L & H1 & H2 & _). split; auto. intros g. split.
    + intros Hg. apply (grouped_has gs ms g G). auto.
    + intros Hg. apply Ho in Hg. revert g Hg. apply NoDup_length_incl; auto; [lia|].
      intros x Hx. apply Ho. apply (grouped_has gs ms x G). auto.
  - intros [Nl Hl]. conj; auto.
    + apply Nat.le_antisymm; apply NoDup_incl_length; auto; intros x Hx; [apply Ho, Hl|apply Hl, Ho]; auto.
    + intros g Hg. apply (grouped_has gs ms g G). now apply Hl.
Qed.

(** ** Saving and restoring *)
Lemma save_all_spec w keys : forall b d, nget d (save_all keys w b) = if in_dec Nat.eq_dec d keys then Some (w d) else nget d b.
Proof.
  unfold save_all. induction keys as [|k keys IH]; intros b d; cbn [fold_left]; [reflexivity|].
  rewrite IH. destruct (in_dec Nat.eq_dec d keys) as [I|I]; destruct (in_dec Nat.eq_dec d (k :: keys)) as [J|J]; auto.
  - exfalso. apply J. now right.
  - destruct J as [-> |J]; [|contradiction]. apply nget_put_same.
  - apply nget_put_other. intros ->. apply J. now left.
Qed.
Lemma save_all_sorted w keys : forall b, sorted Nat.compare b -> sorted Nat.compare (save_all keys w b).
Proof. unfold save_all. induction keys; intros b H; cbn [fold_left]; auto. apply IHkeys. now apply nsorted_put. Qed.

Lemma restore_all_spec b : sorted Nat.compare b -> forall w d,
  restore_all b w d = match nget d b with Some v => v | None => w d end.
Proof.
  intros S. pose proof (sorted_nodup _ Natcompare_order _ S) as N.
  assert (G : forall d, (forall v, nget d b = Some v <-> In (d, v) b)) by (intros; apply mget_in; auto using Natcompare_order).
  intros w d.
  assert (X : forall b w, NoDup (map fst b) ->
    (forall v, In (d, v) b -> restore_all b w d = v) /\ (~ In d (map fst b) -> restore_all b w d = w d)).
  { clear. unfold restore_all. induction b as [|[k v] b IH]; intros w N; cbn [fold_left map fst In] in *.
    - split; [tauto|reflexivity].
    - inversion N as [|? ? N1 N2]; subst. destruct (IH (fun d0 => if d0 =? k then v else w d0) N2) as [H1 H2]. split.
      + intros v' [[= -> ->] |H]; [|auto]. cbn [snd] in *. rewrite H2 by exact N1. now rewrite Nat.eqb_refl.
      + intros H. cbn [snd] in *. rewrite H2 by tauto. destruct (Nat.eqb_spec d k); [subst; tauto|reflexivity]. }
  destruct (X b w N) as [X1 X2]. destruct (nget d b) as [v|] eqn:E.
  - apply X1. now apply G.
  - apply X2. intros H. apply in_map_iff in H. destruct H as ([k v] & Ek & H). cbn in Ek. subst k.
    apply G in H. congruence.
Qed.

(** ** The invariant *)
Record represents (p : problem) (w : world) (c : contents) : Prop := {
  r_nodup : NoDup (map fst (members c));
  r_lookup_sorted : sorted Nat.compare (lookup p);
  r_lookup : Permutation (lookup p) (members c);
  r_groups : grouped (groups p) (members c);
  r_order : ordered (order p) (members c);
  r_tsorted : sorted Nat.compare (term_lookup p);
  r_tlookup : Permutation (map fst (term_lookup p)) (errors c);
  r_terms : Permutation (terms p) (errors c);
  r_bsorted : sorted Nat.compare (backup p);
  r_backup : forall d, nget d (backup p) = saved c d;
  r_world : forall d, w d = values c d }.

Section Steps.
Variable uses : nat -> list nat.

Lemma is_variable_member p w c d : represents p w c -> is_variable d p = member d c.
Proof.
  intros R. apply eq_true_iff_eq. unfold is_variable. rewrite nhas_iff, member_spec.
  rewrite (mget_in_keys _ Natcompare_order) by apply R. split; apply Permutation_in.
  - apply Permutation_map, R.
  - apply Permutation_map, Permutation_sym, R.
Qed.
Lemma is_term_in p w c e : represents p w c -> is_term e p = existsb (Nat.eqb e) (errors c).
Proof.
  intros R. apply eq_true_iff_eq. unfold is_term. rewrite nhas_iff.
  rewrite (mget_in_keys _ Natcompare_order) by apply R. rewrite existsb_exists. split.
  - intros H. exists e. split; [|apply Nat.eqb_refl]. revert H. apply Permutation_in, R.
  - intros (x & H & E). apply Nat.eqb_eq in E. subst x. revert H. apply Permutation_in, Permutation_sym, R.
Qed.
Lemma existsb_in e l : existsb (Nat.eqb e) l = true <-> In e l.
Proof.
  rewrite existsb_exists. split.
  - intros (x & H & E). apply Nat.eqb_eq in E. now subst.
  - intros H. exists e. split; auto. apply Nat.eqb_refl.
Qed.
Lemma forallb_member p w c l : represents p w c ->
  forallb (fun d => is_variable d p) l = forallb (fun d => member d c) l.
Proof. intros R. induction l; cbn; auto. rewrite (is_variable_member p w c) by exact R. now rewrite IHl. Qed.

Lemma step_represents p w c o : represents p w c ->
  represents (fst (fst (step uses (p, w) o))) (snd (fst (step uses (p, w) o))) (effect uses c o).
Proof.
  intros R. pose proof R as R'. destruct R as [Rn Rls Rl Rg Ro Rts Rtl Rt Rbs Rb Rw]. destruct o as [d g|e|l|perm|perm g| | | |d v]; cbn [step effect].
  - unfold add_variable. destruct d as [d|]; [|exact R']. rewrite (is_variable_member p w c d R').
    destruct (member d c) eqn:E; [exact R'|]. cbn [fst snd].
    assert (Nd : ~ In d (map fst (members c))) by (intros X; apply member_spec in X; congruence).
    assert (Gd : nget d (lookup p) = None).
    { destruct (nget d (lookup p)) eqn:G; auto. exfalso. rewrite <- (is_variable_member p w c d R') in E.
      unfold is_variable in E. apply nhas_false in E. congruence. }
    constructor; cbn [lookup groups order term_lookup terms backup members errors saved values]; auto.
    + rewrite map_app. cbn. apply NoDup_app_intro; auto; [repeat constructor; auto|]. intros x Hx [<- |[]]. auto.
    + now apply nsorted_put.
    + rewrite mput_perm by auto. rewrite Rl. apply Permutation_cons_append.
    + now apply grouped_push.
    + now apply ordered_push.
  - unfold add_term. destruct e as [e|]; [|exact R']. rewrite (is_term_in p w c e R').
    destruct (existsb (Nat.eqb e) (errors c)) eqn:E; [exact R'|]. rewrite (forallb_member p w c _ R').
    destruct (forallb (fun d => member d c) (uses e)); [|exact R']. cbn [fst snd].
    assert (Gd : nget e (term_lookup p) = None).
    { rewrite <- (is_term_in p w c e R') in E. now apply nhas_false in E. }
    constructor; cbn [lookup groups order term_lookup terms backup members errors saved values]; auto.
    + now apply nsorted_put.
    + rewrite (Permutation_map fst (mput_perm Nat.compare e tt _ Gd Rts)). cbn. rewrite Rtl. apply Permutation_cons_append.
    + now apply Permutation_app_tail.
  - unfold set_ordering. destruct (length l =? length (order p)) eqn:E1; [|exact R'].
    destruct (ordering_ok (groups p) [] l) eqn:E2; [|exact R']. cbn [negb fst snd].
    constructor; cbn [lookup groups order term_lookup terms backup]; auto.
    apply (set_ordering_ok (groups p) (order p)); auto.
  - unfold permute_terms. pose proof (permute_perm (terms p) perm) as P. destruct (permute (terms p) perm); cbn [fst snd]; auto;
      constructor; cbn [lookup groups order term_lookup terms backup]; auto; now rewrite <- P.
  - unfold permute_variables. destruct (nget g (groups p)) as [l|] eqn:G; [|exact R'].
    pose proof (permute_perm l perm) as P. destruct (permute l perm); cbn [fst snd]; auto;
      constructor; cbn [lookup groups order term_lookup terms backup]; auto; eapply grouped_permute; eauto.
  - cbn [fst snd]. unfold save. constructor; cbn [lookup groups order term_lookup terms backup members errors saved values]; auto.
    + now apply save_all_sorted.
    + intros d. rewrite save_all_spec. destruct (in_dec Nat.eq_dec d (map fst (lookup p))) as [I|I].
      * apply (Permutation_in _ (Permutation_map fst Rl)) in I. apply member_spec in I. rewrite I. now rewrite Rw.
      * destruct (member d c) eqn:E; [|apply Rb]. apply member_spec in E. exfalso. apply I.
        apply (Permutation_in _ (Permutation_map fst (Permutation_sym Rl))). exact E.
  - cbn [fst snd]. unfold restore. constructor; cbn [members errors saved values]; auto.
    intros d. rewrite restore_all_spec by exact Rbs. now rewrite Rb, Rw.
  - cbn [fst snd]. unfold clear, empty_problem. constructor; cbn; auto; try constructor; cbn; auto; try (constructor; fail).
    intros g. cbn. tauto.
  - cbn [fst snd]. constructor; cbn [members errors saved values]; auto. intros x. now rewrite Rw.
Qed.

Lemma run_represents w0 h : represents (fst (run uses w0 h)) (snd (run uses w0 h)) (contents_of uses w0 h).
Proof.
  unfold run, contents_of.
  assert (X : forall p w c, represents p w c ->
    represents (fst (fold_left (fun s o => fst (step uses s o)) h (p, w))) (snd (fold_left (fun s o => fst (step uses s o)) h (p, w)))
      (fold_left (effect uses) h c)).
  { induction h as [|o h IH]; intros p w c R; cbn [fold_left]; auto.
    pose proof (step_represents p w c o R) as R'. destruct (fst (step uses (p, w) o)) as [p' w']. now apply IH. }
  apply X. constructor; cbn; auto; try constructor; cbn; auto; try (constructor; fail). intros g. cbn. tauto.
Qed.
End Steps.
