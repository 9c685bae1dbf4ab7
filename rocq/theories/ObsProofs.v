(** Proofs about observations. *)
From Coq Require Import ZArith List Bool Lia.
From Verif Require Import Base Arith CcmModel CcmProofs TgtModel ObsSpec.
Import ListNotations.
Open Scope nat_scope.

Section ObsProofs.
Variable A : Arith.
Variable T : Type.
Notation pt2 := (num A * num A)%type.

Record repr (o : observation A T) (t : target A) (f : sighting A) : Prop := Repr {
  p_target : otarget o = t;
  p_points : length (opoints o) = tsize t;
  p_flags : length (osuccess o) = tsize t;
  p_seen : forall i, i < tsize t -> nth_error (osuccess o) i = Some (seen_at f i);
  p_value : forall i p, i < tsize t -> f i = Some p -> nth_error (opoints o) i = Some p }.

Lemma repr_ext o t f g : (forall i, i < tsize t -> f i = g i) -> repr o t f -> repr o t g.
Proof.
  intros E [H1 H2 H3 H4 H5]. constructor; try assumption.
  - intros i Hi. rewrite H4 by exact Hi. unfold seen_at. now rewrite E.
  - intros i p Hi Q. apply H5; [exact Hi | ]. now rewrite E.
Qed.

Lemma nth_error_repeat {V} (v : V) n i : i < n -> nth_error (repeat v n) i = Some v.
Proof. revert i. induction n; intros [ | i] H; cbn; [lia | lia | reflexivity | apply IHn; lia]. Qed.

Lemma repr_fresh t ps x b :
  ps = repeat (of_Z A 0, of_Z A 0) (tsize t) ->
  repr (Obs t ps (repeat false (tsize t)) x b) t none_seen.
Proof.
  intros ->. constructor; cbn [otarget opoints osuccess].
  - reflexivity.
  - now rewrite repeat_length.
  - now rewrite repeat_length.
  - intros i Hi. now rewrite nth_error_repeat.
  - discriminate.
Qed.

Lemma set_target_repr t o : repr (set_target A T t o) t none_seen.
Proof. now apply repr_fresh. Qed.
Lemma new_obs_repr t x : repr (new_obs A T t x) t none_seen.
Proof. now apply repr_fresh. Qed.
Lemma set_trafo_repr o t f x : repr o t f -> repr (set_trafo A T x o) t f.
Proof. intros [H1 H2 H3 H4 H5]. now constructor. Qed.

Lemma update_repr o t f i p : repr o t f -> i < tsize t ->
  exists o', update_point A T i p o = Ok o' /\ repr o' t (fun k => if k =? i then Some p else f k) /\
    otrafo o' = otrafo o /\ otrafo_set o' = otrafo_set o.
Proof.
  intros [H1 H2 H3 H4 H5] Hi. unfold update_point. rewrite H3.
  destruct (Nat.ltb_spec i (tsize t)); [ | lia].
  destruct (store_ok _ (opoints o) i p ltac:(lia)) as (ps & E1 & L1 & N1).
  destruct (store_ok _ (osuccess o) i true ltac:(lia)) as (ss & E2 & L2 & N2).
  rewrite E1. cbn [obind]. rewrite E2. cbn [obind]. eexists. split; [reflexivity | ].
  split; [ | now split].
  constructor; cbn [otarget opoints osuccess].
  - exact H1.
  - lia.
  - lia.
  - intros k Hk. rewrite N2. unfold seen_at. destruct (k =? i); [reflexivity | now apply H4].
  - intros k q Hk. rewrite N1. destruct (k =? i); [trivial | intro; now apply H5].
Qed.
Lemma remove_repr o t f i : repr o t f -> i < tsize t ->
  exists o', remove_point A T i o = Ok o' /\ repr o' t (fun k => if k =? i then None else f k) /\
    otrafo o' = otrafo o /\ otrafo_set o' = otrafo_set o.
Proof.
  intros [H1 H2 H3 H4 H5] Hi. unfold remove_point. rewrite H3.
  destruct (Nat.ltb_spec i (tsize t)); [ | lia].
  destruct (store_ok _ (osuccess o) i false ltac:(lia)) as (ss & E2 & L2 & N2).
  rewrite E2. cbn [obind]. eexists. split; [reflexivity | ]. split; [ | now split].
  constructor; cbn [otarget opoints osuccess].
  - exact H1.
  - lia.
  - lia.
  - intros k Hk. rewrite N2. unfold seen_at. destruct (k =? i); [reflexivity | now apply H4].
  - intros k q Hk. destruct (k =? i); [discriminate | intro; now apply H5].
Qed.
Lemma update_out o t f i p : repr o t f -> tsize t <= i -> update_point A T i p o = Throw.
Proof.
  intros H Hi. unfold update_point. rewrite (p_flags _ _ _ H). destruct (Nat.ltb_spec i (tsize t)); [lia | reflexivity].
Qed.
Lemma remove_out o t f i : repr o t f -> tsize t <= i -> remove_point A T i o = Throw.
Proof.
  intros H Hi. unfold remove_point. rewrite (p_flags _ _ _ H). destruct (Nat.ltb_spec i (tsize t)); [lia | reflexivity].
Qed.

(** ** Queries. *)
Lemma collect_ok {V} (g : nat -> outcome V) s f is n :
  (forall i, In i is -> i < n) ->
  (forall i, i < n -> nth_error s i = Some (seen_at (A := A) f i)) ->
  (forall i, i < n -> seen_at f i = true -> exists v, g i = Ok v) ->
  exists vs, collect g is s = Ok vs /\ Forall2 (fun i v => g i = Ok v) (filter (seen_at f) is) vs.
Proof.
  intros Hb Hs Hg. induction is as [ | i is IH]; [exists []; split; constructor | ].
  destruct IH as (vs & E & F); [intros; apply Hb; now right | ].
  assert (Hi : i < n) by (apply Hb; now left).
  cbn [collect filter]. unfold load. rewrite (Hs i Hi). cbn [obind].
  destruct (seen_at f i) eqn:Q.
  - destruct (Hg i Hi Q) as (v & Ev). rewrite Ev. cbn [obind]. rewrite E. cbn [obind].
    exists (v :: vs). split; [reflexivity | now constructor].
  - exists vs. now split.
Qed.

Lemma seq_bound n i : In i (seq 0 n) -> i < n.
Proof. intro H. apply in_seq in H. lia. Qed.

Lemma repr_answers o t f : target_ok t -> repr o t f -> answers A T o t f.
Proof.
  intros Ht H. assert (H' := H). destruct H' as [H1 H2 H3 H4 H5].
  assert (In_ : forall i, i < tsize t -> exists p, image_point A T i o = Ok (seen_at f i, p) /\ forall q, f i = Some q -> p = q).
  { intros i Hi. unfold image_point. rewrite H3. destruct (Nat.ltb_spec i (tsize t)); [ | lia].
    destruct (nth_error (opoints o) i) as [p | ] eqn:Ep; [ | apply nth_error_None in Ep; lia].
    exists p. unfold load. rewrite Ep. cbn [obind]. rewrite (H4 i Hi). cbn [obind].
    split; [reflexivity | ]. intros q Q. apply H5 in Q; [congruence | exact Hi]. }
  constructor.
  - exact H1.
  - unfold corners_idx. rewrite H1.
    destruct (collect_ok (fun i => Ok i) (osuccess o) f (seq 0 (tsize t)) (tsize t)
      (seq_bound _) H4) as (vs & E & F); [intros i _ _; now exists i | ].
    rewrite E. f_equal. unfold visible. clear -F. induction F as [ | x y l l' Q F IH]; [reflexivity | congruence].
  - unfold corners_image. rewrite H1.
    destruct (collect_ok (fun i => do r <- image_point A T i o; Ok (snd r)) (osuccess o) f (seq 0 (tsize t)) (tsize t)
      (seq_bound _) H4) as (vs & E & F).
    { intros i Hi _. destruct (In_ i Hi) as (p & Ep & _). exists p. now rewrite Ep. }
    exists vs. split; [exact E | ]. unfold visible.
    assert (B : forall i, In i (filter (seen_at f) (seq 0 (tsize t))) -> i < tsize t /\ seen_at f i = true).
    { intros i Hi. apply filter_In in Hi. split; [apply seq_bound | ]; tauto. }
    revert B F. generalize (filter (seen_at f) (seq 0 (tsize t))) as l. clear E. intros l B F.
    induction F as [ | i v l l' Q F IH]; [reflexivity | ]. cbn [map].
    rewrite IH by (intros; apply B; now right). f_equal.
    destruct (B i (or_introl eq_refl)) as (Hi & Hs). destruct (In_ i Hi) as (p & Ep & U).
    rewrite Ep in Q. cbn [obind snd] in Q. unfold seen_at in Hs. destruct (f i) as [q | ] eqn:Ef; [ | discriminate].
    specialize (U q eq_refl). congruence.
  - unfold corners_target. rewrite H1.
    match goal with |- context [collect ?g _ _] => set (g0 := g) end.
    destruct (collect_ok g0 (osuccess o) f (seq 0 (tsize t)) (tsize t) (seq_bound _) H4) as (vs & E & F).
    { intros i Hi _. unfold g0, point, load. destruct (nth_error (tpoints t) i) as [p | ] eqn:Ep.
      - eexists. reflexivity.
      - apply nth_error_None in Ep. unfold target_ok in Ht. lia. }
    exists vs. split; [exact E | ]. unfold visible. clear E.
    induction F as [ | i v l l' Q F IH]; constructor; [ | exact IH].
    unfold g0 in Q. destruct (point t i) as [[[x y] z] | | | ] eqn:Ep; cbn [obind] in Q; try discriminate.
    exists x, y, z. split; [reflexivity | ]. cbn [fst snd] in Q. congruence.
  - exact In_.
  - intros i Hi. unfold image_point. rewrite H3. destruct (Nat.ltb_spec i (tsize t)); [lia | reflexivity].
  - unfold has_observation. rewrite existsb_exists. split.
    + intros (b & Hb & Q). subst b. apply In_nth_error in Hb. destruct Hb as (i & Hi).
      assert (L : i < tsize t) by (rewrite <- H3; apply nth_error_Some; congruence).
      rewrite (H4 i L) in Hi. unfold seen_at in Hi. destruct (f i) as [p | ] eqn:Ef; [ | discriminate].
      now exists i, p.
    + intros (i & p & Hi & Ef). exists true. split; [ | reflexivity].
      apply nth_error_In with i. rewrite (H4 i Hi). unfold seen_at. now rewrite Ef.
Qed.

Lemma apply_change_ok c o t f : repr o t f -> change_ok A c ->
  exists o', apply_change A T c o = Ok o' /\ repr o' (fst (see c (t, f))) (snd (see c (t, f))).
Proof.
  intros H Hc. destruct c as [i p | i | t']; cbn [apply_change see fst snd].
  - destruct (Nat.ltb_spec i (tsize t)) as [L | L].
    + destruct (update_repr o t f i p H L) as (o' & E & R & _). rewrite E. exists o'. split; [reflexivity | ].
      eapply repr_ext; [ | exact R]. intros k Hk. cbv beta. now rewrite andb_true_r.
    + rewrite (update_out _ _ _ _ _ H L). exists o. split; [reflexivity | ].
      apply (repr_ext _ _ f); [intros; now rewrite andb_false_r | exact H].
  - destruct (Nat.lt_ge_cases i (tsize t)) as [L | L].
    + destruct (remove_repr o t f i H L) as (o' & E & R & _). rewrite E. exists o'. now split.
    + rewrite (remove_out _ _ _ _ H L). exists o. split; [reflexivity | ].
      apply (repr_ext _ _ f); [ | exact H]. intros k Hk. destruct (Nat.eqb_spec k i); [lia | reflexivity].
  - eexists. split; [reflexivity | apply set_target_repr].
Qed.

Lemma apply_changes_ok cs : forall o t f, repr o t f -> target_ok t -> Forall (change_ok A) cs ->
  exists o', apply_changes A T cs o = Ok o' /\
    let s := fold_left (fun s c => see c s) cs (t, f) in repr o' (fst s) (snd s) /\ target_ok (fst s).
Proof.
  induction cs as [ | c cs IH]; intros o t f H Ht Hc; cbn [apply_changes fold_left].
  - exists o. now split.
  - inversion_clear Hc as [ | ? ? C1 C2]. destruct (apply_change_ok c o t f H C1) as (o1 & E & R).
    rewrite E. cbn [obind]. destruct (see c (t, f)) as (t1, f1) eqn:Es. apply (IH o1 t1 f1 R); [ | exact C2].
    destruct c; cbn [see] in Es; injection Es as <- <-; assumption.
Qed.
End ObsProofs.
