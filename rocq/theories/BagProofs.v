From Coq Require Import ZArith List Arith Bool Permutation Sorted Lia.
From Verif Require Import BagModel BagSpec.
Import ListNotations.
Local Open Scope Z_scope.

Definition le2 (a b : Z * nat) : Prop := before a b = true.

Lemma le2_iff : forall a b, le2 a b <-> fst a < fst b \/ (fst a = fst b /\ (snd a <= snd b)%nat).
Proof.
  intros a b; unfold le2, before. rewrite orb_true_iff, andb_true_iff, Z.ltb_lt, Z.eqb_eq, Nat.leb_le. tauto.
Qed.

Lemma le2_total : forall a b, before a b = false -> le2 b a.
Proof.
  intros a b E. apply le2_iff. destruct (Z.lt_trichotomy (fst a) (fst b)) as [L | [Q | G]].
  - assert (le2 a b) by (apply le2_iff; left; exact L). unfold le2 in *. congruence.
  - destruct (Nat.le_gt_cases (snd a) (snd b)) as [L | L].
    + assert (le2 a b) by (apply le2_iff; right; split; assumption). unfold le2 in *. congruence.
    + right; split; [symmetry; exact Q | lia].
  - left; exact G.
Qed.

Lemma le2_trans : forall a b c, le2 a b -> le2 b c -> le2 a c.
Proof. intros a b c; rewrite !le2_iff; lia. Qed.

Lemma insert_perm : forall x l, Permutation (insert x l) (x :: l).
Proof.
  intros x l; induction l as [|y l IH]; simpl; [reflexivity |].
  destruct (before x y); [reflexivity |]. rewrite IH. apply perm_swap.
Qed.

Lemma isort_perm : forall l, Permutation (isort l) l.
Proof. induction l as [|x l IH]; simpl; [constructor |]. rewrite insert_perm, IH; reflexivity. Qed.

Lemma insert_sorted : forall x l, StronglySorted le2 l -> StronglySorted le2 (insert x l).
Proof.
  intros x l; induction l as [|y l IH]; intros S; simpl; [repeat constructor |].
  apply StronglySorted_inv in S. destruct S as [S F]. destruct (before x y) eqn:E.
  - constructor; [constructor; assumption |]. constructor; [exact E |].
    eapply Forall_impl; [| exact F]. intros z Z. exact (le2_trans x y z E Z).
  - constructor; [apply IH; exact S |]. rewrite Forall_forall in *. intros z I.
    apply (Permutation_in z (insert_perm x l)) in I. destruct I as [<- | I]; [apply le2_total; exact E | apply F; exact I].
Qed.

Lemma isort_sorted : forall l, StronglySorted le2 (isort l).
Proof. induction l as [|x l IH]; simpl; [constructor | apply insert_sorted; exact IH]. Qed.

Definition pairs (bag : list Z) : list (Z * nat) := map (fun i => (stamp bag i, i)) (seq 0 (length bag)).

Lemma sort_perm : forall bag, Permutation (sort_by_time bag) (seq 0 (length bag)).
Proof.
  intros bag; unfold sort_by_time. rewrite isort_perm, map_map. simpl. rewrite map_id. reflexivity.
Qed.

Lemma sort_sorted : forall bag, StronglySorted (earlier bag) (sort_by_time bag).
Proof.
  intros bag.
  assert (ND : NoDup (sort_by_time bag)).
  { eapply Permutation_NoDup; [symmetry; apply sort_perm | apply seq_NoDup]. }
  unfold sort_by_time in *. fold (pairs bag) in *.
  assert (A : forall x, In x (isort (pairs bag)) -> fst x = stamp bag (snd x)).
  { intros x I. apply (Permutation_in x (isort_perm _)) in I. apply in_map_iff in I.
    destruct I as [i [<- _]]. reflexivity. }
  pose proof (isort_sorted (pairs bag)) as S. revert A ND S. generalize (isort (pairs bag)).
  induction l as [|x l IH]; intros A ND S; simpl; [constructor |].
  apply StronglySorted_inv in S. destruct S as [S F]. simpl in ND. inversion ND as [|? ? N1 N2]; subst.
  constructor.
  - apply IH; [intros y I; apply A; right; exact I | exact N2 | exact S].
  - rewrite Forall_forall in *. intros j J. apply in_map_iff in J. destruct J as [y [<- I]].
    specialize (F y I). apply le2_iff in F. unfold earlier.
    rewrite <- (A x (or_introl eq_refl)), <- (A y (or_intror I)).
    assert (snd x <> snd y) by (intros Q; apply N1; rewrite Q; apply in_map; exact I).
    destruct F as [F | [F1 F2]]; [left; exact F | right; split; [exact F1 | lia]].
Qed.

(** Two sorted arrangements of the same messages are the same. *)
Lemma sorted_unique : forall (R : nat -> nat -> Prop), (forall i, ~ R i i) -> (forall i j, R i j -> ~ R j i) ->
  forall a b, Permutation a b -> StronglySorted R a -> StronglySorted R b -> a = b.
Proof.
  intros R Ir As a; induction a as [|x a IH]; intros b P Sa Sb.
  - apply Permutation_nil in P. symmetry; exact P.
  - destruct b as [|y b]; [symmetry in P; apply Permutation_nil in P; discriminate P |].
    apply StronglySorted_inv in Sa. destruct Sa as [Sa Fa].
    apply StronglySorted_inv in Sb. destruct Sb as [Sb Fb]. rewrite Forall_forall in Fa, Fb.
    assert (E : x = y).
    { assert (X : In x (y :: b)) by (apply (Permutation_in x P); left; reflexivity).
      assert (Y : In y (x :: a)) by (apply (Permutation_in y (Permutation_sym P)); left; reflexivity).
      destruct X as [X | X]; [symmetry; exact X |]. destruct Y as [Y | Y]; [exact Y |].
      exfalso. exact (As _ _ (Fa y Y) (Fb x X)). }
    subst y. f_equal. apply IH; [apply (Permutation_cons_inv P) | exact Sa | exact Sb].
Qed.

Lemma seq_sorted : forall bag n k, in_order bag -> (k + n <= length bag)%nat -> StronglySorted (earlier bag) (seq k n).
Proof.
  intros bag n; induction n as [|n IH]; intros k O L; simpl; [constructor |].
  constructor; [apply IH; [exact O | lia] |]. apply Forall_forall. intros j J. apply in_seq in J.
  unfold earlier. pose proof (O k j ltac:(lia) ltac:(lia)). lia.
Qed.

Lemma sort_in_order : forall bag, in_order bag -> sort_by_time bag = seq 0 (length bag).
Proof.
  intros bag O. apply (sorted_unique (earlier bag)).
  - intros i; unfold earlier; lia.
  - intros i j; unfold earlier; lia.
  - apply sort_perm.
  - apply sort_sorted.
  - apply seq_sorted; [exact O | lia].
Qed.

Lemma fold_min : forall l x, let m := fold_left Z.min l x in
  m <= x /\ (forall t, In t l -> m <= t) /\ (m = x \/ In m l).
Proof.
  induction l as [|y l IH]; intros x; simpl.
  - split; [lia |]. split; [intros t [] | left; reflexivity].
  - destruct (IH (Z.min x y)) as [A [B C]]. split; [lia |]. split.
    + intros t [<- | I]; [lia | apply B; exact I].
    + destruct C as [C | C]; [| right; right; exact C]. rewrite C.
      destruct (Z.min_spec x y) as [[_ E] | [_ E]]; rewrite E; [left | right; left]; reflexivity.
Qed.

Lemma minimum_in : forall l, l <> [] -> In (minimum l) l /\ forall t, In t l -> minimum l <= t.
Proof.
  intros [|x l] N; [contradiction |]. simpl. destruct (fold_min l x) as [A [B C]]. split.
  - destruct C as [C | C]; [left; symmetry; exact C | right; exact C].
  - intros t [<- | I]; [exact A | apply B; exact I].
Qed.

Lemma valid_spec : forall lo hi ts k,
  valid lo hi k ts = map (Nat.add k) (filter (fun i => (lo <=? nth i ts 0) && (nth i ts 0 <=? hi)) (seq 0 (length ts))).
Proof.
  intros lo hi ts; induction ts as [|t ts IH]; intros k; [reflexivity |].
  change (length (t :: ts)) with (S (length ts)). rewrite <- cons_seq, <- seq_shift. cbn [valid filter].
  change (nth 0 (t :: ts) 0) with t.
  assert (E : filter (fun i => (lo <=? nth i (t :: ts) 0) && (nth i (t :: ts) 0 <=? hi)) (map S (seq 0 (length ts))) =
              map S (filter (fun i => (lo <=? nth i ts 0) && (nth i ts 0 <=? hi)) (seq 0 (length ts)))).
  { generalize (seq 0 (length ts)). induction l as [|x l IHl]; [reflexivity |]. cbn [map filter].
    change (nth (S x) (t :: ts) 0) with (nth x ts 0).
    destruct ((lo <=? nth x ts 0) && (nth x ts 0 <=? hi)); cbn [map]; rewrite IHl; reflexivity. }
  rewrite E, IH.
  assert (M : forall l, map (Nat.add k) (map S l) = map (Nat.add (S k)) l)
    by (intros l; rewrite map_map; apply map_ext; intros; lia).
  destruct ((lo <=? t) && (t <=? hi)); cbn [map]; rewrite M; [rewrite Nat.add_0_r |]; reflexivity.
Qed.

Lemma stamps_perm : forall bag, Permutation (map (stamp bag) (sort_by_time bag)) bag.
Proof.
  intros bag. rewrite (sort_perm bag).
  assert (E : map (stamp bag) (seq 0 (length bag)) = bag).
  { unfold stamp. clear. induction bag as [|t bag IH]; [reflexivity |]. simpl. f_equal.
    rewrite <- seq_shift, map_map. exact IH. }
  rewrite E. reflexivity.
Qed.

Lemma start_first : forall bag, bag <> [] -> first_time bag (minimum (map (stamp bag) (sort_by_time bag))).
Proof.
  intros bag N. pose proof (stamps_perm bag) as P.
  destruct (minimum_in (map (stamp bag) (sort_by_time bag))) as [A B].
  { intros E. rewrite E in P. apply Permutation_nil in P. contradiction. }
  split; [exact (Permutation_in _ P A) |]. intros t I. apply B. exact (Permutation_in _ (Permutation_sym P) I).
Qed.

Lemma first_unique : forall bag a b, first_time bag a -> first_time bag b -> a = b.
Proof. intros bag a b [A1 A2] [B1 B2]. specialize (A2 b B1). specialize (B2 a A1). lia. Qed.

Lemma filter_length_perm : forall (f : Z -> bool) a b, Permutation a b -> length (filter f a) = length (filter f b).
Proof.
  intros f a b P; induction P; simpl; try reflexivity; try congruence.
  - destruct (f x); simpl; congruence.
  - destruct (f x), (f y); reflexivity.
Qed.

Lemma valid_length : forall lo hi ts k, length (valid lo hi k ts) = length (filter (fun t => (lo <=? t) && (t <=? hi)) ts).
Proof.
  intros lo hi ts; induction ts as [|t ts IH]; intros k; simpl; [reflexivity |].
  destruct ((lo <=? t) && (t <=? hi)); simpl; rewrite IH; reflexivity.
Qed.

Lemma filter_sorted : forall (R : nat -> nat -> Prop) f l, StronglySorted R l -> StronglySorted R (filter f l).
Proof.
  intros R f l; induction l as [|x l IH]; intros S; simpl; [constructor |].
  apply StronglySorted_inv in S. destruct S as [S G]. destruct (f x); [| apply IH; exact S].
  constructor; [apply IH; exact S |]. rewrite Forall_forall in *. intros j J. apply filter_In in J. apply G, J.
Qed.
