(** * C123: bags are read in time order *)
From Coq Require Import ZArith List Arith Bool Permutation Sorted Lia.
From Verif Require Import BagModel BagSpec BagProofs.
Import ListNotations.
Local Open Scope Z_scope.

(** Without a time span every message is delivered once, in time order, and
    equal stamps in the order of storage. *)
Theorem C123_all : forall bag, exists l, open bag None = Some l /\
  Permutation l (seq 0 (length bag)) /\ StronglySorted (earlier bag) (fst (read l)).
Proof.
  intros bag. exists (sort_by_time bag). split; [reflexivity |].
  split; [apply sort_perm | apply sort_sorted].
Qed.
Print Assumptions C123_all.

(** With a time span, and messages stored in time order, exactly the messages
    of the span are delivered, in time order. *)
Theorem C123_span : forall bag from to start, first_time bag start -> in_order bag -> from < to ->
  exists l, open bag (Some (from, to)) = Some l /\
    StronglySorted (earlier bag) (fst (read l)) /\
    forall i, In i (fst (read l)) <-> (i < length bag)%nat /\ in_span start from to (stamp bag i).
Proof.
  intros bag from to start F O FT. unfold open, truncate.
  assert (N : bag <> []) by (destruct F as [I _]; intros ->; destruct I).
  rewrite (first_unique bag _ start (start_first bag N) F).
  destruct (Z.leb_spec to from) as [X | _]; [lia |].
  eexists; split; [reflexivity |]. cbn [read fst]. rewrite (sort_in_order bag O), valid_spec.
  assert (LN : forall i, (i < length bag)%nat -> nth i (map (stamp bag) (seq 0 (length bag))) 0 = stamp bag i).
  { intros i L. rewrite nth_indep with (d' := stamp bag 0) by (rewrite map_length, seq_length; exact L).
    rewrite map_nth, seq_nth by exact L. reflexivity. }
  rewrite map_length, seq_length.
  assert (E : forall l, map (Nat.add 0) l = l) by (intros l; rewrite <- (map_id l) at 2; apply map_ext; reflexivity).
  rewrite E. split.
  - apply filter_sorted. apply seq_sorted; [exact O | lia].
  - intros i. rewrite filter_In, in_seq, andb_true_iff, !Z.leb_le. unfold in_span. split.
    + intros [A B]. rewrite LN in B by lia. split; [lia | exact B].
    + intros [A B]. rewrite LN by exact A. split; [lia | exact B].
Qed.
Print Assumptions C123_span.

(** The number of messages delivered is right for every bag. *)
Theorem C123_count : forall bag from to start, first_time bag start -> from < to ->
  exists l, open bag (Some (from, to)) = Some l /\
    length l = length (filter (fun t => (start + from <=? t) && (t <=? start + to)) bag).
Proof.
  intros bag from to start F FT. unfold open, truncate.
  assert (N : bag <> []) by (destruct F as [I _]; intros ->; destruct I).
  rewrite (first_unique bag _ start (start_first bag N) F).
  destruct (Z.leb_spec to from) as [X | _]; [lia |].
  eexists; split; [reflexivity |]. rewrite valid_length.
  apply filter_length_perm, stamps_perm.
Qed.
Print Assumptions C123_count.

(** A span that ends before it starts is refused. *)
Theorem C123_refused : forall bag from to, to <= from -> open bag (Some (from, to)) = None.
Proof.
  intros bag from to L. unfold open, truncate. destruct (Z.leb_spec to from); [reflexivity | lia].
Qed.
Print Assumptions C123_refused.

(** For messages stored out of order the places in the sorted list are taken
    for the messages themselves: a message outside the span is delivered, one
    inside is not, and the order is wrong. *)
Theorem C123_span_refuted : exists bag from to start l,
  first_time bag start /\ from < to /\ open bag (Some (from, to)) = Some l /\
  (exists i, In i (fst (read l)) /\ ~ in_span start from to (stamp bag i)) /\
  (exists i, (i < length bag)%nat /\ in_span start from to (stamp bag i) /\ ~ In i (fst (read l))) /\
  ~ StronglySorted (earlier bag) (fst (read l)).
Proof.
  exists [30; 10; 20], 0, 10, 10, [0; 1]%nat.
  split; [split; [right; left; reflexivity | intros t [<- | [<- | [<- | []]]]; lia] |].
  split; [lia |]. split; [reflexivity |]. split; [| split].
  - exists 0%nat. split; [left; reflexivity |]. unfold in_span, stamp; simpl. lia.
  - exists 2%nat. split; [simpl; lia |]. split; [unfold in_span, stamp; simpl; lia |].
    intros [H | [H | []]]; discriminate H.
  - intros S. apply StronglySorted_inv in S. destruct S as [_ F]. inversion F as [|? ? A _]; subst.
    unfold earlier, stamp in A; simpl in A. lia.
Qed.
Print Assumptions C123_span_refuted.

(** Reading once in random order changes the reader: later readings are in that
    order too. *)
Theorem C123_shuffle_refuted : forall shuffle bag l, open bag None = Some l ->
  fst (read (snd (read_shuffle shuffle l))) = shuffle l /\
  (shuffle l <> l -> Permutation (shuffle l) l ->
   ~ StronglySorted (earlier bag) (fst (read (snd (read_shuffle shuffle l))))).
Proof.
  intros shuffle bag l E. split; [reflexivity |]. intros N P S. apply N.
  injection E as <-. apply (sorted_unique (earlier bag)).
  - intros i; unfold earlier; lia.
  - intros i j; unfold earlier; lia.
  - exact P.
  - exact S.
  - apply sort_sorted.
Qed.
Print Assumptions C123_shuffle_refuted.

Example C123_ex :
  open [10; 20; 20; 35] None = Some [0; 1; 2; 3]%nat /\ open [30; 10; 20; 10] None = Some [1; 3; 2; 0]%nat /\
  in_order [10; 20; 20; 35] /\ first_time [10; 20; 20; 35] 10 /\
  open [10; 20; 20; 35] (Some (5, 20)) = Some [1; 2]%nat /\
  rev [0; 1; 2; 3]%nat <> [0; 1; 2; 3]%nat /\ Permutation (rev [0; 1; 2; 3]%nat) [0; 1; 2; 3]%nat.
Proof.
  split; [reflexivity |]. split; [reflexivity |]. split.
  { intros i j A B. unfold stamp. simpl in B.
    destruct i as [|[|[|[|i]]]]; destruct j as [|[|[|[|j]]]]; simpl; lia. }
  split; [split; [left; reflexivity | intros t [<- | [<- | [<- | [<- | []]]]]; lia] |].
  split; [reflexivity |]. split; [discriminate |]. symmetry; apply Permutation_rev.
Qed.
