(** Ordered maps (std::map) as sorted association lists. *)
From Coq Require Import List ZArith Lia Bool Sorted Permutation.
Import ListNotations.

(** A three-way comparison that is a strict total order. *)
Record total_order {K} (cmp : K -> K -> comparison) : Prop := {
  cmp_eq : forall a b, cmp a b = Eq <-> a = b;
  cmp_anti : forall a b, cmp b a = CompOpp (cmp a b);
  cmp_trans : forall a b c, cmp a b = Lt -> cmp b c = Lt -> cmp a c = Lt }.

Section Map.
Context {K V : Type} (cmp : K -> K -> comparison).

Fixpoint mget (k : K) (m : list (K * V)) : option V :=
  match m with
  | [] => None
  | (k', v) :: r => match cmp k k' with Eq => Some v | Lt => None | Gt => mget k r end
  end.

(** operator[] followed by assignment *)
Fixpoint mput (k : K) (v : V) (m : list (K * V)) : list (K * V) :=
  match m with
  | [] => [(k, v)]
  | (k', v') :: r =>
      match cmp k k' with
      | Eq => (k, v) :: r
      | Lt => (k, v) :: m
      | Gt => (k', v') :: mput k v r
      end
  end.

(** erase(key) *)
Fixpoint mdel (k : K) (m : list (K * V)) : list (K * V) :=
  match m with
  | [] => []
  | (k', v') :: r =>
      match cmp k k' with
      | Eq => r
      | Lt => m
      | Gt => (k', v') :: mdel k r
      end
  end.

Definition mhas (k : K) (m : list (K * V)) : bool := match mget k m with Some _ => true | None => false end.

(** Keys strictly increase. *)
Definition above (k : K) (m : list (K * V)) : Prop :=
  match m with [] => True | (k', _) :: _ => cmp k k' = Lt end.
Fixpoint sorted (m : list (K * V)) : Prop :=
  match m with [] => True | (k, _) :: r => above k r /\ sorted r end.

Hypothesis TO : total_order cmp.

Lemma cmp_refl a : cmp a a = Eq.
Proof. now apply (cmp_eq _ TO). Qed.
Lemma cmp_gt a b : cmp a b = Gt <-> cmp b a = Lt.
Proof. rewrite (cmp_anti _ TO a b). destruct (cmp a b); cbn; split; congruence. Qed.
Lemma cmp_lt_irrefl a : cmp a a <> Lt.
Proof. now rewrite cmp_refl. Qed.

Lemma above_trans k k' m : cmp k k' = Lt -> above k' m -> above k m.
Proof. destruct m as [|[a b] m]; cbn; auto. intros H1 H2. exact (cmp_trans _ TO _ _ _ H1 H2). Qed.

Lemma above_get k m : sorted m -> above k m -> mget k m = None.
Proof.
  induction m as [|[a b] m IH]; cbn; auto. intros _ H. now rewrite H.
Qed.

Lemma sorted_above_all k v r : sorted ((k, v) :: r) -> forall k' v', In (k', v') r -> cmp k k' = Lt.
Proof.
  revert k v. induction r as [|[a b] r IH]; cbn; [tauto|]. intros k v [H1 [H2 H3]] k' v' [[= <- <-] | Hin].
  - exact H1.
  - apply (cmp_trans _ TO _ a); [exact H1|]. apply (IH a b (conj H2 H3) _ _ Hin).
Qed.

Lemma mput_above k k' v m : above k m -> cmp k k' = Lt -> above k (mput k' v m).
Proof.
  destruct m as [|[a b] m]; cbn; auto. intros H1 H2. destruct (cmp k' a) eqn:E; cbn; auto.
Qed.

Lemma mput_sorted k v m : sorted m -> sorted (mput k v m).
Proof.
  induction m as [|[a b] m IH]; cbn; auto. intros [H1 H2]. destruct (cmp k a) eqn:E; cbn.
  - apply (cmp_eq _ TO) in E. subst. auto.
  - auto.
  - split; [|auto]. apply mput_above; auto. now apply cmp_gt.
Qed.

Lemma mdel_above k k' m : sorted m -> above k m -> above k (mdel k' m).
Proof.
  destruct m as [|[a b] m]; cbn; auto. intros [H1 H2] H3. destruct (cmp k' a) eqn:E; cbn; auto.
  now apply (above_trans k a).
Qed.

Lemma mdel_sorted k m : sorted m -> sorted (mdel k m).
Proof.
  induction m as [|[a b] m IH]; cbn; auto. intros [H1 H2]. destruct (cmp k a) eqn:E; cbn; auto.
  split; [|auto]. now apply mdel_above.
Qed.

Lemma mget_put_same k v m : mget k (mput k v m) = Some v.
Proof.
  induction m as [|[a b] m IH]; cbn; [now rewrite cmp_refl|].
  destruct (cmp k a) eqn:E; cbn; rewrite ?cmp_refl, ?E; auto.
Qed.

Lemma mget_put_other k k' v m : k <> k' -> mget k (mput k' v m) = mget k m.
Proof.
  intros N. induction m as [|[a b] m IH]; cbn.
  - destruct (cmp k k') eqn:E; auto. now apply (cmp_eq _ TO) in E.
  - destruct (cmp k' a) eqn:E; cbn.
    + apply (cmp_eq _ TO) in E. subst a. destruct (cmp k k') eqn:E; auto. now apply (cmp_eq _ TO) in E.
    + destruct (cmp k k') eqn:E1; auto; [now apply (cmp_eq _ TO) in E1|].
      rewrite (cmp_trans _ TO _ _ _ E1 E). reflexivity.
    + now rewrite IH.
Qed.

Lemma mget_del_same k m : sorted m -> mget k (mdel k m) = None.
Proof.
  induction m as [|[a b] m IH]; cbn; auto. intros [H1 H2]. destruct (cmp k a) eqn:E; cbn.
  - apply (cmp_eq _ TO) in E. subst. now apply above_get.
  - now rewrite E.
  - rewrite E. auto.
Qed.

Lemma mget_del_other k k' m : sorted m -> k <> k' -> mget k (mdel k' m) = mget k m.
Proof.
  intros S N. induction m as [|[a b] m IH]; cbn; auto. destruct S as [H1 H2].
  destruct (cmp k' a) eqn:E; cbn; auto.
  - apply (cmp_eq _ TO) in E. subst a. destruct (cmp k k') eqn:E; auto.
    + now apply (cmp_eq _ TO) in E.
    + apply above_get; auto. now apply (above_trans k k').
  - rewrite IH by auto. reflexivity.
Qed.

Lemma mget_in k v m : sorted m -> (mget k m = Some v <-> In (k, v) m).
Proof.
  induction m as [|[a b] m IH]; [cbn; split; [discriminate|tauto]|].
  intros S. pose proof (sorted_above_all _ _ _ S) as A. cbn [mget In]. destruct S as [H1 H2].
  destruct (cmp k a) eqn:E.
  - apply (cmp_eq _ TO) in E. subst a. split; [intros [= ->]; auto|].
    intros [[= ->] | H]; [reflexivity|]. apply A in H. now apply cmp_lt_irrefl in H.
  - split; [discriminate|]. intros [[= -> ->] | H]; [now rewrite cmp_refl in E|].
    apply A in H. pose proof (cmp_trans _ TO _ _ _ E H) as X. now apply cmp_lt_irrefl in X.
  - rewrite IH by auto. split; auto. intros [[= -> ->] | H]; auto. now rewrite cmp_refl in E.
Qed.

Lemma mext m1 m2 : sorted m1 -> sorted m2 -> (forall k, mget k m1 = mget k m2) -> m1 = m2.
Proof.
  revert m2. induction m1 as [|[a b] m1 IH]; intros [|[c d] m2]; auto.
  - intros _ _ H. specialize (H c). cbn in H. now rewrite cmp_refl in H.
  - intros _ _ H. specialize (H a). cbn in H. now rewrite cmp_refl in H.
  - intros S1 S2 H.
    assert (a = c).
    { pose proof (H a) as Ha. pose proof (H c) as Hc. cbn in Ha, Hc. rewrite cmp_refl in Ha, Hc.
      destruct (cmp a c) eqn:E; [now apply (cmp_eq _ TO) in E|discriminate|].
      apply cmp_gt in E. now rewrite E in Hc. }
    subst c. pose proof (H a) as Ha. cbn in Ha. rewrite cmp_refl in Ha. injection Ha as <-.
    f_equal. destruct S1 as [A1 S1], S2 as [A2 S2]. apply IH; auto.
    intros k. specialize (H k). cbn in H. destruct (cmp k a) eqn:E; auto.
    + apply (cmp_eq _ TO) in E. subst. now rewrite !above_get.
    + rewrite !above_get; auto; now apply (above_trans k a).
Qed.

Lemma mget_in_keys k m : sorted m -> (mget k m <> None <-> In k (map fst m)).
Proof.
  intros S. split.
  - destruct (mget k m) as [v|] eqn:E; [|congruence]. intros _. apply mget_in in E; auto.
    now apply (in_map fst) in E.
  - intros H. apply in_map_iff in H. destruct H as ([k' v] & <- & H). apply mget_in in H; auto. cbn. congruence.
Qed.

Lemma sorted_nodup m : sorted m -> NoDup (map fst m).
Proof.
  induction m as [|[a b] m IH]; cbn; constructor.
  - intros H1. apply in_map_iff in H1. destruct H1 as ([k v] & E & H1). cbn in E. subst k.
    apply (sorted_above_all a b m H) in H1. now apply cmp_lt_irrefl in H1.
  - apply IH. tauto.
Qed.

Lemma mput_keys k v m x : In x (map fst (mput k v m)) <-> x = k \/ In x (map fst m).
Proof.
  induction m as [|[a b] m IH]; cbn; [intuition|].
  destruct (cmp k a) eqn:E; cbn; [apply (cmp_eq _ TO) in E; subst; intuition|intuition|rewrite IH; intuition].
Qed.

Lemma mput_in k v m k' v' : In (k', v') (mput k v m) -> (k', v') = (k, v) \/ In (k', v') m.
Proof.
  induction m as [|[a b] m IH]; cbn; [intuition|].
  destruct (cmp k a) eqn:E; cbn; intuition.
Qed.

Lemma mdel_in k m k' v' : In (k', v') (mdel k m) -> In (k', v') m.
Proof.
  induction m as [|[a b] m IH]; cbn; [intuition|].
  destruct (cmp k a) eqn:E; cbn; intuition.
Qed.

Lemma mput_perm k v m : mget k m = None -> sorted m -> Permutation (mput k v m) ((k, v) :: m).
Proof.
  induction m as [|[a b] m IH]; cbn [mget mput]; [reflexivity|]. intros G [H1 H2].
  destruct (cmp k a) eqn:E; [discriminate|reflexivity|].
  rewrite perm_swap. constructor. apply IH; auto.
Qed.

Lemma mdel_perm k v m : mget k m = Some v -> sorted m -> Permutation m ((k, v) :: mdel k m).
Proof.
  induction m as [|[a b] m IH]; cbn [mget mdel]; [discriminate|]. intros G [H1 H2].
  destruct (cmp k a) eqn:E; [|discriminate|].
  - apply (cmp_eq _ TO) in E. injection G as ->. subst. reflexivity.
  - rewrite perm_swap. constructor. apply IH; auto.
Qed.

Lemma mput_keys_same k v w m : mget k m = Some w -> sorted m -> map fst (mput k v m) = map fst m.
Proof.
  induction m as [|[a b] m IH]; cbn [mget mput]; [discriminate|]. intros G [H1 H2].
  destruct (cmp k a) eqn:E; [|discriminate|].
  - apply (cmp_eq _ TO) in E. now subst.
  - cbn. f_equal. apply IH; auto.
Qed.
End Map.

(** Byte strings in lexicographic order. *)
Fixpoint lex (a b : list Z) : comparison :=
  match a, b with
  | [], [] => Eq
  | [], _ :: _ => Lt
  | _ :: _, [] => Gt
  | x :: a', y :: b' => match Z.compare x y with Eq => lex a' b' | c => c end
  end.

Lemma lex_order : total_order lex.
Proof.
  constructor.
  - induction a as [|x a IH]; intros [|y b]; cbn; try (split; congruence).
    destruct (Z.compare_spec x y) as [-> |H|H]; [rewrite IH; split; congruence| |];
      split; try congruence; intros [= -> _]; lia.
  - induction a as [|x a IH]; intros [|y b]; cbn; auto.
    rewrite (Z.compare_antisym x y). destruct (Z.compare x y); cbn; auto.
  - induction a as [|x a IH]; intros [|y b] [|z c]; cbn; auto; try discriminate.
    destruct (Z.compare_spec x y) as [-> |H|H]; try discriminate.
    + destruct (Z.compare_spec y z); try discriminate; eauto.
    + destruct (Z.compare_spec y z) as [-> |H'|H']; try discriminate.
      * intros _ _. rewrite (proj2 (Z.compare_lt_iff _ _) H). reflexivity.
      * intros _ _. rewrite (proj2 (Z.compare_lt_iff x z)) by lia. reflexivity.
Qed.

Lemma Zcompare_order : total_order Z.compare.
Proof.
  constructor.
  - apply Z.compare_eq_iff.
  - intros. apply Z.compare_antisym.
  - intros a b c. rewrite !Z.compare_lt_iff. lia.
Qed.

Lemma Natcompare_order : total_order Nat.compare.
Proof.
  constructor.
  - apply Nat.compare_eq_iff.
  - intros. apply Nat.compare_antisym.
  - intros a b c. rewrite !Nat.compare_lt_iff. lia.
Qed.
