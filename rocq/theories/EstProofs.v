(** Proofs about the incremental estimator. *)
From Coq Require Import ZArith List Arith Bool Lia Permutation.
From Coq Require Import Floats.SpecFloat.
From Verif Require Import Base OMap PermuteModel PermuteProofs BatchModel BatchSpec BatchProofs BatchProps IncModel IncSpec IncProofs EstModel EstSpec.
Import ListNotations.
Open Scope nat_scope.

(** ** The ordering *)
Lemma index_of_split x l k : index_of x l = Some k -> exists l1 l2, l = l1 ++ x :: l2 /\ length l1 = k.
Proof.
  revert k. induction l as [|y l IH]; cbn; [discriminate|]. intros k. destruct (Nat.eqb_spec y x) as [-> |N].
  - intros [= <-]. exists [], l. auto.
  - destruct (index_of x l) as [j|]; [|discriminate]. intros [= <-]. destruct (IH j eq_refl) as (l1 & l2 & -> & <-).
    exists (y :: l1), l2. auto.
Qed.
Lemma index_of_none x l : index_of x l = None <-> ~ In x l.
Proof.
  induction l as [|y l IH]; cbn; [tauto|]. destruct (Nat.eqb_spec y x) as [-> |N].
  - split; [discriminate|tauto].
  - destruct (index_of x l) as [j|]; [split; [discriminate|]|]; intuition congruence.
Qed.
Lemma upd_at {A} (l1 l2 : list A) x y : upd (l1 ++ x :: l2) (length l1) y = l1 ++ y :: l2.
Proof. induction l1 as [|a l1 IH]; cbn; auto. now rewrite IH. Qed.

Lemma swap_to_back_spec l1 z l3 m : swap_to_back (length l1) m (l1 ++ m :: l3 ++ [z]) = l1 ++ z :: l3 ++ [m].
Proof.
  unfold swap_to_back. replace (l1 ++ m :: l3 ++ [z]) with ((l1 ++ m :: l3) ++ [z]) at 2 by (rewrite <- app_assoc; reflexivity).
  rewrite last_last, upd_at.
  replace (l1 ++ z :: l3 ++ [z]) with ((l1 ++ z :: l3) ++ z :: []) by (rewrite <- app_assoc; reflexivity).
  replace (length (l1 ++ m :: l3 ++ [z]) - 1) with (length (l1 ++ z :: l3)).
  - rewrite upd_at, <- app_assoc. reflexivity.
  - rewrite !app_length. cbn. rewrite app_length. cbn. lia.
Qed.

(** The order that results: unchanged, or with the group exchanged with the last. *)
Inductive moved (m : nat) : list nat -> list nat -> Prop :=
| moved_not l : moved m (l ++ [m]) (l ++ [m])
| moved_swap l1 l3 z : z <> m -> moved m (l1 ++ m :: l3 ++ [z]) (l1 ++ z :: l3 ++ [m]).
Lemma moved_perm m l l' : moved m l l' -> Permutation l l'.
Proof.
  destruct 1; auto. apply Permutation_app_head.
  transitivity (m :: z :: l3); [constructor; rewrite <- Permutation_cons_append; auto|].
  rewrite perm_swap. constructor. apply Permutation_cons_append.
Qed.
Lemma moved_last m l l' : moved m l l' -> exists k, l' = k ++ [m].
Proof. destruct 1; [eauto|]. exists (l1 ++ z :: l3). now rewrite <- app_assoc. Qed.

Lemma order_marginalized_spec uses m s grp : good uses s grp ->
  (In m (iorder s) -> exists ord, order_marginalized m s = (Inc (probs s) (counts s) (igroups s) ord (ibackup s), Returned) /\ moved m (iorder s) ord) /\
  (~ In m (iorder s) -> order_marginalized m s = (s, Threw)).
Proof.
  intros G. split.
  - intros Hm. unfold order_marginalized. destruct (index_of m (iorder s)) as [k|] eqn:E; [|now apply index_of_none in E].
    destruct (Nat.eqb_spec m (last (iorder s) 0)) as [L|L].
    + exists (iorder s). split; [now destruct s|]. destruct (iorder s) as [|a o] using rev_ind; [discriminate|].
      rewrite last_last in L. subst a. constructor.
    + destruct (index_of_split _ _ _ E) as (l1 & l2 & Eo & Ek). subst k. clear E.
      destruct l2 as [|z l3 _] using rev_ind; [rewrite Eo, last_last in L; congruence|].
      assert (Z : z <> m).
      { intros ->. apply L. rewrite Eo. replace (l1 ++ m :: l3 ++ [m]) with ((l1 ++ m :: l3) ++ [m]) by (rewrite <- app_assoc; reflexivity).
        now rewrite last_last. }
      rewrite Eo, swap_to_back_spec. rewrite <- Eo.
      assert (M : moved m (iorder s) (l1 ++ z :: l3 ++ [m])) by (rewrite Eo; now constructor).
      exists (l1 ++ z :: l3 ++ [m]). split; [|exact M].
      pose proof (set_ordering_ok _ _ _ (l1 ++ z :: l3 ++ [m]) (c_groups _ _ _ (g_coherent _ _ _ G)) (c_order _ _ _ (g_coherent _ _ _ G))) as S.
      assert (O : ordered (l1 ++ z :: l3 ++ [m]) (mem (counts s))).
      { destruct (c_order _ _ _ (g_coherent _ _ _ G)) as [No Ho]. pose proof (moved_perm _ _ _ M) as P. split.
        - eapply Permutation_NoDup; eauto.
        - intros g. rewrite <- Ho. split; apply Permutation_in; auto. now apply Permutation_sym. }
      apply S in O. destruct O as [O1 O2]. unfold iset_ordering. rewrite O1, O2. reflexivity.
  - intros Hm. unfold order_marginalized. apply index_of_none in Hm. now rewrite Hm.
Qed.

(** ** Counting and uncounting, exactly *)
Definition glist (g : nat) (s : inc) : list nat := match nget g (igroups s) with Some l => l | None => [] end.
Lemma erase_first_filter x l : NoDup l -> In x l -> erase_first x l = Some (filter (fun y => negb (y =? x)) l).
Proof.
  induction l as [|y l IH]; cbn; [tauto|]. intros N H. inversion N as [|? ? N1 N2]; subst. destruct (Nat.eqb_spec y x) as [-> |E]; cbn.
  - f_equal. symmetry. clear - N1. induction l as [|z l IH]; cbn; auto. destruct (Nat.eqb_spec z x) as [-> |E]; cbn.
    + exfalso. apply N1. now left.
    + f_equal. apply IH. intros X. apply N1. now right.
  - rewrite IH; auto. destruct H; [congruence|auto].
Qed.
Lemma glist_has s rc grp g : coherent s rc grp -> (nhas g (igroups s) = true <-> glist g s <> []).
Proof.
  intros C. destruct (c_groups _ _ _ C) as [_ Cg]. specialize (Cg g). unfold glist, mhas. destruct (nget g (igroups s)); intuition congruence.
Qed.
Lemma glist_in s rc grp d g : coherent s rc grp -> (In d (glist g s) <-> rc d <> 0 /\ grp d = g).
Proof.
  intros C. destruct (c_groups _ _ _ C) as [_ Cg]. specialize (Cg g). unfold glist.
  assert (X : In d (in_group g (mem (counts s))) <-> rc d <> 0 /\ grp d = g).
  { rewrite in_group_in, mem_in by apply C. rewrite (c_counts _ _ _ C). destruct (rc d); split.
    - intros (c & H). discriminate.
    - intros [H _]. congruence.
    - intros (c & [= _ <-]). auto.
    - intros [_ <-]. eauto. }
  destruct (nget g (igroups s)).
  - destruct Cg as [_ P]. rewrite <- X. split; apply Permutation_in; auto. now apply Permutation_sym.
  - rewrite Cg in X. cbn in *. tauto.
Qed.
Lemma glist_nodup s rc grp g : coherent s rc grp -> NoDup (glist g s).
Proof.
  intros C. destruct (c_groups _ _ _ C) as [_ Cg]. specialize (Cg g). unfold glist. destruct (nget g (igroups s)); [|constructor].
  destruct Cg as [_ P]. eapply Permutation_NoDup; [apply Permutation_sym, P|].
  assert (N : NoDup (map fst (mem (counts s)))) by (rewrite mem_fst; apply (sorted_nodup _ Natcompare_order), C).
  revert N. unfold in_group. clear. induction (mem (counts s)) as [|[a b] ms IH]; cbn; [constructor|].
  intros N. inversion N as [|? ? N1 N2]; subst. destruct (b =? g); cbn; auto. constructor; auto.
  intros X. apply N1. apply in_map_iff in X. destruct X as (y & Ey & X). apply filter_In in X. apply in_map_iff. exists y. tauto.
Qed.

Lemma count_one_lists s rc grp d g s' : coherent s rc grp -> count_one d g s = (s', Returned) ->
  (forall g', glist g' s' = glist g' s ++ (if (rc d =? 0) && (g' =? g) then [d] else [])) /\
  (exists new, iorder s' = iorder s ++ new /\ forall x, In x new -> nhas x (igroups s) = false).
Proof.
  intros C. unfold count_one. rewrite (c_counts _ _ _ C).
  assert (O : exists new, (if ihas_group g s then iorder s else iorder s ++ [g]) = iorder s ++ new /\ forall x, In x new -> nhas x (igroups s) = false).
  { unfold ihas_group. destruct (nhas g (igroups s)) eqn:E; [exists []|exists [g]]; (split; [auto using app_nil_r|]); cbn; intros x; [tauto|].
    - intros [<- |[]]. exact E. }
  destruct (rc d) as [|n] eqn:E.
  - intros [= <-]. split; [|exact O]. intros g'. unfold glist. cbn [igroups Nat.eqb andb]. unfold push_group.
    destruct (Nat.eqb_spec g' g) as [-> |N].
    + rewrite nget_put_same. destruct (nget g (igroups s)); reflexivity.
    + rewrite nget_put_other by auto. now rewrite app_nil_r.
  - destruct (grp d =? g); [|discriminate]. intros [= <-]. split; [|exact O]. intros g'. cbn. unfold glist. cbn. now rewrite app_nil_r.
Qed.
(** What count_list adds to group g *)
Fixpoint fresh (g : nat) (vs : list (nat * nat)) (rc : nat -> nat) : list nat :=
  match vs with
  | [] => []
  | (d, x) :: r => (if (rc d =? 0) && (g =? x) then [d] else []) ++ fresh g r (bump d rc)
  end.
Lemma count_list_lists vs : forall s rc grp s', coherent s rc grp -> NoDup (map fst vs) ->
  (forall d g, In (d, g) vs -> rc d = 0 \/ grp d = g) -> count_list vs s = (s', Returned) ->
  (forall g, glist g s' = glist g s ++ fresh g vs rc) /\
  (exists new, iorder s' = iorder s ++ new /\ forall x, In x new -> nhas x (igroups s) = false).
Proof.
  induction vs as [|[d g] vs IH]; intros s rc grp s' C N H; cbn [count_list map fst fresh] in *.
  - intros [= <-]. split; [intros g; now rewrite app_nil_r|]. exists []. split; [now rewrite app_nil_r|]. intros x [].
  - inversion N as [|? ? N1 N2]; subst.
    destruct (count_one_ok s rc grp d g C (H d g (or_introl eq_refl))) as (s1 & E1 & C1 & _). rewrite E1. intros E2.
    destruct (count_one_lists s rc grp d g s1 C E1) as [L1 (n1 & O1 & X1)].
    destruct (IH s1 (bump d rc) (setg d g grp) s' C1 N2) as [L2 (n2 & O2 & X2)]; auto.
    { intros x y Hx. unfold bump, setg. destruct (Nat.eqb_spec x d) as [-> |E].
      - exfalso. apply N1, in_map_iff. exists (d, y). auto.
      - apply H. now right. }
    split.
    + intros g'. rewrite L2, L1, <- app_assoc. reflexivity.
    + exists (n1 ++ n2). split; [rewrite O2, O1, <- app_assoc; reflexivity|]. intros x Hx. apply in_app_iff in Hx. destruct Hx as [Hx|Hx]; auto.
      specialize (X2 x Hx). destruct (nhas x (igroups s)) eqn:E; auto.
      apply (glist_has s rc grp x C) in E. assert (nhas x (igroups s1) = true); [|congruence].
      apply (glist_has s1 _ _ x C1). rewrite L1. destruct (glist x s); [congruence|discriminate].
Qed.
Lemma fresh_in g vs : forall rc d, NoDup (map fst vs) -> In d (fresh g vs rc) -> rc d = 0 /\ In d (map fst vs).
Proof.
  induction vs as [|[a x] vs IH]; intros rc d N; cbn [fresh map fst]; [intros []|]. inversion N as [|? ? N1 N2]; subst.
  intros H. apply in_app_iff in H. destruct H as [H|H].
  - destruct (Nat.eqb_spec (rc a) 0) as [E|E]; [|destruct H]. cbn in H. destruct (g =? x); [|destruct H]. destruct H as [<- |[]]. cbn. auto.
  - destruct (IH _ _ N2 H) as [I1 I2]. split; [|now right]. unfold bump in I1. destruct (d =? a); [lia|exact I1].
Qed.

Lemma filter_filter {A} (f g : A -> bool) l : filter f (filter g l) = filter (fun x => g x && f x) l.
Proof. induction l as [|x l IH]; cbn; auto. destruct (g x); cbn; rewrite ?IH; auto. Qed.
Lemma filter_all {A} (f : A -> bool) l : (forall x, In x l -> f x = true) -> filter f l = l.
Proof. induction l as [|x l IH]; cbn; auto. intros H. rewrite (H x), IH; auto. Qed.
Lemma filter_none {A} (f : A -> bool) l : (forall x, In x l -> f x = false) -> filter f l = [].
Proof. induction l as [|x l IH]; cbn; auto. intros H. rewrite (H x), IH; auto. Qed.
Lemma filter_ext_in' {A} (f g : A -> bool) l : (forall x, In x l -> f x = g x) -> filter f l = filter g l.
Proof. induction l as [|x l IH]; cbn; auto. intros H. rewrite (H x), IH; auto. Qed.

Lemma uncount_one_lists s rc grp d n s' : coherent s rc grp -> rc d = S n -> uncount_one d s = (s', Returned) -> coherent s' (drop d rc) grp ->
  (forall g, glist g s' = filter (fun y => negb ((y =? d) && (n =? 0))) (glist g s)) /\
  iorder s' = filter (fun g => nhas g (igroups s')) (iorder s).
Proof.
  intros C E U C'. pose proof (c_counts _ _ _ C d) as G0. rewrite E in G0. unfold uncount_one in U. rewrite G0 in U.
  assert (Ed : dec (Z.of_nat (S n)) = Z.of_nat n).
  { unfold dec. destruct (Z.eqb_spec (Z.of_nat (S n)) 0); lia. }
  rewrite Ed in U. clear Ed.
  assert (Oin : forall g, In g (iorder s) <-> nhas g (igroups s) = true).
  { intros g. rewrite nhas_iff, (grouped_has _ _ _ (c_groups _ _ _ C)). apply (c_order _ _ _ C). }
  assert (No : NoDup (iorder s)) by apply (c_order _ _ _ C).
  destruct (Z.eqb_spec (Z.of_nat n) 0) as [Z|Z].
  - assert (n = 0) by lia. subst n. cbn [Nat.eqb].
    assert (Hd : In d (glist (grp d) s)) by (apply (glist_in s rc grp d (grp d) C); split; [lia|auto]).
    pose proof (glist_nodup s rc grp (grp d) C) as Nl. fold (glist (grp d) s) in U.
    rewrite (erase_first_filter d _ Nl Hd) in U.
    assert (Other : forall g, g <> grp d -> filter (fun y => negb ((y =? d) && true)) (glist g s) = glist g s).
    { intros g Hg. apply filter_all. intros y Hy. apply (glist_in s rc grp y g C) in Hy. destruct (Nat.eqb_spec y d) as [-> |Ey]; auto.
      destruct Hy. congruence. }
    assert (Same : filter (fun y => negb ((y =? d) && true)) (glist (grp d) s) = filter (fun y => negb (y =? d)) (glist (grp d) s)).
    { apply filter_ext. intros y. now rewrite andb_true_r. }
    destruct (filter (fun y => negb (y =? d)) (glist (grp d) s)) as [|y l] eqn:F.
    + assert (Ho : In (grp d) (iorder s)) by (apply Oin, (glist_has s rc grp _ C); destruct (glist (grp d) s); [destruct Hd|discriminate]).
      rewrite (erase_first_filter _ _ No Ho) in U. injection U as <-.
      assert (Gl : forall g, glist g {| probs := probs s; counts := ndel d (counts s); igroups := ndel (grp d) (igroups s);
         iorder := filter (fun y => negb (y =? grp d)) (iorder s); ibackup := ndel d (ibackup s) |} = filter (fun y => negb ((y =? d) && true)) (glist g s)).
      { intros g. destruct (Nat.eq_dec g (grp d)) as [-> |Hg].
        - rewrite Same. unfold glist. cbn [igroups]. rewrite mget_del_same; auto using Natcompare_order. apply (c_groups _ _ _ C).
        - rewrite Other by auto. unfold glist. cbn [igroups]. rewrite mget_del_other; auto using Natcompare_order. apply (c_groups _ _ _ C). }
      split; [exact Gl|]. cbn [iorder igroups]. apply filter_ext_in'. intros g Hg. apply Oin in Hg.
      destruct (Nat.eqb_spec g (grp d)) as [-> |X]; cbn; symmetry.
      * apply nhas_false. apply mget_del_same; auto using Natcompare_order. apply (c_groups _ _ _ C).
      * unfold mhas in *. rewrite mget_del_other; auto using Natcompare_order. apply (c_groups _ _ _ C).
    + injection U as <-. split.
      * intros g. destruct (Nat.eq_dec g (grp d)) as [-> |Hg].
        -- rewrite Same. unfold glist at 1. cbn [igroups]. now rewrite nget_put_same.
        -- rewrite Other by auto. unfold glist. cbn [igroups]. now rewrite nget_put_other.
      * cbn [iorder igroups]. symmetry. apply filter_all. intros g Hg. apply Oin in Hg. unfold mhas in *.
        destruct (Nat.eq_dec g (grp d)) as [-> |X]; [now rewrite nget_put_same|now rewrite nget_put_other].
  - injection U as <-. destruct (Nat.eqb_spec n 0); [lia|]. split.
    + intros g. unfold glist. cbn [igroups]. symmetry. apply filter_all. intros y _. now rewrite andb_false_r.
    + cbn [iorder igroups]. symmetry. apply filter_all. intros g Hg. now apply Oin.
Qed.
Definition dying (ds : list nat) (rc : nat -> nat) (x : nat) : bool := existsb (Nat.eqb x) ds && (rc x =? 1).
Lemma uncount_list_lists ds : forall s rc grp s' rcf grpf, coherent s rc grp -> NoDup ds -> (forall d, In d ds -> rc d <> 0) ->
  coherent s' rcf grpf -> uncount_list ds s = (s', Returned) ->
  (forall g, glist g s' = filter (fun y => negb (dying ds rc y)) (glist g s)) /\
  iorder s' = filter (fun g => nhas g (igroups s')) (iorder s).
Proof.
  induction ds as [|d ds IH]; intros s rc grp s' rcf grpf C N H Cf; cbn [uncount_list].
  - intros [= <-]. split.
    + intros g. symmetry. now apply filter_all.
    + symmetry. apply filter_all. intros g Hg. apply nhas_iff, (grouped_has _ _ _ (c_groups _ _ _ C)). now apply (c_order _ _ _ C).
  - inversion N as [|? ? N1 N2]; subst. destruct (rc d) as [|n] eqn:E; [exfalso; apply (H d); [now left|exact E]|].
    destruct (uncount_one_ok s rc grp d n C E) as (s1 & E1 & C1 & _). rewrite E1. intros E2.
    destruct (uncount_one_lists s rc grp d n s1 C E E1 C1) as [L1 O1].
    destruct (IH s1 (drop d rc) grp s' rcf grpf C1 N2) as [L2 O2]; auto.
    { intros x Hx. unfold drop. destruct (Nat.eqb_spec x d) as [-> |X]; [contradiction|]. apply H. now right. }
    assert (L : forall g, glist g s' = filter (fun y => negb (dying (d :: ds) rc y)) (glist g s)).
    { intros g. rewrite L2, L1, filter_filter. apply filter_ext. intros y. unfold dying, drop. cbn [existsb].
      destruct (Nat.eqb_spec y d) as [-> |X]; cbn [andb orb negb]; [|reflexivity].
      assert (existsb (Nat.eqb d) ds = false) as ->.
      { destruct (existsb (Nat.eqb d) ds) eqn:X; auto. apply existsb_exists in X. destruct X as (z & Hz & Ez). apply Nat.eqb_eq in Ez. now subst z. }
      cbn [andb negb]. rewrite andb_true_r, E. reflexivity. }
    split; [exact L|]. rewrite O2, O1, filter_filter. apply filter_ext_in'. intros g _.
    destruct (nhas g (igroups s')) eqn:X; [|apply andb_false_r]. rewrite andb_true_r. rewrite nhas_iff in X.
    assert (Y : glist g s' <> []) by (apply (glist_has s' rcf grpf g Cf), nhas_iff, X).
    apply (glist_has s1 _ _ g C1). intros Z. apply Y. rewrite L2, Z. reflexivity.
Qed.

(** ** Adding and removing again *)
Section Undo.
Variable uses : nat -> list nat.
Variable m : nat.

Definition m_last (s : inc) : Prop := In m (iorder s) -> exists l, iorder s = l ++ [m].

Lemma split_unique (x : nat) a : forall b c d, NoDup (a ++ x :: b) -> a ++ x :: b = c ++ x :: d -> a = c /\ b = d.
Proof.
  induction a as [|y a IH]; intros b [|z c] d N E; cbn in *.
  - injection E as ->. auto.
  - injection E as <- ->. inversion N as [|? ? N1 N2]; subst. exfalso. apply N1, in_or_app. right. now left.
  - injection E as -> <-. inversion N as [|? ? N1 N2]; subst. exfalso. apply N1, in_or_app. right. now left.
  - injection E as -> E. inversion N; subst. destruct (IH b c d) as [-> ->]; auto.
Qed.

Lemma moved_filter s rc grp new ord : coherent s rc grp -> m_last s -> (forall x, In x new -> nhas x (igroups s) = false) ->
  NoDup (iorder s ++ new) -> moved m (iorder s ++ new) ord -> filter (fun g => nhas g (igroups s)) ord = iorder s.
Proof.
  intros C ML Hn N M. set (f := fun g => nhas g (igroups s)).
  assert (Oin : forall g, In g (iorder s) <-> f g = true).
  { intros g. unfold f. rewrite nhas_iff, (grouped_has _ _ _ (c_groups _ _ _ C)). apply (c_order _ _ _ C). }
  assert (Fo : filter f (iorder s) = iorder s) by (apply filter_all; intros g Hg; now apply Oin).
  assert (Fn : filter f new = []) by (now apply filter_none).
  assert (Ff : filter f (iorder s ++ new) = iorder s) by (rewrite filter_app, Fo, Fn; apply app_nil_r).
  remember (iorder s ++ new) as full eqn:Ef. destruct M as [l|l1 l3 z Z]; [exact Ff|].
  destruct (in_dec Nat.eq_dec m (iorder s)) as [I|I].
  - destruct (ML I) as (l & El). rewrite El, <- app_assoc in Ef. cbn in Ef.
    destruct (split_unique m _ _ _ _ N Ef) as [<- <-]. rewrite El.
    rewrite El, filter_app in Fo. cbn [filter] in Fo. assert (Fm : f m = true) by (now apply Oin). rewrite Fm in Fo.
    apply app_inj_tail in Fo. destruct Fo as [Fo _].
    rewrite filter_app, Fo. cbn [filter]. rewrite filter_app in *. cbn [filter] in *. rewrite Fm.
    apply app_eq_nil in Fn. destruct Fn as [-> Fz]. destruct (f z); [discriminate|reflexivity].
  - assert (Fm : f m = false) by (destruct (f m) eqn:E; auto; apply Oin in E; contradiction).
    rewrite filter_app in *. cbn [filter] in *. rewrite filter_app in *. cbn [filter] in *. rewrite Fm in *.
    rewrite app_nil_r. destruct (f z) eqn:Fz.
    + exfalso. apply Oin in Fz. assert (Hz : In z new).
      { apply in_split in Fz. destruct Fz as (a & b & Eab).
        assert (In m new) as Hm.
        { assert (In m (iorder s ++ new)) by (rewrite <- Ef; apply in_or_app; right; now left). apply in_app_iff in H. tauto. }
        destruct new as [|y new _] using rev_ind; [destruct Hm|].
        replace (l1 ++ m :: l3 ++ [z]) with ((l1 ++ m :: l3) ++ [z]) in Ef by (rewrite <- app_assoc; reflexivity).
        rewrite app_assoc in Ef. apply app_inj_tail in Ef. destruct Ef as [_ ->]. apply in_or_app. right. now left. }
      apply Hn in Hz. apply Oin in Fz. unfold f in Fz. congruence.
    + cbn in Ff. rewrite app_nil_r in Ff. exact Ff.
Qed.

(** The invariant of estimators. *)
Record fine (e : est) (grp : nat -> nat) : Prop := {
  f_good : good uses (prob e) grp;
  f_last : m_last (prob e);
  f_backup : forall d, nget d (ibackup (prob e)) <> None -> ihas_variable d (prob e) = true }.

Lemma glist_igroups s s' rc grp rc' grp' : coherent s rc grp -> coherent s' rc' grp' ->
  (forall g, glist g s = glist g s') -> igroups s = igroups s'.
Proof.
  intros C C' H. apply (mext _ Natcompare_order); [apply (c_groups _ _ _ C)|apply (c_groups _ _ _ C')|].
  intros g. specialize (H g). pose proof (c_groups _ _ _ C) as [_ X]. pose proof (c_groups _ _ _ C') as [_ X'].
  specialize (X g). specialize (X' g). unfold glist in H. destruct (nget g (igroups s)), (nget g (igroups s')); subst; intuition congruence.
Qed.

Lemma remove_parts idx id p s s' : nth_error (probs s) idx = Some (id, p) -> remove idx s = (s', Returned) ->
  exists s1, uncount_in p (num_variables p) 0 s = (s1, Returned) /\ s' = Inc (erase_at idx (probs s1)) (counts s1) (igroups s1) (iorder s1) (ibackup s1).
Proof.
  intros E. unfold remove. rewrite E. destruct (uncount_in p (num_variables p) 0 s) as [s1 []]; try discriminate. intros [= <-]. eauto.
Qed.

Lemma add_parts id p s s' : add (Some (id, p)) s = (s', Returned) ->
  exists s1, count_in p (num_variables p) 0 s = (s1, Returned) /\ s' = Inc (probs s1 ++ [(id, p)]) (counts s1) (igroups s1) (iorder s1) (ibackup s1).
Proof.
  unfold add. destruct (count_in p (num_variables p) 0 s) as [s1 []]; try discriminate.
  destruct (terms_new p (num_terms p) 0 s1); try discriminate. intros [= <-]. eauto.
Qed.

(** Removing what was just added, possibly after moving the group to the back. *)
Lemma undo s grp id p s1 ord b s2 : good uses s grp -> m_last s -> built uses p -> add (Some (id, p)) s = (s1, Returned) ->
  moved m (iorder s1) ord -> sorted Nat.compare b -> remove (length (probs s)) (Inc (probs s1) (counts s1) (igroups s1) ord b) = (s2, Returned) ->
  same_problem s2 s.
Proof.
  intros G ML B EA M Sb ER. destruct (built_described uses p B) as (vs & ts & D). pose proof (d_nodup _ _ _ _ D) as Nv.
  destruct (fits_dec uses s grp p G B) as [F|F].
  2:{ destruct (proj2 (add_cases uses s grp id p G B) F) as (x & Ex & _). congruence. }
  destruct (proj1 (add_cases uses s grp id p G B) F) as (x & Ex & P1 & B1 & grp1 & G1).
  assert (x = s1) by congruence. subst x. clear Ex.
  pose proof (proj1 (fits_compat uses s grp p vs ts G D) (proj1 F)) as F1.
  destruct (add_parts _ _ _ _ EA) as (s0 & EC & E1). rewrite (count_in_list uses p vs ts D) in EC.
  destruct (count_list_ok vs s _ grp (g_coherent _ _ _ G) Nv F1) as (x & Ex & C0 & P0 & B0).
  assert (x = s0) by congruence. subst x. clear Ex.
  destruct (count_list_lists vs s _ grp s0 (g_coherent _ _ _ G) Nv F1 EC) as [L0 (new & O0 & Hn)].
  set (s1' := Inc (probs s1) (counts s1) (igroups s1) ord b) in *.
  assert (G1' : good uses s1' grp1).
  { apply (good_reorder uses s1); auto; unfold s1'; cbn; try apply G1.
    pose proof (moved_perm _ _ _ M) as Pm. destruct (c_order _ _ _ (g_coherent _ _ _ G1)) as [No Ho]. split.
    - eapply Permutation_NoDup; eauto.
    - intros g. rewrite <- Ho. split; apply Permutation_in; auto. now apply Permutation_sym. }
  assert (En : nth_error (probs s1') (length (probs s)) = Some (id, p)).
  { unfold s1'. cbn [probs]. rewrite P1, nth_error_app2 by lia. now rewrite Nat.sub_diag. }
  destruct (remove_ok uses s1' grp1 _ id p G1' En) as (x & Ex & P2 & G2 & _).
  assert (x = s2) by congruence. subst x. clear Ex.
  destruct (remove_parts _ _ _ _ _ En ER) as (s3 & EU & E2). rewrite (uncount_in_list uses p vs ts D) in EU.
  assert (C3 : coherent s3 (fun d => refcount d s2) grp1).
  { pose proof (g_coherent _ _ _ G2) as [X1 X2 X3 X4]. rewrite E2 in X1, X3, X4. cbn in X1, X3, X4. constructor; auto.
    intros d. rewrite <- X2. now rewrite E2. }
  assert (Hr : forall d, In d (map fst vs) -> refcount d s1' <> 0).
  { intros d Hd. apply refcount_pos. exists p. split; [|now apply (d_has _ _ _ _ D)].
    unfold live. apply in_map_iff. exists (id, p). split; auto. now apply nth_error_In in En. }
  destruct (uncount_list_lists (map fst vs) s1' _ grp1 s3 _ _ (g_coherent _ _ _ G1') Nv Hr C3 EU) as [L3 O3].
  assert (P2' : probs s2 = probs s).
  { rewrite P2. unfold s1'. cbn [probs]. rewrite P1. clear. induction (probs s); cbn; auto. now rewrite IHl. }
  assert (RC : forall d, refcount d s2 = refcount d s) by (intros d; unfold refcount, live; now rewrite P2').
  assert (GR : forall d, refcount d s <> 0 -> grp1 d = grp d).
  { intros d Hd. apply refcount_pos in Hd. destruct Hd as (x & Hx & Vx).
    pose proof (g_built _ _ _ G) as FB. rewrite Forall_forall in FB. destruct (is_variable_group uses x d (FB x Hx) Vx) as (g & Eg).
    rewrite (g_group _ _ _ G x d g Hx Eg). apply (g_group _ _ _ G1 x d g); auto. unfold live. rewrite P1, map_app. apply in_or_app. now left. }
  assert (CT : counts s2 = counts s).
  { apply (mext _ Natcompare_order); [apply G2|apply G|]. intros d.
    rewrite (c_counts _ _ _ (g_coherent _ _ _ G2)), (c_counts _ _ _ (g_coherent _ _ _ G)), RC. specialize (GR d).
    destruct (refcount d s); auto. now rewrite GR. }
  assert (R1 : forall d, refcount d s1' = refcount d s + inb d (map fst vs)).
  { intros d. unfold refcount, live, s1'. cbn [probs]. rewrite P1, map_app, filter_app, app_length. f_equal. cbn [map snd filter].
    pose proof (d_has _ _ _ _ D d) as Hd. unfold inb. destruct (in_dec Nat.eq_dec d (map fst vs)) as [I|I].
    - apply Hd in I. now rewrite I.
    - destruct (is_variable d p); [exfalso; apply I, Hd; auto|reflexivity]. }
  assert (GL : forall g, glist g s3 = glist g s).
  { intros g. rewrite L3. replace (glist g s1') with (glist g s0) by (unfold s1', glist; cbn [igroups]; now rewrite E1).
    rewrite L0, filter_app. rewrite filter_all, filter_none, app_nil_r; auto.
    - intros d Hd. apply fresh_in in Hd; auto. destruct Hd as [Z Hd]. unfold dying. rewrite R1, Z. unfold inb.
      destruct (in_dec Nat.eq_dec d (map fst vs)); [|contradiction]. cbn. rewrite andb_true_r. apply negb_false_iff. now apply existsb_in.
    - intros d Hd. apply (glist_in s _ grp d g (g_coherent _ _ _ G)) in Hd. destruct Hd as [Z _]. unfold dying. rewrite R1.
      destruct (existsb (Nat.eqb d) (map fst vs)) eqn:X; auto. apply existsb_in in X. unfold inb.
      destruct (in_dec Nat.eq_dec d (map fst vs)); [|contradiction]. cbn [andb].
      destruct (Nat.eqb_spec (refcount d s + 1) 1); auto. lia. }
  assert (IG : igroups s2 = igroups s).
  { rewrite E2. cbn [igroups]. eapply glist_igroups; [exact C3|apply G|exact GL]. }
  unfold same_problem. conj; auto.
  rewrite E2. cbn [iorder]. rewrite O3. unfold s1'. cbn [iorder].
  replace (igroups s3) with (igroups s) by (rewrite <- IG, E2; reflexivity).
  eapply moved_filter; [apply (g_coherent _ _ _ G)|exact ML|exact Hn| |].
  - rewrite <- O0. apply (c_order _ _ _ C0).
  - rewrite <- O0. rewrite E1 in M. exact M.
Qed.

Lemma order_good s grp : good uses s grp -> In m (iorder s) ->
  exists ord, order_marginalized m s = (Inc (probs s) (counts s) (igroups s) ord (ibackup s), Returned) /\ moved m (iorder s) ord /\
    good uses (Inc (probs s) (counts s) (igroups s) ord (ibackup s)) grp /\ exists k, ord = k ++ [m].
Proof.
  intros G Hm. destruct (proj1 (order_marginalized_spec uses m s grp G) Hm) as (ord & E & M). exists ord. conj; auto.
  - apply (good_reorder uses s); auto; cbn; try apply G.
    pose proof (moved_perm _ _ _ M) as Pm. destruct (c_order _ _ _ (g_coherent _ _ _ G)) as [No Ho]. split.
    + eapply Permutation_NoDup; eauto.
    + intros g. rewrite <- Ho. split; apply Permutation_in; auto. now apply Permutation_sym.
  - eapply moved_last; eauto.
Qed.

Lemma remove_fine s grp k s' : good uses s grp -> m_last s -> (forall d, nget d (ibackup s) <> None -> ihas_variable d s = true) ->
  remove k s = (s', Returned) -> good uses s' grp /\ m_last s' /\ (forall d, nget d (ibackup s') <> None -> ihas_variable d s' = true) /\
  probs s' = erase_at k (probs s).
Proof.
  intros G ML Hb E. destruct (nth_error (probs s) k) as [[id p]|] eqn:En; [|unfold remove in E; rewrite En in E; discriminate].
  destruct (remove_ok uses s grp k id p G En) as (x & Ex & P & G' & Bk). assert (x = s') by congruence. subst x. clear Ex.
  destruct (remove_parts _ _ _ _ _ En E) as (s3 & EU & E2).
  assert (Hp : In p (live s)) by (apply in_map_iff; exists (id, p); split; auto; now apply nth_error_In in En).
  pose proof (g_built _ _ _ G) as FB. rewrite Forall_forall in FB.
  destruct (built_described uses p (FB p Hp)) as (vs & ts & D). rewrite (uncount_in_list uses p vs ts D) in EU.
  assert (C3 : coherent s3 (fun d => refcount d s') grp).
  { pose proof (g_coherent _ _ _ G') as [X1 X2 X3 X4]. rewrite E2 in X1, X3, X4. cbn in X1, X3, X4. constructor; auto.
    intros d. rewrite <- X2. now rewrite E2. }
  assert (Hr : forall d, In d (map fst vs) -> refcount d s <> 0).
  { intros d Hd. apply refcount_pos. exists p. split; auto. now apply (d_has _ _ _ _ D). }
  destruct (uncount_list_lists (map fst vs) s _ grp s3 _ _ (g_coherent _ _ _ G) (d_nodup _ _ _ _ D) Hr C3 EU) as [_ O3].
  conj; auto.
  - unfold m_last. rewrite E2. cbn [iorder]. rewrite O3. intros Hm. apply filter_In in Hm. destruct Hm as [Hm Fm].
    destruct (ML Hm) as (l & ->). rewrite filter_app. cbn [filter]. rewrite Fm. eauto.
  - intros d Hd. rewrite (Bk d) in Hd. apply (shows_variable uses s' grp d G'). destruct (Nat.eqb_spec (refcount d s') 0) as [Z|Z]; auto.
    exfalso. destruct (Nat.eqb_spec (refcount d s) 0) as [Z'|Z']; [|congruence]. apply Hb in Hd.
    now apply (shows_variable uses s grp d G) in Hd.
Qed.

Lemma reoptimize_fine a e grp : fine e grp -> fine (fst (reoptimize m a e)) grp /\ probs (prob (fst (reoptimize m a e))) = probs (prob e).
Proof.
  intros [G ML Hb]. unfold reoptimize. destruct (in_dec Nat.eq_dec m (iorder (prob e))) as [I|I].
  - destruct (order_good (prob e) grp G I) as (ord & -> & M & G' & (k & ->)).
    destruct a; cbn; split; auto; constructor; cbn; auto; intros _; cbn; eauto.
  - rewrite (proj2 (order_marginalized_spec uses m (prob e) grp G) I). cbn. split; auto. constructor; auto.
Qed.

Lemma isave_fine s grp w : good uses s grp -> (forall d, nget d (ibackup s) <> None -> ihas_variable d s = true) ->
  good uses (isave w s) grp /\ (forall d, nget d (ibackup (isave w s)) <> None -> ihas_variable d (isave w s) = true) /\
  (forall d, nget d (ibackup (isave w s)) = if ihas_variable d s then Some (w d) else None).
Proof.
  intros G Hb. assert (X : forall d, nget d (ibackup (isave w s)) = if ihas_variable d s then Some (w d) else None).
  { intros d. unfold isave. cbn [ibackup]. rewrite save_all_spec.
    pose proof (mget_in_keys _ Natcompare_order d (counts s) (c_sorted _ _ _ (g_coherent _ _ _ G))) as K.
    unfold ihas_variable in *. destruct (in_dec Nat.eq_dec d (map fst (counts s))) as [I|I].
    - apply K in I. apply nhas_iff in I. now rewrite I.
    - destruct (nhas d (counts s)) eqn:E; [apply nhas_iff in E; apply K in E; contradiction|].
      destruct (nget d (ibackup s)) eqn:Eb; auto. specialize (Hb d). rewrite Eb, E in Hb. discriminate Hb. discriminate. }
  conj; auto.
  - apply (good_reorder uses s); auto; cbn; try apply G. apply save_all_sorted, G.
  - intros d. rewrite X. change (ihas_variable d (isave w s)) with (ihas_variable d s). destruct (ihas_variable d s); congruence.
Qed.

(** The three ways of add_batch once add() has accepted the batch. *)
Lemma add_grows s s' grp grp' b : good uses s grp -> good uses s' grp' -> probs s' = probs s ++ [b] ->
  forall d, ihas_variable d s = true -> ihas_variable d s' = true.
Proof.
  intros G G' P d V. apply (shows_variable uses s grp d G), refcount_pos in V. destruct V as (x & Hx & Vx).
  apply (shows_variable uses s' grp' d G'), refcount_pos. exists x. split; auto. unfold live. rewrite P, map_app. apply in_or_app. now left.
Qed.

Lemma restore_back s grp w w' : good uses s grp -> (forall d, nget d (ibackup s) = if ihas_variable d s then Some (w d) else None) ->
  forall d, irestore s (updated s w w') d = w d.
Proof.
  intros G X d. unfold irestore. rewrite restore_all_spec by apply G. rewrite X. unfold updated. now destruct (ihas_variable d s).
Qed.

Lemma find_batch_app id b l : ~ In id (map fst l) -> find_batch id (l ++ [(id, b)]) = Some (length l).
Proof.
  induction l as [|[i p] l IH]; cbn; intros N; [now rewrite Nat.eqb_refl|]. destruct (Nat.eqb_spec i id) as [-> |E]; [tauto|].
  rewrite IH; tauto.
Qed.
Lemma find_batch_some id l : In id (map fst l) -> exists k, find_batch id l = Some k.
Proof. intros H. destruct (find_batch id l) eqn:E; eauto. apply (find_batch_none uses) in E. contradiction. Qed.

Inductive added (id : nat) (b : problem) (o : opts) (f : bool) (a : answer) (e : est) : est * ending * option verdict -> Prop :=
| added_no_group p1 : (forall d, group_of d b <> Ok m) -> ~ In m (iorder (prob e)) -> probs p1 = probs (prob e) ++ [(id, b)] ->
    added id b o f a e (Est p1 (vals e) (stat e), Threw, None)
| added_fails p1 v w : a = Fails v -> probs p1 = probs (prob e) ++ [(id, b)] ->
    (forall d, w d = if ihas_variable d p1 then v d else vals e d) ->
    added id b o f a e (Est p1 w (stat e), Threw, None)
| added_kept p1 r w : a = Optimized r -> keep o f (stat e) r = true -> probs p1 = probs (prob e) ++ [(id, b)] ->
    (forall d, w d = if ihas_variable d p1 then r_values r d else vals e d) ->
    let g := fmul fhalf (fsub (r_log2sum r) (log2sum (stat e))) in
    added id b o f a e (Est p1 w (Stats g (r_log2sum r) (r_rank r) (j_start r) (j_final r) (r_rest r)), Returned, Some (Verdict true g))
| added_rejected p1 r w k : a = Optimized r -> keep o f (stat e) r = false -> find_batch id (probs (prob e) ++ [(id, b)]) = Some k ->
    probs p1 = erase_at k (probs (prob e) ++ [(id, b)]) ->
    (forall d, w d = vals e d) -> (~ In id (map fst (probs (prob e))) -> same_problem p1 (prob e)) ->
    added id b o f a e (Est p1 w (stat e), Returned, Some (Verdict false (fmul fhalf (fsub (r_log2sum r) (log2sum (stat e)))))).

Lemma add_batch_cases id b o f a e grp : fine e grp -> built uses b -> fits b (prob e) ->
  added id b o f a e (add_batch m o f (Some (id, b)) a e) /\ exists grp', fine (fst (fst (add_batch m o f (Some (id, b)) a e))) grp'.
Proof.
  intros [G ML Hb] B F. destruct (proj1 (add_cases uses (prob e) grp id b G B) F) as (p1 & EA & P1 & B1 & grp1 & G1).
  unfold add_batch. rewrite EA.
  assert (Hb1 : forall d, nget d (ibackup p1) <> None -> ihas_variable d p1 = true).
  { intros d Hd. rewrite B1 in Hd. exact (add_grows _ _ _ _ _ G G1 P1 d (Hb d Hd)). }
  assert (Ord : forall g, In g (iorder p1) <-> exists x d, In x (live p1) /\ group_of d x = Ok g).
  { intros g. rewrite (proj2 (c_order _ _ _ (g_coherent _ _ _ G1)) g), in_map_iff. split.
    - intros ([d y] & <- & H). apply (mem_shows uses p1 grp1 d y G1) in H. destruct H as (x & H). exists x, d. exact H.
    - intros (x & d & H). exists (d, g). split; auto. apply (mem_shows uses p1 grp1 d g G1). eauto. }
  destruct (in_dec Nat.eq_dec m (iorder p1)) as [I|I].
  - destruct (order_good p1 grp1 G1 I) as (ord & -> & M & G2 & (k & Ek)). set (p2 := Inc (probs p1) (counts p1) (igroups p1) ord (ibackup p1)) in *.
    assert (ML2 : m_last p2) by (intros _; eauto).
    destruct (isave_fine p2 grp1 (vals e) G2 Hb1) as (G3 & Hb3 & X3).
    set (p3 := if f then p2 else isave (vals e) p2).
    assert (F3 : good uses p3 grp1 /\ m_last p3 /\ (forall d, nget d (ibackup p3) <> None -> ihas_variable d p3 = true) /\ probs p3 = probs (prob e) ++ [(id, b)]).
    { unfold p3. destruct f; conj; auto; try exact P1; exact ML2. }
    destruct F3 as (G3' & ML3 & Hb3' & P3).
    destruct a as [r|v].
    + destruct (keep o f (stat e) r) eqn:K.
      * cbn [fst]. split; [now apply added_kept with (p1 := p3) (r := r)|]. exists grp1. constructor; auto.
      * assert (f = false) by (destruct f; auto; unfold keep in K; rewrite orb_true_r in K; discriminate). subst f.
        unfold p3 in *. clear p3. set (p3 := isave (vals e) p2) in *. unfold remove_batch.
        destruct (find_batch_some id (probs p3)) as (j & Ej); [rewrite P3, map_app; apply in_or_app; right; now left|]. rewrite Ej.
        destruct (find_batch_spec _ _ _ Ej) as (p & En). destruct (remove_ok uses p3 grp1 j id p G3 En) as (p4 & ER & _).
        rewrite ER. destruct (remove_fine p3 grp1 j p4 G3 ML3 Hb3 ER) as (G4 & ML4 & Hb4 & P4). cbn [fst]. split; [|exists grp1; constructor; auto].
        apply added_rejected with (k := j); auto.
        -- now rewrite <- P3.
        -- now rewrite <- P3.
        -- intros d. apply (restore_back p3 grp1); auto.
        -- intros N. rewrite P3, (find_batch_app id b _ N) in Ej. injection Ej as <-.
           apply (undo (prob e) grp id b p1 ord (ibackup p3) p4); auto. apply G3.
    + cbn [fst]. split; [now apply added_fails with (p1 := p3) (v := v)|]. exists grp1. constructor; auto.
  - rewrite (proj2 (order_marginalized_spec uses m p1 grp1 G1) I). cbn [fst]. split.
    + apply added_no_group; auto.
      * intros d Ed. apply I, Ord. exists b, d. split; auto. unfold live. rewrite P1, map_app. apply in_or_app. right. now left.
      * intros X. apply I, Ord. rewrite (proj2 (c_order _ _ _ (g_coherent _ _ _ G)) m), in_map_iff in X.
        destruct X as ([d y] & Ey & H). cbn in Ey. subst y. apply (mem_shows uses (prob e) grp d m G) in H. destruct H as (x & Hx & H).
        exists x, d. split; auto. unfold live. rewrite P1, map_app. apply in_or_app. now left.
    + exists grp1. constructor; auto. intros X. contradiction.
Qed.

Lemma remove_at_fine e grp i a : fine e grp -> exists grp', fine (fst (remove_at m i a e)) grp'.
Proof.
  intros [G ML Hb]. unfold remove_at. destruct (remove i (prob e)) as [p x] eqn:E. destruct x.
  - destruct (remove_fine (prob e) grp i p G ML Hb E) as (G' & ML' & Hb' & _). exists grp. apply reoptimize_fine. constructor; auto.
  - exists grp. assert (p = prob e) as ->; [|constructor; auto].
    unfold remove in E. destruct (nth_error (probs (prob e)) i) as [[id b]|] eqn:En; [|congruence].
    destruct (remove_ok uses (prob e) grp i id b G En) as (p' & E' & _). unfold remove in E'. rewrite En in E'. congruence.
  - exfalso. unfold remove in E. destruct (nth_error (probs (prob e)) i) as [[id b]|] eqn:En; [|congruence].
    destruct (remove_ok uses (prob e) grp i id b G En) as (p' & E' & _). unfold remove in E'. rewrite En in E'. congruence.
  - exfalso. unfold remove in E. destruct (nth_error (probs (prob e)) i) as [[id b]|] eqn:En; [|congruence].
    destruct (remove_ok uses (prob e) grp i id b G En) as (p' & E' & _). unfold remove in E'. rewrite En in E'. congruence.
Qed.
Lemma other_fine e grp o : fine e grp -> is_eadd o = false -> exists grp', fine (fst (fst (estep m e o))) grp'.
Proof.
  intros Fe Ho. destruct o as [op f [b|] a|i a|id a|a|d v]; cbn [estep is_eadd fst] in *; try discriminate.
  - cbn. exists grp. destruct Fe. constructor; auto.
  - now apply remove_at_fine with (grp := grp).
  - unfold remove_known. destruct (find_batch id (probs (prob e))); [now apply remove_at_fine with (grp := grp)|]. cbn. eauto.
  - exists grp. now apply reoptimize_fine.
  - cbn. exists grp. destruct Fe. constructor; auto.
Qed.
Lemma reachable_fine e : reachable_est uses m e -> exists grp, fine e grp.
Proof.
  induction 1 as [w|e o f id b a R (grp & IH) B F|e o R (grp & IH) Ho].
  - exists (fun _ => 0). constructor; cbn.
    + apply good_empty.
    + intros [].
    + congruence.
  - cbn [estep]. exact (proj2 (add_batch_cases id b o f a e grp IH B F)).
  - now apply other_fine with (grp := grp).
Qed.
End Undo.

(** ** Where the marginalized columns start *)
Lemma sum_dims_spec active dim l : forall acc, sum_dims active dim l acc = acc + list_sum (map dim (filter active l)).
Proof.
  induction l as [|d l IH]; intros acc; cbn [sum_dims filter map]; [cbn; lia|].
  rewrite IH. destruct (active d); cbn [map]; [|lia]. change (list_sum (dim d :: ?x)) with (dim d + list_sum x). lia.
Qed.
Lemma igroup_dim_spec active dim g s l : nget g (igroups s) = Some l -> igroup_dim active dim g s = Ok (list_sum (map dim (filter active l))).
Proof. intros E. unfold igroup_dim, iget_group. rewrite E. cbn [obind]. now rewrite sum_dims_spec. Qed.
Lemma total_dim_spec active dim s ord : (forall g, In g ord -> nget g (igroups s) <> None) -> forall acc,
  total_dim active dim ord s acc = Ok (acc + list_sum (map dim (filter active (enum (igroups s) ord)))).
Proof.
  induction ord as [|g ord IH]; intros H acc; cbn [total_dim]; [cbn; f_equal; lia|].
  destruct (nget g (igroups s)) as [l|] eqn:E; [|exfalso; apply (H g); [now left|exact E]].
  rewrite (igroup_dim_spec active dim g s l E). cbn [obind]. rewrite IH by (intros x Hx; apply H; now right).
  f_equal. unfold enum. cbn [flat_map]. unfold group_list at 2. rewrite E.
  rewrite filter_app, map_app, list_sum_app. lia.
Qed.
