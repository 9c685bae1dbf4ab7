From Coq Require Import ZArith List Arith Bool Lia.
From Verif Require Import KnsModel KnsSpec.
Import ListNotations.
Local Open Scope Z_scope.

Lemma sect_some : forall t l i j, sect t i l = Some j -> exists k, j = (i + k)%nat /\ inside t l k.
Proof.
  intros t l; induction l as [|a l IH]; intros i j H; [discriminate H |].
  destruct l as [|b l]; [discriminate H |]. cbn [sect] in H.
  destruct ((a <? t) && (t <? b)) eqn:E.
  - injection H as <-. exists 0%nat. split; [lia |]. apply andb_true_iff in E. destruct E as [E1 E2].
    apply Z.ltb_lt in E1, E2. exists a, b. split; [reflexivity |]. split; [reflexivity | lia].
  - destruct (IH (S i) j H) as [k [K1 [x [y K2]]]]. exists (S k). split; [lia |]. exists x, y. exact K2.
Qed.

Lemma sect_none : forall t l i, sect t i l = None -> forall k, ~ inside t l k.
Proof.
  intros t l; induction l as [|a l IH]; intros i H k [x [y [A [B C]]]]; [destruct k; discriminate A |].
  destruct l as [|b l]; [destruct k as [|[|k]]; discriminate B |]. cbn [sect] in H.
  destruct ((a <? t) && (t <? b)) eqn:E; [discriminate H |].
  destruct k as [|k].
  - injection A as <-. injection B as <-. apply andb_false_iff in E.
    destruct E as [E | E]; apply Z.ltb_ge in E; lia.
  - apply (IH (S i) H k). exists x, y. split; [exact A |]. split; [exact B | exact C].
Qed.

Lemma nth_skipn : forall (A : Type) i (l : list A) k, nth_error (skipn i l) k = nth_error l (i + k).
Proof.
  intros A i; induction i as [|i IH]; intros l k; [reflexivity |]. destruct l as [|x l]; [destruct k; reflexivity |]. apply IH.
Qed.

Lemma inside_skipn : forall t l i k, inside t (skipn i l) k <-> inside t l (i + k).
Proof. intros t l i k. unfold inside. rewrite !nth_skipn. replace (i + S k)%nat with (S (i + k)) by lia. reflexivity. Qed.

Lemma is_disabled_spec : forall dis t, is_disabled dis t = false -> forall u v, In (u, v) dis -> ~ (u <= t < v).
Proof.
  intros dis t H u v I C. unfold is_disabled in H.
  assert (X : existsb (fun seg => (t <? snd seg) && (fst seg <=? t)) dis = true).
  { apply existsb_exists. exists (u, v). split; [exact I |]. simpl. apply andb_true_iff.
    split; [apply Z.ltb_lt | apply Z.leb_le]; lia. }
  congruence.
Qed.

Lemma gen_refines : forall maxk dis knots errs, length errs = length knots ->
  refines (may_split maxk dis) knots (gen maxk dis errs knots).
Proof.
  intros maxk dis knots; induction knots as [|a ks IH]; intros [|en es] L; try discriminate L; [constructor |].
  injection L as L. specialize (IH es L). simpl. destruct ks as [|b ks].
  - destruct es; [constructor | discriminate L].
  - unfold extra. destruct ((snd en <? fst en) && negb ((a + b) / 2 - a <=? maxk) && negb (is_disabled dis ((a + b) / 2))) eqn:E.
    + apply r_split; [| exact IH]. apply andb_true_iff in E. destruct E as [E E3]. apply andb_true_iff in E. destruct E as [_ E2].
      apply negb_true_iff in E2, E3. apply Z.leb_gt in E2. split; [exact E2 | exact (is_disabled_spec dis _ E3)].
    + apply r_keep. exact IH.
Qed.

Lemma refines_head : forall ok a l r, refines ok (a :: l) r -> exists r', r = a :: r'.
Proof. intros ok a l r H. inversion H; subst; eexists; reflexivity. Qed.

Lemma refines_gaps : forall maxk dis l r, refines (may_split maxk dis) l r -> gaps maxk l -> gaps maxk r.
Proof.
  intros maxk dis l r H; induction H as [| k | a b l r H IH | a b l r [O _] H IH]; intros G.
  - exact G.
  - exact G.
  - assert (T : gaps maxk (b :: l)) by (intros i x y X Y; exact (G (S i) x y X Y)).
    specialize (IH T). destruct (refines_head _ _ _ _ H) as [r' ->].
    intros [|i] x y X Y; [| exact (IH i x y X Y)]. injection X as <-. injection Y as <-.
    apply (G 0%nat); reflexivity.
  - assert (T : gaps maxk (b :: l)) by (intros i x y X Y; exact (G (S i) x y X Y)).
    specialize (IH T). destruct (refines_head _ _ _ _ H) as [r' ->].
    intros [|[|i]] x y X Y; [| | exact (IH i x y X Y)].
    + injection X as <-. injection Y as <-. exact O.
    + injection X as <-. injection Y as <-.
      pose proof (Z.mul_div_le (a + b) 2 ltac:(lia)). lia.
Qed.

Lemma refines_ends : forall ok l r d, refines ok l r -> hd d r = hd d l /\ last r d = last l d.
Proof.
  intros ok l r d H; induction H as [| k | a b l r H IH | a b l r O H IH]; simpl; try (split; reflexivity).
  - split; [reflexivity |]. destruct (refines_head _ _ _ _ H) as [r' ->]. destruct IH as [_ IH]. exact IH.
  - split; [reflexivity |]. destruct (refines_head _ _ _ _ H) as [r' ->]. destruct IH as [_ IH]. exact IH.
Qed.

Lemma refines_in : forall ok l r x, refines ok l r -> In x l -> In x r.
Proof.
  intros ok l r x H; induction H as [| k | a b l r H IH | a b l r O H IH]; intros I; [exact I | exact I | |].
  - destruct I as [I | I]; [left; exact I | right; exact (IH I)].
  - destruct I as [I | I]; [left; exact I | right; right; exact (IH I)].
Qed.

Lemma bump_length : forall l k e, length (bump k e l) = length l.
Proof. induction l as [|[x n] l IH]; intros [|k] e; simpl; [reflexivity | reflexivity | reflexivity | rewrite IH; reflexivity]. Qed.

Lemma per_segment_length : forall data knots, length (per_segment data knots) = length knots.
Proof.
  intros data knots. unfold per_segment. generalize (@None nat).
  assert (G : forall acc prev, length (per_segment_from data knots prev acc) = length acc).
  { induction data as [|[t e] data IH]; intros acc prev; simpl; [reflexivity |]. rewrite IH. apply bump_length. }
  intros p. rewrite G. apply repeat_length.
Qed.

(** What is generated stops after as many of the knots as were kept. *)
Lemma gen_last : forall maxk dis errs knots x, In x (gen maxk dis errs knots) ->
  exists i a, (i < length errs)%nat /\ nth_error knots i = Some a /\
    (x = a \/ exists b, nth_error knots (S i) = Some b /\ x = (a + b) / 2).
Proof.
  intros maxk dis errs; induction errs as [|en es IH]; intros [|a ks] x H; try (destruct H; fail).
  simpl in H. destruct H as [<- | H].
  - exists 0%nat, a. split; [simpl; lia |]. split; [reflexivity | left; reflexivity].
  - apply in_app_or in H. destruct H as [H | H].
    + unfold extra in H. destruct ks as [|b ks]; [destruct H |]. destruct (_ && _); [| destruct H]. destruct H as [<- | []].
      exists 0%nat, a. split; [simpl; lia |]. split; [reflexivity |]. right. exists b. split; reflexivity.
    + destruct (IH ks x H) as [i [c [A [B C]]]]. exists (S i), c. split; [simpl; lia |]. split; [exact B | exact C].
Qed.

Lemma before_app : forall x l p, before x l = Some p -> exists y r, l = p ++ y :: r /\ x <= y /\ forall z, In z p -> z < x.
Proof.
  intros x l; induction l as [|y l IH]; intros p H; [discriminate H |]. simpl in H.
  destruct (Z.ltb_spec y x) as [L | L].
  - destruct (before x l) as [q |]; [| discriminate H]. injection H as <-.
    destruct (IH q eq_refl) as [z [r [A [B C]]]]. exists z, r. split; [rewrite A; reflexivity |]. split; [exact B |].
    intros w [<- | W]; [exact L | exact (C w W)].
  - injection H as <-. exists y, l. split; [reflexivity |]. split; [exact L | intros z []].
Qed.

Lemma after_app : forall x l acc q, after x l acc = Some q ->
  exists u y v, l = u ++ y :: v /\ q = y :: rev u ++ acc /\ y <= x /\ forall z, In z u -> x < z.
Proof.
  intros x l; induction l as [|y l IH]; intros acc q H; [discriminate H |]. simpl in H.
  destruct (Z.ltb_spec x y) as [L | L].
  - destruct (IH _ _ H) as [u [w [v [A [B [C D]]]]]]. exists (y :: u), w, v.
    split; [rewrite A; reflexivity |]. split; [rewrite B; simpl; rewrite <- app_assoc; reflexivity |]. split; [exact C |].
    intros z [<- | Z]; [exact L | exact (D z Z)].
  - injection H as <-. exists [], y, l. split; [reflexivity |]. split; [reflexivity |]. split; [exact L | intros z []].
Qed.

Lemma extended_spec : forall old knots r, extended old knots = Some r ->
  exists p q s t y, r = p ++ knots ++ y :: q /\ old = p ++ s /\ old = t ++ y :: q /\
    (forall z, In z p -> z < hd 0 knots) /\ (forall z, In z q -> last knots 0 < z) /\ y <= last knots 0.
Proof.
  intros old knots r H. unfold extended in H. destruct knots as [|k ks]; [discriminate H |].
  destruct (before k old) as [p |] eqn:B; [| discriminate H].
  destruct (after (last (k :: ks) 0) (rev old) []) as [q |] eqn:A; [| discriminate H].
  injection H as <-. apply before_app in B. destruct B as [y [s [B1 [B2 B3]]]].
  apply after_app in A. destruct A as [u [w [v [A1 [A2 [A3 A4]]]]]]. rewrite app_nil_r in A2.
  exists p, (rev u), (y :: s), (rev v), w. split; [rewrite A2; reflexivity |]. split; [exact B1 |]. split.
  - rewrite <- (rev_involutive old), A1, rev_app_distr. simpl. rewrite <- app_assoc. reflexivity.
  - split; [exact B3 |]. split; [| exact A3]. intros z Z. apply A4. apply in_rev. exact Z.
Qed.

Lemma gaps_lt : forall l i j a b, gaps 0 l -> (i < j)%nat -> nth_error l i = Some a -> nth_error l j = Some b -> a < b.
Proof.
  intros l i j a b G L. revert b. induction L as [| j L IH]; intros b A B.
  - specialize (G i a b A B). lia.
  - destruct (nth_error l j) as [c |] eqn:C.
    + specialize (IH c A eq_refl). specialize (G j c b C B). lia.
    + apply nth_error_None in C. assert (X : nth_error l (S j) = None) by (apply nth_error_None; lia). congruence.
Qed.

Lemma gaps_le : forall l i j a b, gaps 0 l -> (i <= j)%nat -> nth_error l i = Some a -> nth_error l j = Some b -> a <= b.
Proof.
  intros l i j a b G L A B. destruct (Nat.eq_dec i j) as [-> | N]; [rewrite A in B; injection B as ->; lia |].
  assert (a < b) by (apply (gaps_lt l i j a b G); [lia | exact A | exact B]). lia.
Qed.

Lemma in_gap_inside : forall l k t, (S k < length l)%nat -> (in_gap l k t = true <-> inside t l k).
Proof.
  intros l k t L. unfold in_gap, inside. rewrite andb_true_iff, Z.ltb_lt, Z.ltb_lt. split.
  - intros [A B]. exists (nth k l 0), (nth (S k) l 0). split; [apply nth_error_nth'; lia |].
    split; [apply nth_error_nth'; exact L | lia].
  - intros [a [b [A [B C]]]]. rewrite (nth_error_nth l k 0 A), (nth_error_nth l (S k) 0 B). lia.
Qed.

Lemma inside_unique : forall l i j t, gaps 0 l -> inside t l i -> inside t l j -> i = j.
Proof.
  assert (H : forall l i j t, gaps 0 l -> inside t l i -> inside t l j -> ~ (i < j)%nat).
  { intros l i j t G [a [b [A [B C]]]] [c [d [D [E F]]]] L.
    assert (b <= c) by (apply (gaps_le l (S i) j b c G); [lia | exact B | exact D]). lia. }
  intros l i j t G A B. pose proof (H l i j t G A B). pose proof (H l j i t G B A). lia.
Qed.

Lemma bump_same : forall l k e, (k < length l)%nat ->
  nth k (bump k e l) (0, 0) = (fst (nth k l (0, 0)) + e, snd (nth k l (0, 0)) + 1).
Proof.
  induction l as [|[x n] l IH]; intros [|k] e L; simpl in *; try lia; [reflexivity |]. apply IH. lia.
Qed.

Lemma bump_other : forall l i k e, i <> k -> nth k (bump i e l) (0, 0) = nth k l (0, 0).
Proof.
  induction l as [|[x n] l IH]; intros [|i] [|k] e N; simpl; try reflexivity; try lia. apply IH. lia.
Qed.

Lemma section_gap : forall l prev t k, gaps 0 l -> (S k < length l)%nat ->
  (forall i, prev = Some i -> exists a, nth_error l i = Some a /\ a < t) ->
  (in_gap l k t = true <-> time2section t l prev = Some k).
Proof.
  intros l prev t k G L P. unfold time2section. rewrite (in_gap_inside l k t L).
  set (i := match prev with Some i => i | None => 0%nat end).
  assert (Q : i = 0%nat \/ exists a, nth_error l i = Some a /\ a < t).
  { destruct prev as [j |]; [right; exact (P j eq_refl) | left; reflexivity]. }
  split.
  - intros I. assert (LE : (i <= k)%nat).
    { destruct Q as [Q | [a [Q1 Q2]]]; [lia |]. destruct (Nat.le_gt_cases i k) as [X | X]; [exact X |].
      destruct I as [c [b [C [B D]]]]. assert (b <= a) by (apply (gaps_le l (S k) i b a G); [lia | exact B | exact Q1]). lia. }
    destruct (sect t i (skipn i l)) as [j |] eqn:S.
    + apply sect_some in S. destruct S as [m [-> S]]. apply inside_skipn in S.
      rewrite (inside_unique l _ k t G S I). reflexivity.
    + exfalso. apply (sect_none t _ i S (k - i)). apply inside_skipn. replace (i + (k - i))%nat with k by lia. exact I.
  - intros S. apply sect_some in S. destruct S as [m [-> S]]. apply inside_skipn in S. exact S.
Qed.

Lemma per_from_spec : forall l k data prev acc, gaps 0 l -> (S k < length l)%nat -> length acc = length l -> in_order data ->
  (forall i t e, prev = Some i -> In (t, e) data -> exists a, nth_error l i = Some a /\ a < t) ->
  nth k (per_segment_from data l prev acc) (0, 0) =
    (fst (nth k acc (0, 0)) + gap_error l k data, snd (nth k acc (0, 0)) + gap_count l k data).
Proof.
  intros l k data; induction data as [|[t e] data IH]; intros prev acc G L A O P.
  - simpl. rewrite !Z.add_0_r. destruct (nth k acc (0, 0)); reflexivity.
  - destruct O as [O1 O2]. cbn [per_segment_from].
    assert (SG : in_gap l k t = true <-> time2section t l prev = Some k).
    { apply section_gap; [exact G | exact L |]. intros i E. apply (P i t e E). left; reflexivity. }
    set (s := time2section t l prev) in *. set (j := match s with Some i => i | None => (length acc - 1)%nat end).
    rewrite IH; [| exact G | exact L | rewrite bump_length; exact A | exact O2 |].
    + cbn [gap_error gap_count]. destruct (in_gap l k t) eqn:E.
      * assert (J : j = k) by (unfold j; rewrite (proj1 SG eq_refl); reflexivity). rewrite J, bump_same by lia. cbn [fst snd].
        f_equal; lia.
      * assert (J : j <> k).
        { unfold j. destruct s as [i |] eqn:S; [| lia]. intros ->. destruct SG as [_ SG]. discriminate (SG eq_refl). }
        rewrite bump_other by exact J. f_equal; lia.
    + intros i u f S I. unfold s, time2section in S. apply sect_some in S. destruct S as [m [-> S]].
      apply inside_skipn in S. destruct S as [a [b [S1 [S2 S3]]]]. exists a. split; [exact S1 |].
      specialize (O1 u f I). lia.
Qed.

Lemma per_segment_spec : forall l k data, gaps 0 l -> (S k < length l)%nat -> in_order data ->
  nth k (per_segment data l) (0, 0) = (gap_error l k data, gap_count l k data).
Proof.
  intros l k data G L O. unfold per_segment. rewrite per_from_spec; [| exact G | exact L | apply repeat_length | exact O | discriminate].
  assert (R : forall n, nth k (repeat (0, 0) n) (0, 0) = (0, 0)).
  { intros n. destruct (Nat.lt_ge_cases k n) as [X | X].
    - apply (repeat_spec n (0, 0)). apply nth_In. rewrite repeat_length. exact X.
    - apply nth_overflow. rewrite repeat_length. exact X. }
  rewrite R. reflexivity.
Qed.

(** Which gaps are split. *)
Lemma gen_splits : forall maxk dis errs knots i a b, (i < length errs)%nat ->
  nth_error knots i = Some a -> nth_error knots (S i) = Some b ->
  snd (nth i errs (0, 0)) < fst (nth i errs (0, 0)) -> may_split maxk dis a b ->
  In ((a + b) / 2) (gen maxk dis errs knots).
Proof.
  intros maxk dis errs; induction errs as [|en es IH]; intros [|x ks] i a b L A B E [M1 M2];
    [simpl in L; lia | simpl in L; lia | destruct i; discriminate A |].
  destruct i as [|i].
  - injection A as ->. destruct ks as [|y ks]; [discriminate B |]. injection B as ->. right. simpl in E.
    apply in_or_app; left. unfold extra.
    assert (X : (snd en <? fst en) && negb ((a + b) / 2 - a <=? maxk) && negb (is_disabled dis ((a + b) / 2)) = true).
    { apply andb_true_iff. split; [apply andb_true_iff; split |].
      - apply Z.ltb_lt; exact E.
      - apply negb_true_iff, Z.leb_gt; exact M1.
      - apply negb_true_iff. destruct (is_disabled dis ((a + b) / 2)) eqn:D; [| reflexivity].
        unfold is_disabled in D. apply existsb_exists in D. destruct D as [[u v] [D1 D2]]. simpl in D2.
        apply andb_true_iff in D2. destruct D2 as [D2 D3]. apply Z.ltb_lt in D2. apply Z.leb_le in D3.
        exfalso. apply (M2 u v D1). lia. }
    rewrite X. left; reflexivity.
  - right. apply in_or_app; right. apply (IH ks i a b); [simpl in L; lia | exact A | exact B | exact E | split; assumption].
Qed.

Lemma kept_disabled : forall n all errs knots i p, length errs = length knots ->
  (length (kept_from n i p errs knots) + length (disabled_from n i p errs knots all) = length knots)%nat.
Proof.
  intros n all errs; induction errs as [|e es IH]; intros [|k ks] i p L; try discriminate L; [reflexivity |].
  injection L as L. simpl. destruct (_ && _); simpl; specialize (IH ks (S i) e L); lia.
Qed.

Lemma kept_all : forall errs knots, length errs = length knots -> kept errs knots = knots ->
  disabled_from (length errs) 0 0 errs knots knots = [].
Proof.
  intros errs knots L K. pose proof (kept_disabled (length errs) knots errs knots 0 0 L) as H.
  unfold kept in K. rewrite K in H. apply length_zero_iff_nil. lia.
Qed.

Lemma knot_list_kept : forall maxk data knots dis, kept (map fst (per_segment data knots)) knots = knots ->
  knot_list maxk data knots dis = gen maxk dis (per_segment data knots) knots.
Proof.
  intros maxk data knots dis K. unfold knot_list. rewrite K, kept_all, app_nil_r; [reflexivity | | exact K].
  rewrite map_length. apply per_segment_length.
Qed.

Lemma gen_only : forall maxk dis errs knots x, In x (gen maxk dis errs knots) -> In x knots \/
  exists i a b, nth_error knots i = Some a /\ nth_error knots (S i) = Some b /\
    snd (nth i errs (0, 0)) < fst (nth i errs (0, 0)) /\ x = (a + b) / 2.
Proof.
  intros maxk dis errs; induction errs as [|en es IH]; intros [|a ks] x H; try (destruct H; fail).
  simpl in H. destruct H as [<- | H]; [left; left; reflexivity |]. apply in_app_or in H. destruct H as [H | H].
  - unfold extra in H. destruct ks as [|b ks]; [destruct H |].
    destruct ((snd en <? fst en) && negb ((a + b) / 2 - a <=? maxk) && negb (is_disabled dis ((a + b) / 2))) eqn:E; [| destruct H].
    destruct H as [<- | []]. apply andb_true_iff in E. destruct E as [E _]. apply andb_true_iff in E. destruct E as [E _].
    apply Z.ltb_lt in E. right. exists 0%nat, a, b. split; [reflexivity |]. split; [reflexivity |]. split; [exact E | reflexivity].
  - destruct (IH ks x H) as [I | [i [c [d [A [B C]]]]]]; [left; right; exact I |].
    right. exists (S i), c, d. split; [exact A |]. split; [exact B | exact C].
Qed.
