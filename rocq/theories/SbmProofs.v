(** Proofs about the block matrix that hold in any arithmetic. *)
From Coq Require Import ZArith List Bool Lia.
From Verif Require Import Base Arith OMap JacModel SbmModel SbmSpec.
Import ListNotations.
Open Scope nat_scope.

(** ** Layouts. *)
Lemma size_base l b : size_of l b = base_of l (S b) - base_of l b.
Proof. destruct b; [cbn [size_of base_of]; lia | reflexivity]. Qed.

Lemma total_base l : total l = base_of l (length l).
Proof.
  unfold total. induction l as [ | x l IH] using rev_ind; [reflexivity | ].
  rewrite last_last, app_length. cbn [length]. rewrite Nat.add_1_r. cbn [base_of].
  rewrite app_nth2 by lia. now rewrite Nat.sub_diag.
Qed.

Lemma layout_mono l : layout l -> forall a b, a <= b -> b <= length l ->
  base_of l a <= base_of l b.
Proof.
  intros L a b H. induction H as [ | b H IH]; intro Hb; [lia | ].
  specialize (IH ltac:(lia)). specialize (L b ltac:(lia)). lia.
Qed.

Lemma layout_total l b : layout l -> b < length l -> base_of l b + size_of l b <= total l.
Proof.
  intros L H. rewrite size_base, total_base.
  pose proof (layout_mono l L (S b) (length l) ltac:(lia) ltac:(lia)).
  specialize (L b H). lia.
Qed.

Lemma layout_cons x l : layout (x :: l) ->
  forall b, b < length l -> nth b (x :: l) 0 <= nth b l 0.
Proof.
  intros L b H. specialize (L (S b)). cbn [base_of nth length] in L.
  specialize (L ltac:(lia)). exact L.
Qed.

(** std::upper_bound finds the block of a scalar index. *)
Lemma upper_bound_spec l r : upper_bound l r <= length l /\
  (upper_bound l r < length l -> r < base_of l (S (upper_bound l r))) /\
  base_of l (upper_bound l r) <= r.
Proof.
  induction l as [ | x l IH]; [cbn; lia | ].
  cbn [upper_bound]. destruct (Nat.ltb_spec r x) as [H | H].
  - cbn [base_of nth length]. lia.
  - destruct IH as (I1 & I2 & I3). conj.
    + cbn [length]. lia.
    + intro K. cbn [length] in K. specialize (I2 ltac:(lia)). exact I2.
    + cbn [base_of]. destruct (upper_bound l r) as [ | q] eqn:E; [exact H | ].
      cbn [nth]. exact I3.
Qed.

Lemma upper_bound_unique l b r : layout l -> b < length l ->
  base_of l b <= r -> r < base_of l (S b) -> upper_bound l r = b.
Proof.
  intros L Hb H1 H2. destruct (upper_bound_spec l r) as (U1 & U2 & U3).
  destruct (Nat.lt_trichotomy (upper_bound l r) b) as [H | [H | H]]; [ | exact H | ].
  - specialize (U2 ltac:(lia)).
    pose proof (layout_mono l L (S (upper_bound l r)) b ltac:(lia) ltac:(lia)). lia.
  - pose proof (layout_mono l L (S b) (upper_bound l r) ltac:(lia) ltac:(lia)). lia.
Qed.

Lemma locate l r : layout l -> r < total l ->
  exists b i, b < length l /\ i < size_of l b /\ r = base_of l b + i /\ upper_bound l r = b.
Proof.
  intros L H. destruct (upper_bound_spec l r) as (U1 & U2 & U3).
  assert (K : upper_bound l r < length l).
  { destruct (Nat.eq_dec (upper_bound l r) (length l)) as [E | E]; [ | lia].
    rewrite E in U3. rewrite total_base in H. lia. }
  specialize (U2 K). exists (upper_bound l r), (r - base_of l (upper_bound l r)).
  conj; [exact K | | lia | reflexivity]. rewrite size_base. lia.
Qed.

Lemma locate_back l b i : layout l -> b < length l -> i < size_of l b ->
  base_of l b + i < total l /\ upper_bound l (base_of l b + i) = b.
Proof.
  intros L Hb Hi. pose proof (layout_total l b L Hb). split; [lia | ].
  apply upper_bound_unique; try assumption; [lia | ]. rewrite size_base in Hi. lia.
Qed.

Lemma locate_inj l b i b' i' : layout l -> b < length l -> i < size_of l b ->
  b' < length l -> i' < size_of l b' -> base_of l b + i = base_of l b' + i' -> b = b' /\ i = i'.
Proof.
  intros L Hb Hi Hb' Hi' E.
  destruct (locate_back l b i L Hb Hi) as [_ U].
  destruct (locate_back l b' i' L Hb' Hi') as [_ U'].
  assert (b = b') by congruence. subst. lia.
Qed.

Lemma partial_sums_length l : forall s, length (partial_sums s l) = length l.
Proof. induction l as [ | x l IH]; intro s; cbn [partial_sums length]; [reflexivity | now rewrite IH]. Qed.

Lemma partial_sums_base l : forall s b, b <= length l ->
  base_of (partial_sums s l) b = match b with O => 0 | _ => s + list_sum (firstn b l) end.
Proof.
  assert (G : forall b s, b < length l -> nth b (partial_sums s l) 0 = s + list_sum (firstn (S b) l)).
  { induction l as [ | x l IH]; intros b s H; [cbn in H; lia | ].
    destruct b as [ | b].
    - cbn [partial_sums nth firstn list_sum fold_right]. lia.
    - cbn [partial_sums nth]. rewrite IH by (cbn in H; lia).
      cbn [firstn list_sum fold_right]. fold (list_sum (firstn (S b) l)).
      change (fold_right Nat.add 0 (firstn b l)) with (list_sum (firstn b l)).
      cbn [firstn]. destruct l; cbn [firstn list_sum fold_right]; try lia. }
  intros s b H. destruct b; [reflexivity | ]. cbn [base_of]. apply G. lia.
Qed.

Lemma list_sum_firstn_S l b : b < length l ->
  list_sum (firstn (S b) l) = list_sum (firstn b l) + nth b l 0.
Proof.
  revert b. induction l as [ | x l IH]; intros b H; [cbn in H; lia | ].
  destruct b as [ | b]; [cbn; lia | ].
  cbn [length] in H. specialize (IH b ltac:(lia)).
  change (firstn (S (S b)) (x :: l)) with (x :: firstn (S b) l).
  change (firstn (S b) (x :: l)) with (x :: firstn b l).
  change (list_sum (x :: firstn (S b) l)) with (x + list_sum (firstn (S b) l)).
  change (list_sum (x :: firstn b l)) with (x + list_sum (firstn b l)).
  cbn [nth]. lia.
Qed.

Lemma partial_sums_base0 l b : b <= length l -> base_of (partial_sums 0 l) b = list_sum (firstn b l).
Proof. intro H. rewrite partial_sums_base by exact H. now destruct b. Qed.

Lemma partial_sums_layout l : layout (partial_sums 0 l).
Proof.
  intros b H. rewrite partial_sums_length in H.
  rewrite !partial_sums_base0 by lia. rewrite list_sum_firstn_S by exact H. lia.
Qed.

Lemma partial_sums_size l b : b < length l -> size_of (partial_sums 0 l) b = nth b l 0.
Proof.
  intro H. rewrite size_base, !partial_sums_base0 by lia.
  rewrite list_sum_firstn_S by exact H. lia.
Qed.

Lemma same_layout_iff a b : same_layout a b = true <-> a = b.
Proof.
  unfold same_layout. rewrite andb_true_iff, Nat.eqb_eq, forallb_forall. split.
  - intros [H K]. revert b H K. induction a as [ | x a IH]; intros [ | y b] H K; try discriminate H; [reflexivity | ].
    f_equal.
    + apply Nat.eqb_eq. apply (K (x, y)). now left.
    + apply IH; [now injection H | ]. intros p Hp. apply K. now right.
  - intros <-. split; [reflexivity | ]. intros [x y] H. apply Nat.eqb_eq. cbn [fst snd].
    induction a as [ | z a IH]; [destruct H | ].
    destruct H as [[= -> ->] | H]; [reflexivity | auto].
Qed.

(** ** Blocks. *)
Lemma put_nth_length {V} (v : V) l : forall i, length (put_nth i v l) = length l.
Proof. induction l as [ | x l IH]; intros [ | i]; cbn [put_nth length]; auto. Qed.

Lemma nth_error_put_nth {V} (v : V) l : forall i j, i < length l ->
  nth_error (put_nth i v l) j = if i =? j then Some v else nth_error l j.
Proof.
  induction l as [ | x l IH]; intros i j H; [cbn in H; lia | ].
  destruct i as [ | i], j as [ | j]; cbn [put_nth nth_error Nat.eqb]; try reflexivity.
  apply IH. cbn in H. lia.
Qed.

Section Gen.
Variable A : Arith.
Notation num := (num A).
Notation zero := (of_Z A 0).
Notation mat := (mat A).
Notation sbm := (sbm A).

Lemma get_blk (m : sbm) r c : c < length (bcols m) -> get A r c m = Ok (blk m r c).
Proof.
  intro H. unfold get, blk. destruct (nth_error (bcols m) c) eqn:E; [reflexivity | ].
  apply nth_error_None in E. lia.
Qed.

Lemma blk_in_cols (m : sbm) r c : blk m r c <> None -> c < length (bcols m).
Proof.
  unfold blk. destruct (nth_error (bcols m) c) eqn:E; [ | congruence]. intros _.
  apply nth_error_Some. congruence.
Qed.

Lemma put_cols r c B (m : sbm) : length (bcols (put A r c B m)) = length (bcols m).
Proof.
  unfold put. destruct (nth_error (bcols m) c); [ | reflexivity].
  cbn [bcols]. apply put_nth_length.
Qed.
Lemma put_rbi r c B (m : sbm) : rbi (put A r c B m) = rbi m.
Proof. unfold put. now destruct (nth_error (bcols m) c). Qed.
Lemma put_cbi r c B (m : sbm) : cbi (put A r c B m) = cbi m.
Proof. unfold put. now destruct (nth_error (bcols m) c). Qed.
Lemma put_owns r c B (m : sbm) : owns (put A r c B m) = owns m.
Proof. unfold put. now destruct (nth_error (bcols m) c). Qed.

Lemma put_blk r c B (m : sbm) : c < length (bcols m) -> forall r' c',
  blk (put A r c B m) r' c' = if (r =? r') && (c =? c') then Some B else blk m r' c'.
Proof.
  intros H r' c'. unfold put. destruct (nth_error (bcols m) c) as [col | ] eqn:E;
    [ | apply nth_error_None in E; lia].
  unfold blk. cbn [bcols]. rewrite nth_error_put_nth by exact H.
  destruct (Nat.eqb_spec c c') as [<- | Hc]; [ | now rewrite andb_false_r].
  rewrite andb_true_r, E. destruct (Nat.eqb_spec r r') as [<- | Hr].
  - apply (mget_put_same _ Natcompare_order).
  - apply (mget_put_other _ Natcompare_order). congruence.
Qed.

Lemma put_wf r c B (m : sbm) : wf m -> r < length (rbi m) ->
  shaped A (size_of (rbi m) r) (size_of (cbi m) c) B = true -> wf (put A r c B m).
Proof.
  intros W Hr HB. destruct (Nat.lt_ge_cases c (length (bcols m))) as [Hc | Hc].
  - constructor.
    + rewrite put_cols, put_cbi. apply W.
    + rewrite put_rbi. apply W.
    + rewrite put_cbi. apply W.
    + unfold put. destruct (nth_error (bcols m) c) as [col | ] eqn:E;
        [ | apply nth_error_None in E; lia].
      cbn [bcols]. pose proof (wf_keys _ _ W) as K. rewrite Forall_forall in K |- *.
      intros x Hx. apply In_nth_error in Hx as [j Hj].
      rewrite nth_error_put_nth in Hj by exact Hc.
      destruct (Nat.eqb_spec c j).
      * injection Hj as <-. apply (mput_sorted _ Natcompare_order). apply K.
        eapply nth_error_In, E.
      * apply K. eapply nth_error_In, Hj.
    + intros r' c' B' HB'. rewrite put_blk in HB' by exact Hc.
      rewrite put_rbi, put_cbi.
      destruct (Nat.eqb_spec r r') as [<- | ]; cbn [andb] in HB'; [ | now apply (wf_blk _ _ W)].
      destruct (Nat.eqb_spec c c') as [<- | ]; [ | now apply (wf_blk _ _ W)].
      injection HB' as <-. now split.
  - unfold put. rewrite (proj2 (nth_error_None (bcols m) c) Hc). exact W.
Qed.

(** Same rows, columns, ownership. *)
Definition alike (a b : sbm) : Prop :=
  rbi a = rbi b /\ cbi a = cbi b /\ owns a = owns b /\ length (bcols a) = length (bcols b).

Lemma alike_refl m : alike m m.
Proof. repeat split. Qed.
Lemma alike_trans a b c : alike a b -> alike b c -> alike a c.
Proof. unfold alike. intuition congruence. Qed.
Lemma alike_put r c B m : alike (put A r c B m) m.
Proof. unfold alike. rewrite put_rbi, put_cbi, put_owns, put_cols. auto. Qed.

(** The block a write sees. *)
Definition seen (m : sbm) (r c : nat) : mat :=
  match blk m r c with
  | Some B => B
  | None => zeros A (size_of (rbi m) r) (size_of (cbi m) c)
  end.

Lemma update_ok r c f B' (m : sbm) : wf m -> owns m = true ->
  r < length (rbi m) -> c < length (cbi m) -> f (seen m r c) = Ok B' ->
  update A r c f m = Ok (put A r c B' m).
Proof.
  intros W O Hr Hc Hf. unfold update. rewrite get_blk by (rewrite (wf_cols _ _ W); exact Hc).
  cbn [obind]. unfold seen in Hf. destruct (blk m r c) as [B | ].
  - now rewrite Hf.
  - rewrite O, (proj2 (Nat.ltb_lt _ _) Hr), (proj2 (Nat.ltb_lt _ _) Hc). cbn [andb].
    now rewrite Hf.
Qed.

(** ** The list of stored blocks. *)
Lemma blocks_from_in cols : forall i r c B,
  In (r, c, B) (blocks_from A i cols) <->
  exists col, i <= c /\ nth_error cols (c - i) = Some col /\ In (r, B) col.
Proof.
  unfold blocks_from. induction cols as [ | k cols IH]; intros i r c B.
  - cbn [length seq combine map concat In]. split; [tauto | ].
    intros (col & _ & H & _). destruct (c - i); discriminate H.
  - cbn [length seq combine map concat]. rewrite in_app_iff, IH. split.
    + intros [H | (col & H1 & H2 & H3)].
      * apply in_map_iff in H as ((r' & B') & E & H). cbn [fst snd] in E. injection E as -> -> ->.
        exists k. rewrite Nat.sub_diag. auto.
      * exists col. conj; [lia | | exact H3].
        replace (c - i) with (S (c - S i)) by lia. exact H2.
    + intros (col & H1 & H2 & H3). destruct (Nat.eq_dec c i) as [-> | H].
      * rewrite Nat.sub_diag in H2. injection H2 as ->. left.
        apply in_map_iff. exists (r, B). auto.
      * right. exists col. conj; [lia | | exact H3].
        replace (c - i) with (S (c - S i)) in H2 by lia. exact H2.
Qed.

Lemma blocks_in (m : sbm) r c B : wf m -> In (r, c, B) (blocks A m) <-> blk m r c = Some B.
Proof.
  intro W. unfold blocks. rewrite blocks_from_in. unfold blk. rewrite Nat.sub_0_r.
  pose proof (wf_keys _ _ W) as K. rewrite Forall_forall in K. split.
  - intros (col & _ & E & H). rewrite E. apply (mget_in _ Natcompare_order); [ | exact H].
    eapply K, nth_error_In, E.
  - destruct (nth_error (bcols m) c) as [col | ] eqn:E; [ | discriminate].
    intro H. exists col. conj; [lia | reflexivity | ].
    apply (mget_in _ Natcompare_order); [ | exact H].
    eapply K, nth_error_In, E.
Qed.

Lemma NoDup_app_disjoint {V} (l1 l2 : list V) : NoDup l1 -> NoDup l2 ->
  (forall x, In x l1 -> ~ In x l2) -> NoDup (l1 ++ l2).
Proof.
  induction l1 as [ | x l1 IH]; intros H1 H2 D; [exact H2 | ].
  inversion_clear H1 as [ | ? ? N H]. cbn [app]. constructor.
  - rewrite in_app_iff. intros [K | K]; [contradiction | ]. apply (D x); [now left | exact K].
  - apply IH; auto. intros y Hy. apply D. now right.
Qed.

Lemma blocks_from_nodup cols : Forall (sorted Nat.compare) cols -> forall i,
  NoDup (map fst (blocks_from A i cols)).
Proof.
  unfold blocks_from. induction cols as [ | k cols IH]; intros F i; [constructor | ].
  inversion_clear F as [ | ? ? S0 F0].
  cbn [length seq combine map concat]. rewrite map_app. apply NoDup_app_disjoint.
  - rewrite map_map. cbn [fst snd].
    rewrite <- (map_map fst (fun r => (r, i))).
    apply FinFun.Injective_map_NoDup; [intros a b E; now injection E | ].
    now apply (sorted_nodup _ Natcompare_order).
  - now apply IH.
  - intros (r, c) H1 H2. apply in_map_iff in H1 as (((r1 & c1) & B1) & E1 & H1).
    apply in_map_iff in H1 as ((r1' & B1') & E2 & _). cbn [fst snd] in E1, E2.
    apply in_map_iff in H2 as (((r2 & c2) & B2) & E3 & H2). cbn [fst] in E3.
    apply (blocks_from_in cols (S i)) in H2 as (col & H2 & _).
    assert (c = i) by congruence. assert (c = c2) by congruence. lia.
Qed.

Lemma blocks_nodup (m : sbm) : wf m -> NoDup (map fst (blocks A m)).
Proof. intro W. apply blocks_from_nodup, W. Qed.

Lemma blocks_facts (m : sbm) r c B : wf m -> In (r, c, B) (blocks A m) ->
  r < length (rbi m) /\ c < length (cbi m) /\
  shaped A (size_of (rbi m) r) (size_of (cbi m) c) B = true.
Proof.
  intros W H. apply blocks_in in H; [ | exact W].
  destruct (wf_blk _ _ W _ _ _ H). conj; try assumption.
  rewrite <- (wf_cols _ _ W). apply blk_in_cols with r. congruence.
Qed.

(** ** Shapes. *)
Lemma shaped_iff r c (B : mat) : shaped A r c B = true <->
  length B = r /\ Forall (fun row => length row = c) B.
Proof.
  unfold shaped. rewrite andb_true_iff, Nat.eqb_eq, forallb_forall, Forall_forall.
  split; intros [H K]; (split; [exact H | ]); intros x Hx; apply Nat.eqb_eq, K, Hx.
Qed.

Lemma shaped_row r c (B : mat) i : shaped A r c B = true -> i < r -> length (nth i B []) = c.
Proof.
  intros H Hi. apply shaped_iff in H as [L F]. rewrite Forall_forall in F. apply F.
  apply nth_In. lia.
Qed.

Lemma zeros_shaped r c : shaped A r c (zeros A r c) = true.
Proof.
  apply shaped_iff. unfold zeros. split; [apply repeat_length | ].
  apply Forall_forall. intros x H. apply repeat_spec in H. subst. apply repeat_length.
Qed.

Lemma nth_repeat_in {V} (v d : V) n i : i < n -> nth i (repeat v n) d = v.
Proof.
  revert i. induction n as [ | n IH]; intros i H; [lia | ].
  destruct i; [reflexivity | ]. cbn [repeat nth]. apply IH. lia.
Qed.

Lemma zeros_val r c i j : nth j (nth i (zeros A r c) []) zero = zero.
Proof.
  unfold zeros. destruct (Nat.lt_ge_cases i r) as [H | H].
  - rewrite nth_repeat_in by exact H. destruct (Nat.lt_ge_cases j c).
    + now apply nth_repeat_in.
    + apply nth_overflow. rewrite repeat_length. lia.
  - rewrite (nth_overflow (repeat _ _)) by (rewrite repeat_length; lia). now destruct j.
Qed.

Lemma mtrans_shaped r c B : shaped A r c B = true -> shaped A c r (mtrans A c B) = true.
Proof.
  intro H. apply shaped_iff in H as [L F]. apply shaped_iff. unfold mtrans. split.
  - now rewrite map_length, seq_length.
  - apply Forall_forall. intros x Hx. apply in_map_iff in Hx as (j & <- & _).
    unfold column. now rewrite map_length.
Qed.

Lemma nth_map_seq_0 {V} (f : nat -> V) d n i : i < n -> nth i (map f (seq 0 n)) d = f i.
Proof.
  intro H. rewrite (nth_indep _ d (f 0)) by (rewrite map_length, seq_length; exact H).
  rewrite map_nth. now rewrite seq_nth.
Qed.

Lemma mtrans_val r c B i j : shaped A r c B = true -> j < c ->
  nth i (nth j (mtrans A c B) []) zero = nth j (nth i B []) zero.
Proof.
  intros H Hj. apply shaped_iff in H as [L F]. unfold mtrans.
  rewrite nth_map_seq_0 by exact Hj. unfold column.
  destruct (Nat.lt_ge_cases i (length B)) as [Hi | Hi].
  - rewrite (nth_indep _ zero (nth j [] zero)) by (rewrite map_length; exact Hi).
    now rewrite (map_nth (fun r => nth j r zero)).
  - rewrite nth_overflow by (rewrite map_length; lia).
    rewrite (nth_overflow B) by lia. now destruct j.
Qed.

Lemma elem_ok r c B i j : shaped A r c B = true -> i < r -> j < c ->
  elem A B i j = Ok (nth j (nth i B []) zero).
Proof.
  intros H Hi Hj. pose proof (shaped_row _ _ _ i H Hi) as R. apply shaped_iff in H as [L F].
  unfold elem. rewrite (nth_error_nth' B []) by lia.
  rewrite (nth_error_nth' (nth i B []) zero) by lia. reflexivity.
Qed.

Lemma seen_shaped (m : sbm) r c : wf m ->
  shaped A (size_of (rbi m) r) (size_of (cbi m) c) (seen m r c) = true.
Proof.
  intro W. unfold seen. destruct (blk m r c) eqn:E; [ | apply zeros_shaped].
  now apply (wf_blk _ _ W) in E.
Qed.

Lemma seen_val (m : sbm) r c i j : nth j (nth i (seen m r c) []) zero = val_at m r i c j.
Proof. unfold seen, val_at. destruct (blk m r c); [reflexivity | apply zeros_val]. Qed.

(** ** operator(). *)
Lemma entry_at (m : sbm) r i c j : wf m -> r < length (rbi m) -> i < size_of (rbi m) r ->
  c < length (cbi m) -> j < size_of (cbi m) c ->
  entry A m (base_of (rbi m) r + i) (base_of (cbi m) c + j) = Ok (val_at m r i c j).
Proof.
  intros W Hr Hi Hc Hj.
  destruct (locate_back _ r i (wf_rlay _ _ W) Hr Hi) as [T1 U1].
  destruct (locate_back _ c j (wf_clay _ _ W) Hc Hj) as [T2 U2].
  unfold entry. rewrite (proj2 (Nat.ltb_lt _ _) T1), (proj2 (Nat.ltb_lt _ _) T2). cbn [andb].
  rewrite U1, U2, get_blk by (rewrite (wf_cols _ _ W); exact Hc). cbn [obind].
  unfold val_at. destruct (blk m r c) as [B | ] eqn:E; [ | reflexivity].
  replace (base_of (rbi m) r + i - base_of (rbi m) r) with i by lia.
  replace (base_of (cbi m) c + j - base_of (cbi m) c) with j by lia.
  apply (wf_blk _ _ W) in E as [_ E]. eapply elem_ok; eassumption.
Qed.

Lemma entry_el (m : sbm) r c : wf m -> r < total (rbi m) -> c < total (cbi m) ->
  entry A m r c = Ok (el m r c).
Proof.
  intros W Hr Hc. destruct (locate _ r (wf_rlay _ _ W) Hr) as (b & i & Hb & Hi & -> & _).
  destruct (locate _ c (wf_clay _ _ W) Hc) as (b' & j & Hb' & Hj & -> & _).
  unfold el. now rewrite entry_at.
Qed.

Lemma el_at (m : sbm) r i c j : wf m -> r < length (rbi m) -> i < size_of (rbi m) r ->
  c < length (cbi m) -> j < size_of (cbi m) c ->
  el m (base_of (rbi m) r + i) (base_of (cbi m) c + j) = val_at m r i c j.
Proof. intros. unfold el. now rewrite entry_at. Qed.

(** Two matrices of equal layout with equal positions have equal elements. *)
Lemma el_ext (m m' : sbm) : wf m -> wf m' -> rbi m = rbi m' -> cbi m = cbi m' ->
  (forall r i c j, r < length (rbi m) -> i < size_of (rbi m) r -> c < length (cbi m) ->
     j < size_of (cbi m) c -> val_at m r i c j = val_at m' r i c j) ->
  forall r c, el m r c = el m' r c.
Proof.
  intros W W' ER EC H r c.
  destruct (Nat.lt_ge_cases r (total (rbi m))) as [Hr | Hr];
  [destruct (Nat.lt_ge_cases c (total (cbi m))) as [Hc | Hc] | ].
  - destruct (locate _ r (wf_rlay _ _ W) Hr) as (b & i & Hb & Hi & -> & _).
    destruct (locate _ c (wf_clay _ _ W) Hc) as (b' & j & Hb' & Hj & -> & _).
    rewrite el_at by assumption. rewrite ER, EC at 1.
    rewrite el_at by (rewrite <- ?ER, <- ?EC; assumption). now apply H.
  - unfold el, entry. rewrite <- ER, <- EC, (proj2 (Nat.ltb_ge _ _) Hc), andb_false_r. reflexivity.
  - unfold el, entry. rewrite <- ER, <- EC, (proj2 (Nat.ltb_ge _ _) Hr). reflexivity.
Qed.

(** ** Runs of assignments to distinct blocks. *)
Fixpoint assoc (ws : list (nat * nat * mat)) (r c : nat) : option mat :=
  match ws with
  | [] => None
  | (r', c', B) :: ws => if (r' =? r) && (c' =? c) then Some B else assoc ws r c
  end.

Lemma assoc_in ws r c B : NoDup (map fst ws) -> assoc ws r c = Some B <-> In (r, c, B) ws.
Proof.
  induction ws as [ | ((r', c') & B') ws IH]; intro N.
  - split; [discriminate | intros []].
  - cbn [map fst] in N. inversion_clear N as [ | ? ? N1 N2]. cbn [assoc In].
    destruct (Nat.eqb_spec r' r) as [-> | Hr]; cbn [andb];
      [destruct (Nat.eqb_spec c' c) as [-> | Hc] | ].
    + split; [intros [= ->]; now left | ]. intros [[= ->] | H]; [reflexivity | ].
      exfalso. apply N1. apply in_map_iff. exists (r, c, B). auto.
    + rewrite IH by exact N2. split; [now right | ]. intros [E | H]; [congruence | exact H].
    + rewrite IH by exact N2. split; [now right | ]. intros [E | H]; [congruence | exact H].
Qed.

Lemma assoc_none ws r c : assoc ws r c = None <-> ~ In (r, c) (map fst ws).
Proof.
  induction ws as [ | ((r', c') & B') ws IH]; [cbn; tauto | ].
  cbn [assoc map fst In]. destruct (Nat.eqb_spec r' r) as [-> | Hr]; cbn [andb];
    [destruct (Nat.eqb_spec c' c) as [-> | Hc] | ].
  - split; [discriminate | ]. intro H. exfalso. apply H. now left.
  - rewrite IH. split; [intros H [E | K]; [congruence | tauto] | tauto].
  - rewrite IH. split; [intros H [E | K]; [congruence | tauto] | tauto].
Qed.

Lemma assign_all ws : forall m : sbm, wf m -> owns m = true -> NoDup (map fst ws) ->
  (forall r c B, In (r, c, B) ws -> r < length (rbi m) /\ c < length (cbi m) /\
     shaped A (size_of (rbi m) r) (size_of (cbi m) c) B = true) ->
  exists m', updates A (map (fun e : nat * nat * mat => let '(r, c, B) := e in (r, c, assign A B)) ws) m = Ok m' /\
    wf m' /\ alike m' m /\
    forall r c, blk m' r c = match assoc ws r c with Some B => Some B | None => blk m r c end.
Proof.
  induction ws as [ | ((r0, c0) & B0) ws IH]; intros m W O N F.
  - exists m. conj; auto. apply alike_refl.
  - cbn [map fst] in N. inversion_clear N as [ | ? ? N1 N2].
    destruct (F r0 c0 B0 (or_introl eq_refl)) as (F1 & F2 & F3).
    cbn [map updates].
    rewrite (update_ok r0 c0 (assign A B0) B0 m W O F1 F2 eq_refl). cbn [obind].
    destruct (IH (put A r0 c0 B0 m)) as (m' & E & W' & L & H).
    + now apply put_wf.
    + now rewrite put_owns.
    + exact N2.
    + intros r c B HB. rewrite put_rbi, put_cbi. apply F. now right.
    + exists m'. conj; [exact E | exact W' | eapply alike_trans; [exact L | apply alike_put] | ].
      intros r c. rewrite H. cbn [assoc].
      rewrite put_blk by (rewrite (wf_cols _ _ W); exact F2).
      destruct (Nat.eqb_spec r0 r) as [-> | Hr]; cbn [andb]; [ | reflexivity].
      destruct (Nat.eqb_spec c0 c) as [-> | Hc]; [ | reflexivity].
      now rewrite (proj2 (assoc_none ws r c) N1).
Qed.

(** ** Empty matrices, clear, clone. *)
Lemma fresh_blk rl cl r c : blk (fresh A rl cl) r c = None.
Proof.
  unfold blk, fresh. cbn [bcols]. destruct (nth_error (repeat [] (length cl)) c) as [k | ] eqn:E; [ | reflexivity].
  apply nth_error_In, repeat_spec in E. now subst.
Qed.

Lemma fresh_wf rl cl : layout rl -> layout cl -> wf (fresh A rl cl).
Proof.
  intros HR HC. constructor; cbn [rbi cbi bcols fresh]; auto.
  - now rewrite repeat_length.
  - apply Forall_forall. intros x Hx. apply repeat_spec in Hx. subst. exact I.
  - intros r c B H. change (blk (fresh A rl cl) r c = Some B) in H. rewrite fresh_blk in H. discriminate.
Qed.

Lemma fresh_val rl cl r i c j : val_at (fresh A rl cl) r i c j = zero.
Proof. unfold val_at. now rewrite fresh_blk. Qed.

Lemma mget_map (f : mat -> mat) (col : list (nat * mat)) r :
  mget Nat.compare r (map (fun e => (fst e, f (snd e))) col) = option_map f (mget Nat.compare r col).
Proof.
  induction col as [ | (k, v) col IH]; [reflexivity | ].
  cbn [map mget fst snd]. now destruct (Nat.compare r k).
Qed.

Lemma sorted_map (f : mat -> mat) (col : list (nat * mat)) : sorted Nat.compare col ->
  sorted Nat.compare (map (fun e => (fst e, f (snd e))) col).
Proof.
  induction col as [ | (k, v) col IH]; [trivial | ].
  cbn [map sorted fst snd]. intros [H K]. split; [ | auto].
  destruct col as [ | (k', v') col]; [trivial | exact H].
Qed.

Lemma map_blocks_blk (f : mat -> mat) (m : sbm) r c : blk (map_blocks A f m) r c = option_map f (blk m r c).
Proof.
  unfold blk, map_blocks. cbn [bcols]. rewrite nth_error_map.
  destruct (nth_error (bcols m) c) as [col | ]; [ | reflexivity]. cbn [option_map]. apply mget_map.
Qed.

Lemma map_blocks_wf (f : mat -> mat) (m : sbm) : wf m ->
  (forall r c B, shaped A r c B = true -> shaped A r c (f B) = true) -> wf (map_blocks A f m).
Proof.
  intros W H. constructor; cbn [rbi cbi bcols map_blocks]; try apply W.
  - rewrite map_length. apply W.
  - apply Forall_forall. intros x Hx. apply in_map_iff in Hx as (col & <- & Hc).
    apply sorted_map. pose proof (wf_keys _ _ W) as K. rewrite Forall_forall in K. auto.
  - intros r c B E. change (blk (map_blocks A f m) r c = Some B) in E. rewrite map_blocks_blk in E.
    destruct (blk m r c) as [B0 | ] eqn:E0; [ | discriminate]. injection E as <-.
    apply (wf_blk _ _ W) in E0 as [E1 E2]. auto.
Qed.

Lemma map_map_shaped (g : num -> num) r c B : shaped A r c B = true ->
  shaped A r c (map (map g) B) = true.
Proof.
  intro H. apply shaped_iff in H as [L F]. apply shaped_iff. split; [now rewrite map_length | ].
  apply Forall_forall. intros x Hx. apply in_map_iff in Hx as (y & <- & Hy). rewrite map_length.
  rewrite Forall_forall in F. auto.
Qed.

Lemma map_map_val (g : num -> num) r c B i j : shaped A r c B = true -> i < r -> j < c ->
  nth j (nth i (map (map g) B) []) zero = g (nth j (nth i B []) zero).
Proof.
  intros H Hi Hj. pose proof (shaped_row _ _ _ i H Hi) as R. apply shaped_iff in H as [L F].
  rewrite (nth_indep _ [] (map g [])) by (rewrite map_length; lia). rewrite map_nth.
  rewrite (nth_indep _ zero (g zero)) by (rewrite map_length; lia). now rewrite map_nth.
Qed.

Lemma clear_wf d (m : sbm) : wf m -> wf (clear A d m).
Proof.
  intro W. unfold clear. destruct (owns m && d).
  - constructor; cbn [rbi cbi bcols]; try apply W.
    + rewrite map_length. apply W.
    + apply Forall_forall. intros x Hx. apply in_map_iff in Hx as (? & <- & _). exact I.
    + intros r c B H. unfold blk in H. cbn [bcols] in H. rewrite nth_error_map in H.
      destruct (nth_error (bcols m) c); discriminate H.
  - apply map_blocks_wf; [exact W | ]. intros. now apply map_map_shaped.
Qed.

Lemma clear_blk d (m : sbm) r c B : blk (clear A d m) r c = Some B ->
  exists B0, blk m r c = Some B0 /\ B = set_zero A B0.
Proof.
  unfold clear. destruct (owns m && d).
  - unfold blk at 1. cbn [bcols]. rewrite nth_error_map.
    destruct (nth_error (bcols m) c); discriminate.
  - rewrite map_blocks_blk. destruct (blk m r c); [ | discriminate].
    intros [= <-]. eauto.
Qed.

Lemma set_zero_val B i j : nth j (nth i (set_zero A B) []) zero = zero.
Proof.
  unfold set_zero. destruct (Nat.lt_ge_cases i (length B)) as [H | H].
  - rewrite (nth_indep _ [] (map (fun _ : num => zero) [])) by (rewrite map_length; exact H).
    rewrite map_nth. set (row := nth i B []). clearbody row. revert j.
    induction row as [ | x row IH]; intros [ | j]; cbn [map nth]; auto.
  - rewrite (nth_overflow (map _ _)) by (rewrite map_length; exact H). now destruct j.
Qed.

Lemma clear_val d (m : sbm) r i c j : val_at (clear A d m) r i c j = zero.
Proof.
  unfold val_at. destruct (blk (clear A d m) r c) as [B | ] eqn:E; [ | reflexivity].
  apply clear_blk in E as (B0 & _ & ->). apply set_zero_val.
Qed.

Lemma clear_alike d (m : sbm) : alike (clear A d m) m.
Proof.
  unfold clear, alike. destruct (owns m && d); cbn [rbi cbi bcols owns map_blocks]; conj; auto; apply map_length.
Qed.

Lemma clone_wf (m : sbm) : wf m -> wf (clone A m).
Proof. intro W. destruct W. constructor; auto. Qed.

(** ** Transpose. *)
Lemma nodup_swap (ws : list (nat * nat * mat)) (f : nat -> nat -> mat -> mat) :
  NoDup (map fst ws) ->
  NoDup (map fst (map (fun e : nat * nat * mat => let '(r, c, B) := e in (c, r, f r c B)) ws)).
Proof.
  intro N. rewrite map_map.
  replace (map _ ws) with (map (fun p => (snd p, fst p)) (map fst ws)).
  - apply FinFun.Injective_map_NoDup; [ | exact N]. intros (a, b) (a', b') E. cbn in E. congruence.
  - rewrite map_map. apply map_ext. now intros ((r, c), B).
Qed.

Lemma transpose_ok (m d : sbm) : wf m -> wf d -> owns d = true -> rbi m = cbi d -> cbi m = rbi d ->
  exists m', updates A (map (fun e : nat * nat * mat => let '(r, c, B) := e in
                        (c, r, assign A (mtrans A (size_of (cbi m) c) B))) (blocks A m)) d = Ok m' /\
    wf m' /\ alike m' d /\
    forall r c, blk m' c r = match blk m r c with
                             | Some B => Some (mtrans A (size_of (cbi m) c) B)
                             | None => blk d c r end.
Proof.
  intros W Wd O E1 E2.
  set (ws := map (fun e : nat * nat * mat => let '(r, c, B) := e in
                    (c, r, mtrans A (size_of (cbi m) c) B)) (blocks A m)).
  assert (N : NoDup (map fst ws)).
  { apply (nodup_swap _ (fun r c B => mtrans A (size_of (cbi m) c) B)). now apply blocks_nodup. }
  destruct (assign_all ws d Wd O N) as (m' & E & W' & L & H).
  - intros c r B HB. apply in_map_iff in HB as (((r0 & c0) & B0) & E & HB). injection E as <- <- <-.
    apply blocks_facts in HB as (F1 & F2 & F3); [ | exact W].
    rewrite <- E1, <- E2. conj; auto. now apply mtrans_shaped.
  - exists m'. conj; [ | exact W' | exact L | ].
    + rewrite <- E. unfold ws. rewrite map_map. f_equal. apply map_ext. now intros ((r, c), B).
    + intros r c. rewrite H. destruct (blk m r c) as [B | ] eqn:EB.
      * apply blocks_in in EB; [ | exact W].
        rewrite (proj2 (assoc_in ws c r (mtrans A (size_of (cbi m) c) B) N)); [reflexivity | ].
        apply in_map_iff. exists (r, c, B). auto.
      * rewrite (proj2 (assoc_none ws c r)); [reflexivity | ].
        intro K. apply in_map_iff in K as (((c0 & r0) & B0) & E0 & K).
        apply in_map_iff in K as (((r1 & c1) & B1) & E3 & K). injection E3 as -> -> <-.
        cbn [fst] in E0. injection E0 as -> ->.
        apply blocks_in in K; [congruence | exact W].
Qed.

Lemma transpose_fresh (m : sbm) : wf m -> exists m', transpose_into A m None = Ok (true, m') /\
  wf m' /\ rbi m' = cbi m /\ cbi m' = rbi m /\ owns m' = true /\
  forall r c, el m' c r = el m r c.
Proof.
  intro W. destruct (transpose_ok m (fresh A (cbi m) (rbi m))) as (m' & E & W' & L & H); auto.
  { apply fresh_wf; apply W. }
  destruct L as (L1 & L2 & L3 & _). exists m'. conj; auto.
  { unfold transpose_into. rewrite E. reflexivity. }
  cbn [rbi cbi fresh] in L1, L2.
  intros r c.
  destruct (Nat.lt_ge_cases r (total (rbi m))) as [Hr | Hr];
  [destruct (Nat.lt_ge_cases c (total (cbi m))) as [Hc | Hc] | ].
  - destruct (locate _ r (wf_rlay _ _ W) Hr) as (b & i & Hb & Hi & -> & _).
    destruct (locate _ c (wf_clay _ _ W) Hc) as (b' & j & Hb' & Hj & -> & _).
    rewrite el_at by assumption. rewrite <- L1, <- L2 at 1.
    rewrite el_at by (rewrite ?L1, ?L2; assumption).
    unfold val_at. rewrite (H b b').
    destruct (blk m b b') as [B | ] eqn:EB; [ | now rewrite fresh_blk].
    apply (wf_blk _ _ W) in EB as [_ EB]. eapply mtrans_val; eassumption.
  - unfold el, entry. rewrite L1, L2, (proj2 (Nat.ltb_ge _ _) Hc), andb_false_r. reflexivity.
  - unfold el, entry. rewrite L1, L2, (proj2 (Nat.ltb_ge _ _) Hr), andb_false_r. reflexivity.
Qed.
End Gen.
