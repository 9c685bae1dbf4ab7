From Coq Require Import ZArith List Bool Lia Permutation Sorted.
From Verif Require Import Base Arith OMap JacModel JacSpec JacProofs CcmModel CcmSpec.
Import ListNotations.
Open Scope nat_scope.

(** Writes. *)
Section Stores.
Variable V : Type.
Implicit Types (l T : list V) (ws : list (nat * V)).

Lemma store_ok l : forall i v, i < length l ->
  exists l', store i v l = Ok l' /\ length l' = length l /\
    forall j, nth_error l' j = if Nat.eqb j i then Some v else nth_error l j.
Proof.
  induction l as [ | x l IH]; intros i v H; [cbn in H; lia | ].
  destruct i as [ | i].
  - exists (v :: l). split; [reflexivity | ]. split; [reflexivity | ]. now intros [ | j].
  - cbn [length] in H. destruct (IH i v ltac:(lia)) as (l' & E & L & N).
    exists (x :: l'). cbn [store]. rewrite E. split; [reflexivity | ].
    split; [cbn; lia | ]. intros [ | j]; [reflexivity | ]. cbn [nth_error Nat.eqb]. apply N.
Qed.

Lemma stores_app ws1 ws2 l :
  stores (ws1 ++ ws2) l = (do l' <- stores ws1 l; stores ws2 l').
Proof.
  revert l. induction ws1 as [ | [i v] ws1 IH]; intro l; [reflexivity | ].
  cbn [app stores]. destruct (store i v l); cbn [obind]; [apply IH | reflexivity..].
Qed.

Lemma stores_bound ws : forall l, (forall i v, In (i, v) ws -> i < length l) ->
  exists l', stores ws l = Ok l' /\ length l' = length l.
Proof.
  induction ws as [ | [i v] ws IH]; intros l H; [exists l; auto | ].
  destruct (store_ok l i v) as (l1 & E & L & _); [apply (H i v); now left | ].
  cbn [stores]. rewrite E. cbn [obind]. destruct (IH l1) as (l2 & E2 & L2).
  - intros j w Hj. rewrite L. apply (H j w). now right.
  - exists l2. split; [exact E2 | congruence].
Qed.

Lemma nth_error_ext l1 : forall l2, (forall i, nth_error l1 i = nth_error l2 i) -> l1 = l2.
Proof.
  induction l1 as [ | x l1 IH]; intros [ | y l2] H; [reflexivity | | | ].
  - specialize (H 0). discriminate.
  - specialize (H 0). discriminate.
  - assert (H0 := H 0). injection H0 as ->. f_equal. apply IH.
    intro i. exact (H (S i)).
Qed.

Lemma nth_error_out l i : length l <= i -> nth_error l i = None.
Proof. apply nth_error_None. Qed.

(** Writes that agree with a target and reach all that differs produce it. *)
Lemma stores_target ws : forall l T, length T = length l ->
  (forall i v, In (i, v) ws -> nth_error T i = Some v) ->
  (forall i, i < length l -> ~ In i (map fst ws) -> nth_error l i = nth_error T i) ->
  stores ws l = Ok T.
Proof.
  induction ws as [ | [i v] ws IH]; intros l T L H1 H2.
  - cbn [stores]. f_equal. apply nth_error_ext. intro i.
    destruct (Nat.lt_ge_cases i (length l)).
    + apply H2; [assumption | intros []].
    + rewrite !nth_error_out by lia. reflexivity.
  - assert (Hi : nth_error T i = Some v) by (apply H1; now left).
    assert (Li : i < length l).
    { rewrite <- L. apply nth_error_Some. congruence. }
    destruct (store_ok l i v Li) as (l1 & E & L1 & N).
    cbn [stores]. rewrite E. cbn [obind]. apply IH.
    + congruence.
    + intros j w Hj. apply H1. now right.
    + intros j Hj Hn. rewrite N. destruct (Nat.eqb_spec j i) as [-> | Nj]; [congruence | ].
      apply H2; [lia | ]. cbn [map fst]. intros [X | X]; [congruence | contradiction].
Qed.

(** Writes that fill a suffix. *)
Lemma stores_suffix ws l old T : length T = length old ->
  (forall i v, In (i, v) ws <-> exists j, i = length l + j /\ nth_error T j = Some v) ->
  stores ws (l ++ old) = Ok (l ++ T).
Proof.
  intros L H. apply stores_target.
  - rewrite !app_length. lia.
  - intros i v Hin. apply H in Hin. destruct Hin as (j & -> & E).
    rewrite nth_error_app2 by lia. now replace (length l + j - length l) with j by lia.
  - intros i Hi Hn. destruct (Nat.lt_ge_cases i (length l)).
    + now rewrite !nth_error_app1 by assumption.
    + exfalso. apply Hn. rewrite app_length in Hi.
      destruct (nth_error T (i - length l)) as [v | ] eqn:E.
      * apply in_map_iff. exists (i, v). split; [reflexivity | ]. apply H.
        exists (i - length l). split; [lia | exact E].
      * apply nth_error_None in E. lia.
Qed.
End Stores.

Lemma load_ok {V} (l : list V) i v : load l i = Ok v <-> nth_error l i = Some v.
Proof. unfold load. destruct (nth_error l i); split; congruence. Qed.

Lemma resize_grow {V} n (v : V) l : resize (length l + n) v l = l ++ repeat v n.
Proof.
  unfold resize. rewrite firstn_all2 by lia. now replace (length l + n - length l) with n by lia.
Qed.

(** Blocks of writes: a table with [n] rows of width [E], filled vertical
    strip by vertical strip. *)
Section Blocks.
Variable X : Type.
Implicit Type es : list (nat * (nat -> nat -> X)).

Fixpoint gwrites (from E n off : nat) es : list (nat * X) :=
  match es with
  | [] => []
  | (k, f) :: r =>
      flat_map (fun c => map (fun q => (from + c * E + off + q, f c q)) (seq 0 k)) (seq 0 n)
      ++ gwrites from E n (off + k) r
  end.
Definition grow es (c : nat) : list X := flat_map (fun e => map (snd e c) (seq 0 (fst e))) es.
Definition gwidth es : nat := list_sum (map fst es).
Definition gtable es (n : nat) : list X := flat_map (grow es) (seq 0 n).

Lemma grow_length es c : length (grow es c) = gwidth es.
Proof.
  unfold grow, gwidth. induction es as [ | [k f] es IH]; [reflexivity | ].
  cbn [flat_map map list_sum fold_right fst snd]. rewrite app_length, map_length, seq_length.
  cbn [fst]. change (k + length (flat_map (fun e => map (snd e c) (seq 0 (fst e))) es) =
                     k + list_sum (map fst es)). now rewrite IH.
Qed.

Lemma gtable_length es n : length (gtable es n) = gwidth es * n.
Proof.
  unfold gtable. rewrite <- (seq_length n 0) at 2. generalize (seq 0 n). intro s.
  induction s as [ | c s IH]; [cbn; lia | ].
  cbn [flat_map length]. rewrite app_length, grow_length, IH. lia.
Qed.

Lemma nth_map_seq (f : nat -> X) k q v :
  nth_error (map f (seq 0 k)) q = Some v <-> q < k /\ f q = v.
Proof.
  rewrite nth_error_map. split.
  - destruct (nth_error (seq 0 k) q) as [w | ] eqn:E; [ | discriminate].
    assert (Hq : q < k) by (rewrite <- (seq_length k 0); apply nth_error_Some; congruence).
    apply nth_error_nth with (d := 0) in E. rewrite seq_nth in E by exact Hq.
    cbn [option_map]. intro H. injection H as <-. subst w. auto.
  - intros (Hq & <-). rewrite (nth_error_nth' (seq 0 k) 0) by (rewrite seq_length; lia).
    rewrite seq_nth by lia. reflexivity.
Qed.

Lemma gwrites_in from E n es : forall off i v, In (i, v) (gwrites from E n off es) <->
  exists c q, c < n /\ nth_error (grow es c) q = Some v /\ i = from + c * E + off + q.
Proof.
  induction es as [ | [k f] es IH]; intros off i v; cbn [gwrites].
  - split; [intros [] | ]. intros (c & q & _ & H & _). destruct q; discriminate.
  - rewrite in_app_iff, in_flat_map, IH. split.
    + intros [(c & Hc & Hin) | (c & q & Hc & Hq & ->)].
      * apply in_seq in Hc. apply in_map_iff in Hin. destruct Hin as (q & Heq & Hq).
        apply in_seq in Hq. injection Heq as <- <-. exists c, q. split; [lia | ].
        split; [ | reflexivity]. unfold grow. cbn [flat_map fst snd].
        rewrite nth_error_app1 by (rewrite map_length, seq_length; lia).
        apply nth_map_seq. split; [lia | reflexivity].
      * exists c, (k + q). split; [exact Hc | ]. split; [ | lia].
        unfold grow. cbn [flat_map fst snd].
        rewrite nth_error_app2 by (rewrite map_length, seq_length; lia).
        rewrite map_length, seq_length. replace (k + q - k) with q by lia. exact Hq.
    + intros (c & q & Hc & Hq & ->). unfold grow in Hq. cbn [flat_map fst snd] in Hq.
      destruct (Nat.lt_ge_cases q k) as [L | L].
      * left. exists c. split; [apply in_seq; lia | ]. apply in_map_iff. exists q.
        rewrite nth_error_app1 in Hq by (rewrite map_length, seq_length; lia).
        apply nth_map_seq in Hq. destruct Hq as (_ & <-). split; [reflexivity | ].
        apply in_seq. lia.
      * right. exists c, (q - k). split; [exact Hc | ]. split; [ | lia].
        rewrite nth_error_app2 in Hq by (rewrite map_length, seq_length; lia).
        rewrite map_length, seq_length in Hq. exact Hq.
Qed.

Lemma table_nth es v : forall s x,
  nth_error (flat_map (grow es) s) x = Some v <->
  exists c q, nth_error s c <> None /\
    nth_error (grow es (nth c s 0)) q = Some v /\ x = c * gwidth es + q.
Proof.
  induction s as [ | a s IH]; intro x; cbn [flat_map].
  - split; [destruct x; discriminate | ]. intros (c & q & H & _). destruct c; contradiction.
  - destruct (Nat.lt_ge_cases x (gwidth es)) as [L | L].
    + rewrite nth_error_app1 by (rewrite grow_length; lia). split.
      * intro H. exists 0, x. split; [discriminate | ]. split; [exact H | lia].
      * intros (c & q & _ & H & ->).
        assert (q < gwidth es) by
          (rewrite <- (grow_length es (nth c (a :: s) 0)); apply nth_error_Some; congruence).
        destruct c as [ | c]; [exact H | ]. cbn [Nat.mul] in L. lia.
    + rewrite nth_error_app2 by (rewrite grow_length; lia). rewrite grow_length, IH. split.
      * intros (c & q & H1 & H2 & H3). exists (S c), q. split; [exact H1 | ].
        split; [exact H2 | cbn [Nat.mul]; lia].
      * intros (c & q & H1 & H2 & H3).
        assert (q < gwidth es) by
          (rewrite <- (grow_length es (nth c (a :: s) 0)); apply nth_error_Some; congruence).
        destruct c as [ | c]; [cbn [Nat.mul] in H3; lia | ].
        exists c, q. split; [exact H1 | ]. split; [exact H2 | cbn [Nat.mul] in H3; lia].
Qed.

Lemma gtable_nth es n x v : nth_error (gtable es n) x = Some v <->
  exists c q, c < n /\ nth_error (grow es c) q = Some v /\ x = c * gwidth es + q.
Proof.
  unfold gtable. rewrite table_nth. split; intros (c & q & H1 & H2 & H3).
  - apply nth_error_Some in H1. rewrite seq_length in H1. rewrite seq_nth in H2 by exact H1.
    exists c, q. auto.
  - exists c, q. rewrite seq_nth by exact H1. split; [ | auto].
    apply nth_error_Some. rewrite seq_length. exact H1.
Qed.

(** The strips together write exactly the table. *)
Lemma gwrites_table from n es i v :
  In (i, v) (gwrites from (gwidth es) n 0 es) <->
  exists j, i = from + j /\ nth_error (gtable es n) j = Some v.
Proof.
  rewrite gwrites_in. split.
  - intros (c & q & H1 & H2 & ->). exists (c * gwidth es + q). split; [lia | ].
    apply gtable_nth. exists c, q. auto.
  - intros (j & -> & H). apply gtable_nth in H. destruct H as (c & q & H1 & H2 & ->).
    exists c, q. split; [exact H1 | ]. split; [exact H2 | lia].
Qed.
End Blocks.
Arguments gwrites {X}. Arguments grow {X}. Arguments gwidth {X}. Arguments gtable {X}.

(** Prefix sums. *)
Fixpoint psums (s : nat) (l : list nat) : list nat :=
  match l with [] => [s] | x :: r => s :: psums (s + x) r end.

Lemma psums_length l : forall s, length (psums s l) = length l + 1.
Proof. induction l as [ | x l IH]; intro s; cbn [psums length]; [reflexivity | rewrite IH; lia]. Qed.

Lemma psums_nth l : forall s c, c <= length l ->
  nth_error (psums s l) c = Some (s + list_sum (firstn c l)).
Proof.
  induction l as [ | x l IH]; intros s [ | c] H; cbn [psums nth_error firstn].
  - cbn. f_equal. lia.
  - cbn in H. lia.
  - cbn. f_equal. lia.
  - cbn [length] in H. rewrite IH by lia. f_equal. cbn [list_sum fold_right].
    change (fold_right Nat.add 0 (firstn c l)) with (list_sum (firstn c l)). lia.
Qed.

Lemma psums_last l : forall s, last (psums s l) 0 = s + list_sum l.
Proof.
  induction l as [ | x l IH]; intro s; [cbn; lia | ].
  cbn [psums]. destruct (psums (s + x) l) as [ | a r] eqn:E; [destruct l; discriminate | ].
  cbn [last]. change (last (a :: r) 0 = s + list_sum (x :: l)).
  rewrite <- E, IH. cbn [list_sum fold_right].
  change (fold_right Nat.add 0 l) with (list_sum l). lia.
Qed.

Lemma psums_app l1 : forall s l2, psums s (l1 ++ l2) =
  psums s l1 ++ match l2 with [] => [] | x :: r => psums (s + list_sum l1 + x) r end.
Proof.
  induction l1 as [ | x l1 IH]; intros s l2.
  - cbn [app psums list_sum fold_right]. destruct l2 as [ | y r]; [reflexivity | ].
    cbn [psums app]. do 2 f_equal. lia.
  - cbn [app psums]. rewrite IH. f_equal. f_equal. destruct l2 as [ | y r]; [reflexivity | ].
    f_equal. cbn [list_sum fold_right]. change (fold_right Nat.add 0 l1) with (list_sum l1). lia.
Qed.

Lemma list_sum_cons x l : list_sum (x :: l) = x + list_sum l.
Proof. reflexivity. Qed.

Section Repr.
Variable A : Arith.
Notation num := (num A).
Notation zero := (of_Z A 0).
Notation col := (list (nat * num)).

(** A matrix given by its columns. *)
Record repr (m : ccm A) (cols : list col) : Prop := {
  r_vals : vals m = map snd (concat cols);
  r_rind : rind m = map fst (concat cols);
  r_cptr : cptr m = psums 0 (map (@length _) cols);
  r_ncols : ncols m = length cols }.

Lemma concat_length (cols : list col) :
  length (concat cols) = list_sum (map (@length _) cols).
Proof.
  induction cols as [ | c cols IH]; [reflexivity | ].
  cbn [concat map]. rewrite app_length, list_sum_cons. lia.
Qed.

Lemma repr_check m cols : repr m cols -> check A m = Ok m.
Proof.
  intros [V R C N]. unfold check. rewrite C, V, R, N, !map_length, psums_length, map_length.
  cbv zeta. rewrite psums_last, concat_length. cbn [Nat.add]. rewrite !Nat.eqb_refl.
  destruct (map (@length (nat * num)) cols); reflexivity.
Qed.

Lemma col_start m cols c : repr m cols -> c <= length cols ->
  nth_error (cptr m) c = Some (length (concat (firstn c cols))).
Proof.
  intros [V R C N] H. rewrite C, psums_nth by (rewrite map_length; exact H).
  rewrite concat_length, firstn_map. reflexivity.
Qed.

Lemma firstn_S_concat (cols : list col) : forall c k, nth_error cols c = Some k ->
  concat (firstn (c + 1) cols) = concat (firstn c cols) ++ k.
Proof.
  induction cols as [ | a cols IH]; intros [ | c] k H; try discriminate.
  - injection H as ->. cbn. now rewrite app_nil_r.
  - cbn [nth_error] in H. cbn [Nat.add firstn concat]. rewrite (IH c k H).
    now rewrite app_assoc.
Qed.

Lemma concat_split (cols : list col) : forall c k, nth_error cols c = Some k ->
  exists post, concat cols = concat (firstn c cols) ++ k ++ post.
Proof.
  induction cols as [ | a cols IH]; intros [ | c] k H; try discriminate.
  - injection H as ->. exists (concat cols). reflexivity.
  - destruct (IH c k H) as (post & E). exists post. cbn [concat firstn]. rewrite E.
    now rewrite <- app_assoc.
Qed.

Lemma read_entries (m : ccm A) pre k post :
  rind m = map fst (pre ++ k ++ post) -> vals m = map snd (pre ++ k ++ post) ->
  fold_right (fun i o =>
      do l <- o; do r <- load (rind m) i; do v <- load (vals m) i; Ok ((r, v) :: l))
    (Ok []) (seq (length pre) (length k)) = Ok k.
Proof.
  revert pre. induction k as [ | [r v] k IH]; intros pre HR HV; [reflexivity | ].
  cbn [length seq fold_right].
  specialize (IH (pre ++ [(r, v)])). rewrite app_length in IH. cbn [length] in IH.
  replace (length pre + 1) with (S (length pre)) in IH by lia.
  rewrite IH by (rewrite <- app_assoc; assumption). cbn [obind].
  assert (N : nth_error (pre ++ ((r, v) :: k) ++ post) (length pre) = Some (r, v)).
  { rewrite nth_error_app2, Nat.sub_diag by lia. reflexivity. }
  assert (L1 : load (rind m) (length pre) = Ok r)
    by (apply load_ok; rewrite HR, nth_error_map, N; reflexivity).
  assert (L2 : load (vals m) (length pre) = Ok v)
    by (apply load_ok; rewrite HV, nth_error_map, N; reflexivity).
  rewrite L1. cbn [obind]. rewrite L2. reflexivity.
Qed.

Lemma repr_col m cols c k : repr m cols -> nth_error cols c = Some k ->
  col_entries A m c = Ok k.
Proof.
  intros HR H. assert (L : c < length cols) by (apply nth_error_Some; congruence).
  unfold col_entries.
  rewrite (proj2 (load_ok _ _ _) (col_start m cols c HR ltac:(lia))).
  rewrite (proj2 (load_ok _ _ _) (col_start m cols (c + 1) HR ltac:(lia))). cbn [obind].
  rewrite (firstn_S_concat cols c k H), app_length.
  replace (length (concat (firstn c cols)) + length k - length (concat (firstn c cols)))
    with (length k) by lia.
  destruct (concat_split cols c k H) as (post & E). destruct HR as [V R C N].
  apply read_entries with post; congruence.
Qed.

(** ** Well-formedness. *)
Definition col_ok (rows : nat) (k : col) : Prop :=
  StronglySorted Peano.lt (map fst k) /\ Forall (fun e => fst e < rows) k.

Lemma sorted_nth (l : list nat) : StronglySorted Peano.lt l -> forall i j a b,
  i < j -> nth_error l i = Some a -> nth_error l j = Some b -> a < b.
Proof.
  induction 1 as [ | x l S IH F]; intros i j a b H Hi Hj; [destruct i; discriminate | ].
  destruct j as [ | j]; [lia | ]. cbn [nth_error] in Hj. destruct i as [ | i].
  - injection Hi as <-. rewrite Forall_forall in F. apply F. eapply nth_error_In, Hj.
  - apply (IH i j); [lia | exact Hi | exact Hj].
Qed.

Lemma repr_wf m cols : repr m cols -> Forall (col_ok (nrows m)) cols ->
  well_formed A m.
Proof.
  intros HR F. assert (HR' := HR). destruct HR' as [V R C N]. constructor.
  - rewrite C, psums_length, map_length, N. reflexivity.
  - rewrite (col_start m cols 0 HR) by lia. reflexivity.
  - intros c a b Ha Hb.
    assert (L : c + 1 <= length cols).
    { assert (X : c + 1 < length (cptr m)) by (apply nth_error_Some; congruence).
      rewrite C, psums_length, map_length in X. lia. }
    rewrite (col_start m cols c HR) in Ha by lia. rewrite (col_start m cols (c + 1) HR L) in Hb.
    destruct (nth_error cols c) as [k | ] eqn:Ek; [ | apply nth_error_None in Ek; lia].
    rewrite (firstn_S_concat cols c k Ek), app_length in Hb. injection Ha as <-.
    injection Hb as <-. lia.
  - rewrite N, (col_start m cols _ HR), firstn_all, V, map_length by lia. reflexivity.
  - now rewrite V, R, !map_length.
  - intros i r Hi. rewrite R, nth_error_map in Hi.
    destruct (nth_error (concat cols) i) as [e | ] eqn:Ee; [ | discriminate].
    injection Hi as <-. apply nth_error_In, in_concat in Ee.
    destruct Ee as (k & Hk & He). rewrite Forall_forall in F.
    destruct (F k Hk) as (_ & B). rewrite Forall_forall in B. now apply B.
  - intros c a b i j ri rj Ha Hb Hai Hij Hjb Hi Hj.
    assert (L : c + 1 <= length cols).
    { assert (X : c + 1 < length (cptr m)) by (apply nth_error_Some; congruence).
      rewrite C, psums_length, map_length in X. lia. }
    rewrite (col_start m cols c HR) in Ha by lia. rewrite (col_start m cols (c + 1) HR L) in Hb.
    destruct (nth_error cols c) as [k | ] eqn:Ek; [ | apply nth_error_None in Ek; lia].
    rewrite (firstn_S_concat cols c k Ek), app_length in Hb. injection Ha as <-.
    injection Hb as <-. destruct (concat_split cols c k Ek) as (post & E).
    rewrite R, E, !map_app in Hi, Hj.
    rewrite nth_error_app2 in Hi, Hj by (rewrite map_length; lia).
    rewrite map_length in Hi, Hj.
    rewrite nth_error_app1 in Hi, Hj by (rewrite map_length; lia).
    rewrite Forall_forall in F. destruct (F k) as (S & _); [eapply nth_error_In, Ek | ].
    eapply sorted_nth; [exact S | | exact Hi | exact Hj]. lia.
Qed.

(** ** Dense form and element access. *)
Definition lookup (k : col) (r : nat) : num :=
  match find (fun e => Nat.eqb (fst e) r) k with Some e => snd e | None => zero end.

Lemma lower_bound_spec (l : list nat) : forall fuel first len x,
  len <= fuel -> first + len <= length l ->
  (forall i j a b, first <= i -> i < j -> j < first + len ->
     nth_error l i = Some a -> nth_error l j = Some b -> a < b) ->
  exists i, lower_bound fuel l first len x = Ok i /\ first <= i <= first + len /\
    (forall j a, first <= j -> j < i -> nth_error l j = Some a -> a < x) /\
    (forall j a, i <= j -> j < first + len -> nth_error l j = Some a -> x <= a).
Proof.
  induction fuel as [ | fuel IH]; intros first len x Hf Hl HS.
  - destruct len; [ | lia]. exists first. cbn [lower_bound]. split; [reflexivity | ].
    split; [lia | ]. split; intros; lia.
  - destruct len as [ | len0] eqn:El.
    + exists first. cbn [lower_bound]. split; [reflexivity | ].
      split; [lia | ]. split; intros; lia.
    + rewrite <- El in *. assert (Hpos : 0 < len) by lia.
      assert (U : lower_bound (S fuel) l first len x =
        let half := len / 2 in
        do v <- load l (first + half);
        if Nat.ltb v x
        then lower_bound fuel l (first + half + 1) (len - half - 1) x
        else lower_bound fuel l first half x) by (rewrite El; reflexivity).
      rewrite U. clear U. cbv zeta.
      assert (Hh : len / 2 < len) by (apply Nat.div_lt; lia).
      set (half := len / 2) in *. clearbody half.
      destruct (nth_error l (first + half)) as [v | ] eqn:Ev.
      2:{ apply nth_error_None in Ev. lia. }
      rewrite (proj2 (load_ok _ _ _) Ev). cbn [obind].
      destruct (Nat.ltb_spec v x) as [Lv | Lv].
      * destruct (IH (first + half + 1) (len - half - 1) x) as (i & E & B & P & Q); try lia.
        { intros i j a b H1 H2 H3. apply HS; lia. }
        exists i. split; [exact E | ]. split; [lia | ]. split.
        -- intros j a H1 H2 Hj. destruct (Nat.lt_trichotomy j (first + half)) as [L | [-> | L]].
           ++ specialize (HS j (first + half) a v H1 L ltac:(lia) Hj Ev). lia.
           ++ congruence.
           ++ apply (P j a); [lia | exact H2 | exact Hj].
        -- intros j a H1 H2 Hj. apply (Q j a); [lia | lia | exact Hj].
      * destruct (IH first half x) as (i & E & B & P & Q); try lia.
        { intros i j a b H1 H2 H3. apply HS; lia. }
        exists i. split; [exact E | ]. split; [lia | ]. split.
        -- exact P.
        -- intros j a H1 H2 Hj. destruct (Nat.lt_trichotomy j (first + half)) as [L | [-> | L]].
           ++ apply (Q j a); [lia | lia | exact Hj].
           ++ congruence.
           ++ specialize (HS (first + half) j v a ltac:(lia) L ltac:(lia) Ev Hj). lia.
Qed.

Lemma find_first {V} (f : V -> bool) : forall l i e, nth_error l i = Some e -> f e = true ->
  (forall j x, j < i -> nth_error l j = Some x -> f x = false) -> find f l = Some e.
Proof.
  induction l as [ | a l IH]; intros [ | i] e H Hf HN; try discriminate.
  - injection H as ->. cbn [find]. now rewrite Hf.
  - cbn [find]. rewrite (HN 0 a ltac:(lia) eq_refl). apply (IH i e H Hf).
    intros j x Hj. exact (HN (S j) x ltac:(lia)).
Qed.

Lemma find_never {V} (f : V -> bool) : forall l,
  (forall j x, nth_error l j = Some x -> f x = false) -> find f l = None.
Proof.
  induction l as [ | a l IH]; intro H; [reflexivity | ].
  cbn [find]. rewrite (H 0 a eq_refl). apply IH. intros j x. exact (H (S j) x).
Qed.

Lemma repr_at m cols c k r : repr m cols -> nth_error cols c = Some k ->
  StronglySorted Peano.lt (map fst k) -> at_ A m r c = Ok (lookup k r).
Proof.
  intros HR H Srt. assert (L : c < length cols) by (apply nth_error_Some; congruence).
  unfold at_.
  rewrite (proj2 (load_ok _ _ _) (col_start m cols c HR ltac:(lia))).
  rewrite (proj2 (load_ok _ _ _) (col_start m cols (c + 1) HR ltac:(lia))). cbn [obind].
  rewrite (firstn_S_concat cols c k H), app_length.
  set (p := length (concat (firstn c cols))).
  replace (p + length k - p) with (length k) by lia.
  destruct (concat_split cols c k H) as (post & E). destruct HR as [V R C N].
  rewrite E in V, R.
  assert (NE : forall i, p <= i -> i < p + length k ->
     nth_error (rind m) i = option_map fst (nth_error k (i - p)) /\
     nth_error (vals m) i = option_map snd (nth_error k (i - p))).
  { intros i H1 H2. rewrite V, R, !map_app.
    split; rewrite nth_error_app2 by (rewrite map_length; exact H1);
      rewrite map_length; fold p;
      rewrite nth_error_app1 by (rewrite map_length; lia); apply nth_error_map. }
  assert (LR : p + length k <= length (rind m)).
  { rewrite R, map_length, !app_length. lia. }
  destruct (lower_bound_spec (rind m) (S (length k)) p (length k) r) as (i & Ei & B & P & Q).
  - lia.
  - exact LR.
  - intros i j a b H1 H2 H3 Ha Hb. destruct (NE i) as (Na & _); [lia | lia | ].
    destruct (NE j) as (Nb & _); [lia | lia | ]. rewrite Na in Ha. rewrite Nb in Hb.
    rewrite <- nth_error_map in Ha, Hb.
    eapply sorted_nth; [exact Srt | | exact Ha | exact Hb]. lia.
  - rewrite Ei. cbn [obind]. unfold lookup.
    destruct (Nat.eqb_spec i (p + length k)) as [-> | Ni].
    + rewrite find_never; [reflexivity | ]. intros j x Hj.
      assert (j < length k) by (apply nth_error_Some; congruence).
      destruct (NE (p + j)) as (Na & _); [lia | lia | ].
      replace (p + j - p) with j in Na by lia. rewrite Hj in Na.
      specialize (P (p + j) (fst x) ltac:(lia) ltac:(lia) Na).
      apply Nat.eqb_neq. lia.
    + destruct (NE i) as (Na & Nb); [lia | lia | ].
      destruct (nth_error k (i - p)) as [e | ] eqn:Ee; [ | apply nth_error_None in Ee; lia].
      cbn [option_map] in Na, Nb. rewrite (proj2 (load_ok _ _ _) Na). cbn [obind].
      destruct (Nat.eqb_spec (fst e) r) as [Er | Er].
      * rewrite (proj2 (load_ok _ _ _) Nb).
        rewrite (find_first _ k (i - p) e Ee); [reflexivity | now apply Nat.eqb_eq | ].
        intros j x Hj Hx. destruct (NE (p + j)) as (Nc & _); [lia | lia | ].
        replace (p + j - p) with j in Nc by lia. rewrite Hx in Nc.
        specialize (P (p + j) (fst x) ltac:(lia) ltac:(lia) Nc).
        apply Nat.eqb_neq. lia.
      * rewrite find_never; [reflexivity | ]. intros j x Hj. apply Nat.eqb_neq.
        assert (j < length k) by (apply nth_error_Some; congruence).
        destruct (NE (p + j)) as (Nc & _); [lia | lia | ].
        replace (p + j - p) with j in Nc by lia. rewrite Hj in Nc. cbn [option_map] in Nc.
        destruct (Nat.lt_ge_cases (p + j) i) as [L1 | L1].
        -- specialize (P (p + j) (fst x) ltac:(lia) L1 Nc). lia.
        -- specialize (Q i (fst e) ltac:(lia) ltac:(lia) Na).
           destruct (Nat.eq_dec (p + j) i) as [E1 | E1].
           ++ rewrite <- E1 in Na. rewrite Nc in Na. injection Na as ->. exact Er.
           ++ assert (fst e < fst x); [ | lia].
              eapply sorted_nth with (i := i - p) (j := j); [exact Srt | lia | | ].
              ** now rewrite nth_error_map, Ee.
              ** now rewrite nth_error_map, Hj.
Qed.

(** One column of the dense result. *)
Lemma dense_col rows cols c : forall (k : col) out,
  c < cols -> length out = rows * cols -> Forall (fun e => fst e < rows) k ->
  NoDup (map fst k) ->
  exists out', fold_left (fun o e =>
      do out <- o;
      if Nat.ltb (fst e) rows && Nat.ltb c cols
      then store (c * rows + fst e) (snd e) out else UB) k (Ok out) = Ok out' /\
    length out' = length out /\
    forall j, nth_error out' j =
      match find (fun e => Nat.eqb (c * rows + fst e) j) k with
      | Some e => Some (snd e)
      | None => nth_error out j
      end.
Proof.
  induction k as [ | [r v] k IH]; intros out Hc Ho F N; cbn [fold_left].
  - exists out. split; [reflexivity | ]. split; [reflexivity | ]. reflexivity.
  - assert (Hr := Forall_inv F). assert (Ft := Forall_inv_tail F).
    cbn [map fst snd] in *. apply NoDup_cons_iff in N. destruct N as (Nr & Nt).
    rewrite (proj2 (Nat.ltb_lt r rows) Hr), (proj2 (Nat.ltb_lt c cols) Hc). cbn [andb obind].
    assert (Hin : c * rows + r < length out) by (rewrite Ho; nia).
    destruct (store_ok num out (c * rows + r) v Hin) as (o1 & E & L & P). rewrite E.
    destruct (IH o1 Hc ltac:(congruence) Ft Nt) as (o2 & E2 & L2 & P2).
    rewrite (proj2 (Nat.ltb_lt c cols) Hc) in E2.
    exists o2. split; [exact E2 | ]. split; [congruence | ]. intro j. rewrite P2, P.
    cbn [find fst snd]. rewrite (Nat.eqb_sym j).
    destruct (Nat.eqb_spec (c * rows + r) j) as [<- | Nj]; [ | reflexivity].
    rewrite find_never; [reflexivity | ]. intros i x Hx. apply Nat.eqb_neq.
    intro X. apply Nr. apply in_map_iff. exists x. split; [lia | eapply nth_error_In, Hx].
Qed.

Lemma sorted_NoDup (l : list nat) : StronglySorted Peano.lt l -> NoDup l.
Proof.
  induction 1 as [ | x l S IH F]; constructor; [ | exact IH].
  intro H. rewrite Forall_forall in F. specialize (F x H). lia.
Qed.

Lemma repr_dense m cols : repr m cols -> Forall (col_ok (nrows m)) cols ->
  exists d, to_dense A m = Ok d /\ length d = nrows m * ncols m /\
    forall r c, r < nrows m -> c < ncols m ->
      nth_error d (c * nrows m + r) = Some (lookup (nth c cols []) r).
Proof.
  intros HR F. assert (HR' := HR). destruct HR' as [V R C N].
  assert (G : forall n, n <= length cols -> exists d,
    fold_left (fun o c =>
      do out <- o;
      do es <- col_entries A m c;
      fold_left (fun o e =>
          do out <- o;
          if Nat.ltb (fst e) (nrows m) && Nat.ltb c (ncols m)
          then store (c * nrows m + fst e) (snd e) out
          else UB) es (Ok out)) (seq 0 n) (Ok (repeat zero (nrows m * ncols m))) = Ok d /\
    length d = nrows m * ncols m /\
    forall r c, r < nrows m -> c < ncols m ->
      nth_error d (c * nrows m + r) =
      Some (if Nat.ltb c n then lookup (nth c cols []) r else zero)).
  { induction n as [ | n IH]; intro Hn.
    - eexists. split; [reflexivity | ]. split; [apply repeat_length | ].
      intros r c Hr Hc. cbn [Nat.ltb Nat.leb]. apply nth_error_repeat. nia.
    - destruct (IH ltac:(lia)) as (d & E & L & P). clear IH.
      rewrite seq_S, fold_left_app, E. cbn [Nat.add fold_left obind].
      destruct (nth_error cols n) as [k | ] eqn:Ek; [ | apply nth_error_None in Ek; lia].
      rewrite (repr_col m cols n k HR Ek). cbn [obind].
      rewrite Forall_forall in F. destruct (F k) as (Srt & B); [eapply nth_error_In, Ek | ].
      destruct (dense_col (nrows m) (ncols m) n k d) as (d' & E' & L' & P').
      + lia.
      + exact L.
      + exact B.
      + apply sorted_NoDup, Srt.
      + exists d'. split; [exact E' | ]. split; [congruence | ].
        intros r c Hr Hc. rewrite P'. destruct (Nat.eq_dec c n) as [-> | Nc].
        * rewrite (proj2 (Nat.ltb_lt n (S n))) by lia.
          unfold lookup. rewrite (nth_error_nth _ _ [] Ek).
          assert (Ef : forall l : col, find (fun e => Nat.eqb (n * nrows m + fst e) (n * nrows m + r)) l =
                                       find (fun e => Nat.eqb (fst e) r) l).
          { induction l as [ | e l IHl]; [reflexivity | ]. cbn [find]. rewrite IHl.
            destruct (Nat.eqb_spec (fst e) r) as [-> | Ne].
            - now rewrite Nat.eqb_refl.
            - destruct (Nat.eqb_spec (n * nrows m + fst e) (n * nrows m + r)); [lia | reflexivity]. }
          rewrite Ef. destruct (find (fun e => Nat.eqb (fst e) r) k); [reflexivity | ].
          rewrite P by assumption. now rewrite (proj2 (Nat.ltb_ge n n)) by lia.
        * rewrite find_never.
          -- rewrite P by assumption.
             destruct (Nat.ltb_spec c n), (Nat.ltb_spec c (S n)); try lia; reflexivity.
          -- intros i x Hx. apply Nat.eqb_neq. rewrite Forall_forall in B.
             specialize (B x (nth_error_In _ _ Hx)). intro X.
             destruct (Nat.lt_trichotomy n c) as [Lc | [Lc | Lc]]; [nia | lia | nia]. }
  destruct (G (length cols) ltac:(lia)) as (d & E & L & P).
  exists d. split; [ | split; [exact L | ]].
  - unfold to_dense. rewrite C, psums_length, map_length.
    replace (length cols + 1 - 1) with (length cols) by lia. exact E.
  - intros r c Hr Hc. rewrite (P r c Hr Hc). rewrite N in Hc.
    now rewrite (proj2 (Nat.ltb_lt c (length cols)) Hc).
Qed.

Lemma repr_dense_is m cols : repr m cols -> Forall (col_ok (nrows m)) cols ->
  dense_is A m (fun r c => lookup (nth c cols []) r).
Proof.
  intros HR F. split; [exact (repr_dense m cols HR F) | ].
  intros r c Hr Hc. unfold value.
  rewrite (proj2 (Nat.ltb_lt _ _) Hr), (proj2 (Nat.ltb_lt _ _) Hc). cbn [andb].
  rewrite (r_ncols _ _ HR) in Hc.
  destruct (nth_error cols c) as [k | ] eqn:Ek; [ | apply nth_error_None in Ek; lia].
  rewrite (nth_error_nth _ _ [] Ek). rewrite Forall_forall in F.
  apply repr_at with cols; [exact HR | exact Ek | ].
  apply F. eapply nth_error_In, Ek.
Qed.

End Repr.
