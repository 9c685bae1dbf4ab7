(** The compressed-column form of a block matrix. *)
From Coq Require Import ZArith List Bool Lia Sorted.
From Verif Require Import Base Arith OMap JacModel CcmModel CcmSpec CcmProofs SbmModel SbmSpec SbmProofs SbmMore.
Import ListNotations.
Open Scope nat_scope.

(** ** Sorted pieces. *)
Definition positive (l : list nat) : Prop := forall b, b < length l -> 0 < size_of l b.

Lemma sorted_app (a b : list nat) : StronglySorted Peano.lt a -> StronglySorted Peano.lt b ->
  (forall x y, In x a -> In y b -> x < y) -> StronglySorted Peano.lt (a ++ b).
Proof.
  induction 1 as [ | x a Ha IH F]; intros Hb H; [exact Hb | ]. cbn [app]. constructor.
  - apply IH; [exact Hb | ]. intros; apply H; [now right | assumption].
  - apply Forall_app. split; [exact F | ]. apply Forall_forall. intros y Hy. apply H; [now left | exact Hy].
Qed.

Lemma sorted_seq n : forall a, StronglySorted Peano.lt (seq a n).
Proof.
  induction n as [ | n IH]; intro a; [constructor | ]. cbn [seq]. constructor; [apply IH | ].
  apply Forall_forall. intros x Hx. apply in_seq in Hx. lia.
Qed.

Lemma sorted_shift b l : StronglySorted Peano.lt l -> StronglySorted Peano.lt (map (fun i => b + i) l).
Proof.
  induction 1 as [ | x l Hl IH F]; [constructor | ]. cbn [map]. constructor; [exact IH | ].
  apply Forall_map. revert F. apply Forall_impl. intros; lia.
Qed.

Lemma sorted_concat {V} (f : nat -> list (nat * V)) (l : list nat) (keys : list nat) :
  layout l -> StronglySorted Peano.lt keys -> (forall k, In k keys -> k < length l) ->
  (forall k, In k keys -> StronglySorted Peano.lt (map fst (f k)) /\
     forall e, In e (f k) -> base_of l k <= fst e < base_of l (S k)) ->
  StronglySorted Peano.lt (map fst (concat (map f keys))).
Proof.
  intros L. induction 1 as [ | k keys Hk IH F]; intros HB H; [constructor | ].
  cbn [map concat]. rewrite map_app. apply sorted_app.
  - apply H. now left.
  - apply IH; intros; [apply HB | apply H]; now right.
  - intros x y Hx Hy. apply in_map_iff in Hx as (e & <- & He). apply in_map_iff in Hy as (e' & <- & He').
    apply in_concat in He' as (p & Hp & He'). apply in_map_iff in Hp as (k' & <- & Hk').
    pose proof (proj2 (H k (or_introl eq_refl)) e He).
    pose proof (proj2 (H k' (or_intror Hk')) e' He').
    rewrite Forall_forall in F. specialize (F k' Hk').
    pose proof (layout_mono l L (S k) k' ltac:(lia) ltac:(pose proof (HB k' (or_intror Hk')); lia)). lia.
Qed.

Section Ccs.
Variable A : Arith.
Notation num := (num A).
Notation zero := (of_Z A 0).
Notation mat := (mat A).
Notation sbm := (sbm A).
Notation col := (list (nat * num)).

(** What a block contributes to column [c] of its block column. *)
Definition piece (m : sbm) (upper : bool) (i c r : nat) (B : mat) : col :=
  map (fun k => (base_of (rbi m) r + k, nth c (nth k B []) zero))
      (seq 0 (if upper && (base_of (rbi m) r =? base_of (cbi m) i) then c + 1 else length B)).

Lemma col_blk (m : sbm) i kcol r B : wf m -> nth_error (bcols m) i = Some kcol ->
  In (r, B) kcol <-> blk m r i = Some B.
Proof.
  intros W E. unfold blk. rewrite E.
  pose proof (wf_keys _ _ W) as K. rewrite Forall_forall in K.
  symmetry. apply (mget_in _ Natcompare_order). eapply K, nth_error_In, E.
Qed.

(** [upper] is used with equal layouts without empty blocks, so that equal
    bases mean the diagonal block. *)
Definition fit (m : sbm) (upper : bool) : Prop :=
  upper = true -> square m /\ positive (rbi m).

Lemma base_inj l a b : layout l -> positive l -> a < length l -> b < length l ->
  base_of l a = base_of l b -> a = b.
Proof.
  intros L P Ha Hb E. pose proof (P a Ha) as Pa. pose proof (P b Hb) as Pb. rewrite size_base in Pa, Pb.
  destruct (Nat.lt_trichotomy a b) as [H | [H | H]]; [ | exact H | ].
  - pose proof (layout_mono l L (S a) b ltac:(lia) ltac:(lia)). lia.
  - pose proof (layout_mono l L (S b) a ltac:(lia) ltac:(lia)). lia.
Qed.

Lemma piece_count (m : sbm) upper i c r B : wf m -> fit m upper -> blk m r i = Some B ->
  c < size_of (cbi m) i ->
  (if upper && (base_of (rbi m) r =? base_of (cbi m) i) then c + 1 else length B) <= size_of (rbi m) r /\
  length B = size_of (rbi m) r.
Proof.
  intros W F E Hc. assert (N : blk m r i <> None) by congruence.
  destruct (blk_range A m r i W N) as [Hr Hi].
  apply (wf_blk _ _ W) in E as [_ E]. apply shaped_iff in E as [L _]. split; [ | exact L].
  destruct upper; [ | cbn [andb]; lia]. destruct (F eq_refl) as [Q P]. cbn [andb].
  destruct (Nat.eqb_spec (base_of (rbi m) r) (base_of (cbi m) i)) as [EB | ]; [ | lia].
  rewrite <- Q in *. apply base_inj in EB; auto; [ | apply W]. subst. lia.
Qed.

Lemma piece_ok (m : sbm) upper i c r B : wf m -> fit m upper -> blk m r i = Some B ->
  c < size_of (cbi m) i ->
  ccs_piece A m upper (base_of (cbi m) i) c (r, B) = Ok (piece m upper i c r B).
Proof.
  intros W F E Hc. destruct (piece_count m upper i c r B W F E Hc) as [K1 K2].
  apply (wf_blk _ _ W) in E as [_ E]. unfold ccs_piece, piece. cbv zeta.
  apply mapo_ok. intros k Hk. apply in_seq in Hk.
  rewrite (elem_ok A _ _ B k c E) by lia. reflexivity.
Qed.

Definition vcolumn (m : sbm) (upper : bool) (i c : nat) : col :=
  match nth_error (bcols m) i with
  | None => []
  | Some kcol => concat (map (fun e => piece m upper i c (fst e) (snd e)) kcol)
  end.

Lemma column_ok (m : sbm) upper i c : wf m -> fit m upper -> i < length (cbi m) ->
  c < size_of (cbi m) i -> ccs_column A m upper i c = Ok (vcolumn m upper i c).
Proof.
  intros W F Hi Hc. unfold ccs_column, vcolumn.
  destruct (nth_error (bcols m) i) as [kcol | ] eqn:E;
    [ | apply nth_error_None in E; rewrite (wf_cols _ _ W) in E; lia].
  rewrite (mapo_ok _ (fun e => piece m upper i c (fst e) (snd e))); [reflexivity | ].
  intros (r, B) H. apply piece_ok; auto. now apply (col_blk m i kcol r B W E).
Qed.

Lemma vcolumn_in (m : sbm) upper i c row v : wf m -> i < length (cbi m) ->
  In (row, v) (vcolumn m upper i c) <->
  exists r B k, blk m r i = Some B /\ row = base_of (rbi m) r + k /\ v = nth c (nth k B []) zero /\
    k < (if upper && (base_of (rbi m) r =? base_of (cbi m) i) then c + 1 else length B).
Proof.
  intros W Hi. unfold vcolumn.
  destruct (nth_error (bcols m) i) as [kcol | ] eqn:E;
    [ | apply nth_error_None in E; rewrite (wf_cols _ _ W) in E; lia].
  rewrite in_concat. split.
  - intros (p & Hp & H). apply in_map_iff in Hp as ((r, B) & <- & Hp). cbn [fst snd] in H.
    apply in_map_iff in H as (k & EK & Hk). apply in_seq in Hk. injection EK as <- <-.
    exists r, B, k. conj; [now apply (col_blk m i kcol r B W E) | reflexivity | reflexivity | lia].
  - intros (r & B & k & H1 & -> & -> & H2). exists (piece m upper i c r B). split.
    + apply in_map_iff. exists (r, B). split; [reflexivity | ]. now apply (col_blk m i kcol r B W E).
    + apply in_map_iff. exists k. split; [reflexivity | ]. apply in_seq. lia.
Qed.

Lemma keys_sorted (kcol : list (nat * mat)) : sorted Nat.compare kcol ->
  StronglySorted Peano.lt (map fst kcol).
Proof.
  induction kcol as [ | (k, B) kcol IH]; intro H; [constructor | ]. cbn [map fst]. constructor.
  - apply IH. exact (proj2 H).
  - apply Forall_forall. intros x Hx. apply in_map_iff in Hx as ((k', B') & <- & Hx). cbn [fst].
    apply Nat.compare_lt_iff. exact (sorted_above_all _ Natcompare_order k B kcol H k' B' Hx).
Qed.

Lemma vcolumn_sorted (m : sbm) upper i c : wf m -> fit m upper -> i < length (cbi m) ->
  c < size_of (cbi m) i -> StronglySorted Peano.lt (map fst (vcolumn m upper i c)).
Proof.
  intros W F Hi Hc. unfold vcolumn.
  destruct (nth_error (bcols m) i) as [kcol | ] eqn:E; [ | constructor].
  pose proof (wf_keys _ _ W) as K. rewrite Forall_forall in K. specialize (K kcol (nth_error_In _ _ E)).
  set (f := fun r => match mget Nat.compare r kcol with Some B => piece m upper i c r B | None => [] end).
  assert (EQ : map (fun e => piece m upper i c (fst e) (snd e)) kcol = map f (map fst kcol)).
  { rewrite map_map. apply map_ext_in. intros (r, B) H. unfold f. cbn [fst snd].
    now rewrite (proj2 (mget_in _ Natcompare_order _ _ _ K) H). }
  rewrite EQ. apply (sorted_concat f (rbi m)).
  - apply W.
  - now apply keys_sorted.
  - intros r Hr. apply in_map_iff in Hr as ((r', B) & <- & Hr). cbn [fst].
    apply (col_blk m i kcol r' B W E) in Hr. now apply (wf_blk _ _ W) in Hr.
  - intros r Hr. apply in_map_iff in Hr as ((r', B) & <- & Hr). cbn [fst].
    assert (G : f r' = piece m upper i c r' B).
    { unfold f. now rewrite (proj2 (mget_in _ Natcompare_order _ _ _ K) Hr). }
    rewrite G. apply (col_blk m i kcol r' B W E) in Hr.
    destruct (piece_count m upper i c r' B W F Hr Hc) as [K1 K2]. unfold piece. split.
    + rewrite map_map. cbn [fst]. apply sorted_shift, sorted_seq.
    + intros e He. apply in_map_iff in He as (k & <- & Hk). apply in_seq in Hk. cbn [fst].
      rewrite size_base in K1. lia.
Qed.

Lemma vcolumn_rows (m : sbm) upper i c : wf m -> fit m upper -> i < length (cbi m) ->
  c < size_of (cbi m) i -> Forall (fun e => fst e < total (rbi m)) (vcolumn m upper i c).
Proof.
  intros W F Hi Hc. apply Forall_forall. intros (row, v) H. cbn [fst].
  apply vcolumn_in in H as (r & B & k & E & -> & _ & Hk); auto.
  destruct (piece_count m upper i c r B W F E Hc) as [K1 K2].
  apply (wf_blk _ _ W) in E as [Hr _]. pose proof (layout_total (rbi m) r (wf_rlay _ _ W) Hr). lia.
Qed.

(** Reading a sorted column. *)
Lemma lookup_in (k : col) row v : StronglySorted Peano.lt (map fst k) -> In (row, v) k ->
  lookup A k row = v.
Proof.
  intros S0 H. unfold lookup. induction k as [ | (a, b) k IH]; [destruct H | ].
  cbn [find fst]. cbn [map fst] in S0. inversion S0 as [ | x l S1 F]; subst.
  destruct H as [H | H].
  - injection H as -> ->. now rewrite Nat.eqb_refl.
  - assert (a < row).
    { rewrite Forall_forall in F. apply F. change row with (fst (row, v)). now apply in_map. }
    rewrite (proj2 (Nat.eqb_neq a row)) by lia. now apply IH.
Qed.

Lemma lookup_out (k : col) row : ~ In row (map fst k) -> lookup A k row = zero.
Proof.
  intro H. unfold lookup. induction k as [ | (a, b) k IH]; [reflexivity | ].
  cbn [find fst]. cbn [map fst In] in H. rewrite (proj2 (Nat.eqb_neq a row)) by tauto. apply IH. tauto.
Qed.

Lemma vcolumn_lookup (m : sbm) upper i c r k : wf m -> fit m upper -> i < length (cbi m) ->
  c < size_of (cbi m) i -> r < length (rbi m) -> k < size_of (rbi m) r ->
  lookup A (vcolumn m upper i c) (base_of (rbi m) r + k) =
  if upper && (r =? i) && (c <? k) then zero else val_at m r k i c.
Proof.
  intros W F Hi Hc Hr Hk.
  pose proof (vcolumn_sorted m upper i c W F Hi Hc) as S0.
  assert (D : forall r', r' < length (rbi m) ->
    upper && (base_of (rbi m) r' =? base_of (cbi m) i) = upper && (r' =? i)).
  { intros r' Hr'. destruct upper; [ | reflexivity]. destruct (F eq_refl) as [Q P]. cbn [andb].
    rewrite <- Q in *. destruct (Nat.eqb_spec (base_of (rbi m) r') (base_of (rbi m) i)) as [EB | EB].
    - apply base_inj in EB; auto; [ | apply W]. subst. now rewrite Nat.eqb_refl.
    - destruct (Nat.eqb_spec r' i); [congruence | reflexivity]. }
  destruct (upper && (r =? i) && (c <? k)) eqn:EU.
  - apply lookup_out. intro H. apply in_map_iff in H as ((row, v) & EE & H). cbn [fst] in EE. subst row.
    apply vcolumn_in in H as (r' & B & k' & E & ER & _ & Hk'); auto.
    destruct (piece_count m upper i c r' B W F E Hc) as [K1 K2].
    assert (Hr' : r' < length (rbi m)) by now apply (wf_blk _ _ W) in E.
    destruct (locate_inj (rbi m) r k r' k' (wf_rlay _ _ W) Hr Hk Hr' ltac:(lia) ER) as [<- <-].
    rewrite D in Hk' by exact Hr. apply andb_true_iff in EU as [E1 E2]. rewrite E1 in Hk'.
    apply Nat.ltb_lt in E2. lia.
  - unfold val_at. destruct (blk m r i) as [B | ] eqn:E.
    + apply lookup_in; [exact S0 | ]. apply vcolumn_in; auto. exists r, B, k.
      conj; [exact E | reflexivity | reflexivity | ].
      destruct (piece_count m upper i c r B W F E Hc) as [K1 K2]. rewrite D by exact Hr.
      destruct (upper && (r =? i)); [cbn [andb] in EU; apply Nat.ltb_ge in EU; lia | lia].
    + apply lookup_out. intro H. apply in_map_iff in H as ((row, v) & EE & H). cbn [fst] in EE. subst row.
      apply vcolumn_in in H as (r' & B & k' & E' & ER & _ & Hk'); auto.
      destruct (piece_count m upper i c r' B W F E' Hc) as [K1 K2].
      assert (Hr' : r' < length (rbi m)) by now apply (wf_blk _ _ W) in E'.
      destruct (locate_inj (rbi m) r k r' k' (wf_rlay _ _ W) Hr Hk Hr' ltac:(lia) ER) as [<- <-].
      congruence.
Qed.

(** ** The scalar columns in order. *)
Lemma flat_seq (l : list nat) : layout l -> forall n, n <= length l ->
  flat_map (fun i => map (fun c => base_of l i + c) (seq 0 (size_of l i))) (seq 0 n) = seq 0 (base_of l n).
Proof.
  intros L. induction n as [ | n IH]; intro Hn; [reflexivity | ].
  rewrite seq_S, flat_map_app, IH by lia. cbn [flat_map Nat.add]. rewrite app_nil_r.
  specialize (L n ltac:(lia)).
  replace (base_of l (S n)) with (base_of l n + size_of l n) by (rewrite size_base; lia).
  rewrite seq_app. f_equal. cbn [Nat.add]. clear.
  generalize (base_of l n). intro b. generalize (size_of l n). intro k. 
  rewrite <- (map_id (seq b k)). revert b. 
  induction k as [ | k IH]; intro b; [reflexivity | ].
  cbn [seq map]. f_equal; [lia | ]. rewrite <- seq_shift, map_map, <- IH.
  apply map_ext. intros; lia.
Qed.

Lemma scalar_columns_ok (m : sbm) : wf m ->
  map (fun p => base_of (cbi m) (fst p) + snd p) (scalar_columns A m) = seq 0 (total (cbi m)).
Proof.
  intro W. rewrite total_base, <- (flat_seq (cbi m) (wf_clay _ _ W) (length (cbi m))) by lia.
  unfold scalar_columns. rewrite (wf_cols _ _ W). generalize (seq 0 (length (cbi m))). intro s.
  induction s as [ | i s IH]; [reflexivity | ]. cbn [flat_map]. rewrite map_app, IH. f_equal.
  rewrite map_map. reflexivity.
Qed.

Lemma scalar_columns_in (m : sbm) i c : wf m ->
  In (i, c) (scalar_columns A m) <-> i < length (cbi m) /\ c < size_of (cbi m) i.
Proof.
  intro W. unfold scalar_columns. rewrite in_flat_map, (wf_cols _ _ W). split.
  - intros (i' & H & K). apply in_seq in H. apply in_map_iff in K as (c' & E & K). apply in_seq in K.
    injection E as -> ->. lia.
  - intros [H K]. exists i. split; [apply in_seq; lia | ]. apply in_map, in_seq. lia.
Qed.

Lemma scalar_columns_nth (m : sbm) i c : wf m -> i < length (cbi m) -> c < size_of (cbi m) i ->
  nth_error (scalar_columns A m) (base_of (cbi m) i + c) = Some (i, c).
Proof.
  intros W Hi Hc. pose proof (scalar_columns_ok m W) as E.
  destruct (locate_back (cbi m) i c (wf_clay _ _ W) Hi Hc) as [LT _].
  destruct (nth_error (scalar_columns A m) (base_of (cbi m) i + c)) as [(i', c') | ] eqn:EN.
  - assert (IN : In (i', c') (scalar_columns A m)) by (eapply nth_error_In; exact EN).
    apply (scalar_columns_in m i' c' W) in IN as [Hi' Hc'].
    apply (map_nth_error (fun p => base_of (cbi m) (fst p) + snd p)) in EN. rewrite E in EN.
    cbn [fst snd] in EN. rewrite (nth_error_nth' _ 0) in EN by (rewrite seq_length; exact LT).
    rewrite seq_nth in EN by exact LT. injection EN as EN.
    destruct (locate_inj (cbi m) i c i' c' (wf_clay _ _ W) Hi Hc Hi' Hc' EN) as [-> ->]. reflexivity.
  - apply nth_error_None in EN. apply (f_equal (@length _)) in E. rewrite map_length, seq_length in E. lia.
Qed.

Lemma scalar_columns_length (m : sbm) : wf m -> length (scalar_columns A m) = total (cbi m).
Proof.
  intro W. pose proof (scalar_columns_ok m W) as E. apply (f_equal (@length _)) in E.
  now rewrite map_length, seq_length in E.
Qed.

(** ** Any matrix given by such columns. *)
Lemma starts_psums (cols : list col) : forall s, column_starts A s cols = psums s (map (@length _) cols).
Proof. induction cols as [ | k cols IH]; intro s; [reflexivity | ]. cbn [column_starts map psums]. now rewrite IH. Qed.

(** The arrays as CHOLMOD reads them. *)
Definition handed (m : sbm) (k : ccs A) : ccm A :=
  Ccm (total (rbi m)) (total (cbi m)) (ccs_x k) (ccs_i k) (ccs_p k) false.

Definition of_columns (cols : list col) : ccs A :=
  Ccs (column_starts A 0 cols) (map fst (concat cols)) (map snd (concat cols)).

Lemma handed_ok (m : sbm) (f : nat * nat -> col) : wf m ->
  (forall i c, i < length (cbi m) -> c < size_of (cbi m) i -> col_ok A (total (rbi m)) (f (i, c))) ->
  let h := handed m (of_columns (map f (scalar_columns A m))) in
  well_formed A h /\
  exists g, dense_is A h g /\
    forall r k i c, r < length (rbi m) -> k < size_of (rbi m) r -> i < length (cbi m) -> c < size_of (cbi m) i ->
      g (base_of (rbi m) r + k) (base_of (cbi m) i + c) = lookup A (f (i, c)) (base_of (rbi m) r + k).
Proof.
  intros W F h. set (cols := map f (scalar_columns A m)) in *.
  assert (R : repr A h cols).
  { constructor; [reflexivity | reflexivity | apply starts_psums | ].
    cbn. unfold cols. rewrite map_length. symmetry. now apply scalar_columns_length. }
  assert (FA : Forall (col_ok A (nrows h)) cols).
  { apply Forall_forall. intros x Hx. apply in_map_iff in Hx as ((i, c) & <- & Hx).
    apply (scalar_columns_in m i c W) in Hx as [H1 H2]. now apply F. }
  split; [now apply (repr_wf A h cols) | ].
  exists (fun r c => lookup A (nth c cols []) r). split; [now apply repr_dense_is | ].
  intros r k i c Hr Hk Hi Hc. f_equal. unfold cols.
  apply nth_error_nth. apply map_nth_error. now apply scalar_columns_nth.
Qed.

Lemma fill_ccs_eq (m : sbm) upper : wf m -> fit m upper ->
  fill_ccs A m upper =
  Ok (of_columns (map (fun p => vcolumn m upper (fst p) (snd p)) (scalar_columns A m))).
Proof.
  intros W F. unfold fill_ccs, ccs_columns.
  rewrite (mapo_ok _ (fun p => vcolumn m upper (fst p) (snd p))); [reflexivity | ].
  intros (i, c) H. apply (scalar_columns_in m i c W) in H as [H1 H2]. now apply column_ok.
Qed.

Lemma fill_ccs_ok (m : sbm) upper : wf m -> fit m upper -> exists k, fill_ccs A m upper = Ok k /\
  well_formed A (handed m k) /\
  exists g, dense_is A (handed m k) g /\
    forall r a i c, r < length (rbi m) -> a < size_of (rbi m) r -> i < length (cbi m) -> c < size_of (cbi m) i ->
      g (base_of (rbi m) r + a) (base_of (cbi m) i + c) =
      if upper && (r =? i) && (c <? a) then zero else val_at m r a i c.
Proof.
  intros W F. eexists. split; [now apply fill_ccs_eq | ].
  destruct (handed_ok m (fun p => vcolumn m upper (fst p) (snd p)) W) as (WF & g & D & G).
  - intros i c Hi Hc. cbn [fst snd]. split; [now apply vcolumn_sorted | now apply vcolumn_rows].
  - split; [exact WF | ]. exists g. split; [exact D | ].
    intros r a i c Hr Ha Hi Hc. rewrite G by assumption. cbn [fst snd]. now apply vcolumn_lookup.
Qed.

(** ** The values alone. *)
Lemma storage_skip cols (B : mat) rows c n : length B = rows -> c < cols -> n <= rows ->
  c * length B + n <= length (storage A cols B) /\
  firstn n (skipn (c * length B) (storage A cols B)) = firstn n (column A c B).
Proof.
  intros L Hc Hn. unfold storage. rewrite L.
  assert (LC : forall j, length (column A j B) = rows) by (intro; unfold column; now rewrite map_length).
  assert (G : forall s, (forall q, q <= length s ->
     length (concat (map (fun j => column A j B) (firstn q s))) = q * rows)).
  { induction s as [ | a s IH]; intros [ | q] Hq; [reflexivity | cbn in Hq; lia | reflexivity | ].
    cbn [firstn map concat]. rewrite app_length, LC, IH by (cbn in Hq; lia). lia. }
  assert (E : seq 0 cols = seq 0 c ++ c :: seq (S c) (cols - S c)).
  { replace cols with (c + S (cols - S c)) at 1 by lia. rewrite seq_app. reflexivity. }
  assert (LP : length (concat (map (fun j => column A j B) (seq 0 c))) = c * rows).
  { specialize (G (seq 0 c) c). rewrite seq_length in G. specialize (G (le_n c)).
    now rewrite firstn_all2 in G by (rewrite seq_length; lia). }
  rewrite E, map_app, concat_app. cbn [map concat]. split.
  - rewrite !app_length, LP, LC. lia.
  - rewrite <- LP, skipn_app, Nat.sub_diag, skipn_all. cbn [app skipn].
    rewrite firstn_app, LC. replace (n - rows) with 0 by lia. cbn [firstn]. apply app_nil_r.
Qed.

Lemma firstn_map_seq {V} (f : nat -> V) n k : n <= k -> firstn n (map f (seq 0 k)) = map f (seq 0 n).
Proof.
  intro H. replace k with (n + (k - n)) by lia. rewrite seq_app, map_app, firstn_app.
  rewrite map_length, seq_length, Nat.sub_diag. cbn [firstn]. rewrite app_nil_r.
  apply firstn_all2. rewrite map_length, seq_length. lia.
Qed.

Lemma column_seq c (B : mat) : column A c B = map (fun k => nth c (nth k B []) zero) (seq 0 (length B)).
Proof.
  unfold column. induction B as [ | x B IH]; [reflexivity | ].
  cbn [map length seq nth]. f_equal. rewrite IH, <- seq_shift, map_map. reflexivity.
Qed.

Lemma values_piece_ok (m : sbm) upper i c r B : wf m -> fit m upper -> blk m r i = Some B ->
  c < size_of (cbi m) i ->
  values_piece A m upper (base_of (cbi m) i) i c (r, B) = Ok (map snd (piece m upper i c r B)).
Proof.
  intros W F E Hc. destruct (piece_count m upper i c r B W F E Hc) as [K1 K2].
  unfold values_piece. cbv zeta. unfold piece. rewrite map_map. cbn [snd].
  set (n := if upper && (base_of (rbi m) r =? base_of (cbi m) i) then c + 1 else length B) in *.
  destruct (storage_skip (size_of (cbi m) i) B (length B) c n eq_refl Hc ltac:(lia)) as [H1 H2].
  rewrite (proj2 (Nat.leb_le _ _) H1), H2, column_seq, firstn_map_seq by lia. reflexivity.
Qed.

Lemma concat_map_snd (l : list col) : concat (map (map snd) l) = map snd (concat l).
Proof. induction l as [ | x l IH]; [reflexivity | ]. cbn [map concat]. now rewrite IH, map_app. Qed.

Lemma values_column_ok (m : sbm) upper i c : wf m -> fit m upper -> i < length (cbi m) ->
  c < size_of (cbi m) i -> values_column A m upper i c = Ok (map snd (vcolumn m upper i c)).
Proof.
  intros W F Hi Hc. unfold values_column, vcolumn.
  destruct (nth_error (bcols m) i) as [kcol | ] eqn:E;
    [ | apply nth_error_None in E; rewrite (wf_cols _ _ W) in E; lia].
  rewrite (mapo_ok _ (fun e => map snd (piece m upper i c (fst e) (snd e)))).
  - cbn [omap obind]. rewrite <- concat_map_snd, map_map. reflexivity.
  - intros (r, B) H. apply values_piece_ok; auto. now apply (col_blk m i kcol r B W E).
Qed.

Lemma fill_values_ok (m : sbm) upper : wf m -> fit m upper ->
  exists k, fill_ccs A m upper = Ok k /\ fill_values A m upper = Ok (ccs_x k).
Proof.
  intros W F. eexists. split; [now apply fill_ccs_eq | ]. unfold fill_values.
  rewrite (mapo_ok _ (fun p => map snd (vcolumn m upper (fst p) (snd p)))).
  - cbn [omap obind]. unfold of_columns. cbn [ccs_x]. rewrite <- concat_map_snd, map_map. reflexivity.
  - intros (i, c) H. apply (scalar_columns_in m i c W) in H as [H1 H2]. now apply values_column_ok.
Qed.

(** ** The pattern depends on the layout and on which blocks exist. *)
Definition same_pattern (m m' : sbm) : Prop :=
  rbi m = rbi m' /\ cbi m = cbi m' /\ forall r c, blk m r c = None <-> blk m' r c = None.

Lemma sorted_unique (a : list nat) : forall b, StronglySorted Peano.lt a -> StronglySorted Peano.lt b ->
  (forall x, In x a <-> In x b) -> a = b.
Proof.
  induction a as [ | x a IH]; intros [ | y b] Ha Hb H; [reflexivity | | | ].
  - exfalso. apply (proj2 (H y)). now left.
  - exfalso. apply (proj1 (H x)). now left.
  - inversion Ha as [ | ? ? Ha1 Fa]; subst. inversion Hb as [ | ? ? Hb1 Fb]; subst.
    rewrite Forall_forall in Fa, Fb.
    assert (x = y) as <-.
    { destruct (proj1 (H x) (or_introl eq_refl)) as [E | E]; [congruence | ].
      destruct (proj2 (H y) (or_introl eq_refl)) as [E' | E']; [congruence | ].
      specialize (Fa y E'). specialize (Fb x E). lia. }
    f_equal. apply IH; auto. intro z. split; intro Hz.
    + destruct (proj1 (H z) (or_intror Hz)) as [<- | K]; [ | exact K]. specialize (Fa _ Hz). lia.
    + destruct (proj2 (H z) (or_intror Hz)) as [<- | K]; [ | exact K]. specialize (Fb _ Hz). lia.
Qed.

Lemma pattern_keys (m m' : sbm) i kcol kcol' : wf m -> wf m' -> same_pattern m m' ->
  nth_error (bcols m) i = Some kcol -> nth_error (bcols m') i = Some kcol' ->
  map fst kcol = map fst kcol'.
Proof.
  intros W W' (_ & _ & P) E E'.
  pose proof (wf_keys _ _ W) as K. rewrite Forall_forall in K. specialize (K kcol (nth_error_In _ _ E)).
  pose proof (wf_keys _ _ W') as K'. rewrite Forall_forall in K'. specialize (K' kcol' (nth_error_In _ _ E')).
  apply sorted_unique; [now apply keys_sorted | now apply keys_sorted | ].
  intro r. rewrite !in_map_iff. split.
  - intros ((r', B) & <- & H). cbn [fst]. apply (col_blk m i kcol r' B W E) in H.
    destruct (blk m' r' i) as [B' | ] eqn:EB; [ | apply P in EB; congruence].
    exists (r', B'). split; [reflexivity | ]. now apply (col_blk m' i kcol' r' B' W' E').
  - intros ((r', B) & <- & H). cbn [fst]. apply (col_blk m' i kcol' r' B W' E') in H.
    destruct (blk m r' i) as [B' | ] eqn:EB; [ | apply P in EB; congruence].
    exists (r', B'). split; [reflexivity | ]. now apply (col_blk m i kcol r' B' W E).
Qed.

Lemma vcolumn_pattern (m m' : sbm) upper i c : wf m -> wf m' -> same_pattern m m' -> i < length (cbi m) ->
  map fst (vcolumn m upper i c) = map fst (vcolumn m' upper i c).
Proof.
  intros W W' P Hi. pose proof P as (R & C & _).
  destruct (nth_error (bcols m) i) as [kcol | ] eqn:E;
    [ | apply nth_error_None in E; rewrite (wf_cols _ _ W) in E; lia].
  destruct (nth_error (bcols m') i) as [kcol' | ] eqn:E';
    [ | apply nth_error_None in E'; rewrite (wf_cols _ _ W'), <- C in E'; lia].
  pose proof (pattern_keys m m' i kcol kcol' W W' P E E') as K.
  unfold vcolumn. rewrite E, E', !concat_map, !map_map. f_equal.
  set (g := fun r => map (fun k => base_of (rbi m) r + k)
     (seq 0 (if upper && (base_of (rbi m) r =? base_of (cbi m) i) then c + 1 else size_of (rbi m) r))).
  transitivity (map g (map fst kcol)).
  - rewrite map_map. apply map_ext_in. intros (r, B) H. unfold g, piece. cbn [fst snd]. rewrite map_map. cbn [fst].
    apply (col_blk m i kcol r B W E) in H. apply (wf_blk _ _ W) in H as [_ H].
    apply shaped_iff in H as [<- _]. reflexivity.
  - rewrite K, map_map. apply map_ext_in. intros (r, B) H. unfold g, piece. cbn [fst snd]. rewrite map_map. cbn [fst].
    apply (col_blk m' i kcol' r B W' E') in H. apply (wf_blk _ _ W') in H as [_ H].
    apply shaped_iff in H as [H _]. rewrite H, R, C. reflexivity.
Qed.

Lemma of_columns_pattern (f g : nat * nat -> col) l :
  (forall p, In p l -> map fst (f p) = map fst (g p)) ->
  ccs_p (of_columns (map f l)) = ccs_p (of_columns (map g l)) /\
  ccs_i (of_columns (map f l)) = ccs_i (of_columns (map g l)).
Proof.
  intro H. unfold of_columns. cbn [ccs_p ccs_i]. split.
  - rewrite !starts_psums, !map_map. f_equal. apply map_ext_in. intros p Hp.
    rewrite <- (map_length fst (f p)), (H p Hp), map_length. reflexivity.
  - rewrite !concat_map, !map_map. f_equal. apply map_ext_in, H.
Qed.

Lemma scalar_columns_pattern (m m' : sbm) : wf m -> wf m' -> cbi m = cbi m' ->
  scalar_columns A m = scalar_columns A m'.
Proof. intros W W' C. unfold scalar_columns. now rewrite (wf_cols _ _ W), (wf_cols _ _ W'), C. Qed.

Lemma fit_pattern (m m' : sbm) upper : same_pattern m m' -> fit m upper -> fit m' upper.
Proof. intros (R & C & _) F U. unfold square. rewrite <- R, <- C. exact (F U). Qed.

Lemma fill_pattern (m m' : sbm) upper k k' : wf m -> wf m' -> fit m upper -> same_pattern m m' ->
  fill_ccs A m upper = Ok k -> fill_ccs A m' upper = Ok k' -> ccs_p k = ccs_p k' /\ ccs_i k = ccs_i k'.
Proof.
  intros W W' F P E E'. pose proof (fit_pattern m m' upper P F) as F'.
  rewrite fill_ccs_eq in E by assumption. rewrite fill_ccs_eq in E' by assumption.
  injection E as <-. injection E' as <-. pose proof P as (_ & C & _).
  rewrite <- (scalar_columns_pattern m m' W W' C). apply of_columns_pattern.
  intros (i, c) H. apply (scalar_columns_in m i c W) in H as [H1 H2]. cbn [fst snd]. now apply vcolumn_pattern.
Qed.

(** ** Space. *)
Lemma piece_length (m : sbm) upper i c r B : wf m -> fit m upper -> blk m r i = Some B ->
  c < size_of (cbi m) i -> length (piece m upper i c r B) <= size_of (rbi m) r.
Proof.
  intros W F E Hc. unfold piece. rewrite map_length, seq_length. now apply piece_count.
Qed.

Lemma list_sum_le {U} (f g : U -> nat) l : (forall x, In x l -> f x <= g x) ->
  list_sum (map f l) <= list_sum (map g l).
Proof.
  induction l as [ | x l IH]; intro H; [reflexivity | ]. cbn [map]. rewrite !list_sum_cons.
  pose proof (H x (or_introl eq_refl)). specialize (IH (fun y Hy => H y (or_intror Hy))). lia.
Qed.

Lemma list_sum_const {U} (l : list U) n : list_sum (map (fun _ => n) l) = length l * n.
Proof. induction l as [ | x l IH]; [reflexivity | ]. cbn [map length]. rewrite list_sum_cons, IH. lia. Qed.

Lemma list_sum_map_mul {U} (f : U -> nat) n l : list_sum (map (fun x => n * f x) l) = n * list_sum (map f l).
Proof. induction l as [ | x l IH]; [cbn; lia | ]. cbn [map]. rewrite !list_sum_cons, IH. lia. Qed.

(** Count of a per-block quantity, block column by block column. *)
Lemma sum_by_column (m : sbm) (h : nat -> nat * mat -> nat) : wf m ->
  list_sum (map (fun e : nat * nat * mat => let '(r, c, B) := e in h c (r, B)) (blocks A m)) =
  list_sum (map (fun i => list_sum (map (h i) (nth i (bcols m) []))) (seq 0 (length (bcols m)))).
Proof.
  intros _. unfold blocks, blocks_from.
  assert (G : forall cols s, list_sum (map (fun e : nat * nat * mat => let '(r, c, B) := e in h c (r, B))
     (concat (map (fun p => map (fun e => (fst e, fst p, snd e)) (snd p)) (combine (seq s (length cols)) cols)))) =
   list_sum (map (fun i => list_sum (map (h (s + i)) (nth i cols []))) (seq 0 (length cols)))).
  { induction cols as [ | k cols IH]; intro s; [reflexivity | ].
    cbn [length seq combine map concat fst snd]. rewrite map_app, list_sum_app, list_sum_cons, IH. f_equal.
    - rewrite map_map. cbn [nth]. rewrite Nat.add_0_r. f_equal. apply map_ext. intros (r, B). reflexivity.
    - rewrite <- seq_shift, map_map. f_equal. apply map_ext. intro i. cbn [nth]. now rewrite Nat.add_succ_r. }
  rewrite G. reflexivity.
Qed.

Lemma sum_flat {U V} (f : V -> nat) (g : U -> list V) l :
  list_sum (map f (flat_map g l)) = list_sum (map (fun x => list_sum (map f (g x))) l).
Proof.
  induction l as [ | x l IH]; [reflexivity | ]. cbn [flat_map map].
  now rewrite map_app, list_sum_app, IH, list_sum_cons.
Qed.

Lemma space_ok (m : sbm) upper k : wf m -> fit m upper -> fill_ccs A m upper = Ok k ->
  length (ccs_p k) = total (cbi m) + 1 /\ length (ccs_i k) = length (ccs_x k) /\
  length (ccs_x k) <= nonzeros A m.
Proof.
  intros W F E. rewrite fill_ccs_eq in E by assumption. injection E as <-.
  unfold of_columns. cbn [ccs_p ccs_i ccs_x]. rewrite starts_psums, psums_length, !map_length.
  split; [now rewrite scalar_columns_length | ]. split; [reflexivity | ].
  rewrite CcmProofs.concat_length, map_map. unfold nonzeros.
  pose proof (sum_by_column m (fun c e => size_of (cbi m) c * size_of (rbi m) (fst e)) W) as SC.
  cbn [fst] in SC. rewrite SC. clear SC.
  unfold scalar_columns. rewrite sum_flat. apply list_sum_le. intros i Hi. apply in_seq in Hi.
  rewrite list_sum_map_mul. rewrite map_map. cbn [fst snd].
  transitivity (list_sum (map (fun _ => list_sum (map (fun e => size_of (rbi m) (fst e)) (nth i (bcols m) [])))
                           (seq 0 (size_of (cbi m) i)))).
  - apply list_sum_le. intros c Hc. apply in_seq in Hc.
    unfold vcolumn. rewrite (nth_error_nth' (bcols m) []) by lia.
    rewrite CcmProofs.concat_length, map_map. apply list_sum_le. intros (r, B) H. cbn [fst snd].
    apply piece_length; auto; [ | lia].
    apply (col_blk m i (nth i (bcols m) [])); auto. apply nth_error_nth'. lia.
  - rewrite list_sum_const, seq_length. lia.
Qed.
End Ccs.
