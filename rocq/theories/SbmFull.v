(** The full symmetric matrix written for the QR solver. *)
From Coq Require Import ZArith List Bool Lia Sorted.
From Verif Require Import Base Arith OMap JacModel CcmModel CcmSpec CcmProofs SbmModel SbmSpec SbmProofs SbmMore SbmCcs.
Import ListNotations.
Open Scope nat_scope.

Section Full.
Variable A : Arith.
Notation num := (num A).
Notation zero := (of_Z A 0).
Notation mat := (mat A).
Notation sbm := (sbm A).
Notation col := (list (nat * num)).

Definition vmirror (m : sbm) (i c cb : nat) : col :=
  match blk m i cb with
  | None => []
  | Some B =>
      let from := if i =? cb then c + 1 else 0 in
      map (fun ci => (base_of (cbi m) cb + ci, nth ci (nth c B []) zero))
        (seq from (size_of (cbi m) cb - from))
  end.

Lemma mirror_ok (m : sbm) i c cb : wf m -> square m -> i < length (cbi m) -> c < size_of (cbi m) i ->
  cb < length (cbi m) -> mirror_piece A m i c cb = Ok (vmirror m i c cb).
Proof.
  intros W Q Hi Hc Hcb. unfold mirror_piece, vmirror.
  rewrite (get_blk A m i cb) by (rewrite (wf_cols _ _ W); exact Hcb). cbn [obind].
  destruct (blk m i cb) as [B | ] eqn:E; [ | reflexivity]. cbv zeta.
  apply (wf_blk _ _ W) in E as [_ E].
  apply mapo_ok. intros ci Hci. apply in_seq in Hci.
  rewrite (elem_ok A _ _ B c ci E); [reflexivity | rewrite Q; exact Hc | lia].
Qed.

Definition vfull (m : sbm) (p : nat * nat) : col :=
  let '(i, c) := p in
  vcolumn A m true i c ++ concat (map (vmirror m i c) (seq i (length (bcols m) - i))).

Lemma full_column_ok (m : sbm) i c : wf m -> square m -> positive (rbi m) -> i < length (cbi m) ->
  c < size_of (cbi m) i -> full_column A m i c = Ok (vfull m (i, c)).
Proof.
  intros W Q P Hi Hc. unfold full_column.
  rewrite column_ok by (auto; intros _; auto). cbn [obind].
  rewrite (mapo_ok _ (vmirror m i c)); [reflexivity | ].
  intros cb H. apply in_seq in H. rewrite (wf_cols _ _ W) in H. apply mirror_ok; auto. lia.
Qed.

Lemma mirror_values_ok (m : sbm) i c cb : wf m -> square m -> i < length (cbi m) -> c < size_of (cbi m) i ->
  cb < length (cbi m) -> mirror_values A m i c cb = Ok (map snd (vmirror m i c cb)).
Proof.
  intros W Q Hi Hc Hcb. unfold mirror_values, vmirror.
  rewrite (get_blk A m i cb) by (rewrite (wf_cols _ _ W); exact Hcb). cbn [obind].
  destruct (blk m i cb) as [B | ] eqn:E; [ | reflexivity]. cbv zeta. rewrite map_map. cbn [snd].
  apply (wf_blk _ _ W) in E as [_ E].
  apply mapo_ok. intros ci Hci. apply in_seq in Hci.
  apply (elem_ok A _ _ B c ci E); [rewrite Q; exact Hc | lia].
Qed.

Lemma full_values_column_ok (m : sbm) i c : wf m -> square m -> positive (rbi m) -> i < length (cbi m) ->
  c < size_of (cbi m) i -> full_values_column A m i c = Ok (map snd (vfull m (i, c))).
Proof.
  intros W Q P Hi Hc. unfold full_values_column.
  rewrite values_column_ok by (auto; intros _; auto). cbn [obind].
  rewrite (mapo_ok _ (fun cb => map snd (vmirror m i c cb))).
  - cbn [obind]. unfold vfull. rewrite map_app, <- concat_map_snd, map_map. reflexivity.
  - intros cb H. apply in_seq in H. rewrite (wf_cols _ _ W) in H. apply mirror_values_ok; auto. lia.
Qed.

(** ** Order of the rows. *)
Lemma mirror_facts (m : sbm) i c cb e : wf m -> cb < length (cbi m) ->
  In e (vmirror m i c cb) -> base_of (cbi m) cb <= fst e < base_of (cbi m) (S cb) /\
    (i = cb -> base_of (cbi m) i + c < fst e).
Proof.
  intros W Hcb H. unfold vmirror in H. destruct (blk m i cb) as [B | ] eqn:E; [ | destruct H].
  apply in_map_iff in H as (ci & <- & H). apply in_seq in H. cbn [fst].
  rewrite size_base in H. destruct (Nat.eqb_spec i cb) as [-> | ]; split; lia.
Qed.

Lemma vcolumn_upper (m : sbm) i c e : wf m -> square m -> positive (rbi m) -> upper_only m ->
  i < length (cbi m) -> c < size_of (cbi m) i -> In e (vcolumn A m true i c) ->
  fst e <= base_of (cbi m) i + c.
Proof.
  intros W Q P U Hi Hc H. destruct e as (row, v). cbn [fst].
  apply vcolumn_in in H as (r & B & k & E & -> & _ & Hk); auto.
  destruct (piece_count A m true i c r B W (fun _ => conj Q P) E Hc) as [K1 K2].
  assert (Hri : r <= i) by (apply U; congruence). cbn [andb] in Hk.
  assert (Hr : r < length (rbi m)) by now apply (wf_blk _ _ W) in E.
  rewrite size_base in K2. rewrite <- Q in *.
  destruct (Nat.eqb_spec (base_of (rbi m) r) (base_of (rbi m) i)) as [EB | EB]; [lia | ].
  assert (r < i) by (destruct (Nat.eq_dec r i); [congruence | lia]).
  pose proof (layout_mono (rbi m) (wf_rlay _ _ W) (S r) i ltac:(lia) ltac:(lia)). lia.
Qed.

Lemma vfull_sorted (m : sbm) i c : wf m -> square m -> positive (rbi m) -> upper_only m ->
  i < length (cbi m) -> c < size_of (cbi m) i -> StronglySorted Peano.lt (map fst (vfull m (i, c))).
Proof.
  intros W Q P U Hi Hc. unfold vfull. rewrite map_app. apply sorted_app.
  - apply vcolumn_sorted; auto. intros _; auto.
  - apply (sorted_concat (vmirror m i c) (cbi m)).
    + apply W.
    + apply sorted_seq.
    + intros k Hk. apply in_seq in Hk. rewrite (wf_cols _ _ W) in Hk. lia.
    + intros k Hk. apply in_seq in Hk. rewrite (wf_cols _ _ W) in Hk. split.
      * unfold vmirror. destruct (blk m i k); [ | constructor]. cbv zeta. rewrite map_map. cbn [fst].
        apply sorted_shift, sorted_seq.
      * intros e He. apply mirror_facts in He; auto; [tauto | lia].
  - intros x y Hx Hy. apply in_map_iff in Hx as (e & <- & Hx). apply in_map_iff in Hy as (e' & <- & Hy).
    apply vcolumn_upper in Hx; auto.
    apply in_concat in Hy as (p & Hp & Hy). apply in_map_iff in Hp as (cb & <- & Hcb). apply in_seq in Hcb.
    rewrite (wf_cols _ _ W) in Hcb. apply mirror_facts in Hy as [H1 H2]; auto; [ | lia].
    destruct (Nat.eq_dec i cb) as [E | E]; [specialize (H2 E); lia | ].
    rewrite size_base in Hc.
    pose proof (layout_mono (cbi m) (wf_clay _ _ W) (S i) cb ltac:(lia) ltac:(lia)). lia.
Qed.

Lemma vfull_rows (m : sbm) i c : wf m -> square m -> positive (rbi m) ->
  i < length (cbi m) -> c < size_of (cbi m) i -> Forall (fun e => fst e < total (rbi m)) (vfull m (i, c)).
Proof.
  intros W Q P Hi Hc. unfold vfull. apply Forall_app. split.
  - apply vcolumn_rows; auto. intros _; auto.
  - apply Forall_forall. intros e H.
    apply in_concat in H as (p & Hp & H). apply in_map_iff in Hp as (cb & <- & Hcb). apply in_seq in Hcb.
    rewrite (wf_cols _ _ W) in Hcb. apply mirror_facts in H as [H1 _]; auto; [ | lia].
    rewrite Q, total_base.
    pose proof (layout_mono (cbi m) (wf_clay _ _ W) (S cb) (length (cbi m)) ltac:(lia) ltac:(lia)). lia.
Qed.

Lemma lookup_app (a b : col) row :
  lookup A (a ++ b) row = if existsb (fun e => fst e =? row) a then lookup A a row else lookup A b row.
Proof.
  unfold lookup. induction a as [ | (x, v) a IH]; [reflexivity | ].
  cbn [app find existsb fst]. destruct (x =? row); [reflexivity | exact IH].
Qed.

Lemma vfull_lookup (m : sbm) i c r k : wf m -> square m -> positive (rbi m) -> upper_only m ->
  i < length (cbi m) -> c < size_of (cbi m) i -> r < length (rbi m) -> k < size_of (rbi m) r ->
  lookup A (vfull m (i, c)) (base_of (rbi m) r + k) =
  if (r <? i) || (r =? i) && (k <=? c) then val_at m r k i c else val_at m i c r k.
Proof.
  intros W Q P U Hi Hc Hr Hk. unfold vfull. rewrite lookup_app.
  set (row := base_of (rbi m) r + k).
  assert (F : fit A m true) by (intros _; auto).
  destruct ((r <? i) || (r =? i) && (k <=? c)) eqn:EU.
  - assert (G : lookup A (vcolumn A m true i c) row = val_at m r k i c).
    { unfold row. rewrite vcolumn_lookup; auto. cbn [andb].
      destruct (Nat.eqb_spec r i) as [-> | ]; [ | reflexivity].
      rewrite Nat.ltb_irrefl in EU. cbn [orb andb] in EU. apply Nat.leb_le in EU.
      cbn [andb]. now rewrite (proj2 (Nat.ltb_ge c k)) by lia. }
    destruct (existsb (fun e => fst e =? row) (vcolumn A m true i c)) eqn:EX; [exact G | ].
    rewrite <- G. transitivity (of_Z A 0).
    + apply lookup_out. intro H. apply in_map_iff in H as (e & EE & H).
      apply in_concat in H as (p & Hp & H). apply in_map_iff in Hp as (cb & <- & Hcb). apply in_seq in Hcb.
      rewrite (wf_cols _ _ W) in Hcb. apply mirror_facts in H as [H1 H2]; auto; [ | lia].
      unfold row in EE. rewrite <- Q in *. rewrite size_base in Hk.
      apply orb_true_iff in EU as [EU | EU].
      * apply Nat.ltb_lt in EU.
        pose proof (layout_mono (rbi m) (wf_rlay _ _ W) (S r) cb ltac:(lia) ltac:(lia)). lia.
      * apply andb_true_iff in EU as [E1 E2]. apply Nat.eqb_eq in E1. apply Nat.leb_le in E2. subst r.
        destruct (Nat.eq_dec i cb) as [E | E]; [specialize (H2 E); lia | ].
        pose proof (layout_mono (rbi m) (wf_rlay _ _ W) (S i) cb ltac:(lia) ltac:(lia)). lia.
    + symmetry. apply lookup_out. intro H. apply in_map_iff in H as (e & EE & H).
      assert (X : existsb (fun e => fst e =? row) (vcolumn A m true i c) = true).
      { apply existsb_exists. exists e. split; [exact H | now apply Nat.eqb_eq]. }
      congruence.
  - assert (B0 : existsb (fun e => fst e =? row) (vcolumn A m true i c) = false).
    { destruct (existsb _ (vcolumn A m true i c)) eqn:EX; [ | reflexivity].
      apply existsb_exists in EX as (e & H & EE). apply Nat.eqb_eq in EE.
      apply vcolumn_upper in H; auto. unfold row in EE. rewrite <- Q in *. rewrite size_base in *.
      apply orb_false_iff in EU as [E1 E2]. apply Nat.ltb_ge in E1.
      destruct (Nat.eqb_spec r i) as [-> | NE].
      - cbn [andb] in E2. apply Nat.leb_gt in E2. lia.
      - pose proof (layout_mono (rbi m) (wf_rlay _ _ W) (S i) r ltac:(lia) ltac:(lia)). lia. }
    rewrite B0.
    assert (SRT : StronglySorted Peano.lt (map fst (concat (map (vmirror m i c) (seq i (length (bcols m) - i)))))).
    { pose proof (vfull_sorted m i c W Q P U Hi Hc) as S0. unfold vfull in S0. rewrite map_app in S0.
      clear -S0. induction (map fst (vcolumn A m true i c)) as [ | x l IH]; [exact S0 | ].
      cbn [app] in S0. inversion S0; subst. auto. }
    apply orb_false_iff in EU as [E1 E2]. apply Nat.ltb_ge in E1.
    assert (FR : (if i =? r then c + 1 else 0) <= k).
    { destruct (Nat.eqb_spec i r) as [-> | ]; [ | lia]. rewrite Nat.eqb_refl in E2. cbn [andb] in E2.
      apply Nat.leb_gt in E2. lia. }
    unfold val_at. destruct (blk m i r) as [B | ] eqn:EB.
    + apply lookup_in; [exact SRT | ]. apply in_concat. exists (vmirror m i c r). split.
      * apply in_map, in_seq. rewrite (wf_cols _ _ W), <- Q. lia.
      * unfold vmirror. rewrite EB. cbv zeta. apply in_map_iff. exists k.
        split; [unfold row; now rewrite Q | ]. apply in_seq. rewrite <- Q. lia.
    + apply lookup_out. intro H. apply in_map_iff in H as (e & EE & H).
      apply in_concat in H as (p & Hp & H). apply in_map_iff in Hp as (cb & <- & Hcb). apply in_seq in Hcb.
      rewrite (wf_cols _ _ W) in Hcb. pose proof (mirror_facts m i c cb e W ltac:(lia) H) as [H1 H2].
      assert (cb <> r) by (intros ->; unfold vmirror in H; rewrite EB in H; exact H).
      unfold row in EE. rewrite <- Q in *. rewrite size_base in Hk.
      destruct (Nat.lt_trichotomy cb r) as [K | [K | K]]; [ | contradiction | ].
      * pose proof (layout_mono (rbi m) (wf_rlay _ _ W) (S cb) r ltac:(lia) ltac:(lia)). lia.
      * pose proof (layout_mono (rbi m) (wf_rlay _ _ W) (S r) cb ltac:(lia) ltac:(lia)). lia.
Qed.

Lemma fill_full_eq (m : sbm) : wf m -> square m -> positive (rbi m) ->
  fill_upper_triangle_ccs A m = Ok (of_columns A (map (vfull m) (scalar_columns A m))).
Proof.
  intros W Q P. unfold fill_upper_triangle_ccs, full_columns.
  rewrite (mapo_ok _ (vfull m)); [reflexivity | ].
  intros (i, c) H. apply (scalar_columns_in A m i c W) in H as [H1 H2]. now apply full_column_ok.
Qed.

Lemma fill_full_ok (m : sbm) : wf m -> square m -> positive (rbi m) -> upper_only m ->
  exists k, fill_upper_triangle_ccs A m = Ok k /\ fill_upper_triangle_values A m = Ok (ccs_x k) /\
    well_formed A (handed A m k) /\
    exists g, dense_is A (handed A m k) g /\
      forall r c, r < total (rbi m) -> c < total (rbi m) -> g r c = sym m r c.
Proof.
  intros W Q P U. eexists. split; [now apply fill_full_eq | ]. split.
  { unfold fill_upper_triangle_values.
    rewrite (mapo_ok _ (fun p => map snd (vfull m p))).
    - cbn [omap obind]. unfold of_columns. cbn [ccs_x]. rewrite <- concat_map_snd, map_map. reflexivity.
    - intros (i, c) H. apply (scalar_columns_in A m i c W) in H as [H1 H2]. now apply full_values_column_ok. }
  destruct (handed_ok A m (vfull m) W) as (WF & g & D & G).
  - intros i c Hi Hc. split; [now apply vfull_sorted | now apply vfull_rows].
  - split; [exact WF | ]. exists g. split; [exact D | ].
    intros r c Hr Hc.
    destruct (locate _ _ (wf_rlay _ _ W) Hr) as (br & i & H1 & H2 & -> & _).
    destruct (locate _ _ (wf_rlay _ _ W) Hc) as (bc & j & H3 & H4 & -> & _).
    rewrite sym_at by assumption.
    rewrite Q at 2. rewrite G by (try rewrite <- Q; assumption).
    apply vfull_lookup; try rewrite <- Q; assumption.
Qed.

(** ** Pattern and space. *)
Lemma vfull_pattern (m m' : sbm) i c : wf m -> wf m' -> same_pattern A m m' ->
  i < length (cbi m) -> map fst (vfull m (i, c)) = map fst (vfull m' (i, c)).
Proof.
  intros W W' P Hi. unfold vfull. rewrite !map_app. f_equal; [now apply vcolumn_pattern | ].
  pose proof P as (R & C & HB). rewrite (wf_cols _ _ W), (wf_cols _ _ W'), <- C, !concat_map, !map_map.
  f_equal. apply map_ext. intro cb. unfold vmirror. rewrite <- C. specialize (HB i cb).
  destruct (blk m i cb) as [B | ], (blk m' i cb) as [B' | ]; cbv zeta.
  - rewrite !map_map. reflexivity.
  - destruct HB as [_ HB]. specialize (HB eq_refl). discriminate.
  - destruct HB as [HB _]. specialize (HB eq_refl). discriminate.
  - reflexivity.
Qed.

Lemma full_pattern (m m' : sbm) k k' : wf m -> wf m' -> square m -> positive (rbi m) -> same_pattern A m m' ->
  fill_upper_triangle_ccs A m = Ok k -> fill_upper_triangle_ccs A m' = Ok k' ->
  ccs_p k = ccs_p k' /\ ccs_i k = ccs_i k'.
Proof.
  intros W W' Q P SP E E'. pose proof SP as (R & C & _).
  assert (Q' : square m') by (unfold square; rewrite <- R, <- C; exact Q).
  assert (P' : positive (rbi m')) by (rewrite <- R; exact P).
  rewrite fill_full_eq in E by assumption. rewrite fill_full_eq in E' by assumption.
  injection E as <-. injection E' as <-.
  rewrite <- (scalar_columns_pattern A m m' W W' C). apply of_columns_pattern.
  intros (i, c) H. apply (scalar_columns_in A m i c W) in H as [H1 H2]. now apply vfull_pattern.
Qed.

Lemma sum_filter (p : nat -> bool) (f : nat -> nat) l :
  list_sum (map f (filter p l)) = list_sum (map (fun x => if p x then f x else 0) l).
Proof.
  induction l as [ | x l IH]; [reflexivity | ]. cbn [filter map]. rewrite list_sum_cons, <- IH.
  destruct (p x); [cbn [map]; now rewrite list_sum_cons | reflexivity].
Qed.

Lemma sorted_filter (p : nat -> bool) l : StronglySorted Peano.lt l -> StronglySorted Peano.lt (filter p l).
Proof.
  induction 1 as [ | x l Hl IH F]; [constructor | ]. cbn [filter]. destruct (p x); [ | exact IH].
  constructor; [exact IH | ]. apply Forall_forall. intros y Hy. apply filter_In in Hy as [Hy _].
  rewrite Forall_forall in F. auto.
Qed.

Lemma sum_swap (f : nat -> nat -> nat) n k :
  list_sum (map (fun i => list_sum (map (f i) (seq 0 k))) (seq 0 n)) =
  list_sum (map (fun j => list_sum (map (fun i => f i j) (seq 0 n))) (seq 0 k)).
Proof.
  assert (G : forall s s2, list_sum (map (fun i => list_sum (map (f i) s2)) s) =
    list_sum (map (fun j => list_sum (map (fun i => f i j) s)) s2)).
  { induction s as [ | x s IH]; intro s2.
    - cbn [map]. induction s2 as [ | y s2 IH2]; [reflexivity | ]. cbn [map]. rewrite list_sum_cons, <- IH2. reflexivity.
    - cbn [map]. rewrite list_sum_cons, IH. clear IH.
      induction s2 as [ | y s2 IH2]; [reflexivity | ]. cbn [map]. rewrite !list_sum_cons, <- IH2. lia. }
  apply G.
Qed.

Definition present (m : sbm) (r c : nat) : bool := match blk m r c with Some _ => true | None => false end.

Lemma keys_filter (m : sbm) i : wf m -> i < length (cbi m) ->
  map fst (nth i (bcols m) []) = filter (fun r => present m r i) (seq 0 (length (rbi m))).
Proof.
  intros W Hi. assert (E : nth_error (bcols m) i = Some (nth i (bcols m) []))
    by (apply nth_error_nth'; rewrite (wf_cols _ _ W); exact Hi).
  pose proof (wf_keys _ _ W) as K. rewrite Forall_forall in K. specialize (K _ (nth_error_In _ _ E)).
  apply sorted_unique; [now apply keys_sorted | apply sorted_filter, sorted_seq | ].
  intro r. rewrite filter_In, in_seq, in_map_iff. unfold present. split.
  - intros ((r', B) & <- & H). apply (col_blk A m i _ r' B W E) in H. cbn [fst]. rewrite H.
    apply (wf_blk _ _ W) in H as [H _]. split; [lia | reflexivity].
  - intros [_ H]. destruct (blk m r i) as [B | ] eqn:EB; [ | discriminate].
    exists (r, B). split; [reflexivity | ]. now apply (col_blk A m i _ r B W E).
Qed.

Lemma nonzeros_sum (m : sbm) : wf m -> nonzeros A m =
  list_sum (map (fun c => list_sum (map (fun r => if present m r c then size_of (cbi m) c * size_of (rbi m) r else 0)
                                   (seq 0 (length (rbi m))))) (seq 0 (length (cbi m)))).
Proof.
  intro W. unfold nonzeros.
  pose proof (sum_by_column A m (fun c e => size_of (cbi m) c * size_of (rbi m) (fst e)) W) as SC.
  cbn [fst] in SC. rewrite SC, (wf_cols _ _ W). clear SC. f_equal. apply map_ext_in. intros i Hi. apply in_seq in Hi.
  rewrite <- sum_filter, <- keys_filter, map_map by (auto; lia). reflexivity.
Qed.

Lemma full_space (m : sbm) k : wf m -> square m -> positive (rbi m) -> fill_upper_triangle_ccs A m = Ok k ->
  length (ccs_p k) = total (cbi m) + 1 /\ length (ccs_i k) = length (ccs_x k) /\
  length (ccs_x k) <= nonzeros A m * 2.
Proof.
  intros W Q P E. rewrite fill_full_eq in E by assumption. injection E as <-.
  assert (F : fit A m true) by (intros _; auto).
  pose proof (space_ok A m true _ W F (fill_ccs_eq A m true W F)) as (_ & _ & SP).
  unfold of_columns in *. cbn [ccs_p ccs_i ccs_x] in *. rewrite starts_psums, psums_length, !map_length.
  split; [now rewrite scalar_columns_length | ]. split; [reflexivity | ].
  rewrite map_length, CcmProofs.concat_length, map_map in SP.
  rewrite CcmProofs.concat_length, map_map.
  assert (SPL : list_sum (map (fun x => length (vfull m x)) (scalar_columns A m)) =
    list_sum (map (fun x => length (vcolumn A m true (fst x) (snd x))) (scalar_columns A m)) +
    list_sum (map (fun x => length (concat (map (vmirror m (fst x) (snd x))
                     (seq (fst x) (length (bcols m) - fst x))))) (scalar_columns A m))).
  { generalize (scalar_columns A m). intro l. induction l as [ | (i, c) l IH]; [reflexivity | ].
    cbn [map fst snd]. rewrite !list_sum_cons, IH. unfold vfull at 1. rewrite app_length. lia. }
  rewrite SPL. clear SPL.
  assert (LOW : list_sum (map (fun x => length (concat (map (vmirror m (fst x) (snd x))
                     (seq (fst x) (length (bcols m) - fst x))))) (scalar_columns A m)) <= nonzeros A m); [ | lia].
  assert (Q' : cbi m = rbi m) by (symmetry; exact Q).
  rewrite (nonzeros_sum m W), Q'.
  rewrite (sum_swap (fun c r => if present m r c then size_of (rbi m) c * size_of (rbi m) r else 0)).
  unfold scalar_columns. rewrite sum_flat, (wf_cols _ _ W), Q'. apply list_sum_le. intros i Hi. apply in_seq in Hi.
  rewrite map_map. cbn [fst snd].
  transitivity (list_sum (map (fun _ => list_sum (map (fun cb => if present m i cb then size_of (rbi m) cb else 0)
     (seq 0 (length (rbi m))))) (seq 0 (size_of (rbi m) i)))).
  - apply list_sum_le. intros c Hc. apply in_seq in Hc.
    rewrite CcmProofs.concat_length, map_map.
    pose proof (seq_app i (length (rbi m) - i) 0) as SQ.
    replace (i + (length (rbi m) - i)) with (length (rbi m)) in SQ by lia. cbn [Nat.add] in SQ.
    rewrite SQ, map_app, list_sum_app.
    eapply Nat.le_trans; [ | apply Nat.le_add_l].
    apply list_sum_le. intros cb Hcb. unfold vmirror, present. destruct (blk m i cb); [ | reflexivity].
    cbv zeta. rewrite map_length, seq_length, <- Q. lia.
  - rewrite list_sum_const, seq_length, <- list_sum_map_mul. apply list_sum_le. intros cb Hcb.
    destruct (present m i cb); lia.
Qed.
End Full.
