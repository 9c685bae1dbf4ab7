From Coq Require Import ZArith List Bool Lia Permutation Sorted.
From Verif Require Import Base Arith OMap JacModel JacSpec JacProofs CcmModel CcmSpec CcmProofs.
Import ListNotations.
Open Scope nat_scope.

(** Sorting by block index. *)
Definition by_block (a b : dvref) : Prop := (block a < block b)%Z.
Definition by_block_le (a b : dvref) : Prop := (block a <= block b)%Z.

Lemma insert_dv_perm d l : Permutation (insert_dv d l) (d :: l).
Proof.
  induction l as [ | e l IH]; [reflexivity | ]. cbn [insert_dv].
  destruct (Z.leb (block d) (block e)); [reflexivity | ].
  rewrite IH. apply perm_swap.
Qed.

Lemma sort_dvs_perm l : Permutation (sort_dvs l) l.
Proof.
  induction l as [ | d l IH]; [reflexivity | ]. cbn [sort_dvs fold_right].
  fold (sort_dvs l). rewrite insert_dv_perm. now rewrite IH.
Qed.

Lemma insert_dv_sorted d l : StronglySorted by_block_le l ->
  StronglySorted by_block_le (insert_dv d l).
Proof.
  induction 1 as [ | e l S IH F]; cbn [insert_dv].
  - constructor; constructor.
  - destruct (Z.leb_spec (block d) (block e)) as [L | L].
    + constructor; [constructor; assumption | ]. constructor; [exact L | ].
      eapply Forall_impl; [ | exact F]. unfold by_block_le. intros x Hx. lia.
    + constructor; [exact IH | ].
      apply (Permutation_Forall (Permutation_sym (insert_dv_perm d l))).
      constructor; [unfold by_block_le; lia | exact F].
Qed.

Lemma sort_dvs_sorted l : StronglySorted by_block_le (sort_dvs l).
Proof.
  induction l as [ | d l IH]; [constructor | ]. apply insert_dv_sorted, IH.
Qed.

Lemma strict_unique l : StronglySorted by_block l -> forall s,
  StronglySorted by_block_le s -> Permutation s l -> s = l.
Proof.
  induction 1 as [ | x l S IH F]; intros s Hs Hp.
  - apply Permutation_nil. now apply Permutation_sym.
  - destruct s as [ | y s]; [apply Permutation_nil in Hp; discriminate | ].
    assert (E : y = x).
    { assert (Hy : In y (x :: l)) by (apply (Permutation_in _ Hp); now left).
      destruct Hy as [-> | Hy]; [reflexivity | ]. exfalso.
      rewrite Forall_forall in F. specialize (F y Hy). unfold by_block in F.
      assert (Hx : In x (y :: s)) by (apply (Permutation_in _ (Permutation_sym Hp)); now left).
      destruct Hx as [-> | Hx]; [lia | ]. inversion_clear Hs.
      rewrite Forall_forall in H0. specialize (H0 x Hx). unfold by_block_le in H0. lia. }
    subst y. f_equal. inversion_clear Hs. apply IH; [assumption | ].
    now apply Permutation_cons_inv in Hp.
Qed.

Lemma fold_sum (l : list dvref) : forall s,
  fold_left (fun s d => s + mindim d) l s = s + dims l.
Proof.
  induction l as [ | d l IH]; intro s; [cbn; lia | ]. cbn [fold_left]. rewrite IH.
  unfold dims. cbn [map]. rewrite list_sum_cons. lia.
Qed.

Lemma dims_perm l l' : Permutation l l' -> dims l = dims l'.
Proof.
  unfold dims. induction 1; cbn [map]; rewrite ?list_sum_cons; try lia.
Qed.

Section Build.
Variable A : Arith.
Notation num := (num A).
Notation zero := (of_Z A 0).
Notation col := (list (nat * num)).
Variable base : dvref -> nat.

(** Row indices of the columns of a term. *)
Definition pat (dvs : list dvref) : list nat :=
  flat_map (fun d => seq (base d) (mindim d)) dvs.

Lemma pat_length dvs : length (pat dvs) = dims dvs.
Proof.
  unfold pat, dims. induction dvs as [ | d l IH]; [reflexivity | ].
  cbn [flat_map map]. rewrite app_length, seq_length, list_sum_cons. lia.
Qed.

Lemma last_app_map (l : list nat) L (f : nat -> nat) n :
  l <> [] -> last l 0 = L -> f 0 = L ->
  nth_error (l ++ map (fun k => f (S k)) (seq 0 n)) (length l + n - 1) = Some (f n).
Proof.
  intros Hl HL Hf. destruct n as [ | n].
  - cbn [seq map]. rewrite app_nil_r, Nat.add_0_r.
    destruct (exists_last Hl) as (l' & x & ->). rewrite last_last in HL. subst x.
    rewrite app_length. cbn [length]. rewrite nth_error_app2 by lia.
    replace (length l' + 1 - 1 - length l') with 0 by lia. cbn. congruence.
  - rewrite nth_error_app2 by lia. replace (length l + S n - 1 - length l) with n by lia.
    apply (nth_map_seq nat). split; [lia | reflexivity].
Qed.

Lemma ptr_writes_ok E N l L : l <> [] -> last l 0 = L ->
  ptr_writes (length l) E N (l ++ repeat 0 N) =
  Ok (l ++ map (fun k => L + S k * E) (seq 0 N)).
Proof.
  intros Hl HL. unfold ptr_writes.
  assert (G : forall n, n <= N ->
    fold_left (fun o r =>
      do l0 <- o;
      do p <- (if Nat.eqb (length l + r) 0 then UB else load l0 (length l + r - 1));
      store (length l + r) (p + E) l0) (seq 0 n) (Ok (l ++ repeat 0 N)) =
    Ok (l ++ map (fun k => L + S k * E) (seq 0 n) ++ repeat 0 (N - n))).
  { induction n as [ | n IH]; intro Hn.
    - cbn [seq fold_left map app]. now rewrite Nat.sub_0_r.
    - rewrite seq_S, fold_left_app, IH by lia. cbn [Nat.add fold_left obind].
      assert (Hlen : length l <> 0) by (destruct l; [congruence | discriminate]).
      rewrite (proj2 (Nat.eqb_neq (length l + n) 0)) by lia.
      assert (Ln : load (l ++ map (fun k => L + S k * E) (seq 0 n) ++ repeat 0 (N - n))
                        (length l + n - 1) = Ok (L + n * E)).
      { apply load_ok. rewrite app_assoc, nth_error_app1.
        - apply (last_app_map l L (fun k => L + k * E)); [exact Hl | exact HL | lia].
        - rewrite app_length, map_length, seq_length. lia. }
      rewrite Ln. cbn [obind].
      replace (N - n) with (S (N - S n)) by lia. cbn [repeat].
      rewrite map_app. cbn [map].
      assert (Es : forall (a b : list nat) x v, store (length a) v (a ++ x :: b) = Ok (a ++ v :: b)).
      { induction a as [ | y a IHa]; intros b x v; [reflexivity | ].
        cbn [length app store]. rewrite IHa. reflexivity. }
      rewrite app_assoc.
      replace (length l + n) with (length (l ++ map (fun k => L + S k * E) (seq 0 n)))
        by (rewrite app_length, map_length, seq_length; lia).
      rewrite Es. rewrite <- !app_assoc. cbn [app]. do 4 f_equal. cbn [Nat.mul]. lia. }
  rewrite (G N ltac:(lia)), Nat.sub_diag. cbn [repeat]. now rewrite app_nil_r.
Qed.

Lemma psums_repeat E n : forall a,
  match repeat E n with [] => [] | x :: r => psums (a + x) r end =
  map (fun k => a + S k * E) (seq 0 n).
Proof.
  induction n as [ | n IH]; intro a; [reflexivity | ].
  cbn [repeat seq map]. rewrite <- seq_shift, map_map.
  assert (X := IH (a + E)). destruct n as [ | n]; cbn [repeat] in *.
  - cbn. f_equal. lia.
  - cbn [psums]. f_equal; [lia | ]. rewrite X. apply map_ext. intro k. cbn [Nat.mul]. lia.
Qed.

Lemma row_writes_g from E n s : forall off,
  row_writes base from E n off s =
  gwrites from E n off (map (fun d => (mindim d, fun _ q => base d + q)) s).
Proof.
  induction s as [ | d s IH]; intro off; [reflexivity | ].
  cbn [row_writes map gwrites]. now rewrite IH.
Qed.

Definition row_es (s : list dvref) : list (nat * (nat -> nat -> nat)) :=
  map (fun d => (mindim d, fun _ q => base d + q)) s.

Lemma row_es_width s : gwidth (row_es s) = dims s.
Proof. unfold gwidth, row_es, dims. rewrite map_map. reflexivity. Qed.

Lemma seq_shift_map b n : map (fun q => b + q) (seq 0 n) = seq b n.
Proof.
  revert b. induction n as [ | n IH]; intro b; [reflexivity | ].
  cbn [seq map]. rewrite Nat.add_0_r, <- (IH (S b)), <- (seq_shift n 0), map_map. f_equal.
  apply map_ext. intro q. lia.
Qed.

Lemma row_es_grow s c : grow (row_es s) c = pat s.
Proof.
  unfold grow, row_es, pat. induction s as [ | d s IH]; [reflexivity | ].
  cbn [map flat_map fst snd]. rewrite IH, seq_shift_map. reflexivity.
Qed.

Lemma row_table s n : gtable (row_es s) n = concat (repeat (pat s) n).
Proof.
  unfold gtable. generalize 0 as a. induction n as [ | n IH]; intro a; [reflexivity | ].
  cbn [seq flat_map repeat concat]. now rewrite row_es_grow, IH.
Qed.

Definition zcol (s : list dvref) : col := map (fun r => (r, zero)) (pat s).

Lemma concat_zcol_fst s n : map fst (concat (repeat (zcol s) n)) = concat (repeat (pat s) n).
Proof.
  induction n as [ | n IH]; [reflexivity | ]. cbn [repeat concat].
  rewrite map_app, IH. unfold zcol. now rewrite map_map, map_id.
Qed.

Lemma concat_zcol_snd s n : map snd (concat (repeat (zcol s) n)) = repeat zero (dims s * n).
Proof.
  induction n as [ | n IH]; [now rewrite Nat.mul_0_r | ]. cbn [repeat concat].
  rewrite map_app, IH. unfold zcol. rewrite map_map. cbn [snd].
  rewrite Nat.mul_succ_r, Nat.add_comm, repeat_app. f_equal.
  rewrite <- pat_length. induction (pat s) as [ | x l IHl]; [reflexivity | ].
  cbn [map length repeat]. now rewrite IHl.
Qed.

Lemma append_ok n dvs m cols : repr A m cols -> diag m = false ->
  let s := sort_dvs (active_dvs dvs) in
  exists m', append A base n dvs m = Ok (Pointer (length (vals m)) (dims s), m') /\
    repr A m' (cols ++ repeat (zcol s) n) /\ nrows m' = nrows m /\ diag m' = false.
Proof.
  intros HR HD s. assert (HR' := HR). destruct HR' as [V R C N].
  unfold append. rewrite HD. cbv zeta. fold s.
  assert (Ed : elements (active_dvs dvs) = dims s).
  { unfold elements. rewrite fold_sum. cbn [Nat.add].
    apply dims_perm. apply Permutation_sym, sort_dvs_perm. }
  rewrite Ed, !resize_grow.
  assert (Hc : cptr m <> []) by (rewrite C; destruct (map (@length (nat * num)) cols); discriminate).
  rewrite (ptr_writes_ok (dims s) n (cptr m) (list_sum (map (@length _) cols)) Hc)
    by (rewrite C; apply psums_last). cbn [obind].
  rewrite row_writes_g. fold (row_es s).
  assert (Hs : stores (gwrites (length (rind m)) (gwidth (row_es s)) n 0 (row_es s))
            (rind m ++ repeat 0 (dims s * n)) = Ok (rind m ++ gtable (row_es s) n)).
  { apply stores_suffix.
    - rewrite gtable_length, repeat_length, row_es_width. reflexivity.
    - intros i v. apply gwrites_table. }
  rewrite row_es_width in Hs. rewrite Hs. cbn [obind].
  set (m' := Ccm (nrows m) (ncols m + n) _ _ _ false).
  assert (HR2 : repr A m' (cols ++ repeat (zcol s) n)).
  { constructor; unfold m'; cbn [vals rind cptr ncols].
    - rewrite concat_app, map_app, <- V, concat_zcol_snd. reflexivity.
    - rewrite concat_app, map_app, <- R, concat_zcol_fst, row_table. reflexivity.
    - rewrite map_app, psums_app, <- C. f_equal.
      assert (Em : map (@length (nat * num)) (repeat (zcol s) n) = repeat (dims s) n).
      { clear. induction n as [ | n IH]; [reflexivity | ]. cbn [repeat map]. rewrite IH.
        f_equal. unfold zcol. now rewrite map_length, pat_length. }
      rewrite Em. cbn [Nat.add]. symmetry. apply psums_repeat.
    - rewrite app_length, repeat_length, N. reflexivity. }
  rewrite (repr_check A m' _ HR2). cbn [obind].
  exists m'. split; [ | split; [exact HR2 | split; reflexivity]].
  do 2 f_equal. f_equal. now rewrite V, R, !map_length.
Qed.

(** Structure after appending all terms. *)
Definition tsort (t : term) : list dvref := sort_dvs (active_dvs (tdvs t)).
Fixpoint ptrs (off : nat) (ts : list term) : list pointer :=
  match ts with
  | [] => []
  | t :: r => Pointer off (dims (tsort t)) :: ptrs (off + dims (tsort t) * tdim t) r
  end.
Definition struct_cols (ts : list term) : list col :=
  flat_map (fun t => repeat (zcol (tsort t)) (tdim t)) ts.

Lemma append_terms_ok ts : forall m cols, repr A m cols -> diag m = false ->
  exists m', append_terms A base ts m = Ok (ptrs (length (vals m)) ts, m') /\
    repr A m' (cols ++ struct_cols ts) /\ nrows m' = nrows m /\ diag m' = false.
Proof.
  induction ts as [ | t ts IH]; intros m cols HR HD; cbn [append_terms ptrs].
  - exists m. unfold struct_cols. cbn [flat_map]. rewrite app_nil_r. auto.
  - destruct (append_ok (tdim t) (tdvs t) m cols HR HD) as (m1 & E & R1 & N1 & D1).
    rewrite E. cbn [obind]. fold (tsort t) in *.
    destruct (IH m1 _ R1 D1) as (m2 & E2 & R2 & N2 & D2). rewrite E2. cbn [obind].
    assert (L : length (vals m1) = length (vals m) + dims (tsort t) * tdim t).
    { rewrite (r_vals _ _ _ R1), concat_app, map_app, app_length, concat_zcol_snd, repeat_length.
      now rewrite <- (r_vals _ _ _ HR). }
    exists m2. rewrite L. split; [reflexivity | ]. split; [ | split; congruence].
    unfold struct_cols. cbn [flat_map]. rewrite app_assoc. exact R2.
Qed.

Lemma init_structure_ok dvs d ts m :
  exists m', init_structure A base (dvs ++ [d]) ts m = Ok (ptrs 0 ts, m') /\
    repr A m' (struct_cols ts) /\ nrows m' = base d + mindim d /\ diag m' = false.
Proof.
  unfold init_structure. rewrite rev_unit.
  destruct (append_terms_ok ts (init A (base d + mindim d) 0 (clear A m)) []) as (m' & E & R & N & D).
  - constructor; reflexivity.
  - reflexivity.
  - exists m'. split; [exact E | ]. split; [exact R | ]. split; [exact N | exact D].
Qed.

(** Values. *)
Definition val_es (k : container A) : list (nat * (nat -> nat -> num)) :=
  map (fun e => (mindim (fst (snd e)), fun c q => nth q (nth c (snd (snd e)) []) zero)) (cmap k).

Definition owners (k : container A) : list dvref := map (fun e => fst (snd e)) (cmap k).

Lemma val_es_width k : gwidth (val_es k) = dims (owners k).
Proof. unfold gwidth, val_es, dims, owners. rewrite !map_map. reflexivity. Qed.

Lemma jac_writes_g p n : forall es off,
  Forall (fun e : Z * (dvref * mat A) => length (snd (snd e)) = n) es ->
  jac_writes A p off es =
  gwrites (start p) (per_col p) n off
    (map (fun e => (mindim (fst (snd e)), fun c q => nth q (nth c (snd (snd e)) []) zero)) es).
Proof.
  induction es as [ | [b [d J]] es IH]; intros off H; [reflexivity | ].
  inversion_clear H. cbn [jac_writes map gwrites fst snd] in *. rewrite H0.
  now rewrite IH.
Qed.

Lemma write_all_stores js : forall m,
  write_all A js m =
  (do v <- stores (flat_map (fun j => jac_writes A (snd j) 0 (cmap (fst j))) js) (vals m);
   Ok (Ccm (nrows m) (ncols m) v (rind m) (cptr m) (diag m))).
Proof.
  induction js as [ | [k p] js IH]; intro m; cbn [write_all flat_map].
  - cbn [stores obind]. now destruct m.
  - unfold write_jacobians. rewrite stores_app. cbn [fst snd].
    destruct (stores (jac_writes A p 0 (cmap k)) (vals m)) as [v | | | ]; cbn [obind]; try reflexivity.
    rewrite IH. reflexivity.
Qed.

Definition ktable (k : container A) : list num := gtable (val_es k) (crows k).

Lemma fills_rows t k : fills A t k ->
  Forall (fun e : Z * (dvref * mat A) => length (snd (snd e)) = crows k) (cmap k).
Proof.
  intros ((_ & F) & _). eapply Forall_impl; [ | exact F]. intros e (_ & _ & H).
  now apply shaped_iff in H.
Qed.

Lemma fills_owners t k : fills A t k -> owners k = tsort t.
Proof.
  intros ((S & F) & _ & P). symmetry. apply strict_unique.
  - unfold owners. revert S F. generalize (cmap k). intro l.
    induction l as [ | [b [d J]] l IH]; intros S F; cbn [map]; [constructor | ].
    cbn [map] in S. inversion_clear S. inversion_clear F. constructor; [now apply IH | ].
    rewrite Forall_forall in *. intros d' Hd. apply in_map_iff in Hd.
    destruct Hd as (e & <- & He). unfold by_block. cbn [fst snd] in *.
    destruct H1 as (-> & _). destruct (H2 e He) as (-> & _).
    apply H0. now apply in_map.
  - apply sort_dvs_sorted.
  - unfold tsort. rewrite sort_dvs_perm. now apply Permutation_sym.
Qed.

Lemma ktable_length t k : fills A t k -> length (ktable k) = dims (tsort t) * tdim t.
Proof.
  intro H. unfold ktable. rewrite gtable_length, val_es_width, (fills_owners t k H).
  destruct H as (_ & -> & _). reflexivity.
Qed.

Lemma all_writes ts ks : Forall2 (fills A) ts ks -> forall off i v,
  In (i, v) (flat_map (fun j => jac_writes A (snd j) 0 (cmap (fst j))) (combine ks (ptrs off ts)))
  <-> exists j, i = off + j /\ nth_error (concat (map ktable ks)) j = Some v.
Proof.
  induction 1 as [ | t k ts ks H F IH]; intros off i v.
  - cbn. split; [intros [] | ]. intros (j & _ & E). destruct j; discriminate.
  - cbn [ptrs combine flat_map map concat fst snd]. rewrite in_app_iff, IH.
    rewrite (jac_writes_g _ (crows k) (cmap k) 0 (fills_rows t k H)). fold (val_es k).
    cbn [start per_col]. rewrite <- (fills_owners t k H), <- val_es_width, gwrites_table.
    fold (ktable k). assert (L := ktable_length t k H).
    rewrite <- (fills_owners t k H), <- val_es_width in L. split.
    + intros [(j & -> & E) | (j & -> & E)].
      * exists j. split; [reflexivity | ]. rewrite nth_error_app1; [exact E | ].
        apply nth_error_Some. congruence.
      * exists (length (ktable k) + j). split; [lia | ].
        rewrite nth_error_app2 by lia.
        now replace (length (ktable k) + j - length (ktable k)) with j by lia.
    + intros (j & -> & E). destruct (Nat.lt_ge_cases j (length (ktable k))) as [Lj | Lj].
      * left. exists j. split; [reflexivity | ]. now rewrite nth_error_app1 in E.
      * right. exists (j - length (ktable k)). split; [lia | ].
        now rewrite nth_error_app2 in E.
Qed.

Lemma flat_map_in_perm {X Y} (f : X -> list Y) l l' y :
  Permutation l l' -> (In y (flat_map f l) <-> In y (flat_map f l')).
Proof.
  intro P. rewrite !in_flat_map. split; intros (x & Hx & Hy); exists x; split; try exact Hy.
  - now apply (Permutation_in _ P).
  - now apply (Permutation_in _ (Permutation_sym P)).
Qed.

Lemma write_all_ok ts ks js m :
  Forall2 (fills A) ts ks -> Permutation js (combine ks (ptrs 0 ts)) ->
  length (vals m) = length (concat (map ktable ks)) ->
  write_all A js m =
  Ok (Ccm (nrows m) (ncols m) (concat (map ktable ks)) (rind m) (cptr m) (diag m)).
Proof.
  intros F P L. rewrite write_all_stores.
  assert (E : stores (flat_map (fun j => jac_writes A (snd j) 0 (cmap (fst j))) js) (vals m)
              = Ok (concat (map ktable ks))).
  { apply (stores_suffix num _ [] (vals m) (concat (map ktable ks))); [symmetry; exact L | ]. intros i v.
    rewrite (flat_map_in_perm _ _ _ _ P), (all_writes ts ks F 0). cbn [length].
    reflexivity. }
  now rewrite E.
Qed.

(** Final columns. *)
Definition kcols (k : container A) : list col :=
  map (fun c => combine (pat (owners k)) (grow (val_es k) c)) (seq 0 (crows k)).
Definition final_cols (ks : list (container A)) : list col := flat_map kcols ks.

Lemma combine_fst {X Y} (a : list X) (b : list Y) : length a = length b -> map fst (combine a b) = a.
Proof.
  revert b. induction a as [ | x a IH]; intros [ | y b] H; cbn in H |- *; try lia; [reflexivity | ].
  rewrite IH by lia. reflexivity.
Qed.
Lemma combine_snd {X Y} (a : list X) (b : list Y) : length a = length b -> map snd (combine a b) = b.
Proof.
  revert b. induction a as [ | x a IH]; intros [ | y b] H; cbn in H |- *; try lia; [reflexivity | ].
  rewrite IH by lia. reflexivity.
Qed.

Lemma pat_grow_length k c : length (pat (owners k)) = length (grow (val_es k) c).
Proof. now rewrite pat_length, grow_length, val_es_width. Qed.

Lemma kcols_fst k : map (map fst) (kcols k) = repeat (pat (owners k)) (crows k).
Proof.
  unfold kcols. rewrite map_map. generalize 0 as a. induction (crows k) as [ | n IH]; intro a; [reflexivity | ].
  cbn [seq map repeat]. rewrite IH, combine_fst; [reflexivity | apply pat_grow_length].
Qed.

Lemma kcols_snd k : concat (map (map snd) (kcols k)) = ktable k.
Proof.
  unfold kcols, ktable, gtable. rewrite map_map. generalize 0 as a.
  induction (crows k) as [ | n IH]; intro a; [reflexivity | ].
  cbn [seq map flat_map concat]. rewrite IH, combine_snd; [reflexivity | apply pat_grow_length].
Qed.

Lemma map_concat {X Y} (f : X -> Y) l : map f (concat l) = concat (map (map f) l).
Proof. apply concat_map. Qed.

Lemma final_struct ts ks : Forall2 (fills A) ts ks ->
  map (map fst) (final_cols ks) = map (map fst) (struct_cols ts).
Proof.
  induction 1 as [ | t k ts ks H F IH]; [reflexivity | ].
  unfold final_cols, struct_cols in *. cbn [flat_map]. rewrite !map_app, IH, kcols_fst.
  f_equal. rewrite (fills_owners t k H). destruct H as (_ & -> & _).
  induction (tdim t) as [ | n IHn]; [reflexivity | ]. cbn [repeat map]. rewrite <- IHn.
  f_equal. unfold zcol. now rewrite map_map, map_id.
Qed.

Lemma final_vals ks : map snd (concat (final_cols ks)) = concat (map ktable ks).
Proof.
  rewrite map_concat. unfold final_cols. induction ks as [ | k ks IH]; [reflexivity | ].
  cbn [flat_map map concat]. rewrite map_app, concat_app, kcols_snd, IH. reflexivity.
Qed.

Lemma map_length_of_fst (l l' : list col) : map (map fst) l = map (map fst) l' ->
  map (@length _) l = map (@length _) l' /\ map fst (concat l) = map fst (concat l') /\ length l = length l'.
Proof.
  intro H. split; [ | split].
  - assert (E : forall x : list col, map (@length _) x = map (@length _) (map (map fst) x)).
    { intro x. rewrite map_map. apply map_ext. intro y. now rewrite map_length. }
    rewrite (E l), (E l'), H. reflexivity.
  - now rewrite !map_concat, H.
  - rewrite <- (map_length (map fst) l), H, map_length. reflexivity.
Qed.

Lemma written ts ks js m : Forall2 (fills A) ts ks ->
  Permutation js (combine ks (ptrs 0 ts)) ->
  rind m = map fst (concat (struct_cols ts)) ->
  cptr m = psums 0 (map (@length _) (struct_cols ts)) ->
  ncols m = length (struct_cols ts) ->
  length (vals m) = length (rind m) ->
  exists m', write_all A js m = Ok m' /\ repr A m' (final_cols ks) /\
    nrows m' = nrows m /\ ncols m' = ncols m /\ rind m' = rind m /\ cptr m' = cptr m /\
    diag m' = diag m /\ length (vals m') = length (vals m).
Proof.
  intros F P HR HC HN HV.
  destruct (map_length_of_fst _ _ (final_struct ts ks F)) as (M1 & M2 & M3).
  assert (L : length (vals m) = length (concat (map ktable ks))).
  { rewrite HV, HR, <- M2, map_length, <- final_vals, map_length. reflexivity. }
  rewrite (write_all_ok ts ks js m F P L). eexists. split; [reflexivity | ].
  cbn [nrows ncols rind cptr diag vals]. split; [ | repeat split; auto].
  constructor; cbn [nrows ncols rind cptr diag vals].
  - symmetry. apply final_vals.
  - congruence.
  - now rewrite HC, M1.
  - congruence.
Qed.

(** Earlier rounds only change values. *)
Lemma rounds_ok ts : forall rounds m,
  Forall (fun js => exists ks, Forall2 (fills A) ts ks /\ Permutation js (combine ks (ptrs 0 ts))) rounds ->
  rind m = map fst (concat (struct_cols ts)) ->
  cptr m = psums 0 (map (@length _) (struct_cols ts)) ->
  ncols m = length (struct_cols ts) ->
  length (vals m) = length (rind m) ->
  exists m', write_all A (concat rounds) m = Ok m' /\
    nrows m' = nrows m /\ ncols m' = ncols m /\ rind m' = rind m /\ cptr m' = cptr m /\
    diag m' = diag m /\ length (vals m') = length (vals m).
Proof.
  induction rounds as [ | js rounds IH]; intros m F HR HC HN HV.
  - exists m. cbn. repeat split; reflexivity.
  - inversion_clear F. destruct H as (ks & Fk & P). cbn [concat].
    destruct (written ts ks js m Fk P HR HC HN HV) as (m1 & E & _ & N1 & C1 & R1 & P1 & D1 & V1).
    assert (App : forall a b x, write_all A (a ++ b) x = (do y <- write_all A a x; write_all A b y)).
    { clear. induction a as [ | [k p] a IHa]; intros b x; [reflexivity | ].
      cbn [app write_all]. destruct (write_jacobians A k p x); cbn [obind]; [apply IHa | reflexivity..]. }
    rewrite App, E. cbn [obind].
    destruct (IH m1 H0) as (m2 & E2 & N2 & C2 & R2 & P2 & D2 & V2); try congruence.
    exists m2. split; [exact E2 | ]. repeat split; congruence.
Qed.

(** ** Dense entries. *)
Lemma combine_app {X Y} (a a' : list X) (b b' : list Y) : length a = length b ->
  combine (a ++ a') (b ++ b') = combine a b ++ combine a' b'.
Proof.
  revert b. induction a as [ | x a IH]; intros [ | y b] H; cbn in H |- *; try lia; [reflexivity | ].
  rewrite IH by lia. reflexivity.
Qed.

Lemma find_app {V} (f : V -> bool) l1 l2 :
  find f (l1 ++ l2) = match find f l1 with Some x => Some x | None => find f l2 end.
Proof. induction l1 as [ | a l1 IH]; [reflexivity | ]. cbn [app find]. now destruct (f a). Qed.

Lemma find_strip b n (g : nat -> num) r :
  find (fun e => Nat.eqb (fst e) r) (combine (seq b n) (map g (seq 0 n))) =
  if Nat.leb b r && Nat.ltb r (b + n) then Some (r, g (r - b)) else None.
Proof.
  revert b g. induction n as [ | n IH]; intros b g.
  - cbn [seq map combine find].
    destruct (Nat.leb_spec b r), (Nat.ltb_spec r (b + 0)); cbn [andb]; try reflexivity; lia.
  - cbn [seq map combine find fst]. destruct (Nat.eqb_spec b r) as [-> | Nb].
    + rewrite Nat.leb_refl, Nat.sub_diag, (proj2 (Nat.ltb_lt r (r + S n)) ltac:(lia)). reflexivity.
    + rewrite <- (seq_shift n 0), map_map.
      rewrite (IH (S b) (fun q => g (S q))).
      destruct (Nat.leb_spec (S b) r), (Nat.ltb_spec r (S b + n)), (Nat.leb_spec b r),
        (Nat.ltb_spec r (b + S n)); cbn [andb]; try lia; try reflexivity.
      do 3 f_equal. lia.
Qed.

Lemma lookup_entry k c r :
  lookup A (combine (pat (owners k)) (grow (val_es k) c)) r = jac_entry A base k c r.
Proof.
  unfold lookup, jac_entry, owners, val_es, pat, grow.
  induction (cmap k) as [ | [b [d J]] l IH]; [reflexivity | ].
  cbn [map flat_map fst snd find].
  rewrite combine_app by (now rewrite map_length, !seq_length).
  rewrite find_app, find_strip.
  destruct (Nat.leb (base d) r && Nat.ltb r (base d + mindim d)); [reflexivity | exact IH].
Qed.

Lemma nth_final ks : forall c r, c < height A ks ->
  lookup A (nth c (final_cols ks) []) r = stacked A base ks c r.
Proof.
  induction ks as [ | k ks IH]; intros c r H; [cbn in H; lia | ].
  unfold final_cols. cbn [flat_map stacked].
  assert (L : length (kcols k) = crows k) by (unfold kcols; now rewrite map_length, seq_length).
  destruct (Nat.ltb_spec c (crows k)) as [Lc | Lc].
  - rewrite app_nth1 by (rewrite L; exact Lc). unfold kcols.
    rewrite (nth_indep _ [] (combine (pat (owners k)) (grow (val_es k) 0)))
      by (rewrite map_length, seq_length; exact Lc).
    rewrite (map_nth (fun c => combine (pat (owners k)) (grow (val_es k) c))).
    rewrite seq_nth by exact Lc. apply lookup_entry.
  - rewrite app_nth2 by (rewrite L; exact Lc). rewrite L. apply IH.
    unfold height in *. cbn [map] in H. rewrite list_sum_cons in H. lia.
Qed.

Lemma final_length ks : length (final_cols ks) = height A ks.
Proof.
  unfold final_cols, height. induction ks as [ | k ks IH]; [reflexivity | ].
  cbn [flat_map map]. rewrite app_length, list_sum_cons, IH. unfold kcols.
  now rewrite map_length, seq_length.
Qed.

(** ** Column order. *)
Lemma dims_firstn_le dvs : forall i j, i <= j -> dims (firstn i dvs) <= dims (firstn j dvs).
Proof.
  unfold dims. induction dvs as [ | d dvs IH]; intros [ | i] [ | j] H; cbn [firstn map];
    rewrite ?list_sum_cons; try (cbn; lia).
  specialize (IH i j ltac:(lia)). lia.
Qed.

Lemma dims_firstn_S dvs : forall i d, nth_error dvs i = Some d ->
  dims (firstn (S i) dvs) = dims (firstn i dvs) + mindim d.
Proof.
  unfold dims. induction dvs as [ | e dvs IH]; intros [ | i] d H; try discriminate.
  - injection H as ->. cbn. lia.
  - cbn [nth_error] in H. cbn [firstn map]. rewrite !list_sum_cons.
    specialize (IH i d H). cbn [firstn map] in IH. rewrite <- Nat.add_assoc, <- IH. reflexivity.
Qed.

Lemma numbered_order dvs d d' : numbered base dvs -> In d dvs -> In d' dvs ->
  by_block d d' -> base d + mindim d <= base d'.
Proof.
  intros N H H' B. apply In_nth_error in H, H'. destruct H as (i & Hi), H' as (j & Hj).
  destruct (N i d Hi) as (B1 & _ & E1). destruct (N j d' Hj) as (B2 & _ & E2).
  unfold by_block in B. rewrite E1, E2, <- (dims_firstn_S dvs i d Hi).
  apply dims_firstn_le. lia.
Qed.

Lemma numbered_bound dvs d : numbered base dvs -> In d dvs -> base d + mindim d <= dims dvs.
Proof.
  intros N H. apply In_nth_error in H. destruct H as (i & Hi).
  destruct (N i d Hi) as (_ & _ & E1). rewrite E1, <- (dims_firstn_S dvs i d Hi).
  rewrite <- (firstn_all dvs) at 2. apply dims_firstn_le.
  assert (i < length dvs) by (apply nth_error_Some; congruence). lia.
Qed.

Lemma numbered_rows dvs d : numbered base (dvs ++ [d]) ->
  base d + mindim d = dims (dvs ++ [d]).
Proof.
  intro N. assert (Hd : nth_error (dvs ++ [d]) (length dvs) = Some d).
  { rewrite nth_error_app2, Nat.sub_diag by lia. reflexivity. }
  destruct (N _ _ Hd) as (_ & _ & E). rewrite E, <- (dims_firstn_S _ _ d Hd).
  f_equal. apply firstn_all2. rewrite app_length. cbn. lia.
Qed.

Lemma pat_sorted dvs l : numbered base dvs -> StronglySorted by_block l -> incl l dvs ->
  StronglySorted Peano.lt (pat l).
Proof.
  intros N S I. induction S as [ | d l S IH F]; [constructor | ].
  unfold pat. cbn [flat_map]. fold (pat l).
  assert (IH' : StronglySorted Peano.lt (pat l)) by (apply IH; intros x Hx; apply I; now right).
  assert (B : Forall (fun x => base d + mindim d <= x) (pat l)).
  { apply Forall_forall. intros x Hx. unfold pat in Hx. apply in_flat_map in Hx.
    destruct Hx as (e & He & Hx). apply in_seq in Hx. rewrite Forall_forall in F.
    assert (Hd : In d dvs) by (apply I; now left).
    assert (He' : In e dvs) by (apply I; now right).
    assert (X := numbered_order dvs d e N Hd He' (F e He)). lia. }
  clear IH F I S. revert B. generalize (base d) as b. generalize (mindim d) as n.
  induction n as [ | n IHn]; intros b B; [exact IH' | ].
  cbn [seq app]. constructor.
  - apply IHn. eapply Forall_impl; [ | exact B]. cbv beta. intros; lia.
  - apply Forall_app. split.
    + apply Forall_forall. intros x Hx. apply in_seq in Hx. lia.
    + eapply Forall_impl; [ | exact B]. cbv beta. intros; lia.
Qed.

Lemma pat_bound dvs l : numbered base dvs -> incl l dvs ->
  Forall (fun r => r < dims dvs) (pat l).
Proof.
  intros N I. apply Forall_forall. intros x Hx. unfold pat in Hx. apply in_flat_map in Hx.
  destruct Hx as (e & He & Hx). apply in_seq in Hx.
  assert (X := numbered_bound dvs e N (I e He)). lia.
Qed.

Lemma kcols_ok dvs t k : numbered base dvs -> term_ok dvs t -> fills A t k ->
  Forall (col_ok A (dims dvs)) (kcols k).
Proof.
  intros N (_ & T) H. assert (I : incl (owners k) dvs).
  { intros d Hd. destruct H as (_ & _ & P). apply (Permutation_in _ P) in Hd.
    apply filter_In in Hd. now apply T. }
  assert (S : StronglySorted by_block (owners k)).
  { destruct H as ((S & F) & _ & P). unfold owners. revert S F. generalize (cmap k). intro l.
    induction l as [ | [b [d J]] l IH]; intros S F; cbn [map]; [constructor | ].
    cbn [map] in S. inversion_clear S. inversion_clear F. constructor; [now apply IH | ].
    rewrite Forall_forall in *. intros d' Hd. apply in_map_iff in Hd.
    destruct Hd as (e & <- & He). unfold by_block. cbn [fst snd] in *.
    destruct H1 as (-> & _). destruct (H2 e He) as (-> & _).
    apply H0. now apply in_map. }
  unfold kcols. apply Forall_forall. intros x Hx. apply in_map_iff in Hx.
  destruct Hx as (c & <- & _). assert (L := pat_grow_length k c). split.
  - rewrite combine_fst by exact L. now apply pat_sorted with dvs.
  - apply Forall_forall. intros e He. destruct e as [r v]. apply in_combine_l in He.
    assert (B := pat_bound dvs (owners k) N I). rewrite Forall_forall in B. now apply B.
Qed.

Lemma final_ok dvs ts ks : numbered base dvs -> Forall (term_ok dvs) ts ->
  Forall2 (fills A) ts ks -> Forall (col_ok A (dims dvs)) (final_cols ks).
Proof.
  intros N T F. induction F as [ | t k ts ks H F IH]; [constructor | ].
  inversion_clear T. unfold final_cols. cbn [flat_map]. apply Forall_app. split.
  - now apply kcols_ok with t.
  - now apply IH.
Qed.

(** ** The diagonal block. *)
Definition diag_cols (d : list num) : list col :=
  map (fun i => [(i, nth i d zero)]) (seq 0 (length d)).

Lemma diag_cols_fst d : map fst (concat (diag_cols d)) = seq 0 (length d).
Proof.
  unfold diag_cols. generalize (seq 0 (length d)). intro s.
  induction s as [ | i s IH]; [reflexivity | ]. cbn [map concat app fst]. now rewrite IH.
Qed.

Lemma nth_seq_self (d : list num) : map (fun i => nth i d zero) (seq 0 (length d)) = d.
Proof.
  induction d as [ | x d IH]; [reflexivity | ]. cbn [length seq map nth]. f_equal.
  rewrite <- seq_shift, map_map. exact IH.
Qed.

Lemma diag_cols_snd d : map snd (concat (diag_cols d)) = d.
Proof.
  rewrite <- (nth_seq_self d) at 2. unfold diag_cols. generalize (seq 0 (length d)). intro s.
  induction s as [ | i s IH]; [reflexivity | ]. cbn [map concat app snd]. now rewrite IH.
Qed.

Lemma diag_cols_len d : map (@length _) (diag_cols d) = repeat 1 (length d).
Proof.
  unfold diag_cols. rewrite map_map. cbn [length].
  assert (G : forall n a, map (fun _ : nat => 1) (seq a n) = repeat 1 n).
  { induction n as [ | n IH]; intro a; [reflexivity | ]. cbn [seq map repeat]. now rewrite IH. }
  apply G.
Qed.

Lemma push_ok m cols d : repr A m cols -> diag m = false -> length d = nrows m ->
  exists m', push_diag A d m = Ok m' /\ repr A m' (cols ++ diag_cols d) /\
    nrows m' = nrows m /\ ncols m' = ncols m + nrows m /\ diag m' = true /\
    vals m' = vals m ++ d /\ rind m' = rind m ++ seq 0 (nrows m) /\
    firstn (length (cptr m)) (cptr m') = cptr m /\
    length (cptr m') = length (cptr m) + nrows m.
Proof.
  intros HR HD HL. assert (HR' := HR). destruct HR' as [V R C N].
  unfold push_diag. rewrite (repr_check A m cols HR). cbn [obind].
  rewrite HL, Nat.eqb_refl, HD. cbv zeta.
  assert (Hlr : length (rind m) = length (vals m)) by (now rewrite V, R, !map_length).
  assert (Er : resize (length (vals m) + nrows m) 0 (rind m) = rind m ++ repeat 0 (nrows m))
    by (rewrite <- Hlr; apply resize_grow).
  rewrite Er, !resize_grow.
  assert (Hc : cptr m <> []) by (rewrite C; destruct (map (@length (nat * num)) cols); discriminate).
  assert (Hlast : load (cptr m ++ repeat 0 (nrows m)) (length (cptr m) - 1) =
                  Ok (list_sum (map (@length _) cols))).
  { apply load_ok. rewrite nth_error_app1 by (destruct (cptr m); [congruence | cbn; lia]).
    rewrite C, psums_length, map_length.
    replace (length cols + 1 - 1) with (length cols) by lia.
    rewrite psums_nth by (rewrite map_length; lia).
    rewrite firstn_all2 by (rewrite map_length; lia). reflexivity. }
  rewrite Hlast. cbn [obind].
  assert (E1 : stores (map (fun i => (length (vals m) + i, i)) (seq 0 (nrows m)))
                 (rind m ++ repeat 0 (nrows m)) = Ok (rind m ++ seq 0 (nrows m))).
  { apply stores_suffix; [now rewrite seq_length, repeat_length | ]. intros i v.
    rewrite in_map_iff. split.
    - intros (x & Hx & Hin). injection Hx as <- <-. exists x. apply in_seq in Hin.
      split; [lia | ]. rewrite (nth_error_nth' _ 0) by (rewrite seq_length; lia).
      now rewrite seq_nth by lia.
    - intros (j & -> & E). assert (j < nrows m) by
        (rewrite <- (seq_length (nrows m) 0); apply nth_error_Some; congruence).
      rewrite (nth_error_nth' _ 0) in E by (rewrite seq_length; lia).
      rewrite seq_nth in E by lia. injection E as <-. exists j. split; [f_equal; lia | ].
      apply in_seq. lia. }
  rewrite E1. cbn [obind].
  set (L := list_sum (map (@length _) cols)).
  assert (E2 : stores (map (fun i => (length (cptr m) + i, L + i + 1)) (seq 0 (nrows m)))
                 (cptr m ++ repeat 0 (nrows m)) =
               Ok (cptr m ++ map (fun k => L + S k * 1) (seq 0 (nrows m)))).
  { apply stores_suffix; [now rewrite map_length, seq_length, repeat_length | ]. intros i v.
    rewrite in_map_iff. split.
    - intros (x & Hx & Hin). injection Hx as <- <-. exists x. apply in_seq in Hin.
      split; [lia | ]. apply (nth_map_seq nat). split; lia.
    - intros (j & -> & E). apply (nth_map_seq nat) in E. destruct E as (Hj & <-).
      exists j. split; [f_equal; lia | ]. apply in_seq. lia. }
  rewrite E2. cbn [obind].
  assert (Ep : psums 0 (map (@length _) (cols ++ diag_cols d)) =
               cptr m ++ map (fun k => L + S k * 1) (seq 0 (nrows m))).
  { rewrite map_app, psums_app, <- C, diag_cols_len. f_equal. cbn [Nat.add].
    rewrite psums_repeat, HL. reflexivity. }
  assert (HRz : repr A (Ccm (nrows m) (ncols m + nrows m) (vals m ++ repeat zero (nrows m))
                 (rind m ++ seq 0 (nrows m))
                 (cptr m ++ map (fun k => L + S k * 1) (seq 0 (nrows m))) false)
                (cols ++ diag_cols (repeat zero (nrows m)))).
  { constructor; cbn [vals rind cptr ncols].
    - rewrite concat_app, map_app, <- V, diag_cols_snd. reflexivity.
    - rewrite concat_app, map_app, <- R, diag_cols_fst, repeat_length. reflexivity.
    - rewrite map_app, psums_app, <- C, diag_cols_len, repeat_length. f_equal.
      symmetry. apply psums_repeat.
    - rewrite app_length, N. unfold diag_cols. now rewrite map_length, seq_length, repeat_length. }
  rewrite (repr_check A _ _ HRz). cbn [obind vals nrows ncols rind cptr].
  assert (E3 : stores (combine (seq (length (vals m)) (nrows m)) d)
                 (vals m ++ repeat zero (nrows m)) = Ok (vals m ++ d)).
  { apply stores_suffix; [now rewrite repeat_length | ]. intros i v. rewrite <- HL. clear.
    generalize (length (vals m)) as a. induction d as [ | x d IH]; intro a; cbn [length seq combine].
    - split; [intros [] | ]. intros (j & _ & E). destruct j; discriminate.
    - cbn [In]. rewrite IH. split.
      + intros [E | (j & -> & E)].
        * injection E as <- <-. exists 0. split; [lia | reflexivity].
        * exists (S j). split; [lia | exact E].
      + intros (j & -> & E). destruct j as [ | j].
        * left. injection E as <-. f_equal. lia.
        * right. exists j. split; [lia | exact E]. }
  rewrite E3. cbn [obind].
  set (m' := Ccm _ _ (vals m ++ d) _ _ true).
  assert (HR2 : repr A m' (cols ++ diag_cols d)).
  { constructor; unfold m'; cbn [vals rind cptr ncols].
    - rewrite concat_app, map_app, <- V, diag_cols_snd. reflexivity.
    - rewrite concat_app, map_app, <- R, diag_cols_fst, HL. reflexivity.
    - now rewrite Ep.
    - rewrite app_length, N. unfold diag_cols. now rewrite map_length, seq_length, HL. }
  rewrite (repr_check A m' _ HR2). exists m'. split; [reflexivity | ].
  split; [exact HR2 | ]. unfold m'. cbn [nrows ncols diag vals rind cptr].
  split; [reflexivity | ]. split; [reflexivity | ]. split; [reflexivity | ].
  split; [reflexivity | ]. split; [reflexivity | ]. split.
  - rewrite firstn_app, firstn_all, Nat.sub_diag. cbn [firstn]. apply app_nil_r.
  - now rewrite app_length, map_length, seq_length.
Qed.

Lemma push_pop m cols d : repr A m cols -> diag m = false -> length d = nrows m ->
  exists m', push_diag A d m = Ok m' /\ pop_diag A m' = Ok m.
Proof.
  intros HR HD HL. destruct (push_ok m cols d HR HD HL)
    as (m' & E & R' & N & C & D & Vs & Rs & Cp & Cl).
  exists m'. split; [exact E | ]. unfold pop_diag. rewrite D, N, C, Vs, Rs, Cl, !app_length, HL, seq_length.
  rewrite !(proj2 (Nat.leb_le _ _)) by lia. cbn [andb].
  rewrite !Nat.add_sub, !firstn_app, !Nat.sub_diag, !firstn_all, Cp. cbn [firstn].
  rewrite !app_nil_r. rewrite <- HD.
  replace (Ccm (nrows m) (ncols m) (vals m) (rind m) (cptr m) (diag m)) with m by now destruct m.
  exact (repr_check A m cols HR).
Qed.

Lemma stores_combine (pre d old : list num) : length old = length d ->
  stores (combine (seq (length pre) (length d)) d) (pre ++ old) = Ok (pre ++ d).
Proof.
  intro H. apply stores_suffix; [congruence | ]. intros i v. clear H.
  generalize (length pre) as a. induction d as [ | x d IH]; intro a; cbn [length seq combine].
  - split; [intros [] | ]. intros (j & _ & E). destruct j; discriminate.
  - cbn [In]. rewrite IH. split.
    + intros [E | (j & -> & E)].
      * injection E as <- <-. exists 0. split; [lia | reflexivity].
      * exists (S j). split; [lia | exact E].
    + intros (j & -> & E). destruct j as [ | j].
      * left. injection E as <-. f_equal. lia.
      * right. exists j. split; [lia | exact E].
Qed.

Lemma push_update m cols d d' : repr A m cols -> diag m = false -> length d = nrows m ->
  length d' = nrows m ->
  exists m1, push_diag A d m = Ok m1 /\ update_diag A d' m1 = push_diag A d' m.
Proof.
  intros HR HD HL HL'. destruct (push_ok m cols d HR HD HL)
    as (m1 & E & R1 & N & C & D & Vs & Rs & Cp & Cl).
  destruct (push_ok m cols d' HR HD HL')
    as (m2 & E2 & R2 & N2 & C2 & D2 & Vs2 & Rs2 & Cp2 & Cl2).
  exists m1. split; [exact E | ]. rewrite E2. unfold update_diag.
  rewrite D, N, HL', Nat.eqb_refl, Vs, app_length, HL.
  rewrite (proj2 (Nat.leb_le _ _)) by lia. cbn [andb]. rewrite Nat.add_sub.
  rewrite <- HL' at 1. rewrite stores_combine by congruence. cbn [obind]. f_equal.
  assert (Ec : cptr m1 = cptr m2).
  { rewrite (r_cptr _ _ _ R1), (r_cptr _ _ _ R2), !map_app, !diag_cols_len. congruence. }
  destruct m2 as [a1 a2 a3 a4 a5 a6]. cbn [nrows ncols vals rind cptr diag] in *. congruence.
Qed.

Lemma diag_lookup cols d r c : r < length d -> length cols <= c -> c < length cols + length d ->
  lookup A (nth c (cols ++ diag_cols d) []) r =
  if Nat.eqb r (c - length cols) then nth r d zero else zero.
Proof.
  intros Hr Hc1 Hc2. rewrite app_nth2 by lia. unfold diag_cols.
  rewrite (nth_indep _ [] [(0, nth 0 d zero)]) by (rewrite map_length, seq_length; lia).
  rewrite (map_nth (fun i => [(i, nth i d zero)])), seq_nth by lia. cbn [Nat.add].
  unfold lookup. cbn [find fst]. rewrite Nat.eqb_sym.
  destruct (Nat.eqb_spec r (c - length cols)) as [-> | ]; reflexivity.
Qed.

Lemma diag_cols_ok d : Forall (col_ok A (length d)) (diag_cols d).
Proof.
  apply Forall_forall. intros x Hx. unfold diag_cols in Hx. apply in_map_iff in Hx.
  destruct Hx as (i & <- & Hi). apply in_seq in Hi. split.
  - repeat constructor.
  - constructor; [cbn; lia | constructor].
Qed.

End Build.
