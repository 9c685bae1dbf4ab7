(** Dense form, slices and symmetric permutations of block matrices. *)
From Coq Require Import ZArith List Bool Lia.
From Verif Require Import Base Arith OMap JacModel SbmModel SbmSpec SbmProofs.
Import ListNotations.
Open Scope nat_scope.

Lemma mapo_ok {U V} (f : U -> outcome V) (g : U -> V) l :
  (forall x, In x l -> f x = Ok (g x)) -> mapo f l = Ok (map g l).
Proof.
  induction l as [ | x l IH]; intro H; [reflexivity | ].
  cbn [mapo map]. rewrite H by now left. cbn [obind].
  rewrite IH by (intros; apply H; now right). reflexivity.
Qed.

Section More.
Variable A : Arith.
Notation num := (num A).
Notation zero := (of_Z A 0).
Notation mat := (mat A).
Notation sbm := (sbm A).

(** ** Dense form. *)
Lemma nth_app3 {V} (a b c : list V) d n : nth n (a ++ b ++ c) d =
  if n <? length a then nth n a d
  else if n <? length a + length b then nth (n - length a) b d
  else nth (n - length a - length b) c d.
Proof.
  destruct (Nat.ltb_spec n (length a)); [now apply app_nth1 | ].
  rewrite app_nth2 by assumption.
  destruct (Nat.ltb_spec n (length a + length b)).
  - now rewrite app_nth1 by lia.
  - now rewrite app_nth2 by lia.
Qed.

Lemma nth_firstn_lt {V} (l : list V) d n i : i < n -> nth i (firstn n l) d = nth i l d.
Proof.
  revert n i. induction l as [ | x l IH]; intros n i H; [now rewrite firstn_nil | ].
  destruct n; [lia | ]. destruct i; [reflexivity | ]. cbn [firstn nth]. apply IH. lia.
Qed.

Lemma nth_skipn_add {V} (l : list V) d n i : nth i (skipn n l) d = nth (n + i) l d.
Proof.
  revert l. induction n as [ | n IH]; intro l; [reflexivity | ].
  destruct l; [now destruct i | ]. cbn [skipn Nat.add nth]. apply IH.
Qed.

Lemma write_row_length c0 (b h : list num) : c0 + length b <= length h ->
  length (write_row A c0 b h) = length h.
Proof. intro H. unfold write_row. rewrite !app_length, firstn_length, skipn_length. lia. Qed.

Lemma write_row_nth c0 (b h : list num) y : c0 + length b <= length h ->
  nth y (write_row A c0 b h) zero =
  if (c0 <=? y) && (y <? c0 + length b) then nth (y - c0) b zero else nth y h zero.
Proof.
  intro H. unfold write_row. rewrite nth_app3, firstn_length, Nat.min_l by lia.
  destruct (Nat.ltb_spec y c0) as [K | K].
  - rewrite (proj2 (Nat.leb_gt c0 y) K). cbn [andb]. now apply nth_firstn_lt.
  - rewrite (proj2 (Nat.leb_le c0 y) K). cbn [andb].
    destruct (Nat.ltb_spec y (c0 + length b)); [reflexivity | ].
    rewrite nth_skipn_add. f_equal. lia.
Qed.

Lemma write_block_ok n m r c r0 c0 B H : shaped A n m H = true -> shaped A r c B = true ->
  r0 + r <= n -> c0 + c <= m ->
  shaped A n m (write_block A r0 c0 B H) = true /\
  forall x y, x < n -> y < m ->
    nth y (nth x (write_block A r0 c0 B H) []) zero =
    if (r0 <=? x) && (x <? r0 + r) && (c0 <=? y) && (y <? c0 + c)
    then nth (y - c0) (nth (x - r0) B []) zero else nth y (nth x H []) zero.
Proof.
  intros SH SB Hr Hc.
  pose proof SH as SH'. pose proof SB as SB'.
  apply shaped_iff in SH' as [LH FH]. apply shaped_iff in SB' as [LB FB].
  assert (R : forall x, x < n -> nth x (write_block A r0 c0 B H) [] =
            if (r0 <=? x) && (x <? r0 + r) then write_row A c0 (nth (x - r0) B []) (nth x H [])
            else nth x H []).
  { intros x Hx. unfold write_block. rewrite nth_app3, firstn_length, map_length, combine_length, skipn_length.
    rewrite LH, LB, !Nat.min_l by lia.
    destruct (Nat.ltb_spec x r0) as [K | K].
    - rewrite (proj2 (Nat.leb_gt r0 x) K). cbn [andb]. now apply nth_firstn_lt.
    - rewrite (proj2 (Nat.leb_le r0 x) K). cbn [andb].
      destruct (Nat.ltb_spec x (r0 + r)) as [K2 | K2].
      + set (f := fun p : list num * list num => write_row A c0 (fst p) (snd p)).
        rewrite (nth_indep _ [] (f ([], [])))
          by (rewrite map_length, combine_length, skipn_length; lia).
        rewrite (map_nth f).
        assert (E : nth (x - r0) (combine B (skipn r0 H)) ([], []) =
                    (nth (x - r0) B [], nth x H [])).
        { clear - K K2 LB LH Hr. replace x with (r0 + (x - r0)) at 3 by lia.
          rewrite <- nth_skipn_add. set (q := x - r0). assert (q < length B) by lia.
          assert (length B <= length (skipn r0 H)) by (rewrite skipn_length; lia).
          generalize dependent (skipn r0 H). clear - H0. clearbody q. revert q H0.
          induction B as [ | b B IH]; intros q Hq l L; [cbn in Hq; lia | ].
          destruct l as [ | h l]; [cbn in L; lia | ]. destruct q; [reflexivity | ].
          cbn [combine nth]. apply IH; cbn in *; lia. }
        rewrite E. reflexivity.
      + rewrite nth_skipn_add. f_equal. lia. }
  assert (RL : forall x, x < n -> length (nth x (write_block A r0 c0 B H) []) = m).
  { intros x Hx. rewrite R by exact Hx. rewrite <- (shaped_row A n m H x SH Hx).
    destruct ((r0 <=? x) && (x <? r0 + r)) eqn:E; [ | reflexivity].
    apply andb_true_iff in E as [E1 E2]. apply Nat.leb_le in E1. apply Nat.ltb_lt in E2.
    apply write_row_length. rewrite (shaped_row A r c B (x - r0) SB) by lia.
    rewrite (shaped_row A n m H x SH Hx). lia. }
  split.
  - apply shaped_iff. assert (L : length (write_block A r0 c0 B H) = n).
    { unfold write_block. rewrite !app_length, firstn_length, map_length, combine_length, !skipn_length. lia. }
    split; [exact L | ]. apply Forall_forall. intros row Hrow.
    apply (In_nth _ _ []) in Hrow as (x & Hx & <-). apply RL. lia.
  - intros x y Hx Hy. rewrite R by exact Hx.
    destruct ((r0 <=? x) && (x <? r0 + r)) eqn:E; cbn [andb]; [ | reflexivity].
    apply andb_true_iff in E as [E1 E2]. apply Nat.leb_le in E1. apply Nat.ltb_lt in E2.
    assert (LR : length (nth (x - r0) B []) = c) by (apply (shaped_row A r c B); [exact SB | lia]).
    rewrite write_row_nth; rewrite LR; [reflexivity | ].
    rewrite (shaped_row A n m H x SH Hx). lia.
Qed.

Definition dense_step (m : sbm) (o : outcome mat) (e : nat * nat * mat) : outcome mat :=
  do H <- o;
  let '(r, c, B) := e in
  if shaped A (size_of (rbi m) r) (size_of (cbi m) c) B &&
     (base_of (rbi m) r + size_of (rbi m) r <=? total (rbi m)) &&
     (base_of (cbi m) c + size_of (cbi m) c <=? total (cbi m))
  then Ok (write_block A (base_of (rbi m) r) (base_of (cbi m) c) B H)
  else UB.

Lemma dense_fold (m : sbm) : layout (rbi m) -> layout (cbi m) -> forall ws H,
  NoDup (map fst ws) ->
  (forall r c B, In (r, c, B) ws -> r < length (rbi m) /\ c < length (cbi m) /\
     shaped A (size_of (rbi m) r) (size_of (cbi m) c) B = true) ->
  shaped A (total (rbi m)) (total (cbi m)) H = true ->
  exists D, fold_left (dense_step m) ws (Ok H) = Ok D /\
    shaped A (total (rbi m)) (total (cbi m)) D = true /\
    forall r i c j, r < length (rbi m) -> i < size_of (rbi m) r -> c < length (cbi m) ->
      j < size_of (cbi m) c ->
      nth (base_of (cbi m) c + j) (nth (base_of (rbi m) r + i) D []) zero =
      match assoc A ws r c with
      | Some B => nth j (nth i B []) zero
      | None => nth (base_of (cbi m) c + j) (nth (base_of (rbi m) r + i) H []) zero
      end.
Proof.
  intros LR LC. induction ws as [ | ((r0, c0) & B0) ws IH]; intros H N F SH.
  - exists H. conj; auto.
  - cbn [map fst] in N. inversion_clear N as [ | ? ? N1 N2].
    destruct (F r0 c0 B0 (or_introl eq_refl)) as (F1 & F2 & F3).
    pose proof (layout_total _ _ LR F1) as T1. pose proof (layout_total _ _ LC F2) as T2.
    destruct (write_block_ok _ _ _ _ _ _ B0 H SH F3 T1 T2) as [SW VW].
    destruct (IH _ N2 (fun r c B HB => F r c B (or_intror HB)) SW) as (D & E & SD & VD).
    exists D. conj; [ | exact SD | ].
    + cbn [fold_left]. unfold dense_step at 2. cbn [obind].
      rewrite F3, (proj2 (Nat.leb_le _ _) T1), (proj2 (Nat.leb_le _ _) T2). exact E.
    + intros r i c j Hr Hi Hc Hj. rewrite VD by assumption. cbn [assoc].
      destruct (assoc A ws r c) as [B | ] eqn:EA.
      * destruct (Nat.eqb_spec r0 r) as [-> | ]; cbn [andb]; [ | reflexivity].
        destruct (Nat.eqb_spec c0 c) as [-> | ]; [ | reflexivity].
        rewrite (proj2 (assoc_none A ws r c) N1) in EA. discriminate.
      * destruct (locate_back _ r i LR Hr Hi) as [G1 _].
        destruct (locate_back _ c j LC Hc Hj) as [G2 _].
        rewrite VW by assumption.
        destruct (Nat.eqb_spec r0 r) as [-> | Nr]; cbn [andb].
        -- destruct (Nat.eqb_spec c0 c) as [-> | Nc].
           ++ rewrite (proj2 (Nat.leb_le _ _)) by lia. rewrite (proj2 (Nat.ltb_lt _ _)) by lia.
              rewrite (proj2 (Nat.leb_le (base_of (cbi m) c) _)) by lia. rewrite (proj2 (Nat.ltb_lt (base_of (cbi m) c + j) _)) by lia.
              cbn [andb]. f_equal; [lia | f_equal; lia].
           ++ destruct ((base_of (cbi m) c0 <=? base_of (cbi m) c + j) &&
                        (base_of (cbi m) c + j <? base_of (cbi m) c0 + size_of (cbi m) c0)) eqn:K.
              ** apply andb_true_iff in K as [K1 K2]. apply Nat.leb_le in K1. apply Nat.ltb_lt in K2.
                 exfalso. apply Nc.
                 apply (locate_inj (cbi m) c0 (base_of (cbi m) c + j - base_of (cbi m) c0) c j); auto; lia.
              ** rewrite <- andb_assoc, K, andb_false_r. reflexivity.
        -- destruct ((base_of (rbi m) r0 <=? base_of (rbi m) r + i) &&
                     (base_of (rbi m) r + i <? base_of (rbi m) r0 + size_of (rbi m) r0)) eqn:K; [ | reflexivity].
           apply andb_true_iff in K as [K1 K2]. apply Nat.leb_le in K1. apply Nat.ltb_lt in K2.
           exfalso. apply Nr.
           apply (locate_inj (rbi m) r0 (base_of (rbi m) r + i - base_of (rbi m) r0) r i); auto; lia.
Qed.

Lemma assoc_blocks (m : sbm) r c : wf m -> assoc A (blocks A m) r c = blk m r c.
Proof.
  intro W. destruct (blk m r c) as [B | ] eqn:E.
  - apply assoc_in; [now apply blocks_nodup | ]. now apply blocks_in.
  - apply assoc_none. intro H. apply in_map_iff in H as (((r' & c') & B) & E' & H).
    cbn [fst] in E'. injection E' as -> ->. apply blocks_in in H; congruence.
Qed.

Lemma to_dense_ok (m : sbm) : wf m -> exists D, to_dense A m = Ok D /\
  shaped A (total (rbi m)) (total (cbi m)) D = true /\
  forall r c, r < total (rbi m) -> c < total (cbi m) -> nth c (nth r D []) zero = el m r c.
Proof.
  intro W.
  destruct (dense_fold m (wf_rlay _ _ W) (wf_clay _ _ W) (blocks A m)
              (zeros A (total (rbi m)) (total (cbi m))) (blocks_nodup A m W)
              (fun r c B H => blocks_facts A m r c B W H) (zeros_shaped A _ _)) as (D & E & SD & V).
  exists D. conj; [exact E | exact SD | ].
  intros r c Hr Hc. destruct (locate _ r (wf_rlay _ _ W) Hr) as (b & i & Hb & Hi & -> & _).
  destruct (locate _ c (wf_clay _ _ W) Hc) as (b' & j & Hb' & Hj & -> & _).
  rewrite V, el_at by assumption. rewrite assoc_blocks by exact W. unfold val_at.
  destruct (blk m b b'); [reflexivity | ]. apply zeros_val.
Qed.

(** ** Slices. *)
Lemma slice_layout_length l lo hi : length (slice_layout l lo hi) = hi - lo.
Proof. unfold slice_layout. now rewrite partial_sums_length, map_length, seq_length. Qed.

Lemma slice_layout_base l lo hi b : layout l -> hi <= length l -> b <= hi - lo ->
  base_of (slice_layout l lo hi) b = base_of l (lo + b) - base_of l lo.
Proof.
  intros L Hhi. unfold slice_layout. induction b as [ | b IH]; intro H.
  - rewrite Nat.add_0_r. cbn [base_of]. lia.
  - rewrite partial_sums_base0 by (rewrite map_length, seq_length; lia).
    rewrite list_sum_firstn_S by (rewrite map_length, seq_length; lia).
    rewrite partial_sums_base0 in IH by (rewrite map_length, seq_length; lia).
    rewrite IH by lia.
    rewrite (nth_indep _ 0 (size_of l 0)) by (rewrite map_length, seq_length; lia).
    rewrite map_nth, seq_nth, size_base by lia.
    replace (lo + S b) with (S (lo + b)) by lia.
    pose proof (layout_mono l L lo (lo + b) ltac:(lia) ltac:(lia)).
    pose proof (layout_mono l L (lo + b) (S (lo + b)) ltac:(lia) ltac:(lia)). lia.
Qed.

Lemma slice_layout_layout l lo hi : layout (slice_layout l lo hi).
Proof. apply partial_sums_layout. Qed.

Lemma slice_layout_size l lo hi b : b < hi - lo ->
  size_of (slice_layout l lo hi) b = size_of l (lo + b).
Proof.
  intro H. unfold slice_layout. rewrite partial_sums_size by (rewrite map_length, seq_length; lia).
  rewrite (nth_indep _ 0 (size_of l 0)) by (rewrite map_length, seq_length; lia).
  now rewrite map_nth, seq_nth by lia.
Qed.

Definition slice_col (rmin rmax : nat) (col : list (nat * mat)) : list (nat * mat) :=
  map (fun e => (fst e - rmin, snd e)) (filter (fun e => (rmin <=? fst e) && (fst e <? rmax)) col).

Lemma mget_slice rmin rmax col r : sorted Nat.compare col ->
  mget Nat.compare r (slice_col rmin rmax col) =
  if rmin + r <? rmax then mget Nat.compare (rmin + r) col else None.
Proof.
  unfold slice_col. induction col as [ | (k, v) col IH]; intro S0.
  - cbn [filter map mget]. destruct (rmin + r <? rmax); reflexivity.
  - cbn [sorted] in S0. destruct S0 as [Ab S0]. specialize (IH S0).
    cbn [filter fst]. destruct (Nat.leb_spec rmin k) as [K1 | K1]; cbn [andb].
    + destruct (Nat.ltb_spec k rmax) as [K2 | K2].
      * cbn [map fst snd mget]. rewrite IH.
        destruct (Nat.compare_spec r (k - rmin)) as [E | E | E];
        destruct (Nat.compare_spec (rmin + r) k) as [E' | E' | E']; try lia.
        -- now rewrite (proj2 (Nat.ltb_lt _ _)) by lia.
        -- now destruct (rmin + r <? rmax).
        -- reflexivity.
      * rewrite IH. cbn [mget]. destruct (Nat.ltb_spec (rmin + r) rmax) as [K3 | K3]; [ | reflexivity].
        rewrite (proj2 (Nat.compare_lt_iff (rmin + r) k)) by lia.
        apply (above_get _ ); [exact S0 | ].
        apply (above_trans _ Natcompare_order _ k); [ | exact Ab].
        apply Nat.compare_lt_iff. lia.
    + rewrite IH. cbn [mget]. destruct (Nat.ltb_spec (rmin + r) rmax); [ | reflexivity].
      now rewrite (proj2 (Nat.compare_gt_iff (rmin + r) k)) by lia.
Qed.

Lemma slice_col_sorted rmin rmax col : sorted Nat.compare col ->
  sorted Nat.compare (slice_col rmin rmax col).
Proof.
  unfold slice_col. induction col as [ | (k, v) col IH]; [trivial | ].
  intro S0. pose proof (sorted_above_all _ Natcompare_order _ _ _ S0) as Ab.
  cbn [sorted] in S0. destruct S0 as [_ S0]. specialize (IH S0).
  cbn [filter fst]. destruct (Nat.leb_spec rmin k) as [K1 | K1]; cbn [andb]; [ | exact IH].
  destruct (Nat.ltb_spec k rmax) as [K2 | K2]; [ | exact IH].
  cbn [map fst snd sorted]. split; [ | exact IH].
  unfold above. destruct (map _ _) as [ | (k', v') t] eqn:E; [trivial | ].
  assert (Hin : In (k', v') (map (fun e => (fst e - rmin, snd e))
            (filter (fun e => (rmin <=? fst e) && (fst e <? rmax)) col))) by (rewrite E; now left).
  apply in_map_iff in Hin as ((k0 & v0) & E0 & Hin). cbn [fst snd] in E0. injection E0 as <- <-.
  apply filter_In in Hin as [Hin Hb]. cbn [fst] in Hb. apply andb_true_iff in Hb as [Hb _].
  apply Nat.leb_le in Hb. apply Ab in Hin. apply Nat.compare_lt_iff in Hin.
  apply Nat.compare_lt_iff. lia.
Qed.

Lemma nth_error_firstn_lt {V} (l : list V) n i : i < n -> nth_error (firstn n l) i = nth_error l i.
Proof.
  revert n i. induction l as [ | x l IH]; intros n i H; [now rewrite firstn_nil | ].
  destruct n; [lia | ]. destruct i; [reflexivity | ]. cbn [firstn nth_error]. apply IH. lia.
Qed.
Lemma nth_error_skipn_add {V} (l : list V) n i : nth_error (skipn n l) i = nth_error l (n + i).
Proof.
  revert l. induction n as [ | n IH]; intro l; [reflexivity | ].
  destruct l; [now destruct i | ]. cbn [skipn Nat.add nth_error]. apply IH.
Qed.

Lemma slice_ok (m : sbm) rmin rmax cmin cmax : wf m -> rmin < rmax -> rmax <= length (rbi m) ->
  cmin < cmax -> cmax <= length (cbi m) ->
  exists s, slice A rmin rmax cmin cmax m = Ok s /\ wf s /\ owns s = true /\
    rbi s = slice_layout (rbi m) rmin rmax /\ cbi s = slice_layout (cbi m) cmin cmax /\
    forall r c, r < rmax - rmin -> c < cmax - cmin -> blk s r c = blk m (rmin + r) (cmin + c).
Proof.
  intros W H1 H2 H3 H4. unfold slice.
  rewrite (proj2 (Nat.ltb_lt _ _) H1), (proj2 (Nat.ltb_lt _ _) H3), (proj2 (Nat.leb_le _ _) H2).
  rewrite (proj2 (Nat.leb_le cmax (length (bcols m)))) by (rewrite (wf_cols _ _ W); exact H4). cbn [andb].
  eexists. split; [reflexivity | ].
  set (s := Sbm _ _ _ _).
  assert (B : forall r c, blk s r c = if (c <? cmax - cmin) && (rmin + r <? rmax)
                                      then blk m (rmin + r) (cmin + c) else None).
  { intros r c. unfold blk, s. cbn [bcols]. rewrite nth_error_map.
    destruct (Nat.ltb_spec c (cmax - cmin)) as [Hc | Hc]; cbn [andb].
    - rewrite nth_error_firstn_lt, nth_error_skipn_add by exact Hc.
      destruct (nth_error (bcols m) (cmin + c)) as [col | ] eqn:E; cbn [option_map].
      + apply mget_slice. pose proof (wf_keys _ _ W) as K. rewrite Forall_forall in K.
        eapply K, nth_error_In, E.
      + now destruct (rmin + r <? rmax).
    - rewrite (proj2 (nth_error_None _ _)); [reflexivity | ].
      rewrite firstn_length. lia. }
  split; [ | conj; try reflexivity].
  - constructor; cbn [rbi cbi bcols s].
    + rewrite map_length, firstn_length, skipn_length, slice_layout_length, (wf_cols _ _ W). lia.
    + apply slice_layout_layout.
    + apply slice_layout_layout.
    + apply Forall_forall. intros x Hx. apply in_map_iff in Hx as (col & <- & Hc).
      apply slice_col_sorted. pose proof (wf_keys _ _ W) as K. rewrite Forall_forall in K. apply K.
      apply In_nth_error in Hc as [q Hq].
      destruct (Nat.lt_ge_cases q (cmax - cmin)) as [Hl | Hl].
      * rewrite nth_error_firstn_lt, nth_error_skipn_add in Hq by exact Hl. eapply nth_error_In, Hq.
      * rewrite (proj2 (nth_error_None _ _)) in Hq; [discriminate | ]. rewrite firstn_length. lia.
    + intros r c Bk Hb. fold s in Hb. rewrite B in Hb.
      destruct (Nat.ltb_spec c (cmax - cmin)) as [Hc | Hc]; [ | discriminate]. cbn [andb] in Hb.
      destruct (Nat.ltb_spec (rmin + r) rmax) as [Hr | Hr]; [ | discriminate].
      apply (wf_blk _ _ W) in Hb as [_ Hb]. rewrite slice_layout_length.
      rewrite !slice_layout_size by lia. split; [lia | exact Hb].
  - intros r c Hr Hc. rewrite B, (proj2 (Nat.ltb_lt _ _) Hc).
    now rewrite (proj2 (Nat.ltb_lt (rmin + r) rmax)) by lia.
Qed.

(** Equal blocks at shifted positions give equal elements. *)
Lemma shifted_el (m s : sbm) rmin rmax cmin cmax : wf m -> wf s -> rmin < rmax ->
  rmax <= length (rbi m) -> cmin < cmax -> cmax <= length (cbi m) ->
  rbi s = slice_layout (rbi m) rmin rmax -> cbi s = slice_layout (cbi m) cmin cmax ->
  (forall r c i j, r < rmax - rmin -> c < cmax - cmin ->
     val_at s r i c j = val_at m (rmin + r) i (cmin + c) j) ->
  total (rbi s) = base_of (rbi m) rmax - base_of (rbi m) rmin /\
  total (cbi s) = base_of (cbi m) cmax - base_of (cbi m) cmin /\
  forall r c, r < total (rbi s) -> c < total (cbi s) ->
    el s r c = el m (base_of (rbi m) rmin + r) (base_of (cbi m) cmin + c).
Proof.
  intros W Ws H1 H2 H3 H4 ER EC HV. conj.
  - rewrite ER, total_base, slice_layout_length, slice_layout_base by (try apply W; lia).
    f_equal. f_equal. lia.
  - rewrite EC, total_base, slice_layout_length, slice_layout_base by (try apply W; lia).
    f_equal. f_equal. lia.
  - intros r c Hr Hc.
    destruct (locate _ r (wf_rlay _ _ Ws) Hr) as (b & i & Hb & Hi & -> & _).
    destruct (locate _ c (wf_clay _ _ Ws) Hc) as (b' & j & Hb' & Hj & -> & _).
    rewrite el_at by assumption. rewrite ER, slice_layout_length in Hb.
    rewrite EC, slice_layout_length in Hb'.
    rewrite ER, slice_layout_size in Hi by exact Hb.
    rewrite EC, slice_layout_size in Hj by exact Hb'.
    rewrite HV by assumption.
    rewrite ER, EC, !slice_layout_base by (try apply W; lia).
    pose proof (layout_mono _ (wf_rlay _ _ W) rmin (rmin + b) ltac:(lia) ltac:(lia)).
    pose proof (layout_mono _ (wf_clay _ _ W) cmin (cmin + b') ltac:(lia) ltac:(lia)).
    replace (base_of (rbi m) rmin + (base_of (rbi m) (rmin + b) - base_of (rbi m) rmin + i))
      with (base_of (rbi m) (rmin + b) + i) by lia.
    replace (base_of (cbi m) cmin + (base_of (cbi m) (cmin + b') - base_of (cbi m) cmin + j))
      with (base_of (cbi m) (cmin + b') + j) by lia.
    symmetry. apply el_at; auto; lia.
Qed.

Lemma filter_nodup_map {U V} (f : U -> V) p l : NoDup (map f l) -> NoDup (map f (filter p l)).
Proof.
  induction l as [ | x l IH]; [trivial | ]. cbn [map filter]. intro N. inversion_clear N as [ | ? ? N1 N2].
  destruct (p x); [ | auto]. cbn [map]. constructor; [ | auto].
  intro H. apply N1. apply in_map_iff in H as (y & E & H). apply filter_In in H as [H _].
  apply in_map_iff. eauto.
Qed.

Lemma nodup_map_inj {U V} (f : U -> V) l : NoDup l ->
  (forall x y, In x l -> In y l -> f x = f y -> x = y) -> NoDup (map f l).
Proof.
  induction l as [ | x l IH]; intros N H; [constructor | ].
  inversion_clear N as [ | ? ? N1 N2]. cbn [map]. constructor.
  - intro K. apply in_map_iff in K as (y & E & K). apply N1.
    rewrite (H x y); [exact K | now left | now right | congruence].
  - apply IH; [exact N2 | ]. intros a b Ha Hb. apply H; now right.
Qed.

Lemma slice_into_ok (m out : sbm) rmin rmax cmin cmax : wf m -> wf out -> owns out = true ->
  rmin < rmax -> rmax <= length (rbi m) -> cmin < cmax -> cmax <= length (cbi m) ->
  rbi out = slice_layout (rbi m) rmin rmax -> cbi out = slice_layout (cbi m) cmin cmax ->
  exists s, slice_into A rmin rmax cmin cmax m out = Ok s /\ wf s /\ alike A s out /\
    forall r c i j, r < rmax - rmin -> c < cmax - cmin ->
      val_at s r i c j = val_at m (rmin + r) i (cmin + c) j.
Proof.
  intros W Wo O H1 H2 H3 H4 ER EC. unfold slice_into.
  rewrite (proj2 (Nat.leb_le cmax (length (bcols m)))) by (rewrite (wf_cols _ _ W); exact H4).
  set (inr := fun e : nat * nat * mat => let '(r, c, _) := e in
                 (rmin <=? r) && (r <? rmax) && (cmin <=? c) && (c <? cmax)).
  set (ws := map (fun e : nat * nat * mat => let '(r, c, B) := e in (r - rmin, c - cmin, B))
                 (filter inr (blocks A m))).
  assert (P : forall r c B, In (r, c, B) (filter inr (blocks A m)) <->
            rmin <= r < rmax /\ cmin <= c < cmax /\ blk m r c = Some B).
  { intros r c B. rewrite filter_In, blocks_in by exact W. unfold inr.
    rewrite !andb_true_iff, !Nat.leb_le, !Nat.ltb_lt. intuition lia. }
  assert (N : NoDup (map fst ws)).
  { unfold ws. rewrite map_map.
    replace (map _ (filter inr (blocks A m))) with
      (map (fun p => (fst p - rmin, snd p - cmin)) (map fst (filter inr (blocks A m)))).
    - apply nodup_map_inj; [apply filter_nodup_map; now apply blocks_nodup | ].
      intros (a, b) (a', b') Ha Hb E. cbn [fst snd] in E.
      apply in_map_iff in Ha as (((r1 & c1) & B1) & E1 & Ha). cbn [fst] in E1.
      apply in_map_iff in Hb as (((r2 & c2) & B2) & E2 & Hb). cbn [fst] in E2.
      apply P in Ha. apply P in Hb. injection E1 as -> ->. injection E2 as -> ->.
      injection E as E3 E4. f_equal; lia.
    - rewrite map_map. apply map_ext. now intros ((r, c), B). }
  assert (L0 := clear_alike A false out). destruct L0 as (L1 & L2 & L3 & L4).
  destruct (assign_all A ws (clear A false out)) as (s & E & Ws & L & HB).
  - now apply clear_wf.
  - congruence.
  - exact N.
  - intros r c B HB. apply in_map_iff in HB as (((r1 & c1) & B1) & E1 & HB). injection E1 as <- <- <-.
    apply P in HB as (P1 & P2 & P3). rewrite L1, L2, ER, EC, !slice_layout_length.
    rewrite !slice_layout_size by lia.
    replace (rmin + (r1 - rmin)) with r1 by lia. replace (cmin + (c1 - cmin)) with c1 by lia.
    apply (wf_blk _ _ W) in P3 as [_ P3]. conj; [lia | lia | exact P3].
  - exists s. conj; [ | exact Ws | eapply alike_trans; [exact L | apply clear_alike] | ].
    + rewrite <- E. unfold ws. rewrite map_map. f_equal. apply map_ext. now intros ((r, c), B).
    + intros r c i j Hr Hc. unfold val_at at 1. rewrite HB.
      destruct (assoc A ws r c) as [B | ] eqn:EA.
      * apply assoc_in in EA; [ | exact N].
        apply in_map_iff in EA as (((r1 & c1) & B1) & E1 & HB1). injection E1 as <- <- <-.
        apply P in HB1 as (P1 & P2 & P3). unfold val_at.
        replace (rmin + (r1 - rmin)) with r1 by lia. replace (cmin + (c1 - cmin)) with c1 by lia.
        now rewrite P3.
      * assert (EN : blk m (rmin + r) (cmin + c) = None).
        { destruct (blk m (rmin + r) (cmin + c)) as [B | ] eqn:EB; [ | reflexivity].
          exfalso. apply (proj1 (assoc_none A ws r c) EA).
          apply in_map_iff. exists (r, c, B). split; [reflexivity | ].
          apply in_map_iff. exists (rmin + r, cmin + c, B). split.
          - f_equal. f_equal; lia.
          - apply P. split; [lia | split; [lia | exact EB]]. }
        unfold val_at. rewrite EN. apply (clear_val A false out r i c j).
Qed.

(** ** Symmetric permutation. *)
Lemma perm_sizes_ok l pinv : permutation pinv (length l) ->
  exists s, perm_sizes l pinv = Ok s /\ length s = length l /\
    forall i, i < length l -> nth (nth i pinv 0) s 0 = size_of l i.
Proof.
  intros (PL & PN & PF). unfold perm_sizes.
  assert (G : forall k, k <= length l -> exists s,
    fold_left (fun o i => do s <- o;
        match nth_error pinv i with
        | None => UB
        | Some p => if p <? length l then Ok (put_nth p (size_of l i) s) else UB
        end) (seq 0 k) (Ok (repeat 0 (length l))) = Ok s /\ length s = length l /\
    forall i, i < k -> nth (nth i pinv 0) s 0 = size_of l i).
  { induction k as [ | k IH]; intro Hk.
    - exists (repeat 0 (length l)). conj; [reflexivity | apply repeat_length | lia].
    - destruct (IH ltac:(lia)) as (s & E & L & V). rewrite seq_S, fold_left_app, E. cbn [fold_left obind].
      rewrite Nat.add_0_l. rewrite (nth_error_nth' pinv 0) by lia.
      assert (Hp : nth k pinv 0 < length l).
      { rewrite Forall_forall in PF. apply PF, nth_In. lia. }
      rewrite (proj2 (Nat.ltb_lt _ _) Hp). eexists. conj; [reflexivity | now rewrite put_nth_length | ].
      intros i Hi.
      assert (Hpi : nth i pinv 0 < length l).
      { rewrite Forall_forall in PF. apply PF, nth_In. lia. }
      assert (Q : nth_error (put_nth (nth k pinv 0) (size_of l k) s) (nth i pinv 0) =
                  Some (size_of l i)).
      { rewrite nth_error_put_nth by lia.
        destruct (Nat.eqb_spec (nth k pinv 0) (nth i pinv 0)) as [E' | E'].
        - assert (k = i) by (apply (proj1 (NoDup_nth pinv 0) PN); lia). now subst.
        - assert (i <> k) by congruence.
          rewrite (nth_error_nth' s 0) by lia. now rewrite V by lia. }
      now apply nth_error_nth. }
  destruct (G (length l) (le_n _)) as (s & E & L & V). exists s. auto.
Qed.

Definition perm_key (pinv : list nat) (upper : bool) (r c : nat) : nat * nat :=
  let pi := nth c pinv 0 in let pj := nth r pinv 0 in
  if negb upper || (pj <=? pi) then (pj, pi) else (pi, pj).
Definition perm_blk (m : sbm) (pinv : list nat) (upper : bool) (e : nat * nat * mat) : nat * nat * mat :=
  let '(r, c, B) := e in
  (perm_key pinv upper r c,
   if negb upper || (nth r pinv 0 <=? nth c pinv 0) then B else mtrans A (size_of (cbi m) c) B).

Lemma perm_writes_ok (m : sbm) pinv upper : wf m -> square m -> permutation pinv (length (rbi m)) ->
  perm_writes A m pinv upper =
  Ok (map (fun e : nat * nat * mat => let '(r, c, B) := e in (r, c, assign A B))
          (map (perm_blk m pinv upper) (blocks A m))).
Proof.
  intros W Q (PL & _). unfold perm_writes. rewrite map_map. apply mapo_ok. intros ((r, c) & B) H.
  apply blocks_facts in H as (H1 & H2 & _); [ | exact W]. rewrite <- Q in H2.
  rewrite !(nth_error_nth' pinv 0) by lia. unfold perm_blk, perm_key.
  now destruct (negb upper || (nth r pinv 0 <=? nth c pinv 0)).
Qed.

Lemma perm_inj pinv n r r' : permutation pinv n -> r < n -> r' < n ->
  nth r pinv 0 = nth r' pinv 0 -> r = r'.
Proof. intros (PL & PN & _) H H' E. apply (proj1 (NoDup_nth pinv 0) PN); lia. Qed.

Lemma perm_bound pinv n r : permutation pinv n -> r < n -> nth r pinv 0 < n.
Proof. intros (PL & _ & PF) H. rewrite Forall_forall in PF. apply PF, nth_In. lia. Qed.

Lemma perm_key_inj n pinv upper r c r' c' : permutation pinv n ->
  r < n -> c < n -> r' < n -> c' < n -> (upper = true -> r <= c /\ r' <= c') ->
  perm_key pinv upper r c = perm_key pinv upper r' c' -> r = r' /\ c = c'.
Proof.
  intros P F1 F2 F3 F4 U E. unfold perm_key in E.
  destruct upper; cbn [negb orb] in E.
  - destruct (U eq_refl) as [H H'].
    destruct (Nat.leb_spec (nth r pinv 0) (nth c pinv 0)), (Nat.leb_spec (nth r' pinv 0) (nth c' pinv 0));
      injection E as E1 E2.
    + split; eapply perm_inj; eauto.
    + pose proof (perm_inj _ _ _ _ P F1 F4 E1). pose proof (perm_inj _ _ _ _ P F2 F3 E2).
      subst r' c'. assert (r = c) by lia. subst. auto.
    + pose proof (perm_inj _ _ _ _ P F2 F3 E1). pose proof (perm_inj _ _ _ _ P F1 F4 E2).
      subst r' c'. assert (r = c) by lia. subst. auto.
    + pose proof (perm_inj _ _ _ _ P F2 F4 E1). pose proof (perm_inj _ _ _ _ P F1 F3 E2). auto.
  - injection E as E1 E2. split; eapply perm_inj; eauto.
Qed.

Lemma blk_range (m : sbm) r c : wf m -> blk m r c <> None -> r < length (rbi m) /\ c < length (cbi m).
Proof.
  intros W H. destruct (blk m r c) as [B | ] eqn:E; [ | congruence].
  split; [now apply (wf_blk _ _ W) in E | ]. rewrite <- (wf_cols _ _ W).
  apply blk_in_cols with r. congruence.
Qed.

Lemma symm_permutation_ok (m : sbm) pinv upper dest : wf m -> square m -> rbi m <> [] ->
  permutation pinv (length (rbi m)) -> (upper = true -> upper_only m) ->
  (forall d, dest = Some d -> wf d /\ owns d = true /\ square d /\ perm_layout (rbi m) pinv (rbi d)) ->
  exists d', symm_permutation A m pinv upper dest = Ok (true, d') /\ wf d' /\ square d' /\
    perm_layout (rbi m) pinv (rbi d') /\
    (forall r c B, blk m r c = Some B -> let '(r', c') := perm_key pinv upper r c in
       blk d' r' c' = Some (if negb upper || (nth r pinv 0 <=? nth c pinv 0) then B
                            else mtrans A (size_of (cbi m) c) B)) /\
    (forall r' c' i j, (forall r c, blk m r c <> None -> perm_key pinv upper r c <> (r', c')) ->
       val_at d' r' i c' j = zero).
Proof.
  intros W Q NE P U HD.
  destruct (perm_sizes_ok (rbi m) pinv P) as (s & ES & LS & VS).
  set (lay := partial_sums 0 s).
  assert (PLay : perm_layout (rbi m) pinv lay).
  { unfold lay, perm_layout. rewrite partial_sums_length. conj; [exact LS | apply partial_sums_layout | ].
    intros i Hi. rewrite partial_sums_size; [now apply VS | ].
    rewrite LS. now apply perm_bound. }
  assert (PUniq : forall l', perm_layout (rbi m) pinv l' -> l' = lay).
  { intros l' (L1 & L2 & L3). destruct PLay as (K1 & K2 & K3).
    assert (SZ : forall b, b < length (rbi m) -> size_of l' b = size_of lay b).
    { intros b Hb. destruct P as (PL & PN & PF).
      assert (In b pinv) as HIn.
      { assert (I : incl (seq 0 (length (rbi m))) pinv).
        { apply NoDup_length_incl; [exact PN | rewrite seq_length; lia | ].
          intros x Hx. rewrite Forall_forall in PF. apply in_seq. specialize (PF x Hx). lia. }
        apply I, in_seq. lia. }
      apply (In_nth _ _ 0) in HIn as (i & Hi & <-). rewrite L3, K3 by lia. reflexivity. }
    assert (BS : forall b, b <= length (rbi m) -> base_of l' b = base_of lay b).
    { induction b as [ | b IH]; intro Hb; [reflexivity | ].
      specialize (SZ b ltac:(lia)). rewrite !size_base in SZ. specialize (IH ltac:(lia)).
      specialize (L2 b ltac:(lia)). specialize (K2 b ltac:(lia)). lia. }
    apply (nth_ext _ _ 0 0); [lia | ]. intros b Hb. apply (BS (S b)). lia. }
  unfold symm_permutation. destruct (rbi m) as [ | x0 l0] eqn:ER; [congruence | ]. rewrite <- ER in *.
  rewrite ES. cbn [obind]. fold lay.
  set (d := match dest with None => fresh A lay lay | Some d => clear A false d end).
  assert (Wd : wf d /\ owns d = true /\ rbi d = lay /\ cbi d = lay /\
               (forall r i c j, val_at d r i c j = zero)).
  { unfold d. destruct dest as [d0 | ].
    - destruct (HD d0 eq_refl) as (D1 & D2 & D3 & D4). destruct (clear_alike A false d0) as (L1 & L2 & L3 & _).
      conj; [now apply clear_wf | congruence | rewrite L1; auto | rewrite L2, <- D3; auto | ].
      apply clear_val.
    - conj; [apply fresh_wf; apply partial_sums_layout | reflexivity | reflexivity | reflexivity | ].
      apply fresh_val. }
  destruct Wd as (Wd & Od & Rd & Cd & Vd).
  assert (G : (match dest with None => true | Some d =>
           same_layout (rbi d) lay && same_layout (cbi d) lay end) = true).
  { destruct dest as [d0 | ]; [ | reflexivity].
    destruct (HD d0 eq_refl) as (D1 & D2 & D3 & D4). rewrite <- D3.
    rewrite (PUniq _ D4). now rewrite (proj2 (same_layout_iff lay lay) eq_refl). }
  rewrite G, perm_writes_ok by assumption. cbn [obind].
  set (ws := map (perm_blk m pinv upper) (blocks A m)).
  assert (N : NoDup (map fst ws)).
  { unfold ws. rewrite map_map.
    replace (map _ (blocks A m)) with
      (map (fun p => perm_key pinv upper (fst p) (snd p)) (map fst (blocks A m))).
    - apply nodup_map_inj; [now apply blocks_nodup | ].
      intros (a, b) (a', b') Ha Hb E. cbn [fst snd] in E.
      apply in_map_iff in Ha as (((r1 & c1) & B1) & E1 & Ha). cbn [fst] in E1.
      apply in_map_iff in Hb as (((r2 & c2) & B2) & E2 & Hb). cbn [fst] in E2.
      apply blocks_in in Ha; [ | exact W]. apply blocks_in in Hb; [ | exact W].
      injection E1 as -> ->. injection E2 as -> ->.
      assert (Na : blk m a b <> None) by congruence. assert (Nb : blk m a' b' <> None) by congruence.
      destruct (blk_range m a b W Na) as [R1 R2]. destruct (blk_range m a' b' W Nb) as [R3 R4].
      rewrite <- Q in R2, R4.
      destruct (perm_key_inj _ pinv upper a b a' b' P R1 R2 R3 R4) as [X Y]; [ | exact E | congruence].
      intro HU. split; now apply (U HU).
    - rewrite map_map. apply map_ext. intros ((r, c), B). reflexivity. }
  destruct (assign_all A ws d Wd Od N) as (d' & E & W' & L & HB).
  { intros r c B HB. rewrite Rd, Cd.
    apply in_map_iff in HB as (((r1 & c1) & B1) & E1 & HB).
    apply blocks_facts in HB as (F1 & F2 & F3); [ | exact W].
    destruct PLay as (K1 & K2 & K3). rewrite <- Q in F2, F3.
    pose proof (perm_bound _ _ _ P F1). pose proof (perm_bound _ _ _ P F2).
    unfold perm_blk, perm_key in E1. rewrite K1.
    destruct (negb upper || (nth r1 pinv 0 <=? nth c1 pinv 0)).
    - injection E1 as <- <- <-. conj; auto. now rewrite !K3.
    - injection E1 as <- <- <-. conj; auto. rewrite !K3 by assumption.
      rewrite <- Q. now apply mtrans_shaped. }
  rewrite E. cbn [obind].
  destruct L as (L1 & L2 & L3 & L4).
  exists d'. conj; [reflexivity | exact W' | unfold square; congruence | rewrite L1, Rd; exact PLay | | ].
  - intros r c B HBk. apply blocks_in in HBk; [ | exact W].
    destruct (perm_key pinv upper r c) as (r', c') eqn:EK. rewrite HB.
    rewrite (proj2 (assoc_in A ws r' c' (if negb upper || (nth r pinv 0 <=? nth c pinv 0) then B
                            else mtrans A (size_of (cbi m) c) B) N)); [reflexivity | ].
    apply in_map_iff. exists (r, c, B). split; [ | exact HBk].
    unfold perm_blk. rewrite EK. reflexivity.
  - intros r' c' i j HN. unfold val_at. rewrite HB.
    rewrite (proj2 (assoc_none A ws r' c')); [apply (Vd r' i c' j) | ].
    intro K. apply in_map_iff in K as (((r0 & c0) & B0) & E0 & K). cbn [fst] in E0. injection E0 as -> ->.
    apply in_map_iff in K as (((r1 & c1) & B1) & E1 & K).
    apply blocks_in in K; [ | exact W]. unfold perm_blk in E1.
    apply (HN r1 c1); [congruence | ]. congruence.
Qed.

(** What the permuted matrix holds, position by position. *)
Lemma perm_full (m d' : sbm) pinv : wf m -> square m -> permutation pinv (length (rbi m)) ->
  (forall r c B, blk m r c = Some B -> let '(r', c') := perm_key pinv false r c in
       blk d' r' c' = Some (if negb false || (nth r pinv 0 <=? nth c pinv 0) then B
                            else mtrans A (size_of (cbi m) c) B)) ->
  (forall r' c' i j, (forall r c, blk m r c <> None -> perm_key pinv false r c <> (r', c')) ->
       val_at d' r' i c' j = zero) ->
  forall r i c j, r < length (rbi m) -> c < length (rbi m) ->
    val_at d' (nth r pinv 0) i (nth c pinv 0) j = val_at m r i c j.
Proof.
  intros W Q P H1 H2 r i c j Hr Hc. unfold val_at at 2. destruct (blk m r c) as [B | ] eqn:E.
  - specialize (H1 r c B E). cbn in H1. unfold val_at. now rewrite H1.
  - apply H2. intros r0 c0 N K. destruct (blk_range m r0 c0 W N) as [R1 R2]. rewrite <- Q in R2.
    change (nth r pinv 0, nth c pinv 0) with (perm_key pinv false r c) in K.
    destruct (perm_key_inj _ pinv false r0 c0 r c P R1 R2 Hr Hc) as [-> ->]; [discriminate | exact K | congruence].
Qed.

Lemma perm_upper (m d' : sbm) pinv : wf m -> square m -> permutation pinv (length (rbi m)) -> upper_only m ->
  (forall r c B, blk m r c = Some B -> let '(r', c') := perm_key pinv true r c in
       blk d' r' c' = Some (if negb true || (nth r pinv 0 <=? nth c pinv 0) then B
                            else mtrans A (size_of (cbi m) c) B)) ->
  (forall r' c' i j, (forall r c, blk m r c <> None -> perm_key pinv true r c <> (r', c')) ->
       val_at d' r' i c' j = zero) ->
  forall r i c j, r <= c -> c < length (rbi m) -> i < size_of (rbi m) r -> j < size_of (cbi m) c ->
    (if nth r pinv 0 <=? nth c pinv 0 then val_at d' (nth r pinv 0) i (nth c pinv 0) j
     else val_at d' (nth c pinv 0) j (nth r pinv 0) i) = val_at m r i c j.
Proof.
  intros W Q P U H1 H2 r i c j Hrc Hc Hi Hj. unfold val_at at 3. destruct (blk m r c) as [B | ] eqn:E.
  - specialize (H1 r c B E). unfold perm_key in H1. cbn [negb orb] in H1.
    destruct (nth r pinv 0 <=? nth c pinv 0); unfold val_at; rewrite H1; [reflexivity | ].
    apply (wf_blk _ _ W) in E as [_ E]. eapply mtrans_val; eassumption.
  - assert (G : forall r0 c0, blk m r0 c0 <> None -> perm_key pinv true r0 c0 <> perm_key pinv true r c).
    { intros r0 c0 N K. destruct (blk_range m r0 c0 W N) as [R1 R2]. rewrite <- Q in R2.
      destruct (perm_key_inj _ pinv true r0 c0 r c P R1 R2 ltac:(lia) Hc) as [-> ->]; [ | exact K | congruence].
      intros _. split; [now apply U | exact Hrc]. }
    unfold perm_key at 2 in G. cbn [negb orb] in G.
    destruct (nth r pinv 0 <=? nth c pinv 0); now apply H2.
Qed.

(** Scalar order follows block order. *)
Lemma block_order l r i c j : layout l -> r < length l -> c < length l -> i < size_of l r ->
  j < size_of l c -> base_of l r + i <= base_of l c + j <-> r < c \/ r = c /\ i <= j.
Proof.
  intros L Hr Hc Hi Hj. rewrite size_base in Hi, Hj.
  destruct (Nat.lt_trichotomy r c) as [H | [-> | H]].
  - pose proof (layout_mono l L (S r) c ltac:(lia) ltac:(lia)). lia.
  - lia.
  - pose proof (layout_mono l L (S c) r ltac:(lia) ltac:(lia)). lia.
Qed.

Lemma sym_at (m : sbm) r i c j : wf m -> square m -> r < length (rbi m) -> c < length (rbi m) ->
  i < size_of (rbi m) r -> j < size_of (rbi m) c ->
  sym m (base_of (rbi m) r + i) (base_of (rbi m) c + j) =
  if (r <? c) || (r =? c) && (i <=? j) then val_at m r i c j else val_at m c j r i.
Proof.
  intros W Q Hr Hc Hi Hj. unfold sym.
  pose proof (block_order (rbi m) r i c j (wf_rlay _ _ W) Hr Hc Hi Hj) as O.
  destruct (Nat.leb_spec (base_of (rbi m) r + i) (base_of (rbi m) c + j)) as [K | K].
  - replace ((r <? c) || (r =? c) && (i <=? j)) with true.
    + rewrite Q at 2. apply el_at; auto; now rewrite <- Q.
    + symmetry. apply orb_true_iff. apply O in K as [K | [-> K]].
      * left. now apply Nat.ltb_lt.
      * right. rewrite Nat.eqb_refl. now apply Nat.leb_le.
  - replace ((r <? c) || (r =? c) && (i <=? j)) with false.
    + rewrite Q at 2. apply el_at; auto; now rewrite <- Q.
    + symmetry. apply orb_false_iff. destruct (Nat.ltb_spec r c) as [K1 | K1]; [lia | ].
      split; [reflexivity | ]. destruct (Nat.eqb_spec r c) as [-> | ]; [ | reflexivity].
      cbn [andb]. apply Nat.leb_gt. lia.
Qed.

Lemma perm_sym (m d' : sbm) pinv : wf m -> wf d' -> square m -> square d' ->
  permutation pinv (length (rbi m)) -> upper_only m -> perm_layout (rbi m) pinv (rbi d') ->
  (forall r c B, blk m r c = Some B -> let '(r', c') := perm_key pinv true r c in
       blk d' r' c' = Some (if negb true || (nth r pinv 0 <=? nth c pinv 0) then B
                            else mtrans A (size_of (cbi m) c) B)) ->
  (forall r' c' i j, (forall r c, blk m r c <> None -> perm_key pinv true r c <> (r', c')) ->
       val_at d' r' i c' j = zero) ->
  forall r i c j, r < length (rbi m) -> c < length (rbi m) -> i < size_of (rbi m) r -> j < size_of (rbi m) c ->
    sym d' (base_of (rbi d') (nth r pinv 0) + i) (base_of (rbi d') (nth c pinv 0) + j) =
    sym m (base_of (rbi m) r + i) (base_of (rbi m) c + j).
Proof.
  intros W W' Q Q' P U (L1 & L2 & L3) H1 H2 r i c j Hr Hc Hi Hj.
  pose proof (perm_bound _ _ _ P Hr) as Br. pose proof (perm_bound _ _ _ P Hc) as Bc.
  rewrite sym_at by (rewrite ?L1, ?L3; assumption). rewrite sym_at by assumption.
  pose proof (perm_upper m d' pinv W Q P U H1 H2) as V.
  destruct (Nat.eqb_spec r c) as [-> | Hne].
  - rewrite !Nat.eqb_refl, !Nat.ltb_irrefl. cbn [orb andb].
    pose proof (V c i c j (le_n _) Hc Hi ltac:(rewrite <- Q; exact Hj)) as V1.
    pose proof (V c j c i (le_n _) Hc Hj ltac:(rewrite <- Q; exact Hi)) as V2.
    rewrite Nat.leb_refl in V1, V2. now destruct (i <=? j).
  - assert (Hp : nth r pinv 0 <> nth c pinv 0) by (intro E; apply Hne; eapply perm_inj; eauto).
    destruct (Nat.eqb_spec (nth r pinv 0) (nth c pinv 0)); [contradiction | ].
    cbn [andb]. rewrite !orb_false_r.
    destruct (Nat.ltb_spec r c) as [K | K].
    + rewrite <- (V r i c j) by (try rewrite <- Q; try assumption; lia).
      destruct (Nat.ltb_spec (nth r pinv 0) (nth c pinv 0)) as [K1 | K1].
      * now rewrite (proj2 (Nat.leb_le _ _)) by lia.
      * now rewrite (proj2 (Nat.leb_gt _ _)) by lia.
    + rewrite <- (V c j r i) by (try rewrite <- Q; try assumption; lia).
      destruct (Nat.ltb_spec (nth r pinv 0) (nth c pinv 0)) as [K1 | K1].
      * now rewrite (proj2 (Nat.leb_gt _ _)) by lia.
      * now rewrite (proj2 (Nat.leb_le _ _)) by lia.
Qed.

(** ** Checking the invariant of a concrete matrix. *)
Definition layoutb (l : list nat) : bool :=
  forallb (fun b => base_of l b <=? base_of l (S b)) (seq 0 (length l)).
Fixpoint sortedb (col : list (nat * mat)) : bool :=
  match col with
  | [] => true
  | (k, _) :: r => match r with [] => true | (k', _) :: _ => k <? k' end && sortedb r
  end.
Definition wfb (m : sbm) : bool :=
  (length (bcols m) =? length (cbi m)) && layoutb (rbi m) && layoutb (cbi m) &&
  forallb sortedb (bcols m) &&
  forallb (fun e : nat * nat * mat => let '(r, c, B) := e in
     (r <? length (rbi m)) && shaped A (size_of (rbi m) r) (size_of (cbi m) c) B) (blocks A m).

Lemma layoutb_ok l : layoutb l = true -> layout l.
Proof.
  intros H b Hb. unfold layoutb in H. rewrite forallb_forall in H. apply Nat.leb_le, H, in_seq. lia.
Qed.

Lemma sortedb_ok col : sortedb col = true -> sorted Nat.compare col.
Proof.
  induction col as [ | (k, v) col IH]; [intros _; exact I | ]. cbn [sortedb sorted]. intro H.
  destruct col as [ | (k', v') col]; [cbn; auto | ].
  apply andb_true_iff in H as [H1 H2]. split; [ | auto].
  apply Nat.compare_lt_iff, Nat.ltb_lt, H1.
Qed.

Lemma wfb_ok (m : sbm) : wfb m = true -> wf m.
Proof.
  unfold wfb. rewrite !andb_true_iff. intros ((((H1 & H2) & H3) & H4) & H5).
  apply Nat.eqb_eq in H1. apply layoutb_ok in H2. apply layoutb_ok in H3.
  rewrite forallb_forall in H4, H5.
  assert (S0 : Forall (sorted Nat.compare) (bcols m)).
  { apply Forall_forall. intros col Hc. apply sortedb_ok. auto. }
  constructor; auto.
  intros r c B E. assert (Hin : In (r, c, B) (blocks A m)).
  { unfold blocks. apply blocks_from_in. unfold blk in E.
    destruct (nth_error (bcols m) c) as [col | ] eqn:Ec; [ | discriminate].
    exists col. rewrite Nat.sub_0_r. conj; [lia | exact Ec | ].
    apply (mget_in _ Natcompare_order); [ | exact E]. rewrite Forall_forall in S0.
    eapply S0, nth_error_In, Ec. }
  specialize (H5 _ Hin). cbv beta iota in H5. apply andb_true_iff in H5 as [H5 H6]. apply Nat.ltb_lt in H5. auto.
Qed.
End More.
