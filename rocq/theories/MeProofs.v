(** * Proofs about motion errors *)
From Coq Require Import ZArith List Bool Lia Reals Lra.
From Verif Require BsplProofs BsdProofs.
From Verif Require Import Base Arith OMap RArith BsplModel BsqModel BsqProofs MeCurve JacModel MEstModel.
From Verif Require Import SbmModel SbmSpec SbmProofs SbmMore SbmReal HesModel HesSpec HesProofs MeModel MeSpec.
Import ListNotations.
Local Close Scope Z_scope.
Local Open Scope nat_scope.

Lemma rsum_seq n (f : nat -> R) : forall s, rsum (map f (seq s n)) = sumn n (fun i => f (s + i)).
Proof.
  induction n as [ | n IH ]; intros s; [ reflexivity | ].
  rewrite seq_S, map_app, rsum_app, IH. cbn [map rsum sumn]. ring.
Qed.

Lemma ent_block D i j q a c : a < D -> c < D -> ent (block_at D i j q) a c = q (i * D + a) (j * D + c).
Proof.
  intros La Lc. unfold ent, block_at. rewrite (nth_map_seq_0 (fun a => map (fun c => q (i * D + a) (j * D + c)) (seq 0 D))) by exact La.
  rewrite (nth_map_seq_0 (fun c => q (i * D + a) (j * D + c))) by exact Lc. reflexivity.
Qed.
Lemma block_shaped D i j q : shaped RA D D (block_at D i j q) = true.
Proof.
  apply shaped_iff. unfold block_at. split; [ rewrite map_length, seq_length; reflexivity | ].
  apply Forall_forall. intros x H. apply in_map_iff in H as (a & <- & _). rewrite map_length, seq_length. reflexivity.
Qed.

Lemma contrib_segment D k s q r c i j : i < D -> j < D ->
  contrib (segment_updates D k s q) r c i j =
  if window s k r && window s k c then q ((r - s) * D + i) ((c - s) * D + j) else 0%R.
Proof.
  intros Li Lj. unfold contrib, segment_updates. rewrite rsum_concat_map, map_map.
  rewrite (rsum_seq k (fun a => _) 0). cbn [Nat.add].
  rewrite (sumn_ext k _ (fun a => sumn k (fun e => if (s + a =? r) && (s + e =? c) then q (a * D + i) (e * D + j) else 0%R))).
  2: { intros a La. rewrite map_map, (rsum_seq k (fun e => _) 0). cbn [Nat.add]. apply sumn_ext. intros e Le. cbv beta iota.
       rewrite ent_block by assumption. reflexivity. }
  unfold window. destruct (Nat.leb_spec s r) as [R1 | R1].
  2: { cbn [andb]. apply sumn_zero. intros a _. apply sumn_zero. intros e _. destruct (Nat.eqb_spec (s + a) r); [ lia | reflexivity ]. }
  destruct (Nat.ltb_spec r (s + k)) as [R2 | R2].
  2: { cbn [andb]. apply sumn_zero. intros a La. apply sumn_zero. intros e _. destruct (Nat.eqb_spec (s + a) r); [ lia | reflexivity ]. }
  cbn [andb].
  rewrite (sumn_ext k _ (fun a => if a =? r - s then sumn k (fun e => if s + e =? c then q (a * D + i) (e * D + j) else 0%R) else 0%R)).
  2: { intros a La. destruct (Nat.eqb_spec a (r - s)) as [-> | N].
       - replace (s + (r - s)) with r by lia. rewrite Nat.eqb_refl. reflexivity.
       - apply sumn_zero. intros e _. destruct (Nat.eqb_spec (s + a) r); [ lia | reflexivity ]. }
  rewrite (sumn_only k (r - s) (fun a => sumn k (fun e => if s + e =? c then q (a * D + i) (e * D + j) else 0%R))) by lia.
  destruct (Nat.leb_spec s c) as [C1 | C1].
  2: { cbn [andb]. apply sumn_zero. intros e _. destruct (Nat.eqb_spec (s + e) c); [ lia | reflexivity ]. }
  destruct (Nat.ltb_spec c (s + k)) as [C2 | C2].
  2: { cbn [andb]. apply sumn_zero. intros e Le. destruct (Nat.eqb_spec (s + e) c); [ lia | reflexivity ]. }
  cbn [andb].
  rewrite (sumn_ext k _ (fun e => if e =? c - s then q ((r - s) * D + i) (e * D + j) else 0%R)).
  2: { intros e Le. destruct (Nat.eqb_spec e (c - s)) as [-> | N].
       - replace (s + (c - s)) with c by lia. rewrite Nat.eqb_refl. reflexivity.
       - destruct (Nat.eqb_spec (s + e) c); [ lia | reflexivity ]. }
  apply (sumn_only k (c - s) (fun e => q ((r - s) * D + i) (e * D + j))). lia.
Qed.

(** ** The layout *)
Lemma lay_length D C : length (sparse_layout D C) = C.
Proof. unfold sparse_layout. rewrite map_length, seq_length. reflexivity. Qed.
Lemma lay_base D C b : b <= C -> base_of (sparse_layout D C) b = b * D.
Proof.
  intros L. destruct b as [ | b ]; [ reflexivity | ]. cbn [base_of]. unfold sparse_layout.
  rewrite (nth_map_seq_0 (fun i => (i + 1) * D)) by lia. lia.
Qed.
Lemma lay_size D C b : b < C -> size_of (sparse_layout D C) b = D.
Proof. intros L. rewrite size_base, !lay_base by lia. lia. Qed.
Lemma lay_layout D C : layout (sparse_layout D C).
Proof. intros b L. rewrite lay_length in L. rewrite !lay_base by lia. lia. Qed.
Lemma lay_total D C : total (sparse_layout D C) = D * C.
Proof. rewrite total_base, lay_length, lay_base by lia. lia. Qed.

(** ** The sparse matrix holds the same numbers as the dense one *)
Definition same_entries (D C : nat) (m : sbm RA) (Q : BsplModel.mat) : Prop :=
  forall r i c j, r < C -> c < C -> i < D -> j < D -> val m r i c j = Q (r * D + i) (c * D + j).

Lemma sparse_segments_ok b (seg_q : nat -> outcome BsplModel.mat) : 1 <= dim b ->
  forall n s (m : sbm RA) Q Q', s + n + order b <= ncols b + 1 -> wf m -> owns m = true ->
  rbi m = sparse_layout (dim b) (ncols b) -> cbi m = sparse_layout (dim b) (ncols b) ->
  same_entries (dim b) (ncols b) m Q -> sum_segments b seg_q s n Q = Ok Q' ->
  exists m', sparse_segments b seg_q s n m = Ok m' /\ wf m' /\ owns m' = true /\
    rbi m' = sparse_layout (dim b) (ncols b) /\ cbi m' = sparse_layout (dim b) (ncols b) /\
    same_entries (dim b) (ncols b) m' Q'.
Proof.
  intros PD. induction n as [ | n IH ]; intros s m Q Q' L W O ER EC SE E; cbn [sum_segments] in E.
  - exists m. assert (Q' = Q) by congruence. subst Q'. cbn [sparse_segments]. conj; auto.
  - cbn [sparse_segments]. destruct (seg_q s) as [q | | | ] eqn:Eq; try discriminate. cbn [obind] in *.
    destruct (add_block _ _ _ _ _) as [Q1 | | | ] eqn:E1; try discriminate. cbn [obind] in E.
    destruct (accumulate (segment_updates (dim b) (order b) s q) m W O) as (m1 & F1 & W1 & (A1 & A2 & A3 & _) & V1 & _).
    { intros r c M H. unfold segment_updates in H. apply in_concat in H as (l & H1 & H2).
      apply in_map_iff in H1 as (i & <- & H1). apply in_map_iff in H2 as (j & H2 & H3). apply in_seq in H1, H3.
      assert (r = s + i) by congruence. assert (c = s + j) by congruence. assert (M = block_at (dim b) i j q) by congruence. subst r c M.
      rewrite ER, EC, lay_length, !lay_size by lia. conj; [ lia | lia | apply block_shaped ]. }
    rewrite F1. cbn [obind]. apply (IH (S s) m1 Q1 Q'); [ lia | exact W1 | congruence | congruence | congruence | | exact E ].
    intros r i c j Hr Hc Hi Hj. rewrite V1, (SE r i c j Hr Hc Hi Hj).
    rewrite contrib_segment by assumption. symmetry. exact (add_block_entry (dim b) (ncols b) (order b) s Q q Q1 E1 r c i j Hi Hj).
Qed.

(** ** A motion error and the dense matrix it stands for *)
Definition stands_for (b : bspline) (m : motion) (Q : BsplModel.mat) : Prop :=
  wf (mQ m) /\ rbi (mQ m) = sparse_layout (dim b) (ncols b) /\ cbi (mQ m) = sparse_layout (dim b) (ncols b) /\
  same_entries (dim b) (ncols b) (mQ m) Q /\ mlen m = dim b * ncols b.

Lemma make_motion_ok b W d Q : BsplProofs.wf b -> 1 <= dim b ->
  curve_Q b (dim b) (dim b) W (reduced (order b) d) = Ok Q ->
  exists m, make_motion b (dim b) (dim b) W d = Ok m /\ stands_for b m Q /\ mvars m = ncols b.
Proof.
  intros WF PD E. unfold make_motion, curve_Q_sparse. destruct (Nat.eqb_spec (dim b) 0); [ lia | ].
  unfold curve_Q in E. rewrite Nat.eqb_refl in E. cbn [andb] in E.
  destruct (sparse_segments_ok b (fun s => segment_Q b (dim b) (dim b) W s (reduced (order b) d)) PD (num_segments b) 0
    (fresh RA (sparse_layout (dim b) (ncols b)) (sparse_layout (dim b) (ncols b))) (fun _ _ => 0%R) Q) as (m & Em & W' & _ & ER & EC & SE).
  - rewrite num_segments_wf by exact WF. destruct WF. lia.
  - apply fresh_wf; apply lay_layout.
  - reflexivity.
  - reflexivity.
  - reflexivity.
  - intros r i c j _ _ _ _. unfold val, val_at. rewrite fresh_blk. reflexivity.
  - exact E.
  - rewrite Em. cbn [obind]. eexists. split; [ reflexivity | ]. split; [ | reflexivity ].
    unfold stands_for. cbn [mQ mlen]. conj; [ now apply clone_wf | exact ER | exact EC | exact SE | reflexivity ].
Qed.

(** The coefficient vector. *)
Definition coefs (b : bspline) : vec := fun a => coef b (a mod dim b) (a / dim b).
Lemma stacked_length b : length (stacked b) = dim b * ncols b.
Proof. unfold stacked. rewrite map_length, seq_length. reflexivity. Qed.
Lemma stacked_nth b a : a < dim b * ncols b -> nth a (stacked b) 0%R = coefs b a.
Proof. intros L. unfold stacked. rewrite (nth_map_seq_0 (fun a => coef b (a mod dim b) (a / dim b))) by exact L. reflexivity. Qed.

Lemma split_index D C a : 1 <= D -> a < D * C -> exists i r, i < C /\ r < D /\ a = i * D + r.
Proof.
  intros PD L. exists (a / D), (a mod D). pose proof (Nat.div_mod a D ltac:(lia)) as E. pose proof (Nat.mod_upper_bound a D ltac:(lia)).
  conj; [ | assumption | lia ]. apply Nat.div_lt_upper_bound; lia.
Qed.

Lemma entries_dense b m Q : 1 <= dim b -> stands_for b m Q ->
  forall a c, a < dim b * ncols b -> c < dim b * ncols b -> elr (mQ m) a c = Q a c.
Proof.
  intros PD (W & ER & EC & SE & _) a c La Lc.
  destruct (split_index _ _ a PD La) as (i & r & Hi & Hr & ->). destruct (split_index _ _ c PD Lc) as (j & t & Hj & Ht & ->).
  rewrite <- (SE i r j t Hi Hj Hr Ht).
  pose proof (elr_at (mQ m) i r j t W) as X. rewrite ER, EC, lay_length, !lay_size, !lay_base in X by lia.
  exact (X Hi Hr Hj Ht).
Qed.

Lemma times_Q b m Q (x : list R) : 1 <= dim b -> stands_for b m Q -> length x = dim b * ncols b ->
  exists y : list R, mul_vec RA (mQ m) x = Ok y /\ length y = dim b * ncols b /\
    forall a, a < dim b * ncols b -> nth a y 0%R = mapply (dim b * ncols b) Q (fun c => nth c x 0%R) a.
Proof.
  intros PD S L. assert (S' := S). destruct S' as (W & ER & EC & _ & _).
  destruct (mul_vec_ok (mQ m) x (repeat 0%R (total (rbi (mQ m)))) W) as (y & E & Ly & V).
  - rewrite EC, lay_total. exact L.
  - apply repeat_length.
  - rewrite ER, EC, lay_total in *. exists y. split; [ unfold mul_vec; rewrite ER, lay_total; exact E | ]. split; [ exact Ly | ].
    intros a La. rewrite (V a La), nth_repeat_in by exact La. rewrite Rplus_0_l. unfold mapply.
    change bsum with sumn. apply sumn_ext. intros c Lc. rewrite (entries_dense b m Q PD S a c La Lc). reflexivity.
Qed.

(** The curve with other coefficients of the same number. *)
Definition shape_of (b b' : bspline) : Prop := dim b' = dim b /\ ncols b' = ncols b.

Lemma motion_error_ok b b' m Q : 1 <= dim b -> stands_for b m Q -> shape_of b b' ->
  motion_error m b' = Ok (bil (dim b * ncols b) Q (coefs b') (coefs b')).
Proof.
  intros PD S (E1 & E2). assert (S' := S). destruct S' as (_ & _ & _ & _ & EL). unfold motion_error, mapped_coefs.
  rewrite E1, E2, EL, Nat.leb_refl. cbn [obind].
  assert (LS : length (stacked b') = dim b * ncols b) by (rewrite stacked_length, E1, E2; reflexivity).
  assert (FA : firstn (dim b * ncols b) (stacked b') = stacked b') by (rewrite <- LS; apply firstn_all). rewrite FA.
  destruct (times_Q b m Q (stacked b') PD S LS) as (y & E & Ly & V). rewrite E. cbn [obind]. f_equal.
  rewrite dot_rdot. etransitivity; [ exact (rdot_sumn (stacked b') y) | ]. rewrite LS. unfold bil. change bsum with sumn. apply sumn_ext. intros a La.
  rewrite stacked_nth by (rewrite E1, E2; exact La). rewrite (V a La). f_equal. unfold mapply. change bsum with sumn.
  apply sumn_ext. intros c Lc. rewrite stacked_nth by (rewrite E1, E2; exact Lc). reflexivity.
Qed.

Lemma motion_rhs_ok b b' m Q : 1 <= dim b -> stands_for b m Q -> shape_of b b' ->
  exists y : list R, motion_rhs m b' = Ok y /\ length y = dim b * ncols b /\
    forall a, a < dim b * ncols b -> nth a y 0%R = (- mapply (dim b * ncols b) Q (coefs b') a)%R.
Proof.
  intros PD S (E1 & E2). assert (S' := S). destruct S' as (_ & _ & _ & _ & EL). unfold motion_rhs, mapped_coefs.
  rewrite E1, E2, EL, Nat.leb_refl. cbn [obind].
  assert (LS : length (stacked b') = dim b * ncols b) by (rewrite stacked_length, E1, E2; reflexivity).
  assert (FA : firstn (dim b * ncols b) (stacked b') = stacked b') by (rewrite <- LS; apply firstn_all). rewrite FA.
  destruct (times_Q b m Q (map (fun x => 0 - x)%R (stacked b')) PD S) as (y & E & Ly & V); [ rewrite map_length; exact LS | ].
  exists y. split; [ exact E | ]. split; [ exact Ly | ]. intros a La. rewrite (V a La). unfold mapply. change bsum with sumn.
  rewrite <- (Rmult_1_l (sumn _ _)) at 1. replace (- sumn (dim b * ncols b) (fun c => Q a c * coefs b' c))%R
    with (-1 * sumn (dim b * ncols b) (fun c => Q a c * coefs b' c))%R by ring.
  rewrite <- !sumn_scale. apply sumn_ext. intros c Lc.
  change (nth c (map (fun x => 0 - x)%R (stacked b')) 0%R) with (nth c (map (fun x => 0 - x)%R (stacked b')) 0%R).
  rewrite (nth_indep (map (fun x => 0 - x)%R (stacked b')) 0%R (0 - 0)%R) by (rewrite map_length; apply (eq_ind_r (fun z => c < z) Lc LS)).
  rewrite (map_nth (fun x => 0 - x)%R), stacked_nth by (rewrite E1, E2; exact Lc). ring.
Qed.

(** ** The Hessian *)
Definition d0 : dvref := DvRef 0 0 0 false.

Lemma combine_seq_nth {V} (l : list V) (dv : V) : forall s, combine (seq s (length l)) l = map (fun i => (s + i, nth i l dv)) (seq 0 (length l)).
Proof.
  induction l as [ | x l IH ]; intros s; [ reflexivity | ]. cbn [length seq combine map nth]. rewrite Nat.add_0_r. f_equal.
  rewrite IH, <- seq_shift, map_map. apply map_ext. intros i. cbn [nth]. f_equal. lia.
Qed.

(** The updates the inner loop makes. *)
Definition column_updates (Q : sbm RA) (i ci : nat) (js : list (nat * dvref)) : list (nat * nat * list (list R)) :=
  concat (map (fun p : nat * dvref => if is_active (snd p) then
     match blk Q i (fst p) with Some B => [(bo (snd p), ci, B)] | None => [] end else []) js).

Lemma motion_column_updates Q i ci js : (forall j d, In (j, d) js -> j < length (bcols Q)) ->
  (forall j d, In (j, d) js -> is_active d = true -> (0 <= block d)%Z) -> forall H,
  motion_column Q i ci js H =
  updates RA (map (fun e : nat * nat * JacModel.mat RA => (fst e, plus RA (snd e))) (column_updates Q i ci js)) H.
Proof.
  induction js as [ | (j, d) js IH ]; intros HJ HB H; [ reflexivity | ]. cbn [motion_column column_updates map concat fst snd].
  assert (IH' := IH (fun j' d' X => HJ j' d' (or_intror X)) (fun j' d' X => HB j' d' (or_intror X))).
  destruct (is_active d) eqn:EA; [ | apply IH' ].
  rewrite bindex_ok by (apply (HB j d); [ now left | exact EA ]). cbn [obind].
  rewrite get_blk by (apply (HJ j d); now left). cbn [obind].
  destruct (blk Q i j) as [B | ] eqn:EB; [ | apply IH' ].
  cbn [app map updates fst snd]. change (plus RA (B : JacModel.mat RA)) with (plus RA B).
  destruct (SbmModel.update RA (bo d) ci (plus RA B) H) as [H' | | | ]; cbn [obind]; [ apply IH' | reflexivity | reflexivity | reflexivity ].
Qed.

Lemma motion_column_ok lay D (Q H : sbm RA) i ci js : wf Q -> wf H -> owns H = true -> rbi H = lay -> cbi H = lay ->
  (forall j, j < length (bcols Q) -> size_of (cbi Q) j = D) -> size_of (rbi Q) i = D ->
  ci < length lay -> size_of lay ci = D ->
  (forall j d, In (j, d) js -> j < length (bcols Q)) ->
  (forall j d, In (j, d) js -> is_active d = true -> (0 <= block d)%Z /\ bo d < length lay /\ size_of lay (bo d) = D) ->
  exists H', motion_column Q i ci js H = Ok H' /\ wf H' /\ alike RA H' H /\
    forall r i' c j', val H' r i' c j' = (val H r i' c j' +
      rsum (map (fun p : nat * dvref => if is_active (snd p) && (bo (snd p) =? r) && (ci =? c) then val Q i i' (fst p) j' else 0) js))%R.
Proof.
  intros WQ W O ER EC SQ SI LC SC HJ HB. rewrite motion_column_updates; [ | exact HJ | intros j d X Y; apply (HB j d X Y) ].
  destruct (accumulate (column_updates Q i ci js) H W O) as (H' & E & W' & A & V & _).
  { intros r c M X. unfold column_updates in X. apply in_concat in X as (l & X1 & X2). apply in_map_iff in X1 as ((j, d) & <- & X3).
    cbn [fst snd] in X2. destruct (is_active d) eqn:EA; [ | contradiction ]. destruct (blk Q i j) as [B | ] eqn:EB; [ | contradiction ].
    destruct X2 as [X2 | []]. assert (r = bo d) by congruence. assert (c = ci) by congruence. assert (M = B) by congruence. subst r c M.
    destruct (HB j d X3 EA) as (_ & B1 & B2). rewrite ER, EC, B2, SC. conj; [ exact B1 | exact LC | ].
    destruct (wf_blk _ _ WQ _ _ _ EB) as [_ S]. rewrite SI, (SQ j (HJ j d X3)) in S. exact S. }
  exists H'. conj; [ exact E | exact W' | exact A | ]. intros r i' c j'. rewrite V. f_equal.
  unfold contrib, column_updates. rewrite rsum_concat_map, map_map. f_equal. apply map_ext. intros (j, d). cbn [fst snd].
  destruct (is_active d); cbn [andb]; [ | reflexivity ].
  unfold val, val_at. destruct (blk Q i j) as [B | ]; cbn [map rsum].
  - unfold ent. change (of_Z RA 0) with 0%R. apply Rplus_0_r.
  - destruct ((bo d =? r) && (ci =? c)); reflexivity.
Qed.

Lemma segment_ok o n (x : list R) : o + n <= length x ->
  exists v : list R, segment RA o n x = Ok v /\ length v = n /\ forall k, k < n -> nth k v 0%R = nth (o + k) x 0%R.
Proof.
  intros L. exists (@firstn R n (@skipn R o x)). split.
  { unfold segment. change (@length (num RA) x) with (@length R x). rewrite (proj2 (Nat.leb_le _ _) L). reflexivity. }
  split.
  - rewrite firstn_length, skipn_length. lia.
  - intros k Lk. rewrite <- (firstn_skipn o x) at 2. rewrite app_nth2 by (rewrite firstn_length; lia).
    rewrite firstn_length, Nat.min_l by lia. replace (o + k - o) with k by lia.
    rewrite <- (firstn_skipn n (skipn o x)) at 2. rewrite app_nth1; [ reflexivity | ].
    rewrite firstn_length, skipn_length. lia.
Qed.

(** The outer loop. *)
Lemma motion_columns_ok lay D (Q : sbm RA) (bu : list R) dvs : wf Q -> layout lay ->
  (forall j, j < length (bcols Q) -> size_of (cbi Q) j = D) -> (forall j, j < length (bcols Q) -> size_of (rbi Q) j = D) ->
  length (bcols Q) = length dvs -> length bu = D * length dvs -> placed lay D dvs ->
  forall is (H : sbm RA) (rhs : list R), wf H -> owns H = true -> rbi H = lay -> cbi H = lay -> length rhs = total lay ->
  (forall i d, In (i, d) is -> nth_error dvs i = Some d) ->
  exists H' (rhs' : list R), motion_columns Q bu dvs is H rhs = Ok (H', rhs') /\ wf H' /\ alike RA H' H /\ length rhs' = total lay /\
    (forall r i' c j', val H' r i' c j' = (val H r i' c j' +
      rsum (map (fun p : nat * dvref => if is_active (snd p) && (bo (snd p) =? c) then
         sumn (length dvs) (fun j => if is_active (nth j dvs d0) && (bo (nth j dvs d0) =? r) && (j <=? fst p) then val Q (fst p) i' j j' else 0) else 0) is))%R) /\
    (forall r i', r < length lay -> i' < size_of lay r -> nth (base_of lay r + i') rhs' 0%R = (nth (base_of lay r + i') rhs 0 -
      rsum (map (fun p : nat * dvref => if is_active (snd p) && (bo (snd p) =? r) then nth (fst p * D + i')%nat bu 0 else 0) is))%R).
Proof.
  intros WQ LL SC SR LQ LB PL. induction is as [ | (i, d) is IH ]; intros H rhs W O ER EC LR HI.
  - exists H, rhs. cbn [motion_columns map rsum]. conj; auto; [ apply alike_refl | intros; ring | intros; ring ].
  - cbn [motion_columns]. assert (ED := HI i d (or_introl eq_refl)).
    assert (Li : i < length dvs) by (apply nth_error_Some; congruence).
    destruct (is_active d) eqn:EA.
    2: { destruct (IH H rhs W O ER EC LR (fun i' d' X => HI i' d' (or_intror X))) as (H' & rhs' & E & W' & A' & L' & V & U).
         exists H', rhs'. conj; auto.
         - intros r i' c j'. rewrite V. cbn [map rsum fst snd]. rewrite EA. cbn [andb]. ring.
         - intros r i' X Y. rewrite (U r i' X Y). cbn [map rsum fst snd]. rewrite EA. cbn [andb]. ring. }
    destruct (PL d (nth_error_In _ _ ED) EA) as (B1 & B2 & B3).
    rewrite bindex_ok by lia. cbn [obind].
    assert (BO : bo d < length lay) by (unfold bo; lia). change (Z.to_nat (block d)) with (bo d) in B3.
    assert (LF : length (firstn (i + 1) dvs) = i + 1) by (rewrite firstn_length; lia).
    assert (EJ : combine (seq 0 (i + 1)) (firstn (i + 1) dvs) = map (fun j => (j, nth j dvs d0)) (seq 0 (i + 1))).
    { rewrite <- LF at 1. rewrite (combine_seq_nth _ d0), LF. apply map_ext_in. intros j Hj. apply in_seq in Hj. cbn [Nat.add]. f_equal.
      rewrite <- (firstn_skipn (i + 1) dvs) at 2. rewrite app_nth1 by lia. reflexivity. }
    destruct (motion_column_ok lay D Q H i (bo d) (combine (seq 0 (i + 1)) (firstn (i + 1) dvs)) WQ W O ER EC SC) as (H1 & E1 & W1 & A1 & V1).
    + apply SR. lia.
    + exact BO.
    + exact B3.
    + intros j dj X. rewrite EJ in X. apply in_map_iff in X as (x & X1 & X2). apply in_seq in X2. assert (j = x) by congruence. lia.
    + intros j dj X EAj. rewrite EJ in X. apply in_map_iff in X as (x & X1 & X2). apply in_seq in X2.
      assert (dj = nth x dvs d0) by congruence.
      destruct (PL dj) as (C1 & C2 & C3); [ subst dj; apply nth_In; lia | exact EAj | ]. unfold bo. conj; [ lia | lia | exact C3 ].
    + rewrite E1. cbn [obind]. rewrite B2.
      destruct (segment_ok (i * D) D bu) as (v & Ev & Lv & Vv); [ nia | ]. rewrite Ev. cbn [obind].
      pose proof (layout_total lay (bo d) LL BO) as LT.
      destruct (sub_segment_ok (base_of lay (bo d)) v rhs) as (rhs1 & Er & Lr & Vr); [ rewrite Lv; lia | ].
      rewrite EC, Er. cbn [obind]. destruct A1 as (A1 & A2 & A3 & A4).
      destruct (IH H1 rhs1 W1) as (H' & rhs' & E & W' & A' & L' & V & U); [ congruence | congruence | congruence | congruence | intros i' d' X; apply (HI i' d' (or_intror X)) | ].
      exists H', rhs'. conj; [ exact E | exact W' | | exact L' | | ].
      * apply (alike_trans RA H' H1 H A'). unfold alike. auto.
      * intros r i' c j'. rewrite V, V1. cbn [map rsum fst snd]. rewrite EA. cbn [andb].
        rewrite EJ, map_map, (rsum_seq (i + 1) (fun j => _) 0). cbn [Nat.add fst snd].
        rewrite Rplus_assoc. f_equal. f_equal.
        destruct (bo d =? c) eqn:EB.
        -- replace (length dvs) with ((i + 1) + (length dvs - (i + 1))) by lia. rewrite (sumn_split (i + 1) (length dvs - (i + 1))).
           rewrite (sumn_zero (length dvs - (i + 1))).
           ++ rewrite Rplus_0_r. apply sumn_ext. intros j Lj. rewrite (proj2 (Nat.leb_le j i)) by lia. reflexivity.
           ++ intros j Lj. rewrite (proj2 (Nat.leb_gt (i + 1 + j) i)) by lia. rewrite andb_false_r. reflexivity.
        -- apply sumn_zero. intros j _. rewrite andb_false_r. reflexivity.
      * intros r i' X Y. rewrite (U r i' X Y). pose proof (layout_total lay r LL X) as LT2.
        rewrite Vr by lia. rewrite Lv. cbn [map rsum fst snd]. rewrite EA. cbn [andb].
        destruct (Nat.eqb_spec (bo d) r) as [EQ | NE].
        -- subst r. rewrite (proj2 (Nat.leb_le _ _)) by lia. rewrite (proj2 (Nat.ltb_lt _ _)) by lia. cbn [andb].
           replace (base_of lay (bo d) + i' - base_of lay (bo d)) with i' by lia. rewrite Vv by lia. ring.
        -- destruct ((base_of lay (bo d) <=? base_of lay r + i') && (base_of lay r + i' <? base_of lay (bo d) + D)) eqn:EW.
           ++ exfalso. apply andb_true_iff in EW as [W2 W3]. apply Nat.leb_le in W2. apply Nat.ltb_lt in W3. apply NE.
              apply (locate_inj lay (bo d) (base_of lay r + i' - base_of lay (bo d)) r i' LL BO); lia.
           ++ ring.
Qed.

(** ** Sums over the system and over the coefficients *)
Section Lift.
Variables (lay : list nat) (D : nat) (dvs : list dvref).
Hypothesis LL : layout lay.
Hypothesis PL : placed lay D dvs.
Notation n := (length dvs).
Notation dv i := (nth i dvs d0).
Notation act i := (is_active (nth i dvs d0)).
Notation at_ i := (bo (nth i dvs d0)).

Lemma act_lt i : act i = true -> i < n.
Proof. intros H. destruct (Nat.lt_ge_cases i n) as [L | L]; [ exact L | ]. rewrite nth_overflow in H by exact L. discriminate. Qed.
Lemma act_place i : act i = true -> at_ i < length lay /\ size_of lay (at_ i) = D /\ (0 <= block (dv i))%Z /\ mindim (dv i) = D.
Proof.
  intros H. destruct (PL (dv i) (nth_In _ _ (act_lt i H)) H) as (B1 & B2 & B3). unfold bo. conj; [ lia | exact B3 | lia | exact B2 ].
Qed.

Lemma displacement_at x i r : i < n -> r < D -> displacement lay D dvs x (i * D + r) =
  if act i then x (base_of lay (at_ i) + r)%nat else 0%R.
Proof.
  intros Li Lr. unfold displacement. destruct (div_mod_block D r i Lr) as [-> ->].
  rewrite (nth_error_nth' dvs d0 Li). reflexivity.
Qed.

Lemma lift_sum (x G : nat -> R) (g : nat -> R) :
  (forall r i', r < length lay -> i' < size_of lay r -> G (base_of lay r + i') =
     sumn n (fun i => if act i && (at_ i =? r) then g (i * D + i') else 0%R)) ->
  sumn (total lay) (fun a => x a * G a)%R = sumn (D * n) (fun a => displacement lay D dvs x a * g a)%R.
Proof.
  intros HG. rewrite (sum_blocks lay _ LL).
  transitivity (sumn n (fun i => if act i then sumn D (fun r => (x (base_of lay (at_ i) + r)%nat * g (i * D + r)%nat)%R) else 0%R)).
  - transitivity (sumn (length lay) (fun b => sumn n (fun i => if act i && (at_ i =? b) then
       sumn (size_of lay b) (fun r => (x (base_of lay b + r)%nat * g (i * D + r)%nat)%R) else 0%R))).
    + apply sumn_ext. intros b Lb.
      transitivity (sumn (size_of lay b) (fun r => sumn n (fun i => if act i && (at_ i =? b) then (x (base_of lay b + r)%nat * g (i * D + r)%nat)%R else 0%R))).
      * apply sumn_ext. intros r Lr. rewrite (HG b r Lb Lr), <- sumn_scale. apply sumn_ext. intros i _.
        destruct (act i && (at_ i =? b)); ring.
      * rewrite sumn_swap. apply sumn_ext. intros i _. destruct (act i && (at_ i =? b)); [ reflexivity | apply sumn_zero; reflexivity ].
    + rewrite sumn_swap. apply sumn_ext. intros i Li. destruct (act i) eqn:EA; cbn [andb]; [ | apply sumn_zero; reflexivity ].
      destruct (act_place i EA) as (B1 & B2 & _).
      rewrite (sumn_ext (length lay) _ (fun b => if b =? at_ i then sumn (size_of lay b) (fun r => (x (base_of lay b + r)%nat * g (i * D + r)%nat)%R) else 0%R))
        by (intros b _; rewrite (Nat.eqb_sym b); reflexivity).
      rewrite (sumn_only (length lay) (at_ i) (fun b => sumn (size_of lay b) (fun r => (x (base_of lay b + r)%nat * g (i * D + r)%nat)%R)) B1).
      rewrite B2. reflexivity.
  - change sumn with bsum. rewrite (Nat.mul_comm D), BsdProofs.bsum_blocks. change bsum with sumn. apply sumn_ext. intros i Li.
    destruct (act i) eqn:EA.
    + apply sumn_ext. intros r Lr. rewrite displacement_at, EA by assumption. reflexivity.
    + symmetry. apply sumn_zero. intros r Lr. rewrite displacement_at, EA by assumption. ring.
Qed.
End Lift.

(** ** The system *)
Section System.
Variables (lay : list nat) (b : bspline) (dvs : list dvref) (m : motion) (Qd : BsplModel.mat).
Notation D := (dim b).
Notation n := (length dvs).
Notation act i := (is_active (nth i dvs d0)).
Notation at_ i := (bo (nth i dvs d0)).
Hypothesis LL : layout lay.
Hypothesis PL : placed lay D dvs.
Hypothesis IO : in_order dvs.
Hypothesis LN : n = ncols b.
Hypothesis ST : stands_for b m Qd.
Hypothesis EX : exchangeable D Qd.
Hypothesis TR : transposable D Qd.

(** What the blocks of variables i and j add to the entries (r, i') x (c, j'). *)
Definition added (r i' c j' : nat) : R :=
  sumn n (fun i => sumn n (fun j => if act i && (at_ i =? r) && (act j && (at_ j =? c)) then Qd (i * D + i') (j * D + j') else 0%R)).

Lemma order_index i j : act i = true -> act j = true -> at_ i <= at_ j -> i <= j.
Proof.
  intros A1 A2 L. destruct (Nat.le_gt_cases i j) as [X | X]; [ exact X | exfalso ].
  pose proof (act_lt dvs i A1) as L1. pose proof (act_lt dvs j A2) as L2.
  pose proof (IO j i _ _ X (nth_error_nth' dvs d0 L2) (nth_error_nth' dvs d0 L1) A2 A1) as Y.
  destruct (act_place lay D dvs PL i A1) as (_ & _ & P1 & _). destruct (act_place lay D dvs PL j A2) as (_ & _ & P2 & _).
  unfold bo in L. lia.
Qed.

Lemma built_entry (H H' : sbm RA) :
  (forall r i' c j', val H' r i' c j' = (val H r i' c j' +
     sumn n (fun i => if act i && (at_ i =? c) then
       sumn n (fun j => if act j && (at_ j =? r) && (j <=? i) then val (mQ m) i i' j j' else 0) else 0))%R) ->
  forall r i' c j', r <= c -> r < length lay -> c < length lay -> i' < size_of lay r -> j' < size_of lay c ->
  (val H' r i' c j' - val H r i' c j')%R = added r i' c j'.
Proof.
  intros HV r i' c j' LE Hr Hc Hi Hj. rewrite HV. unfold added. rewrite sumn_swap.
  match goal with |- (?a + ?b - ?a)%R = _ => replace (a + b - a)%R with b by ring end.
  apply sumn_ext. intros i Li. destruct (act i) eqn:A1; destruct (at_ i =? c) eqn:E1; cbn [andb].
  2, 3, 4: symmetry; apply sumn_zero; intros j _; rewrite andb_false_r; reflexivity.
  apply Nat.eqb_eq in E1. apply sumn_ext. intros j Lj.
  destruct (act j) eqn:A2; destruct (at_ j =? r) eqn:E2; cbn [andb]; try reflexivity. apply Nat.eqb_eq in E2.
  rewrite (proj2 (Nat.leb_le j i)) by (apply order_index; [ exact A2 | exact A1 | lia ]).
  destruct ST as (_ & _ & _ & SE & _). destruct (act_place lay D dvs PL i A1) as (_ & S1 & _). destruct (act_place lay D dvs PL j A2) as (_ & S2 & _).
  rewrite E1 in S1. rewrite E2 in S2. rewrite (SE i i' j j') by lia. apply EX; lia.
Qed.

Lemma added_sym r i' c j' : r < length lay -> c < length lay -> i' < size_of lay r -> j' < size_of lay c ->
  added r i' c j' = added c j' r i'.
Proof.
  intros Hr Hc Hi Hj. unfold added. rewrite sumn_swap. apply sumn_ext. intros j Lj. apply sumn_ext. intros i Li.
  rewrite andb_comm. destruct (act j && (at_ j =? c)) eqn:E1; destruct (act i && (at_ i =? r)) eqn:E2; cbn [andb]; try reflexivity.
  apply andb_true_iff in E1 as [A1 E1]. apply andb_true_iff in E2 as [A2 E2]. apply Nat.eqb_eq in E1, E2.
  destruct (act_place lay D dvs PL j A1) as (_ & S1 & _). destruct (act_place lay D dvs PL i A2) as (_ & S2 & _).
  rewrite E1 in S1. rewrite E2 in S2. apply TR; lia.
Qed.

Lemma scalar_order r i' c j' : r < length lay -> c < length lay -> i' < size_of lay r -> j' < size_of lay c ->
  (base_of lay r + i' <= base_of lay c + j' -> r <= c) /\ (base_of lay c + j' < base_of lay r + i' -> c <= r).
Proof.
  intros Hr Hc Hi Hj. rewrite size_base in Hi, Hj. split; intros X.
  - destruct (Nat.le_gt_cases r c) as [Y | Y]; [ exact Y | exfalso ].
    pose proof (layout_mono lay LL (S c) r ltac:(lia) ltac:(lia)). lia.
  - destruct (Nat.le_gt_cases c r) as [Y | Y]; [ exact Y | exfalso ].
    pose proof (layout_mono lay LL (S r) c ltac:(lia) ltac:(lia)). lia.
Qed.

Lemma sym_added (H H' : sbm RA) : wf H -> wf H' -> rbi H = lay -> cbi H = lay -> rbi H' = lay -> cbi H' = lay ->
  (forall r i' c j', val H' r i' c j' = (val H r i' c j' +
     sumn n (fun i => if act i && (at_ i =? c) then
       sumn n (fun j => if act j && (at_ j =? r) && (j <=? i) then val (mQ m) i i' j j' else 0) else 0))%R) ->
  forall r i' c j', r < length lay -> c < length lay -> i' < size_of lay r -> j' < size_of lay c ->
  (sym H' (base_of lay r + i') (base_of lay c + j') - sym H (base_of lay r + i') (base_of lay c + j'))%R = added r i' c j'.
Proof.
  intros W W' R1 C1 R2 C2 HV r i' c j' Hr Hc Hi Hj. destruct (scalar_order r i' c j' Hr Hc Hi Hj) as [O1 O2].
  assert (EL : forall (h : sbm RA) r i' c j', wf h -> rbi h = lay -> cbi h = lay -> r < length lay -> c < length lay ->
    i' < size_of lay r -> j' < size_of lay c -> el h (base_of lay r + i') (base_of lay c + j') = val h r i' c j').
  { intros h p p' q q' Wh Rh Ch X1 X2 X3 X4. pose proof (elr_at h p p' q q' Wh) as Y. rewrite Rh, Ch in Y. exact (Y X1 X3 X2 X4). }
  unfold sym. destruct (Nat.leb_spec (base_of lay r + i') (base_of lay c + j')) as [X | X].
  - rewrite (EL H'), (EL H) by assumption. apply built_entry; auto.
  - rewrite (EL H'), (EL H) by assumption. rewrite added_sym by assumption. apply built_entry; auto.
Qed.

(** The step changes the quadratic form of the system by that of the curve. *)
Lemma system_form (H H' : sbm RA) (x y : nat -> R) : wf H -> wf H' -> rbi H = lay -> cbi H = lay -> rbi H' = lay -> cbi H' = lay ->
  (forall r i' c j', val H' r i' c j' = (val H r i' c j' +
     sumn n (fun i => if act i && (at_ i =? c) then
       sumn n (fun j => if act j && (at_ j =? r) && (j <=? i) then val (mQ m) i i' j j' else 0) else 0))%R) ->
  sumn (total lay) (fun a => x a * sumn (total lay) (fun c => y c * (sym H' a c - sym H a c)))%R =
  bil (D * n) Qd (displacement lay D dvs x) (displacement lay D dvs y).
Proof.
  intros W W' R1 C1 R2 C2 HV. unfold bil. change bsum with sumn.
  rewrite (lift_sum lay D dvs LL PL x (fun a => sumn (total lay) (fun c => y c * (sym H' a c - sym H a c)))%R
    (fun a => sumn (D * n) (fun c => displacement lay D dvs y c * Qd a c))%R).
  - apply sumn_ext. intros a _. f_equal. apply sumn_ext. intros c _. ring.
  - intros r i' Hr Hi.
    rewrite (lift_sum lay D dvs LL PL y (fun c => (sym H' (base_of lay r + i') c - sym H (base_of lay r + i') c)%R)
      (fun c => sumn n (fun i => if act i && (at_ i =? r) then Qd (i * D + i') c else 0%R))).
    + transitivity (sumn (D * n) (fun a => sumn n (fun i => if act i && (at_ i =? r) then (displacement lay D dvs y a * Qd (i * D + i')%nat a)%R else 0%R))).
      * apply sumn_ext. intros a _. rewrite <- sumn_scale. apply sumn_ext. intros i _. destruct (act i && (at_ i =? r)); ring.
      * rewrite sumn_swap. apply sumn_ext. intros i _. destruct (act i && (at_ i =? r)); [ reflexivity | apply sumn_zero; reflexivity ].
    + intros c j' Hc Hj. rewrite (sym_added H H') by assumption. unfold added. rewrite sumn_swap. apply sumn_ext. intros j _.
      destruct (act j && (at_ j =? c)) eqn:E.
      * apply sumn_ext. intros i _. rewrite andb_true_r. reflexivity.
      * apply sumn_zero. intros i _. rewrite andb_false_r. reflexivity.
Qed.
End System.

Lemma bil_add N Q x y : (forall r c, r < N -> c < N -> Q r c = Q c r) ->
  bil N Q (fun a => x a + y a)%R (fun a => x a + y a)%R = (bil N Q x x + 2 * sumn N (fun a => y a * mapply N Q x a) + bil N Q y y)%R.
Proof.
  intros S. assert (E : bil N Q (fun a => x a + y a)%R (fun a => x a + y a)%R = (bil N Q x x + bil N Q x y + bil N Q y x + bil N Q y y)%R).
  { unfold bil. change bsum with sumn. rewrite <- !sumn_plus. apply sumn_ext. intros a _.
    rewrite (sumn_ext N (fun c => Q a c * (x c + y c))%R (fun c => Q a c * x c + Q a c * y c)%R) by (intros; ring). rewrite sumn_plus. ring. }
  rewrite E, (bil_sym N Q x y S). unfold mapply. change (bil N Q y x) with (sumn N (fun a => y a * bsum N (fun c => Q a c * x c))%R). ring.
Qed.

Lemma motion_hessian_ok lay b b' dvs m Qd (H : sbm RA) (rhs : list R) : layout lay -> 1 <= dim b -> placed lay (dim b) dvs ->
  length dvs = ncols b -> stands_for b m Qd -> shape_of b b' -> wf H -> owns H = true -> rbi H = lay -> cbi H = lay -> length rhs = total lay ->
  exists H' (rhs' : list R), motion_hessian m b' dvs H rhs = Ok (H', rhs') /\ wf H' /\ alike RA H' H /\ length rhs' = total lay /\
    (forall r i' c j', val H' r i' c j' = (val H r i' c j' +
      sumn (length dvs) (fun i => if is_active (nth i dvs d0) && (bo (nth i dvs d0) =? c) then
        sumn (length dvs) (fun j => if is_active (nth j dvs d0) && (bo (nth j dvs d0) =? r) && (j <=? i) then val (mQ m) i i' j j' else 0) else 0))%R) /\
    (forall r i', r < length lay -> i' < size_of lay r -> nth (base_of lay r + i') rhs' 0%R = (nth (base_of lay r + i') rhs 0 -
      sumn (length dvs) (fun i => if is_active (nth i dvs d0) && (bo (nth i dvs d0) =? r) then mapply (dim b * ncols b) Qd (coefs b') (i * dim b + i')%nat else 0))%R).
Proof.
  intros LL PD PL LN S (E1 & E2) W O ER EC LR. assert (S' := S). destruct S' as (WQ & RQ & CQ & SE & _).
  assert (LS : length (stacked b') = dim b * ncols b) by (rewrite stacked_length, E1, E2; reflexivity).
  destruct (times_Q b m Qd (stacked b') PD S LS) as (bu & EB & LB & VB). unfold motion_hessian. rewrite EB. cbn [obind].
  assert (BC : length (bcols (mQ m)) = ncols b) by (rewrite (wf_cols _ _ WQ), CQ; apply lay_length).
  destruct (motion_columns_ok lay (dim b) (mQ m) bu dvs WQ LL) with (is := combine (seq 0 (length dvs)) dvs) (H := H) (rhs := rhs)
    as (H' & rhs' & E & W' & A' & L' & V & U); auto.
  - intros j Lj. rewrite CQ. apply lay_size. lia.
  - intros j Lj. rewrite RQ. apply lay_size. lia.
  - lia.
  - rewrite LN. exact LB.
  - intros i d X. rewrite (combine_seq_nth dvs d0) in X. apply in_map_iff in X as (x & X1 & X2). apply in_seq in X2.
    cbn [Nat.add] in X1. assert (i = x) by congruence. assert (d = nth x dvs d0) by congruence. subst i d. apply nth_error_nth'. lia.
  - exists H', rhs'. conj; [ exact E | exact W' | exact A' | exact L' | | ].
    + intros r i' c j'. rewrite V, (combine_seq_nth dvs d0), map_map, (rsum_seq (length dvs) (fun i => _) 0). cbn [Nat.add fst snd]. reflexivity.
    + intros r i' Hr Hi. rewrite (U r i' Hr Hi), (combine_seq_nth dvs d0), map_map, (rsum_seq (length dvs) (fun i => _) 0). cbn [Nat.add fst snd].
      f_equal. apply sumn_ext. intros i Li. destruct (is_active (nth i dvs d0)) eqn:EA; cbn [andb]; [ | reflexivity ].
      destruct (Nat.eqb_spec (bo (nth i dvs d0)) r) as [EQ | NE]; [ | reflexivity ].
      destruct (act_place lay (dim b) dvs PL i EA) as (_ & S2 & _). rewrite EQ in S2.
      rewrite VB by nia. unfold mapply. change bsum with sumn. apply sumn_ext. intros c Lc. rewrite stacked_nth by (rewrite E1, E2; exact Lc). reflexivity.
Qed.

(** The added terms are the exact second order expansion of the error. *)
Lemma motion_expansion lay b b' b'' dvs m Qd (H H' : sbm RA) (rhs rhs' : list R) x : layout lay -> 1 <= dim b -> placed lay (dim b) dvs -> in_order dvs ->
  length dvs = ncols b -> stands_for b m Qd -> exchangeable (dim b) Qd -> transposable (dim b) Qd -> shape_of b b' -> shape_of b b'' ->
  wf H -> owns H = true -> rbi H = lay -> cbi H = lay -> length rhs = total lay ->
  (forall a, a < dim b * ncols b -> coefs b'' a = (coefs b' a + displacement lay (dim b) dvs x a)%R) ->
  motion_hessian m b' dvs H rhs = Ok (H', rhs') ->
  bil (dim b * ncols b) Qd (coefs b'') (coefs b'') = (bil (dim b * ncols b) Qd (coefs b') (coefs b')
    - 2 * sumn (total lay) (fun a => x a * (nth a rhs' 0 - nth a rhs 0))
    + sumn (total lay) (fun a => x a * sumn (total lay) (fun c => x c * (sym H' a c - sym H a c))))%R.
Proof.
  intros LL PD PL IO LN S EX TR SH SH2 W O ER EC LR EC2 EH.
  destruct (motion_hessian_ok lay b b' dvs m Qd H rhs LL PD PL LN S SH W O ER EC LR) as (K & k & E & W' & (A1 & A2 & A3 & _) & L' & V & U).
  assert (K = H') by congruence. assert (k = rhs') by congruence. subst K k.
  rewrite (system_form lay b dvs m Qd LL PL IO LN S EX TR H H' x x W W' ER EC ltac:(congruence) ltac:(congruence) V).
  rewrite (lift_sum lay (dim b) dvs LL PL x (fun a => nth a rhs' 0 - nth a rhs 0)%R (fun a => - mapply (dim b * ncols b) Qd (coefs b') a)%R).
  - rewrite (bil_ext (dim b * ncols b) Qd (coefs b'') (coefs b'') Qd (fun a => coefs b' a + displacement lay (dim b) dvs x a)%R
      (fun a => coefs b' a + displacement lay (dim b) dvs x a)%R) by (first [ reflexivity | exact EC2 ]).
    rewrite bil_add.
    + rewrite LN.
      replace (sumn (dim b * ncols b) (fun a => displacement lay (dim b) dvs x a * - mapply (dim b * ncols b) Qd (coefs b') a)%R)
        with (-1 * sumn (dim b * ncols b) (fun a => displacement lay (dim b) dvs x a * mapply (dim b * ncols b) Qd (coefs b') a))%R; [ ring | ].
      rewrite <- sumn_scale. apply sumn_ext. intros a _. ring.
    + intros a c La Lc. destruct (split_index _ _ a PD La) as (i & r & Hi & Hr & ->). destruct (split_index _ _ c PD Lc) as (j & t & Hj & Ht & ->).
      apply TR; assumption.
  - intros r i' Hr Hi. rewrite (U r i' Hr Hi).
    transitivity (-1 * sumn (length dvs) (fun i => if is_active (nth i dvs d0) && (bo (nth i dvs d0) =? r) then mapply (dim b * ncols b) Qd (coefs b') (i * dim b + i')%nat else 0))%R; [ ring | ].
    rewrite <- sumn_scale. apply sumn_ext. intros i _. destruct (is_active (nth i dvs d0) && (bo (nth i dvs d0) =? r)); ring.
Qed.
