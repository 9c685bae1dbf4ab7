(** * Lemmas about the solver *)
From Coq Require Import Reals ZArith List Arith Bool Sorted Lra Lia.
From Verif Require Import BsplModel BsplProofs PcgModel PcgSpec PcgCg.
Import ListNotations.
Local Open Scope R_scope.

Lemma total_bsum n f : PcgSpec.total n f = bsum n f.
Proof. induction n as [ | n IH]; [ reflexivity | ]. cbn [PcgSpec.total bsum]. rewrite IH. reflexivity. Qed.
Lemma apply_val n M x i : apply n M x i = bsum n (fun j => M i j * x j).
Proof. apply total_bsum. Qed.
Lemma inner_val n x y : inner n x y = vdot n x y.
Proof. apply total_bsum. Qed.

(** ** Layout *)
Lemma off_S sizes k : (k < length sizes)%nat -> off sizes (S k) = (off sizes k + size sizes k)%nat.
Proof.
  unfold off, size. revert k. induction sizes as [ | s t IH]; intros k L; cbn [length] in L; [ lia | ]. destruct k as [ | k].
  - cbn [firstn list_sum fold_right nth]. destruct t; cbn; lia.
  - change (firstn (S (S k)) (s :: t)) with (s :: firstn (S k) t). change (firstn (S k) (s :: t)) with (s :: firstn k t). cbn [list_sum fold_right nth].
    fold (list_sum (firstn (S k) t)). fold (list_sum (firstn k t)). rewrite IH by lia. lia.
Qed.
Lemma off_mono sizes j k : (j <= k)%nat -> (k <= length sizes)%nat -> (off sizes j <= off sizes k)%nat.
Proof. intros L. induction L as [ | k L IH]; intros K; [ lia | ]. rewrite off_S by lia. specialize (IH ltac:(lia)). lia. Qed.
Lemma off_all sizes : off sizes (length sizes) = list_sum sizes.
Proof. unfold off. rewrite firstn_all. reflexivity. Qed.
Lemma off_inj sizes r c a b : (r < length sizes)%nat -> (c < length sizes)%nat -> (a < size sizes r)%nat -> (b < size sizes c)%nat ->
  (off sizes r + a = off sizes c + b)%nat -> r = c.
Proof.
  intros R C A B E. destruct (Nat.lt_trichotomy r c) as [L | [L | L]]; [ exfalso | exact L | exfalso ].
  - pose proof (off_mono sizes (S r) c L ltac:(lia)) as O. rewrite off_S in O by exact R. lia.
  - pose proof (off_mono sizes (S c) r L ltac:(lia)) as O. rewrite off_S in O by exact C. lia.
Qed.
Lemma off_bound sizes r a : (r < length sizes)%nat -> (a < size sizes r)%nat -> (off sizes r + a < list_sum sizes)%nat.
Proof. intros L A. pose proof (off_mono sizes (S r) (length sizes) L ltac:(lia)) as O. rewrite off_all, off_S in O by exact L. lia. Qed.
Lemma off_split sizes i : (i < list_sum sizes)%nat -> exists r a, (r < length sizes)%nat /\ (a < size sizes r)%nat /\ i = (off sizes r + a)%nat.
Proof.
  revert i. induction sizes as [ | s t IH]; intros i L; cbn [list_sum fold_right] in L; [ lia | ]. fold (list_sum t) in L. destruct (Nat.lt_ge_cases i s) as [I | I].
  - exists 0%nat, i. cbn [length]. split; [ lia | ]. split; [ exact I | reflexivity ].
  - destruct (IH (i - s)%nat ltac:(lia)) as (r & a & R & A & E). exists (S r), a. cbn [length]. split; [ lia | ]. split; [ exact A | ].
    unfold off in *. cbn [firstn list_sum fold_right]. fold (list_sum (firstn r t)). lia.
Qed.
Lemma block_of_val sizes r a : (r < length sizes)%nat -> (a < size sizes r)%nat -> block_of sizes (off sizes r + a) = r.
Proof.
  revert r. induction sizes as [ | s t IH]; intros r R A; cbn [length] in R; [ lia | ]. destruct r as [ | r]; cbn [block_of].
  - unfold off, size in *. cbn [firstn list_sum fold_right nth] in *. cbn [list_sum fold_right]. destruct (Nat.ltb_spec (0 + a) s); [ reflexivity | lia ].
  - assert (E : off (s :: t) (S r) = (s + off t r)%nat) by reflexivity. rewrite E. destruct (Nat.ltb_spec (s + off t r + a) s); [ lia | ]. f_equal.
    replace (s + off t r + a - s)%nat with (off t r + a)%nat by lia. apply IH; [ lia | exact A ].
Qed.
Lemma bsum_layout sizes f : bsum (list_sum sizes) f = bsum (length sizes) (fun k => bsum (size sizes k) (fun a => f (off sizes k + a)%nat)).
Proof.
  revert f. induction sizes as [ | s t IH]; intros f; [ reflexivity | ]. change (list_sum (s :: t)) with (s + list_sum t)%nat. cbn [length].
  rewrite bsum_app, bsum_first, IH. f_equal. apply bsum_ext. intros k _. unfold size. cbn [nth]. apply bsum_ext. intros a _. f_equal.
  change (off (s :: t) (S k)) with (s + off t k)%nat. lia.
Qed.

(** ** Diagonal blocks *)
Definition ends_of (o : nat) (sizes : list nat) : list nat := map (fun k => (o + off sizes (S k))%nat) (seq 0 (length sizes)).
Lemma ends_cons o s t : ends_of o (s :: t) = (o + s)%nat :: ends_of (o + s) t.
Proof.
  unfold ends_of. cbn [length seq map]. f_equal; [ unfold off; cbn; destruct t; cbn; lia | ]. rewrite <- seq_shift, map_map. apply map_ext. intros k.
  change (off (s :: t) (S (S k))) with (s + off t (S k))%nat. lia.
Qed.
Lemma mult_diag_val : forall sizes Bs o src dest, length Bs = length sizes ->
  (forall k, (k < length sizes)%nat -> b_rows (nth k Bs (Block 0 0 (fun _ _ => 0))) = size sizes k /\ b_cols (nth k Bs (Block 0 0 (fun _ _ => 0))) = size sizes k) ->
  (forall i, (i < o)%nat -> mult_diag (ends_of o sizes) Bs o src dest i = dest i) /\
  forall k a, (k < length sizes)%nat -> (a < size sizes k)%nat ->
    mult_diag (ends_of o sizes) Bs o src dest (o + (off sizes k + a))%nat =
    bsum (size sizes k) (fun c => b_at (nth k Bs (Block 0 0 (fun _ _ => 0))) a c * src (o + (off sizes k + c))%nat).
Proof.
  induction sizes as [ | s t IH]; intros Bs o src dest LB D.
  - destruct Bs; [ | discriminate ]. split; [ reflexivity | ]. cbn [length]. intros k a K. lia.
  - destruct Bs as [ | B Bs]; [ discriminate | ]. cbn [length] in LB. rewrite ends_cons. cbn [mult_diag tl hd].
    destruct (D 0%nat ltac:(cbn [length]; lia)) as [DR DC]. cbn [nth] in DR, DC. unfold size in DR, DC. cbn [nth] in DR, DC.
    destruct (IH Bs (o + s)%nat src (axy B src o dest o)) as [LO HI].
    { lia. }
    { intros k K. apply (D (S k)). cbn [length]. lia. }
    split.
    + intros i I. rewrite LO by lia. unfold axy, set_segment. destruct (Nat.leb_spec o i); [ lia | reflexivity ].
    + intros k a K A. destruct k as [ | k].
      * change (off (s :: t) 0) with 0%nat. unfold size in A |- *. cbn [nth] in A |- *. rewrite LO by lia. unfold axy, set_segment. rewrite DR.
        destruct (Nat.leb_spec o (o + (0 + a))); [ | lia ]. destruct (Nat.ltb_spec (o + (0 + a)) (o + s)); [ | lia ]. cbn [andb]. rewrite DC.
        apply bsum_ext. intros c _. f_equal; f_equal; lia.
      * change (off (s :: t) (S k)) with (s + off t k)%nat. cbn [length] in K. unfold size in A |- *. cbn [nth] in A |- *.
        replace (o + (s + off t k + a))%nat with (o + s + (off t k + a))%nat by lia. rewrite (HI k a ltac:(lia) A). unfold size.
        apply bsum_ext. intros c _. f_equal; f_equal; lia.
Qed.

(** ** The upper blocks *)
Definition lsum {X} (f : X -> R) (l : list X) : R := fold_right (fun e s => f e + s) 0 l.
Lemma lsum_app {X} (f : X -> R) l l' : lsum f (l ++ l') = lsum f l + lsum f l'.
Proof. unfold lsum. induction l as [ | x l IH]; cbn [app fold_right]; [ ring | rewrite IH; ring ]. Qed.
Definition contrib (mem : memory) (src : vec) (i : nat) (e : (nat * nat) * nat) : R :=
  let B := mem (snd e) in let ro := fst (fst e) in let co := snd (fst e) in
  (if (Nat.leb ro i && Nat.ltb i (ro + b_rows B))%bool then bsum (b_cols B) (fun c => b_at B (i - ro)%nat c * src (co + c)%nat) else 0) +
  (if (Nat.leb co i && Nat.ltb i (co + b_cols B))%bool then bsum (b_rows B) (fun c => b_at B c (i - co)%nat * src (ro + c)%nat) else 0).
Lemma upper_val mem src i : forall upper y,
  fold_left (fun y e => let B := mem (snd e) in atxpy B src (fst (fst e)) (axpy B src (snd (fst e)) y (fst (fst e))) (snd (fst e))) upper y i = y i + lsum (contrib mem src i) upper.
Proof.
  induction upper as [ | e upper IH]; intros y; cbn [fold_left lsum fold_right]; [ ring | ]. rewrite IH. cbv zeta. fold (lsum (contrib mem src i) upper).
  transitivity (y i + contrib mem src i e + lsum (contrib mem src i) upper); [ | ring ]. f_equal. unfold contrib, atxpy, axpy, add_segment. cbv zeta.
  destruct (Nat.leb (fst (fst e)) i && Nat.ltb i (fst (fst e) + b_rows (mem (snd e))))%bool, (Nat.leb (snd (fst e)) i && Nat.ltb i (snd (fst e) + b_cols (mem (snd e))))%bool; ring.
Qed.
Lemma lookup_above r0 col r : StronglySorted lt (r0 :: map fst col) -> (r <= r0)%nat -> lookup r col = None.
Proof.
  intros S L. inversion S as [ | ? ? _ F ]; subst. clear S. induction col as [ | [k p] col IH]; [ reflexivity | ]. cbn [map fst] in F. inversion F as [ | ? ? G F' ]; subst. cbn [lookup].
  destruct (Nat.eqb_spec k r); [ lia | ]. apply IH. exact F'.
Qed.
Lemma scan_column_val i ends ci col : StronglySorted lt (map fst col) -> lookup i col <> None ->
  exists p, lookup i col = Some p /\ fst (scan_column i ends ci col) = [p] /\
    forall f, lsum f (snd (scan_column i ends ci col)) =
      bsum i (fun r => match lookup r col with Some q => f ((if Nat.ltb 0 r then nth (r - 1) ends 0%nat else 0%nat, ci), q) | None => 0 end).
Proof.
  intros S L. induction col as [ | [r p] col IH]; [ contradiction L; reflexivity | ]. cbn [map fst] in S. cbn [scan_column lookup] in *. destruct (Nat.eqb_spec r i) as [-> | N].
  - exists p. split; [ reflexivity | ]. split; [ reflexivity | ]. intros f. cbn [snd lsum fold_right]. symmetry. apply bsum_zero. intros k K.
    destruct (Nat.eqb_spec i k); [ lia | ]. rewrite (lookup_above i col k S) by lia. reflexivity.
  - assert (S' : StronglySorted lt (map fst col)) by (inversion S; assumption). destruct (IH S' L) as (q & Q1 & Q2 & Q3). exists q. split; [ exact Q1 | ]. split; [ exact Q2 | ].
    intros f. cbn [snd lsum fold_right]. fold (lsum f (snd (scan_column i ends ci col))). rewrite Q3.
    assert (LT : (r < i)%nat). { destruct (Nat.lt_ge_cases r i) as [LT | GE]; [ exact LT | ]. rewrite (lookup_above r col i S GE) in Q1. discriminate. }
    rewrite (bsum_ext i (fun k => match (if Nat.eqb r k then Some p else lookup k col) with Some q => f ((if Nat.ltb 0 k then nth (k - 1) ends 0%nat else 0%nat, ci), q) | None => 0 end)
      (fun k => (if Nat.eqb k r then f ((if Nat.ltb 0 k then nth (k - 1) ends 0%nat else 0%nat, ci), p) else 0) +
                match lookup k col with Some q => f ((if Nat.ltb 0 k then nth (k - 1) ends 0%nat else 0%nat, ci), q) | None => 0 end)).
    + rewrite bsum_plus. f_equal. rewrite (bsum_single i r); [ rewrite Nat.eqb_refl; reflexivity | exact LT | ]. intros k K NK. destruct (Nat.eqb_spec k r); [ contradiction | reflexivity ].
    + intros k K. rewrite (Nat.eqb_sym k r). destruct (Nat.eqb_spec r k) as [<- | NK]; [ | ring ]. rewrite (lookup_above r col r S) by lia. ring.
Qed.
Lemma scan_columns_val sizes cols0 : let ends := map (fun k => off sizes (S k)) (seq 0 (length sizes)) in
  (forall c, (c < length sizes)%nat -> StronglySorted lt (map fst (nth c cols0 [])) /\ lookup c (nth c cols0 []) <> None) -> length cols0 = length sizes ->
  forall cols pre, cols0 = pre ++ cols -> let i := length pre in
  let s := scan_columns i ends ends (off sizes i) cols in
  length (fst s) = length cols /\
  (forall k, (k < length cols)%nat -> lookup (i + k)%nat (nth (i + k)%nat cols0 []) = Some (nth k (fst s) 0%nat)) /\
  forall f, lsum f (snd s) = bsum (length cols) (fun k => bsum (i + k)%nat (fun r => match lookup r (nth (i + k)%nat cols0 []) with Some q => f ((off sizes r, off sizes (i + k)%nat), q) | None => 0 end)).
Proof.
  intros ends W LEN. assert (EN : forall k, (k < length sizes)%nat -> nth k ends 0%nat = off sizes (S k)).
  { intros k K. unfold ends. rewrite (nth_indep _ 0%nat (off sizes (S 0))) by (rewrite map_length, seq_length; exact K).
    rewrite (map_nth (fun k => off sizes (S k))), seq_nth by exact K. reflexivity. }
  induction cols as [ | col cols IH]; intros pre E; cbv zeta.
  - cbn [scan_columns fst snd length]. split; [ reflexivity | ]. split; [ intros k K; lia | reflexivity ].
  - assert (LP : (length pre < length sizes)%nat) by (rewrite <- LEN, E, app_length; cbn [length]; lia).
    assert (NC : nth (length pre) cols0 [] = col) by (rewrite E, app_nth2, Nat.sub_diag by lia; reflexivity).
    destruct (W (length pre) LP) as [W1 W2]. rewrite NC in W1, W2.
    destruct (scan_column_val (length pre) ends (off sizes (length pre)) col W1 W2) as (p & P1 & P2 & P3).
    specialize (IH (pre ++ [col])). rewrite <- app_assoc in IH. specialize (IH E). cbv zeta in IH. rewrite app_length in IH. cbn [length] in IH. replace (length pre + 1)%nat with (S (length pre)) in IH by lia.
    destruct IH as (I1 & I2 & I3). cbn [scan_columns fst snd]. rewrite (EN _ LP). rewrite P2. split; [ | split ].
    + cbn [app length]. rewrite I1. reflexivity.
    + intros k K. destruct k as [ | k].
      * rewrite Nat.add_0_r, NC. exact P1.
      * cbn [app nth]. rewrite <- I2 by (cbn [length] in K; lia). f_equal; [ lia | f_equal; lia ].
    + intros f. rewrite lsum_app, P3, I3. cbn [length]. rewrite bsum_first. f_equal.
      * rewrite Nat.add_0_r, NC. apply bsum_ext. intros r R. destruct (lookup r col); [ | reflexivity ]. f_equal. f_equal. f_equal. destruct r as [ | r]; [ reflexivity | ].
        cbn [Nat.ltb Nat.leb]. replace (S r - 1)%nat with r by lia. apply EN. lia.
      * apply bsum_ext. intros k _. replace (length pre + S k)%nat with (S (length pre) + k)%nat by lia. reflexivity.
Qed.

Lemma bsum_skip' m p f : (p < m)%nat -> bsum m f = f p + bsum (m - 1) (fun k => f (skip p k)).
Proof. intros L. destruct m as [ | m]; [ lia | ]. rewrite (bsum_skip m p) by lia. replace (S m - 1)%nat with m by lia. reflexivity. Qed.

(** ** The product with the matrix *)
Section Matrix.
Variables (sizes : list nat) (mem : memory) (A : matrix) (M : nat -> nat -> R) (inv : block -> block).
Hypothesis W : well_formed sizes mem A.
Hypothesis SM : stored sizes mem A M.
Hypothesis PD : positive_definite (list_sum sizes) M.
Hypothesis IV : inverts sizes mem A inv.
Let n := list_sum sizes.
Let nc := length sizes.
Definition scanned := scan_columns 0 (row_ends A) (col_ends A) 0 (columns A).
Definition diag := map mem (fst scanned).
Definition no_block := Block 0 0 (fun _ _ => 0).

Lemma rows_n : last (row_ends A) 0%nat = n.
Proof.
  destruct W as (E & _). rewrite E. unfold n. rewrite <- (off_all sizes). destruct (length sizes) as [ | k] eqn:L.
  - cbn. unfold off. destruct sizes; [ reflexivity | discriminate ].
  - rewrite seq_S, map_app, Nat.add_0_l. cbn [map]. rewrite last_last. reflexivity.
Qed.
Lemma scan_facts : length (fst scanned) = nc /\ (forall k, (k < nc)%nat -> lookup k (column A k) = Some (nth k (fst scanned) 0%nat)) /\
  forall f, lsum f (snd scanned) = bsum nc (fun c => bsum c (fun r => match lookup r (column A c) with Some q => f ((off sizes r, off sizes c), q) | None => 0 end)).
Proof.
  destruct W as (E1 & E2 & E3 & E4). unfold scanned. rewrite E1, E2.
  destruct (scan_columns_val sizes (columns A)) with (cols := columns A) (pre := @nil (list (nat * nat))) as (I1 & I2 & I3).
  { intros c C. destruct (E4 c C) as (S & D & _). split; assumption. }
  { exact E3. }
  { reflexivity. }
  cbn [length Nat.add] in I1, I2, I3. change (off sizes 0) with 0%nat in I1, I2, I3. rewrite E3 in I1, I2, I3. fold nc in I1, I2, I3.
  split; [ exact I1 | ]. split; [ exact I2 | exact I3 ].
Qed.
Lemma diag_at k : (k < nc)%nat -> exists p, lookup k (column A k) = Some p /\ nth k diag no_block = mem p /\ nth k (map inv diag) no_block = inv (mem p) /\
  b_rows (mem p) = size sizes k /\ b_cols (mem p) = size sizes k.
Proof.
  intros K. destruct scan_facts as (L & D & _). exists (nth k (fst scanned) 0%nat). split; [ apply D; exact K | ].
  assert (E : nth k diag no_block = mem (nth k (fst scanned) 0%nat)).
  { unfold diag. rewrite (nth_indep _ no_block (mem 0%nat)) by (rewrite map_length, L; exact K). apply map_nth. }
  split; [ exact E | ]. split.
  - rewrite (nth_indep _ no_block (inv no_block)) by (unfold diag; rewrite !map_length, L; exact K). rewrite map_nth, E. reflexivity.
  - destruct W as (_ & _ & _ & E4). destruct (E4 k K) as (_ & _ & DM). apply DM; [ lia | apply D; exact K ].
Qed.
Lemma ends_are : col_ends A = ends_of 0 sizes.
Proof. destruct W as (_ & E & _). rewrite E. reflexivity. Qed.
Lemma diag_mult src dest k a : (k < nc)%nat -> (a < size sizes k)%nat ->
  mult_diag (col_ends A) diag 0 src dest (off sizes k + a)%nat = bsum (size sizes k) (fun c => M (off sizes k + a)%nat (off sizes k + c)%nat * src (off sizes k + c)%nat).
Proof.
  intros K AA. rewrite ends_are. destruct (mult_diag_val sizes diag 0 src dest) as [_ H].
  - unfold diag. rewrite map_length. apply scan_facts.
  - intros j Lj. destruct (diag_at j Lj) as (p & _ & E & _ & D). fold no_block. rewrite E. exact D.
  - specialize (H k a K AA). cbn [Nat.add] in H. rewrite H. apply bsum_ext. intros c C. f_equal. fold no_block. destruct (diag_at k K) as (p & P & E & _). rewrite E. destruct SM as [_ S].
    rewrite (S k k a c) by (first [ lia | assumption ]). rewrite P. reflexivity.
Qed.
Lemma mult_val src dest i : (i < n)%nat -> mult mem (col_ends A) diag (snd scanned) src dest i = apply n M src i.
Proof.
  intros I. destruct (off_split sizes i I) as (ri & ai & RI & AI & ->). unfold mult. rewrite upper_val, (diag_mult src dest ri ai RI AI), apply_val.
  destruct scan_facts as (_ & _ & SF). rewrite SF. unfold n. rewrite bsum_layout. fold nc in RI |- *.
  set (D := bsum (size sizes ri) (fun c => M (off sizes ri + ai)%nat (off sizes ri + c)%nat * src (off sizes ri + c)%nat)).
  set (T := fun c => bsum (size sizes c) (fun a => M (off sizes ri + ai)%nat (off sizes c + a)%nat * src (off sizes c + a)%nat)).
  change (D + bsum nc (fun c => bsum c (fun r => match lookup r (column A c) with Some q => contrib mem src (off sizes ri + ai) ((off sizes r, off sizes c), q) | None => 0 end)) = bsum nc T).
  destruct W as (_ & _ & _ & E4). destruct SM as [SY SS].
  (* what one block adds *)
  assert (C1 : forall r c, (r < c)%nat -> (c < nc)%nat ->
    match lookup r (column A c) with Some q => contrib mem src (off sizes ri + ai) ((off sizes r, off sizes c), q) | None => 0 end =
    (if Nat.eqb r ri then T c else 0) + (if Nat.eqb c ri then T r else 0)).
  { intros r c RC C. destruct (lookup r (column A c)) as [q | ] eqn:Q.
    - destruct (E4 c C) as (_ & _ & DM). destruct (DM r q ltac:(lia) Q) as [DR DC]. unfold contrib. cbn [fst snd]. cbv zeta. rewrite DR, DC. f_equal.
      + destruct (Nat.eqb_spec r ri) as [-> | N].
        * destruct (Nat.leb_spec (off sizes ri) (off sizes ri + ai)); [ | lia ]. destruct (Nat.ltb_spec (off sizes ri + ai) (off sizes ri + size sizes ri)); [ | lia ]. cbn [andb].
          unfold T. apply bsum_ext. intros a LA. f_equal. rewrite (SS ri c ai a) by (first [ lia | assumption ]). rewrite Q. f_equal. lia.
        * destruct (Nat.leb_spec (off sizes r) (off sizes ri + ai)); [ | reflexivity ]. destruct (Nat.ltb_spec (off sizes ri + ai) (off sizes r + size sizes r)); [ | reflexivity ]. exfalso. apply N.
          apply (off_inj sizes r ri (off sizes ri + ai - off sizes r)%nat ai); try assumption; lia.
      + destruct (Nat.eqb_spec c ri) as [-> | N].
        * destruct (Nat.leb_spec (off sizes ri) (off sizes ri + ai)); [ | lia ]. destruct (Nat.ltb_spec (off sizes ri + ai) (off sizes ri + size sizes ri)); [ | lia ]. cbn [andb].
          unfold T. apply bsum_ext. intros a LA. f_equal. rewrite SY by (apply off_bound; [ lia | assumption ]). rewrite (SS r ri a ai) by (first [ lia | assumption ]). rewrite Q. f_equal. lia.
        * destruct (Nat.leb_spec (off sizes c) (off sizes ri + ai)); [ | reflexivity ]. destruct (Nat.ltb_spec (off sizes ri + ai) (off sizes c + size sizes c)); [ | reflexivity ]. exfalso. apply N.
          apply (off_inj sizes c ri (off sizes ri + ai - off sizes c)%nat ai); try assumption; lia.
    - assert (Z1 : r = ri -> T c = 0).
      { intros ->. unfold T. apply bsum_zero. intros a LA. rewrite (SS ri c ai a) by (first [ lia | assumption ]). rewrite Q. ring. }
      assert (Z2 : c = ri -> T r = 0).
      { intros ->. unfold T. apply bsum_zero. intros a LA. rewrite SY by (apply off_bound; [ lia | assumption ]). rewrite (SS r ri a ai) by (first [ lia | assumption ]). rewrite Q. ring. }
      destruct (Nat.eqb_spec r ri) as [Er | _]; [ rewrite (Z1 Er) | ]; (destruct (Nat.eqb_spec c ri) as [Ec | _]; [ rewrite (Z2 Ec) | ]); ring. }
  assert (C2 : forall c, (c < nc)%nat -> bsum c (fun r => match lookup r (column A c) with Some q => contrib mem src (off sizes ri + ai) ((off sizes r, off sizes c), q) | None => 0 end) =
    (if Nat.ltb ri c then T c else 0) + (if Nat.eqb c ri then bsum ri T else 0)).
  { intros c C. rewrite (bsum_ext c _ (fun r => (if Nat.eqb r ri then T c else 0) + (if Nat.eqb c ri then T r else 0))) by (intros r R; apply C1; assumption).
    rewrite bsum_plus. f_equal.
    - destruct (Nat.ltb_spec ri c) as [L | L].
      + rewrite (bsum_single c ri); [ rewrite Nat.eqb_refl; reflexivity | exact L | ]. intros r R N. destruct (Nat.eqb_spec r ri); [ contradiction | reflexivity ].
      + apply bsum_zero. intros r R. destruct (Nat.eqb_spec r ri); [ lia | reflexivity ].
    - destruct (Nat.eqb_spec c ri) as [-> | N]; [ reflexivity | ]. apply bsum_zero. reflexivity. }
  rewrite (bsum_ext nc _ _ C2), bsum_plus. rewrite (bsum_single nc ri (fun c => if Nat.eqb c ri then bsum ri T else 0)); [ rewrite Nat.eqb_refl | exact RI | intros r R N; destruct (Nat.eqb_spec r ri); [ contradiction | reflexivity ] ].
  replace nc with (ri + S (nc - S ri))%nat by lia. rewrite !bsum_app, !bsum_first.
  rewrite (bsum_zero ri (fun c => if Nat.ltb ri c then T c else 0)) by (intros c C; destruct (Nat.ltb_spec ri c); [ lia | reflexivity ]).
  rewrite Nat.add_0_r. destruct (Nat.ltb_spec ri ri); [ lia | ].
  rewrite (bsum_ext (nc - S ri) (fun i => if Nat.ltb ri (ri + S i) then T (ri + S i)%nat else 0) (fun i => T (ri + S i)%nat)) by (intros c C; destruct (Nat.ltb_spec ri (ri + S c)); [ reflexivity | lia ]).
  change D with (T ri). ring.
Qed.

(** ** The preconditioner *)
Definition Dm := diagonal_part sizes M.
Lemma dm_apply w k a : (k < nc)%nat -> (a < size sizes k)%nat ->
  apply n Dm w (off sizes k + a) = bsum (size sizes k) (fun c => M (off sizes k + a)%nat (off sizes k + c)%nat * w (off sizes k + c)%nat).
Proof.
  intros K AA. rewrite apply_val. unfold n. rewrite bsum_layout. fold nc. rewrite (bsum_single nc k); [ | exact K | ].
  - apply bsum_ext. intros c C. unfold Dm, diagonal_part. rewrite !block_of_val by assumption. rewrite Nat.eqb_refl. reflexivity.
  - intros j Lj N. apply bsum_zero. intros c C. unfold Dm, diagonal_part. rewrite !block_of_val by assumption. destruct (Nat.eqb_spec k j); [ congruence | ring ].
Qed.
Lemma pre_at src dest k a : (k < nc)%nat -> (a < size sizes k)%nat -> exists p, lookup k (column A k) = Some p /\
  mult_diag (col_ends A) (map inv diag) 0 src dest (off sizes k + a)%nat = bsum (size sizes k) (fun c => b_at (inv (mem p)) a c * src (off sizes k + c)%nat).
Proof.
  intros K AA. rewrite ends_are. destruct (mult_diag_val sizes (map inv diag) 0 src dest) as [_ H].
  - unfold diag. rewrite !map_length. apply scan_facts.
  - intros j Lj. destruct (diag_at j Lj) as (p & P & _ & E & _). fold no_block. rewrite E. destruct (IV j p Lj P) as (R & C & _). split; assumption.
  - specialize (H k a K AA). cbn [Nat.add] in H. fold no_block in H. destruct (diag_at k K) as (p & P & _ & E & _). rewrite E in H. exists p. split; [ exact P | exact H ].
Qed.
Lemma pre_solves src dest i : (i < n)%nat -> apply n Dm (mult_diag (col_ends A) (map inv diag) 0 src dest) i = src i.
Proof.
  intros I. destruct (off_split sizes i I) as (k & a & K & AA & ->). rewrite dm_apply by assumption.
  destruct (diag_at k K) as (p & P & _). destruct (IV k p K P) as (_ & _ & INV).
  rewrite (bsum_ext (size sizes k) _ (fun c => bsum (size sizes k) (fun e => b_at (mem p) a c * b_at (inv (mem p)) c e * src (off sizes k + e)%nat))).
  - rewrite bsum_swap. rewrite (bsum_single (size sizes k) a); [ | exact AA | ].
    + rewrite bsum_scal_r. rewrite <- total_bsum, INV by assumption. rewrite Nat.eqb_refl. ring.
    + intros e E N. rewrite bsum_scal_r. rewrite <- total_bsum, INV by assumption. destruct (Nat.eqb_spec a e); [ congruence | ring ].
  - intros c C. destruct (pre_at src dest k c K C) as (p' & P' & E). assert (p' = p) by congruence. subst p'. rewrite E. rewrite <- bsum_scal.
    destruct SM as [_ SS]. rewrite (SS k k a c) by (first [ lia | assumption ]). rewrite P. apply bsum_ext. intros e _. ring.
Qed.
Lemma pre_indep src src' dest dest' i : (i < n)%nat -> (forall j, (j < n)%nat -> src j = src' j) ->
  mult_diag (col_ends A) (map inv diag) 0 src dest i = mult_diag (col_ends A) (map inv diag) 0 src' dest' i.
Proof.
  intros I E. destruct (off_split sizes i I) as (k & a & K & AA & ->). destruct (pre_at src dest k a K AA) as (p & P & E1). destruct (pre_at src' dest' k a K AA) as (p' & P' & E2).
  assert (p' = p) by congruence. subst p'. rewrite E1, E2. apply bsum_ext. intros c C. rewrite E by (apply off_bound; assumption). reflexivity.
Qed.
Definition Mop (x : vec) : vec := apply n M x.
Definition Jop (x : vec) : vec := mult_diag (col_ends A) (map inv diag) 0 x (fun _ => 0).

Lemma apply_respects N : respects n (apply n N).
Proof. intros x y E i _. rewrite !apply_val. apply bsum_ext. intros j L. rewrite E by exact L. reflexivity. Qed.
Lemma apply_linear N : linear n (apply n N).
Proof. intros x a y i _. rewrite !apply_val, <- bsum_scal, <- bsum_plus. apply bsum_ext. intros. ring. Qed.
Lemma apply_symmetric N : (forall i j, (i < n)%nat -> (j < n)%nat -> N i j = N j i) -> symmetric n (apply n N).
Proof.
  intros S x y. unfold vdot. rewrite (bsum_ext n _ (fun i => bsum n (fun j => N i j * x j * y i))) by (intros i _; rewrite apply_val, <- bsum_scal_r; apply bsum_ext; intros; ring).
  rewrite bsum_swap. apply bsum_ext. intros j J. rewrite apply_val, <- bsum_scal. apply bsum_ext. intros i I. rewrite (S i j) by assumption. ring.
Qed.
Lemma M_positive : positive n Mop.
Proof. intros x X. rewrite <- inner_val. apply PD. exact X. Qed.
Lemma D_symmetric : symmetric n (apply n Dm).
Proof. apply apply_symmetric. intros i j I J. unfold Dm, diagonal_part. rewrite (Nat.eqb_sym (block_of sizes j)). destruct SM as [SY _]. rewrite (SY i j I J). reflexivity. Qed.
(** The part of a vector in one block. *)
Definition part (k : nat) (x : vec) : vec := fun i => if Nat.eqb (block_of sizes i) k then x i else 0.
Lemma D_parts x : vdot n x (apply n Dm x) = bsum nc (fun k => vdot n (part k x) (Mop (part k x))).
Proof.
  unfold vdot at 1, n. rewrite bsum_layout. fold nc. apply bsum_ext. intros k K. unfold vdot, n. rewrite bsum_layout. fold nc. rewrite (bsum_single nc k); [ | exact K | ].
  - apply bsum_ext. intros a AA. unfold part at 1. rewrite block_of_val by assumption. rewrite Nat.eqb_refl. f_equal. fold n. rewrite dm_apply by assumption. unfold Mop. rewrite apply_val.
    unfold n. rewrite bsum_layout. fold nc. rewrite (bsum_single nc k); [ | exact K | ].
    + apply bsum_ext. intros c C. unfold part. rewrite block_of_val by assumption. rewrite Nat.eqb_refl. reflexivity.
    + intros j Lj N. apply bsum_zero. intros c C. unfold part. rewrite block_of_val by assumption. destruct (Nat.eqb_spec j k); [ contradiction | ring ].
  - intros j Lj N. apply bsum_zero. intros c C. unfold part at 1. rewrite block_of_val by assumption. destruct (Nat.eqb_spec j k); [ contradiction | ring ].
Qed.
Lemma zero_or x : (exists i, (i < n)%nat /\ x i <> 0) \/ (forall i, (i < n)%nat -> x i = 0).
Proof.
  generalize n as N. induction N as [ | N IH]; [ right; intros i I; lia | ]. destruct IH as [(i & I & X) | Z]; [ left; exists i; split; [ lia | exact X ] | ].
  destruct (Req_dec (x N) 0) as [E | E]; [ | left; exists N; split; [ lia | exact E ] ]. right. intros i I. destruct (Nat.eq_dec i N) as [-> | NE]; [ exact E | apply Z; lia ].
Qed.
Lemma D_positive : positive n (apply n Dm).
Proof.
  intros x (i & I & X). rewrite D_parts.
  assert (NN : forall k, 0 <= vdot n (part k x) (Mop (part k x))).
  { intros k. destruct (zero_or (part k x)) as [E | Z]; [ left; apply M_positive; exact E | ]. right. symmetry. apply bsum_zero. intros j Lj. rewrite Z by exact Lj. ring. }
  destruct (off_split sizes i I) as (k & a & K & AA & E). fold nc in K.
  assert (P : 0 < vdot n (part k x) (Mop (part k x))).
  { apply M_positive. exists i. split; [ exact I | ]. unfold part. rewrite E, block_of_val by assumption. rewrite Nat.eqb_refl. rewrite <- E. exact X. }
  rewrite (bsum_skip' nc k) by exact K. assert (Q : 0 <= bsum (nc - 1) (fun j => vdot n (part (skip k j) x) (Mop (part (skip k j) x)))) by (apply bsum_nonneg; intros; apply NN).
  lra.
Qed.
Lemma J_solves x i : (i < n)%nat -> apply n Dm (Jop x) i = x i.
Proof. intros I. apply pre_solves. exact I. Qed.
Lemma J_respects : respects n Jop.
Proof. intros x y E i I. apply pre_indep; assumption. Qed.
Lemma J_linear : linear n Jop.
Proof.
  intros x s y i I. destruct (off_split sizes i I) as (k & a & K & AA & ->). unfold Jop.
  destruct (pre_at x (fun _ => 0) k a K AA) as (p & P & E1). destruct (pre_at y (fun _ => 0) k a K AA) as (p' & P' & E2). destruct (pre_at (fun j => x j + s * y j) (fun _ => 0) k a K AA) as (p'' & P'' & E3).
  assert (p' = p) by congruence. assert (p'' = p) by congruence. subst p' p''. rewrite E1, E2, E3, <- bsum_scal, <- bsum_plus. apply bsum_ext. intros. ring.
Qed.
Lemma J_symmetric : symmetric n Jop.
Proof.
  intros x y. transitivity (vdot n (Jop x) (apply n Dm (Jop y))).
  - apply vdot_ext; [ reflexivity | intros i I; symmetry; apply J_solves; exact I ].
  - rewrite <- (D_symmetric (Jop x)). apply vdot_ext; [ intros i I; apply J_solves; exact I | reflexivity ].
Qed.
Lemma J_positive : positive n Jop.
Proof.
  intros x (i & I & X). rewrite (vdot_ext n x (Jop x) (apply n Dm (Jop x)) (Jop x)) by (intros j L; first [ reflexivity | symmetry; apply J_solves; exact L ]).
  rewrite vdot_sym. apply D_positive. destruct (zero_or (Jop x)) as [E | Z]; [ exact E | ]. exfalso. apply X. rewrite <- (J_solves x i I). rewrite apply_val. apply bsum_zero. intros j L. rewrite Z by exact L. ring.
Qed.
Lemma M_symmetric : symmetric n Mop.
Proof. apply apply_symmetric. apply SM. Qed.

(** ** The loop *)
Definition mul := mult mem (col_ends A) diag (snd scanned).
Definition pre := mult_diag (col_ends A) (map inv diag) 0.
Variable b : vec.
Definition start := State (fun _ => 0) b (pre b (fun _ => 0)) (fun _ => 0) (fun _ => 0) (vdot n b (pre b (fun _ => 0))).
Fixpoint nth_state (k : nat) : state := match k with 0%nat => start | S k' => step n mul pre (nth_state k') end.
Lemma iterate_stops d0 : forall k j, exists m, (m <= k)%nat /\ iterate k n mul pre d0 (nth_state j) = nth_state (j + m) /\
  (forall i, (i < m)%nat -> d0 < sdn (nth_state (j + i))) /\ (m = k \/ sdn (nth_state (j + m)) <= d0).
Proof.
  induction k as [ | k IH]; intros j.
  - exists 0%nat. rewrite Nat.add_0_r. split; [ lia | ]. split; [ reflexivity | ]. split; [ intros i I; lia | left; reflexivity ].
  - cbn [iterate]. destruct (Rle_dec (sdn (nth_state j)) d0) as [L | L].
    + exists 0%nat. rewrite Nat.add_0_r. split; [ lia | ]. split; [ reflexivity | ]. split; [ intros i I; lia | right; exact L ].
    + destruct (IH (S j)) as (m & M1 & M2 & M3 & M4). exists (S m). change (step n mul pre (nth_state j)) with (nth_state (S j)). replace (j + S m)%nat with (S j + m)%nat by lia.
      split; [ lia | ]. split; [ exact M2 | ]. split; [ | destruct M4 as [-> | M4]; [ left; reflexivity | right; exact M4 ] ].
      intros i I. destruct i as [ | i]; [ rewrite Nat.add_0_r; lra | ]. replace (j + S i)%nat with (S j + i)%nat by lia. apply M3. lia.
Qed.
Lemma sdn_is k : sdn (nth_state k) = dnk n Jop (fun k => sr (nth_state k)) k.
Proof.
  unfold dnk. destruct k as [ | k].
  - reflexivity.
  - cbn [nth_state]. unfold step. cbv zeta. cbn [sdn sr]. apply vdot_ext; [ reflexivity | ]. intros i I. apply pre_indep; [ exact I | reflexivity ].
Qed.
Lemma step_a k : sdn (nth_state k) / vdot n (sd (nth_state k)) (mul (sd (nth_state k)) (sq (nth_state k))) = ak n Mop Jop (fun k => sr (nth_state k)) (fun k => sd (nth_state k)) k.
Proof. unfold ak. rewrite sdn_is. f_equal. apply vdot_ext; [ reflexivity | ]. intros i I. apply mult_val. exact I. Qed.
Lemma x_step k i : sx (nth_state (S k)) i = sx (nth_state k) i + ak n Mop Jop (fun k => sr (nth_state k)) (fun k => sd (nth_state k)) k * sd (nth_state k) i.
Proof. rewrite <- step_a. reflexivity. Qed.
Lemma r_step k i : (i < n)%nat -> sr (nth_state (S k)) i = sr (nth_state k) i - ak n Mop Jop (fun k => sr (nth_state k)) (fun k => sd (nth_state k)) k * Mop (sd (nth_state k)) i.
Proof. intros I. rewrite <- step_a. unfold Mop. rewrite <- (mult_val (sd (nth_state k)) (sq (nth_state k)) i I). reflexivity. Qed.
Lemma d_step k i : (i < n)%nat -> sd (nth_state (S k)) i = Jop (sr (nth_state (S k))) i +
  dnk n Jop (fun k => sr (nth_state k)) (S k) / dnk n Jop (fun k => sr (nth_state k)) k * sd (nth_state k) i.
Proof.
  intros I. rewrite <- !sdn_is. unfold Jop. rewrite (pre_indep (sr (nth_state (S k))) (sr (nth_state (S k))) (fun _ => 0) (ss (nth_state k)) i I (fun _ _ => eq_refl)). reflexivity.
Qed.
Lemma residual_at m : (forall k, (k < m)%nat -> 0 < sdn (nth_state k)) -> forall i, (i < n)%nat -> sr (nth_state m) i = b i - Mop (sx (nth_state m)) i.
Proof.
  intros G. apply (residual_is n Mop Jop (apply_respects M) (apply_linear M) m (fun k => sx (nth_state k)) (fun k => sr (nth_state k)) (fun k => sd (nth_state k)) b).
  - reflexivity.
  - reflexivity.
  - intros k i _ _. apply x_step.
  - intros k i _ I. apply r_step. exact I.
  - lia.
Qed.
Lemma finite_at : (forall k, (k < n)%nat -> 0 < sdn (nth_state k)) -> sdn (nth_state n) <= 0.
Proof.
  intros G. rewrite sdn_is. apply (finite n Mop Jop M_symmetric M_positive J_symmetric n (fun k => sr (nth_state k)) (fun k => sd (nth_state k))).
  - intros k K. rewrite <- sdn_is. apply G. exact K.
  - reflexivity.
  - intros k i _ I. apply r_step. exact I.
  - intros k i _ I. apply d_step. exact I.
  - reflexivity.
Qed.
Lemma descent_at m : (forall k, (k < m)%nat -> 0 < sdn (nth_state k)) -> forall k, (k < m)%nat ->
  PcgCg.energy n Mop b (sx (nth_state (S k))) < PcgCg.energy n Mop b (sx (nth_state k)).
Proof.
  intros G. apply (descent n Mop Jop (apply_respects M) (apply_linear M) M_symmetric M_positive J_symmetric m (fun k => sx (nth_state k)) (fun k => sr (nth_state k)) (fun k => sd (nth_state k)) b).
  - intros k K. rewrite <- sdn_is. apply G. exact K.
  - reflexivity.
  - reflexivity.
  - reflexivity.
  - intros k i _ _. apply x_step.
  - intros k i _ I. apply r_step. exact I.
  - intros k i _ I. apply d_step. exact I.
Qed.
Lemma size_of r : residual_size sizes M r (vdot n r (Jop r)) /\ 0 <= vdot n r (Jop r).
Proof.
  split.
  - exists (Jop r). split; [ intros i I; apply J_solves; exact I | ]. symmetry. apply inner_val.
  - destruct (zero_or r) as [E | Z]; [ left; apply J_positive; exact E | ]. right. symmetry. apply bsum_zero. intros j L. rewrite Z by exact L. ring.
Qed.
Lemma size_ext r r' : (forall i, (i < n)%nat -> r i = r' i) -> vdot n r (Jop r) = vdot n r' (Jop r').
Proof. intros E. apply vdot_ext; [ exact E | ]. intros i I. apply J_respects; assumption. Qed.
Lemma size_zero r : vdot n r (Jop r) <= 0 -> forall i, (i < n)%nat -> r i = 0.
Proof. intros L. destruct (zero_or r) as [E | Z]; [ | exact Z ]. pose proof (J_positive r E). lra. Qed.

(** The result of the solver when it uses the blocks of this matrix. *)
Definition threshold (s : solver) : R :=
  let d1 := tolerance s * vdot n b (Jop b) in
  if absolute s then if Rlt_dec 0 (residual s) then if Rlt_dec d1 (residual s) then residual s else d1 else d1 else d1.
Definition uses (s : solver) : Prop := indices s = [] /\ sparse_mat s = [] \/ indices s = map fst (snd scanned) /\ sparse_mat s = map snd (snd scanned).
Lemma combine_maps {X Y} (l : list (X * Y)) : combine (map fst l) (map snd l) = l.
Proof. induction l as [ | [x y] l IH]; [ reflexivity | ]. cbn [map combine fst snd]. rewrite IH. reflexivity. Qed.
Lemma solve_val s : uses s -> 0 <= threshold s -> let k := if Z.ltb (max_iter s) 0 then n else Z.to_nat (max_iter s) in
  exists m, (m <= k)%nat /\ solve inv mem s A b = (Solver (tolerance s) (1 / 2 * sdn (nth_state m)) (absolute s) (max_iter s) (map fst (snd scanned)) (map snd (snd scanned)), (true, sx (nth_state m))) /\
    (forall j, (j < m)%nat -> threshold s < sdn (nth_state j)) /\ (m = k \/ sdn (nth_state m) <= threshold s).
Proof.
  intros U T. cbv zeta. set (k := if Z.ltb (max_iter s) 0 then n else Z.to_nat (max_iter s)). destruct (iterate_stops (threshold s) k 0%nat) as (m & M1 & M2 & M3 & M4). exists m. split; [ exact M1 | ].
  cbn [Nat.add] in *. split; [ | split; [ exact M3 | exact M4 ] ].
  unfold solve. fold scanned. fold diag. fold (pre). rewrite rows_n. fold k.
  assert (E1 : (if match indices s with [] => true | _ => false end then indices s ++ map fst (snd scanned) else indices s) = map fst (snd scanned)).
  { destruct U as [[E _] | [E _]]; rewrite E; [ reflexivity | ]. destruct (map fst (snd scanned)); reflexivity. }
  assert (E2 : (if match indices s with [] => true | _ => false end then sparse_mat s ++ map snd (snd scanned) else sparse_mat s) = map snd (snd scanned)).
  { destruct U as [[E F] | [E F]]; rewrite E, F; [ reflexivity | ]. destruct (snd scanned); reflexivity. }
  rewrite E1, E2. cbv zeta. rewrite combine_maps. fold mul.
  assert (E3 : iterate k n mul pre (threshold s) start = nth_state m) by exact M2.
  unfold threshold, Jop in E3. fold pre in E3. unfold start in E3. cbv zeta in E3. rewrite E3. reflexivity.
Qed.
Lemma threshold_plain s : (absolute s = false \/ residual s <= 0) -> threshold s = tolerance s * vdot n b (Jop b).
Proof. intros P. unfold threshold. destruct (absolute s); [ | reflexivity ]. destruct (Rlt_dec 0 (residual s)) as [L | L]; [ | reflexivity ]. destruct P as [P | P]; [ discriminate | lra ]. Qed.
Lemma solve_converges s : uses s -> 0 <= tolerance s -> (max_iter s < 0)%Z -> (absolute s = false \/ residual s <= 0) ->
  exists m, fst (snd (solve inv mem s A b)) = true /\ snd (snd (solve inv mem s A b)) = sx (nth_state m) /\
    let r := fun i => b i - apply n M (snd (snd (solve inv mem s A b))) i in
    vdot n r (Jop r) <= tolerance s * vdot n b (Jop b).
Proof.
  intros U T K P. destruct (size_of b) as [_ B0]. assert (TP : 0 <= tolerance s * vdot n b (Jop b)) by (apply Rmult_le_pos; assumption).
  rewrite <- (threshold_plain s P) in TP. destruct (solve_val s U TP) as (m & M1 & M2 & M3 & M4). exists m. rewrite M2. cbn [fst snd]. split; [ reflexivity | ]. split; [ reflexivity | ]. cbv zeta.
  assert (G : forall k, (k < m)%nat -> 0 < sdn (nth_state k)) by (intros k L; specialize (M3 k L); lra).
  rewrite (size_ext _ (sr (nth_state m))) by (intros i I; symmetry; apply (residual_at m G i I)).
  change (vdot n (sr (nth_state m)) (Jop (sr (nth_state m)))) with (dnk n Jop (fun k => sr (nth_state k)) m). rewrite <- sdn_is. rewrite <- (threshold_plain s P).
  destruct M4 as [E | L]; [ | exact L ]. destruct (Z.ltb_spec (max_iter s) 0); [ | lia ]. rewrite E in G |- *. pose proof (finite_at G). lra.
Qed.
Lemma solve_descends s s' : uses s -> uses s' -> 0 <= tolerance s -> tolerance s' = tolerance s -> (absolute s = false \/ residual s <= 0) -> (absolute s' = false \/ residual s' <= 0) ->
  (0 <= max_iter s <= max_iter s')%Z ->
  PcgSpec.energy n M b (snd (snd (solve inv mem s' A b))) <= PcgSpec.energy n M b (snd (snd (solve inv mem s A b))) <= 0.
Proof.
  intros U U' T T' P P' K. destruct (size_of b) as [_ B0]. assert (TP : 0 <= tolerance s * vdot n b (Jop b)) by (apply Rmult_le_pos; assumption).
  assert (TS : threshold s' = threshold s) by  (rewrite (threshold_plain s P), (threshold_plain s' P'), T'; reflexivity). rewrite <- (threshold_plain s P) in TP.
  destruct (solve_val s U TP) as (m & M1 & M2 & M3 & M4). destruct (solve_val s' U' ltac:(rewrite TS; exact TP)) as (m' & N1 & N2 & N3 & N4). rewrite M2, N2. cbn [fst snd].
  destruct (Z.ltb_spec (max_iter s) 0); [ lia | ]. destruct (Z.ltb_spec (max_iter s') 0); [ lia | ]. rewrite TS in N3, N4.
  assert (G : forall k, (k < m)%nat -> 0 < sdn (nth_state k)) by (intros k L; specialize (M3 k L); lra).
  assert (G' : forall k, (k < m')%nat -> 0 < sdn (nth_state k)) by (intros k L; specialize (N3 k L); lra).
  assert (LE : (m <= m')%nat). { destruct N4 as [E | L]; [ lia | ]. destruct (Nat.le_gt_cases m m') as [X | X]; [ exact X | ]. specialize (M3 m' X). lra. }
  assert (EE : forall x, PcgSpec.energy n M b x = PcgCg.energy n Mop b x) by (intros x; unfold PcgSpec.energy, PcgCg.energy; rewrite !inner_val; reflexivity).
  assert (MONO : forall j k, (j <= k)%nat -> (k <= m')%nat -> PcgCg.energy n Mop b (sx (nth_state k)) <= PcgCg.energy n Mop b (sx (nth_state j))).
  { intros j k L. induction L as [ | k L IH]; intros B; [ lra | ]. specialize (IH ltac:(lia)). pose proof (descent_at m' G' k ltac:(lia)). lra. }
  rewrite !EE. split; [ apply MONO; lia | ]. assert (Z : PcgCg.energy n Mop b (sx (nth_state 0)) = 0).
  { unfold PcgCg.energy, vdot. cbn [nth_state start sx]. rewrite !bsum_zero; [ ring | intros; ring | intros; ring ]. }
  rewrite <- Z. apply MONO; lia.
Qed.
Lemma size_unique r q q' : residual_size sizes M r q -> residual_size sizes M r q' -> q = q'.
Proof.
  intros (w & W1 & ->) (w' & W1' & ->). change (vdot n r w = vdot n r w'). transitivity (vdot n (apply n Dm w') w).
  - apply vdot_ext; [ intros i I; symmetry; apply W1'; exact I | reflexivity ].
  - rewrite (D_symmetric w' w). rewrite (vdot_sym n r w'). apply vdot_ext; [ reflexivity | exact W1 ].
Qed.
Lemma uses_init s : indices s = [] -> sparse_mat s = [] -> uses s.
Proof. intros E F. left. split; assumption. Qed.
Lemma uses_again inv' mem' s A' b' : columns A' = columns A -> row_ends A' = row_ends A -> col_ends A' = col_ends A -> indices s = [] -> sparse_mat s = [] ->
  uses (fst (solve inv' mem' s A' b')).
Proof. intros E1 E2 E3 E F. right. unfold solve, scanned. rewrite E, F, E1, E2, E3. cbn [fst indices sparse_mat app]. split; reflexivity. Qed.
Lemma solve_small s : uses s -> absolute s = true -> 0 < residual s -> 0 <= tolerance s -> vdot n b (Jop b) <= residual s -> (forall i, snd (snd (solve inv mem s A b)) i = 0) /\ fst (snd (solve inv mem s A b)) = true.
Proof.
  intros U AB R T L. destruct (size_of b) as [_ B0]. assert (T0 : 0 <= tolerance s * vdot n b (Jop b)) by (apply Rmult_le_pos; assumption).
  assert (TH : residual s <= threshold s).
  { unfold threshold. rewrite AB. destruct (Rlt_dec 0 (residual s)) as [ | N]; [ | lra ]. destruct (Rlt_dec (tolerance s * vdot n b (Jop b)) (residual s)); lra. }
  destruct (solve_val s U ltac:(lra)) as (m & M1 & M2 & M3 & M4). rewrite M2. cbn [fst snd]. split; [ | reflexivity ]. destruct m as [ | m]; [ reflexivity | ].
  specialize (M3 0%nat ltac:(lia)). rewrite sdn_is in M3. unfold dnk in M3. cbn [nth_state start sr] in M3. lra.
Qed.
End Matrix.
