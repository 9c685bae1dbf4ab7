(** Block matrices over the reals: sums, products and vectors. *)
From Coq Require Import ZArith List Bool Lia Reals Lra.
From Verif Require Import Base Arith RArith OMap JacModel MatReal SbmModel SbmSpec SbmProofs SbmMore.
Import ListNotations.
Open Scope nat_scope.

(** ** Finite sums. *)
Fixpoint rsum (l : list R) : R := match l with [] => 0%R | x :: r => (x + rsum r)%R end.
Fixpoint sumn (n : nat) (f : nat -> R) : R :=
  match n with O => 0%R | S k => (sumn k f + f k)%R end.

Lemma rsum_app l1 l2 : rsum (l1 ++ l2) = (rsum l1 + rsum l2)%R.
Proof. induction l1 as [ | x l1 IH]; cbn [app rsum]; [lra | rewrite IH; lra]. Qed.

Lemma rsum_zero {U} (f : U -> R) l : (forall x, In x l -> f x = 0%R) -> rsum (map f l) = 0%R.
Proof.
  induction l as [ | x l IH]; intro H; [reflexivity | ]. cbn [map rsum].
  rewrite H by now left. rewrite IH by (intros; apply H; now right). lra.
Qed.

Lemma rsum_concat_map {U} (f : U -> R) ls : rsum (map f (concat ls)) = rsum (map (fun l => rsum (map f l)) ls).
Proof.
  induction ls as [ | l ls IH]; [reflexivity | ].
  cbn [concat map rsum]. now rewrite map_app, rsum_app, IH.
Qed.

Lemma sumn_ext n f g : (forall k, k < n -> f k = g k) -> sumn n f = sumn n g.
Proof.
  induction n as [ | n IH]; intro H; [reflexivity | ]. cbn [sumn].
  rewrite IH by (intros; apply H; lia). now rewrite H by lia.
Qed.

Lemma sumn_zero n f : (forall k, k < n -> f k = 0%R) -> sumn n f = 0%R.
Proof.
  induction n as [ | n IH]; intro H; [reflexivity | ]. cbn [sumn].
  rewrite IH by (intros; apply H; lia). rewrite H by lia. lra.
Qed.

Lemma sumn_plus n f g : sumn n (fun k => (f k + g k)%R) = (sumn n f + sumn n g)%R.
Proof. induction n as [ | n IH]; cbn [sumn]; [lra | rewrite IH; lra]. Qed.

Lemma sumn_scale n a f : sumn n (fun k => (a * f k)%R) = (a * sumn n f)%R.
Proof. induction n as [ | n IH]; cbn [sumn]; [lra | rewrite IH; lra]. Qed.

Lemma sumn_split a b f : sumn (a + b) f = (sumn a f + sumn b (fun i => f (a + i)%nat))%R.
Proof.
  induction b as [ | b IH].
  - rewrite Nat.add_0_r. cbn [sumn]. lra.
  - rewrite Nat.add_succ_r. cbn [sumn]. rewrite IH. lra.
Qed.

Lemma sumn_only n k (f : nat -> R) : k < n ->
  sumn n (fun i => if i =? k then f i else 0%R) = f k.
Proof.
  intro H. induction n as [ | n IH]; [lia | ]. cbn [sumn].
  destruct (Nat.eq_dec n k) as [-> | Hn].
  - rewrite Nat.eqb_refl. rewrite sumn_zero; [lra | ].
    intros i Hi. destruct (Nat.eqb_spec i k); [lia | reflexivity].
  - rewrite IH by lia. destruct (Nat.eqb_spec n k); [lia | lra].
Qed.

Lemma sumn_swap n m (f : nat -> nat -> R) :
  sumn n (fun i => sumn m (fun j => f i j)) = sumn m (fun j => sumn n (fun i => f i j)).
Proof.
  induction n as [ | n IH]; cbn [sumn].
  - symmetry. now apply sumn_zero.
  - rewrite IH, <- sumn_plus. reflexivity.
Qed.

(** A sum over scalar indices, block by block. *)
Lemma sum_blocks l f : layout l ->
  sumn (total l) f = sumn (length l) (fun b => sumn (size_of l b) (fun i => f (base_of l b + i))).
Proof.
  intro L. rewrite total_base.
  assert (G : forall k, k <= length l -> sumn (base_of l k) f =
     sumn k (fun b => sumn (size_of l b) (fun i => f (base_of l b + i)))).
  { induction k as [ | k IH]; intro Hk; [reflexivity | ].
    cbn [sumn]. rewrite <- IH by lia. rewrite <- sumn_split. f_equal.
    rewrite size_base. specialize (L k ltac:(lia)). lia. }
  now apply G.
Qed.

(** ** Elements of real matrices. *)
Definition ent (M : list (list R)) (i j : nat) : R := nth j (nth i M []) 0%R.
Definition val (m : sbm RA) (r i c j : nat) : R := val_at m r i c j.
Definition elr (m : sbm RA) (r c : nat) : R := el m r c.

Lemma elr_at (m : sbm RA) r i c j : wf m -> r < length (rbi m) -> i < size_of (rbi m) r ->
  c < length (cbi m) -> j < size_of (cbi m) c ->
  elr m (base_of (rbi m) r + i) (base_of (cbi m) c + j) = val m r i c j.
Proof. intros H H0 H1 H2 H3. exact (el_at RA m r i c j H H0 H1 H2 H3). Qed.

Lemma rdot_sumn (x y : list R) : rdot x y = sumn (length x) (fun k => (nth k x 0 * nth k y 0)%R).
Proof.
  revert y. induction x as [ | a x IH]; intro y; [reflexivity | ].
  change (length (a :: x)) with (1 + length x). rewrite sumn_split. cbn [sumn nth Nat.add].
  destruct y as [ | b y].
  - cbn [rdot nth]. rewrite sumn_zero; [lra | ]. intros k _. destruct k; lra.
  - cbn [rdot nth]. rewrite IH. lra.
Qed.

Lemma mmul_ent (a b : list (list R)) p q n i j : shaped RA p q a = true -> i < p -> j < n ->
  ent (mmul RA n a b) i j = sumn q (fun k => (ent a i k * ent b k j)%R).
Proof.
  intros Ha Hi Hj. unfold ent, mmul.
  pose proof (shaped_row RA p q a i Ha Hi) as Lr.
  apply shaped_iff in Ha as [La _].
  set (F := fun r : list R => map (fun j0 => dot RA r (column RA j0 b)) (seq 0 n)).
  change (map _ a) with (map F a).
  rewrite (nth_indep (map F a) [] (F [])) by (rewrite map_length; apply eq_ind_r with (P := fun z => i < z) (2 := La); exact Hi).
  rewrite map_nth. unfold F. rewrite (nth_map_seq_0 (fun j0 => dot RA (nth i a []) (column RA j0 b))) by exact Hj.
  change (dot RA (nth i a []) (column RA j b)) with (dot RA (nth i a [] : list R) (column RA j b : list R)).
  rewrite dot_rdot, rdot_sumn.
  replace (length (nth i a [])) with q by (symmetry; exact Lr).
  apply sumn_ext. intros k _. f_equal. unfold column.
  destruct (Nat.lt_ge_cases k (length b)) as [Hk | Hk].
  - set (G := fun r : list R => nth j r 0%R). change (map _ b) with (map G b).
    rewrite (nth_indep (map G b) 0%R (G [])) by (rewrite map_length; exact Hk).
    now rewrite map_nth.
  - rewrite nth_overflow by (rewrite map_length; exact Hk).
    rewrite (nth_overflow b) by exact Hk. now destruct j.
Qed.

Lemma vadd_nth (x y : list R) k : length x = length y ->
  nth k (vadd RA x y) 0%R = (nth k x 0 + nth k y 0)%R.
Proof.
  revert y k. induction x as [ | a x IH]; intros [ | b y] k H; try discriminate H.
  - destruct k; cbn; lra.
  - destruct k as [ | k]; [reflexivity | ]. cbn [vadd combine map nth].
    apply (IH y k). now injection H.
Qed.

Lemma madd_ok p q (a b : list (list R)) : shaped RA p q a = true -> shaped RA p q b = true ->
  exists s, maddo RA a b = Ok s /\ shaped RA p q s = true /\
    forall i j, ent s i j = (ent a i j + ent b i j)%R.
Proof.
  intros Ha Hb. apply shaped_iff in Ha as [La Fa]. apply shaped_iff in Hb as [Lb Fb].
  exists (madd RA a b). conj.
  - unfold maddo. replace (same_shape RA a b) with true; [reflexivity | ].
    unfold same_shape. symmetry. apply andb_true_iff. split.
    + apply Nat.eqb_eq. etransitivity; [exact La | symmetry; exact Lb].
    + apply forallb_forall. intros (x, y) H. apply Nat.eqb_eq. cbn [fst snd].
      pose proof (in_combine_l _ _ _ _ H) as Hx. pose proof (in_combine_r _ _ _ _ H) as Hy.
      rewrite Forall_forall in Fa, Fb. etransitivity; [exact (Fa x Hx) | symmetry; exact (Fb y Hy)].
  - apply shaped_iff. split.
    + unfold madd. rewrite map_length, combine_length.
      etransitivity; [ | apply (Nat.min_id p)]. f_equal; assumption.
    + apply Forall_forall. intros z Hz. unfold madd in Hz. apply in_map_iff in Hz as ((x & y) & <- & H).
      pose proof (in_combine_l _ _ _ _ H) as Hx. pose proof (in_combine_r _ _ _ _ H) as Hy.
      rewrite Forall_forall in Fa, Fb. specialize (Fa x Hx). specialize (Fb y Hy). cbn [fst snd].
      etransitivity; [apply (vadd_length x y); etransitivity; [exact Fa | symmetry; exact Fb] | exact Fb].
  - clear - La Lb Fa Fb. intros i j. revert p b i La Lb Fb. induction a as [ | x a IH]; intros p b i La Lb Fb.
    + destruct b; [ | cbn in La, Lb; lia]. unfold ent. destruct i, j; cbn; lra.
    + destruct b as [ | y b]; [cbn in La, Lb; lia | ].
      inversion_clear Fa as [ | ? ? A1 A2]. inversion_clear Fb as [ | ? ? B1 B2].
      destruct i as [ | i].
      * unfold ent. cbn [madd combine map nth fst snd]. apply vadd_nth.
        etransitivity; [exact A1 | symmetry; exact B1].
      * unfold ent. cbn [madd combine map nth]. exact (IH A2 (pred p) b i (f_equal pred La) (f_equal pred Lb) B2).
Qed.

(** ** Runs of additions. *)
Definition contrib (us : list (nat * nat * list (list R))) (r c i j : nat) : R :=
  rsum (map (fun e : nat * nat * list (list R) => let '(r', c', M) := e in
               if (r' =? r) && (c' =? c) then ent M i j else 0%R) us).

Lemma accumulate us : forall m : sbm RA, wf m -> owns m = true ->
  (forall r c M, In (r, c, M) us -> r < length (rbi m) /\ c < length (cbi m) /\
     shaped RA (size_of (rbi m) r) (size_of (cbi m) c) M = true) ->
  exists m', updates RA (map (fun e : nat * nat * mat RA => (fst e, plus RA (snd e))) us) m = Ok m' /\
    wf m' /\ alike RA m' m /\
    (forall r i c j, val m' r i c j = (val m r i c j + contrib us r c i j)%R) /\
    (forall r c, blk m' r c <> None <-> blk m r c <> None \/ In (r, c) (map fst us)).
Proof.
  induction us as [ | ((r0, c0) & M0) us IH]; intros m W O F.
  - exists m. conj; auto; try apply alike_refl.
    + intros. unfold contrib. cbn [map rsum]. lra.
    + cbn [map In]. tauto.
  - destruct (F r0 c0 M0 (or_introl eq_refl)) as (F1 & F2 & F3).
    destruct (madd_ok _ _ _ _ (seen_shaped RA m r0 c0 W) F3) as (S1 & ES & SS & VS).
    cbn [map updates fst snd].
    rewrite (update_ok RA r0 c0 (plus RA M0) S1 m W O F1 F2 ES). cbn [obind].
    destruct (IH (put RA r0 c0 S1 m)) as (m' & E & W' & L & HV & HB).
    + now apply put_wf.
    + now rewrite put_owns.
    + intros r c B HB. rewrite put_rbi, put_cbi. apply F. now right.
    + exists m'. conj; [exact E | exact W' | eapply alike_trans; [exact L | apply alike_put] | | ].
      * intros r i c j. rewrite HV. unfold contrib. cbn [map rsum].
        enough (K : val (put RA r0 c0 S1 m) r i c j =
                    (val m r i c j + (if (r0 =? r) && (c0 =? c) then ent M0 i j else 0))%R) by (rewrite K; lra).
        unfold val, val_at at 1. rewrite put_blk by (rewrite (wf_cols _ _ W); exact F2).
        destruct (Nat.eqb_spec r0 r) as [-> | Hr]; cbn [andb];
          [destruct (Nat.eqb_spec c0 c) as [-> | Hc] | ].
        -- etransitivity; [exact (VS i j) | ]. f_equal. apply (seen_val RA m r c i j).
        -- fold (val_at m r i c j). lra.
        -- fold (val_at m r i c j). lra.
      * intros r c. rewrite HB, put_blk by (rewrite (wf_cols _ _ W); exact F2).
        cbn [map fst In]. destruct (Nat.eqb_spec r0 r) as [-> | Hr]; cbn [andb];
          [destruct (Nat.eqb_spec c0 c) as [-> | Hc] | ].
        -- split; [intros _; right; now left | intros _; left; discriminate].
        -- split; [tauto | intros [H | [H | H]]; [tauto | congruence | tauto]].
        -- split; [tauto | intros [H | [H | H]]; [tauto | congruence | tauto]].
Qed.

(** A sum over a list of blocks with distinct positions. *)
Lemma sum_assoc (g : nat -> nat -> list (list R) -> R) nr nc ws : NoDup (map fst ws) ->
  (forall r c B, In (r, c, B) ws -> r < nr /\ c < nc) ->
  rsum (map (fun e : nat * nat * mat RA => let '(r, c, B) := e in g r c B) ws) =
  sumn nc (fun c => sumn nr (fun r => match assoc RA ws r c with Some B => g r c B | None => 0%R end)).
Proof.
  induction ws as [ | ((r0, c0) & B0) ws IH]; intros N F.
  - cbn [map rsum assoc]. symmetry. apply sumn_zero. intros. now apply sumn_zero.
  - cbn [map fst] in N. inversion_clear N as [ | ? ? N1 N2].
    destruct (F r0 c0 B0 (or_introl eq_refl)) as [F1 F2].
    cbn [map rsum]. rewrite (IH N2 (fun r c B H => F r c B (or_intror H))).
    assert (E0 : g r0 c0 B0 = sumn nc (fun c => if c =? c0 then
              sumn nr (fun r => if r =? r0 then g r c B0 else 0%R) else 0%R)).
    { rewrite (sumn_only nc c0 (fun c => sumn nr (fun r => if r =? r0 then g r c B0 else 0%R))) by exact F2.
      symmetry. now apply (sumn_only nr r0 (fun r => g r c0 B0)). }
    rewrite E0, <- sumn_plus. apply sumn_ext. intros c Hc. cbn [assoc].
    destruct (Nat.eqb_spec c c0) as [-> | Hne].
    + rewrite <- sumn_plus. apply sumn_ext. intros r Hr. rewrite Nat.eqb_refl, andb_true_r, (Nat.eqb_sym r0 r).
      destruct (Nat.eqb_spec r r0) as [-> | Hr0]; [ | lra].
      rewrite (proj2 (assoc_none RA ws r0 c0) N1). lra.
    + rewrite Rplus_0_l. apply sumn_ext. intros r Hr.
      destruct (Nat.eqb_spec c0 c); [congruence | ]. now rewrite andb_false_r.
Qed.

Lemma sum_over_blocks (m : sbm RA) (g : nat -> nat -> list (list R) -> R) : wf m ->
  rsum (map (fun e : nat * nat * mat RA => let '(r, c, B) := e in g r c B) (blocks RA m)) =
  sumn (length (cbi m)) (fun c => sumn (length (rbi m)) (fun r =>
    match blk m r c with Some B => g r c B | None => 0%R end)).
Proof.
  intro W. rewrite (sum_assoc g (length (rbi m)) (length (cbi m)) (blocks RA m)).
  - apply sumn_ext. intros c _. apply sumn_ext. intros r _. now rewrite assoc_blocks.
  - now apply blocks_nodup.
  - intros r c B H. apply blocks_facts in H as (H1 & H2 & _); auto.
Qed.

(** ** Sum of matrices. *)
Lemma add_ok (m d : sbm RA) : wf m -> wf d -> owns d = true -> rbi m = rbi d -> cbi m = cbi d ->
  exists d', add_into RA m (Some d) = Ok (true, d') /\ wf d' /\ alike RA d' d /\
    (forall r i c j, r < length (rbi d) -> c < length (cbi d) ->
       val d' r i c j = (val d r i c j + val m r i c j)%R) /\
    (forall r c, blk d' r c <> None <-> blk d r c <> None \/ blk m r c <> None).
Proof.
  intros W Wd O ER EC.
  destruct (accumulate (blocks RA m) d Wd O) as (d' & E & W' & L & HV & HB).
  { intros r c M H. apply blocks_facts in H; [ | exact W]. now rewrite <- ER, <- EC. }
  exists d'. conj; [ | exact W' | exact L | | ].
  - unfold add_into. rewrite O, (proj2 (same_layout_iff _ _) ER), (proj2 (same_layout_iff _ _) EC).
    cbn [andb].
    replace (map _ (blocks RA m)) with (map (fun e : nat * nat * mat RA => (fst e, plus RA (snd e))) (blocks RA m)).
    + now rewrite E.
    + apply map_ext. now intros ((r, c), B).
  - intros r i c j Hr Hc. rewrite HV. f_equal. unfold contrib.
    etransitivity; [apply (sum_over_blocks m (fun r' c' M => if (r' =? r) && (c' =? c) then ent M i j else 0%R) W) | ].
    rewrite ER, EC. etransitivity; [ | apply (sumn_only (length (cbi d)) c (fun _ => val m r i c j) Hc)].
    apply sumn_ext. intros c1 _. destruct (Nat.eqb_spec c1 c) as [-> | Hne].
    + etransitivity; [ | apply (sumn_only (length (rbi d)) r (fun _ => val m r i c j) Hr)].
      apply sumn_ext. intros r1 _. rewrite andb_true_r.
      destruct (Nat.eqb_spec r1 r) as [-> | Hnr].
      * unfold val, val_at. destruct (blk m r c); reflexivity.
      * now destruct (blk m r1 c).
    + apply sumn_zero. intros r1 _. rewrite andb_false_r. now destruct (blk m r1 c1).
  - intros r c. rewrite HB. enough (In (r, c) (map fst (blocks RA m)) <-> blk m r c <> None) by tauto.
    split.
    + intro H. apply in_map_iff in H as (((r1 & c1) & B) & E1 & H). cbn [fst] in E1. injection E1 as -> ->.
      apply blocks_in in H; [congruence | exact W].
    + destruct (blk m r c) as [B | ] eqn:EB; [ | congruence]. intros _.
      apply in_map_iff. exists (r, c, B). split; [reflexivity | now apply blocks_in].
Qed.

Lemma add_fresh (m : sbm RA) : add_into RA m None = add_into RA m (Some (fresh RA (rbi m) (cbi m))).
Proof.
  unfold add_into. cbn [owns rbi cbi fresh].
  rewrite (proj2 (same_layout_iff (rbi m) _) eq_refl), (proj2 (same_layout_iff (cbi m) _) eq_refl). reflexivity.
Qed.

(** ** Product of matrices. *)
Definition prods (a b : sbm RA) : list (nat * nat * mat RA) :=
  concat (map (fun e : nat * nat * mat RA => let '(k, c, Bk) := e in
     map (fun p => (fst p, c, mmul RA (size_of (cbi b) c) (snd p) Bk)) (nth k (bcols a) []))
     (blocks RA b)).

Lemma products_ok (a b : sbm RA) : wf a -> wf b -> cbi a = rbi b -> products RA a b = Ok (prods a b).
Proof.
  intros Wa Wb E. unfold products.
  rewrite (mapo_ok _ (fun e : nat * nat * mat RA => let '(k, c, Bk) := e in
     map (fun p => (fst p, c, mmul RA (size_of (cbi b) c) (snd p) Bk)) (nth k (bcols a) []))).
  - reflexivity.
  - intros ((k, c) & Bk) H. apply blocks_facts in H as (H1 & _); [ | exact Wb].
    rewrite (nth_error_nth' (bcols a) []); [reflexivity | ].
    rewrite (wf_cols _ _ Wa), E. exact H1.
Qed.

Lemma col_in (a : sbm RA) r k M : wf a -> In (r, M) (nth k (bcols a) []) <-> blk a r k = Some M.
Proof.
  intro W. unfold blk. destruct (Nat.lt_ge_cases k (length (bcols a))) as [H | H].
  - rewrite (nth_error_nth' (bcols a) []) by exact H.
    symmetry. apply (mget_in _ Natcompare_order).
    pose proof (wf_keys _ _ W) as K. rewrite Forall_forall in K. apply K. now apply nth_In.
  - rewrite nth_overflow by exact H. rewrite (proj2 (nth_error_None _ _) H). split; [intros [] | discriminate].
Qed.

Lemma mmul_shaped p q n (a b : list (list R)) : shaped RA p q a = true ->
  shaped RA p n (mmul RA n a b) = true.
Proof.
  intro H. apply shaped_iff in H as [L _]. apply shaped_iff. unfold mmul. split.
  - rewrite map_length. exact L.
  - apply Forall_forall. intros x Hx. apply in_map_iff in Hx as (y & <- & _).
    now rewrite map_length, seq_length.
Qed.

(** The blocks of one column at block row [r]. *)
Lemma col_sum (col : list (nat * mat RA)) r (h : list (list R) -> R) : sorted Nat.compare col ->
  rsum (map (fun p => if fst p =? r then h (snd p) else 0%R) col) =
  match mget Nat.compare r col with Some M => h M | None => 0%R end.
Proof.
  induction col as [ | (k, v) col IH]; intro S0; [reflexivity | ].
  pose proof (sorted_above_all _ Natcompare_order _ _ _ S0) as Ab. cbn [sorted] in S0.
  destruct S0 as [_ S0]. specialize (IH S0). cbn [map rsum fst snd mget].
  destruct (Nat.compare_spec r k) as [-> | H | H].
  - rewrite Nat.eqb_refl. rewrite rsum_zero; [lra | ].
    intros (k', v') Hin. apply Ab in Hin. apply Nat.compare_lt_iff in Hin. cbn [fst].
    destruct (Nat.eqb_spec k' k); [lia | reflexivity].
  - destruct (Nat.eqb_spec k r); [lia | ]. rewrite rsum_zero; [lra | ].
    intros (k', v') Hin. apply Ab in Hin. apply Nat.compare_lt_iff in Hin. cbn [fst].
    destruct (Nat.eqb_spec k' r); [lia | reflexivity].
  - destruct (Nat.eqb_spec k r); [lia | ]. rewrite IH. lra.
Qed.

Lemma prods_contrib (a b : sbm RA) r i c j : wf a -> wf b -> cbi a = rbi b ->
  r < length (rbi a) -> i < size_of (rbi a) r -> c < length (cbi b) -> j < size_of (cbi b) c ->
  contrib (prods a b) r c i j =
  sumn (total (cbi a)) (fun k => (elr a (base_of (rbi a) r + i) k * elr b k (base_of (cbi b) c + j))%R).
Proof.
  intros Wa Wb E Hr Hi Hc Hj. unfold contrib, prods. rewrite rsum_concat_map, map_map.
  transitivity (rsum (map (fun e : nat * nat * mat RA => let '(k, c', Bk) := e in
      if c' =? c then match blk a r k with
        | Some M => ent (mmul RA (size_of (cbi b) c) M Bk) i j | None => 0%R end else 0%R) (blocks RA b))).
  { f_equal. apply map_ext_in. intros ((k, c') & Bk) Hin. rewrite map_map. cbn [fst snd].
    apply blocks_facts in Hin as (Hk & _ & _); [ | exact Wb].
    destruct (Nat.eqb_spec c' c) as [-> | Hne].
    - rewrite <- E, <- (wf_cols _ _ Wa) in Hk. unfold blk. rewrite (nth_error_nth' (bcols a) []) by exact Hk.
      rewrite <- (col_sum (nth k (bcols a) []) r (fun M => ent (mmul RA (size_of (cbi b) c) M Bk) i j)).
      + f_equal. apply map_ext. intros (k', v'). cbn [fst snd]. now rewrite andb_true_r.
      + pose proof (wf_keys _ _ Wa) as K. rewrite Forall_forall in K. apply K. now apply nth_In.
    - apply rsum_zero. intros. now rewrite andb_false_r. }
  etransitivity; [apply (sum_over_blocks b (fun k c' Bk => if c' =? c then match blk a r k with
        | Some M => ent (mmul RA (size_of (cbi b) c) M Bk) i j | None => 0%R end else 0%R) Wb) | ].
  transitivity (sumn (length (rbi b)) (fun k => sumn (size_of (rbi b) k) (fun l =>
       (val a r i k l * val b k l c j)%R))).
  { etransitivity; [ | apply (sumn_only (length (cbi b)) c (fun c => sumn (length (rbi b)) (fun k =>
       sumn (size_of (rbi b) k) (fun l => (val a r i k l * val b k l c j)%R))) Hc)].
    apply sumn_ext. intros c' _. destruct (Nat.eqb_spec c' c) as [-> | Hne].
    - apply sumn_ext. intros k Hk. unfold val, val_at.
      destruct (blk b k c) as [Bk | ] eqn:EB.
      + destruct (blk a r k) as [M | ] eqn:EA.
        * apply (wf_blk _ _ Wa) in EA as [_ EA]. rewrite E in EA.
          exact (mmul_ent M Bk _ _ _ i j EA Hi Hj).
        * symmetry. apply sumn_zero. intros. apply Rmult_0_l.
      + symmetry. apply sumn_zero. intros. apply Rmult_0_r.
    - apply sumn_zero. intros k _. now destruct (blk b k c'). }
  rewrite E, sum_blocks by apply Wb. apply sumn_ext. intros k Hk. apply sumn_ext. intros l Hl.
  unfold val, elr. f_equal.
  - symmetry. rewrite <- E. apply el_at; try assumption; now rewrite E.
  - symmetry. now apply el_at.
Qed.

Lemma multiply_ok (a b d : sbm RA) : wf a -> wf b -> wf d -> owns d = true -> cbi a = rbi b ->
  rbi d = rbi a -> cbi d = cbi b ->
  exists d', multiply_into RA a b (Some d) = Ok (true, d') /\ wf d' /\ alike RA d' d /\
    forall r c, r < total (rbi d) -> c < total (cbi d) ->
      elr d' r c = (elr d r c + sumn (total (cbi a)) (fun k => elr a r k * elr b k c))%R.
Proof.
  intros Wa Wb Wd O E ER EC.
  destruct (accumulate (prods a b) d Wd O) as (d' & Ed & W' & L & HV & _).
  { intros r c M H. unfold prods in H. apply in_concat in H as (l & Hl & H).
    apply in_map_iff in Hl as (((k & c') & Bk) & <- & Hin).
    apply in_map_iff in H as ((r' & M') & E1 & H). cbn [fst snd] in E1. injection E1 as <- <- <-.
    apply col_in in H; [ | exact Wa].
    apply blocks_facts in Hin as (_ & Hc & _); [ | exact Wb].
    apply (wf_blk _ _ Wa) in H as [H1 H2]. rewrite ER, EC. conj; auto.
    eapply mmul_shaped, H2. }
  destruct L as (L1 & L2 & L3 & L4).
  exists d'. conj; [ | exact W' | repeat split; assumption | ].
  - unfold multiply_into. rewrite (proj2 (same_layout_iff _ _) E), O, products_ok by assumption.
    cbn [obind]. now rewrite Ed.
  - intros r c Hr Hc.
    destruct (locate _ r (wf_rlay _ _ Wd) Hr) as (br & i & Hbr & Hi & -> & _).
    destruct (locate _ c (wf_clay _ _ Wd) Hc) as (bc & j & Hbc & Hj & -> & _).
    unfold elr at 2. rewrite el_at by assumption. unfold elr at 1.
    rewrite <- L1, <- L2 at 1. rewrite el_at by (rewrite ?L1, ?L2; assumption).
    etransitivity; [apply HV | ]. f_equal. rewrite ER, EC in *.
    now apply prods_contrib.
Qed.

(** ** Vectors. *)
Lemma segment_ok o n (x : list R) : o + n <= length x ->
  exists s : list R, segment RA o n x = Ok s /\ length s = n /\ forall k, k < n -> nth k s 0%R = nth (o + k) x 0%R.
Proof.
  intro H. exists (firstn n (skipn o x)). conj.
  - unfold segment. rewrite (proj2 (Nat.leb_le (o + n) (@length (num RA) x)) H). reflexivity.
  - rewrite firstn_length, skipn_length. lia.
  - intros k Hk. rewrite nth_firstn_lt by exact Hk. apply nth_skipn_add.
Qed.

Lemma add_segment_ok o (v y : list R) : o + length v <= length y ->
  exists y' : list R, add_segment RA o v y = Ok y' /\ length y' = length y /\
    forall k, k < length y -> nth k y' 0%R =
      (nth k y 0 + (if (o <=? k) && (k <? o + length v) then nth (k - o) v 0 else 0))%R.
Proof.
  intro H.
  assert (L1 : length (firstn (length v) (skipn o y)) = length v)
    by (rewrite firstn_length, skipn_length; lia).
  assert (G : exists va : list R, va = vadd RA (firstn (length v) (skipn o y)) v /\ length va = length v /\
      forall k, nth k va 0%R = (nth k (firstn (length v) (skipn o y)) 0 + nth k v 0)%R).
  { eexists. split; [reflexivity | ]. split; [exact (vadd_length _ v L1) | ].
    intro k. exact (vadd_nth _ v k L1). }
  destruct G as (va & EV & L2 & VV).
  exists (firstn o y ++ va ++ skipn (o + length v) y).
  assert (L3 : length (firstn o y) = o) by (rewrite firstn_length; lia).
  conj.
  - unfold add_segment. rewrite (proj2 (Nat.leb_le (o + @length (num RA) v) (@length (num RA) y)) H).
    rewrite EV. reflexivity.
  - rewrite !app_length, L2, L3, skipn_length. lia.
  - intros k Hk. rewrite nth_app3.
    rewrite L2, L3. destruct (Nat.ltb_spec k o) as [K | K].
    + rewrite (proj2 (Nat.leb_gt o k) K). cbn [andb]. rewrite nth_firstn_lt by exact K. lra.
    + rewrite (proj2 (Nat.leb_le o k) K). cbn [andb].
      destruct (Nat.ltb_spec k (o + length v)) as [K2 | K2].
      * rewrite VV, nth_firstn_lt, nth_skipn_add by lia. replace (o + (k - o)) with k by lia. reflexivity.
      * rewrite nth_skipn_add. replace (o + length v + (k - o - length v)) with k by lia. lra.
Qed.

Lemma mvec_ent (B : list (list R)) p q (s : list R) i : shaped RA p q B = true -> i < p ->
  nth i (mvec RA B s) 0%R = sumn q (fun k => (ent B i k * nth k s 0)%R).
Proof.
  intros HB Hi. pose proof (shaped_row RA p q B i HB Hi) as Lr. apply shaped_iff in HB as [L _].
  unfold mvec. set (F := fun r : list R => dot RA r s). change (map _ B) with (map F B).
  rewrite (nth_indep (map F B) 0%R (F [])).
  - rewrite map_nth. unfold F. rewrite dot_rdot, rdot_sumn.
    replace (length (nth i B [])) with q by (symmetry; exact Lr). reflexivity.
  - rewrite map_length. apply eq_ind_r with (P := fun z => i < z) (2 := L). exact Hi.
Qed.

(** A run of block products added onto a vector.  [lr], [lc]: layouts of the
    result and of the argument; each entry has a row block, a column block and a
    matrix. *)
Definition vec_step (lr lc : list nat) (x : list R) (o : outcome (list R)) (e : nat * nat * mat RA)
  : outcome (list R) :=
  do y <- o;
  let '(r, c, B) := e in
  do s <- segment RA (base_of lc c) (size_of lc c) x;
  add_segment RA (base_of lr r) (mvec RA B s) y.

Lemma vec_fold lr lc (x : list R) : layout lr -> layout lc -> length x = total lc ->
  forall ws y, length y = total lr ->
  (forall r c B, In (r, c, B) ws -> r < length lr /\ c < length lc /\
     shaped RA (size_of lr r) (size_of lc c) B = true) ->
  exists y' : list R, fold_left (vec_step lr lc x) ws (Ok y) = Ok y' /\ length y' = total lr /\
    forall r i, r < length lr -> i < size_of lr r ->
      nth (base_of lr r + i) y' 0%R =
      (nth (base_of lr r + i) y 0 +
       rsum (map (fun e : nat * nat * mat RA => let '(r', c, B) := e in
               if r' =? r then sumn (size_of lc c) (fun k => ent B i k * nth (base_of lc c + k)%nat x 0) else 0) ws))%R.
Proof.
  intros LR LC LX. induction ws as [ | ((r0, c0) & B0) ws IH]; intros y LY F.
  - exists y. conj; [reflexivity | exact LY | ]. intros. cbn [map rsum]. lra.
  - destruct (F r0 c0 B0 (or_introl eq_refl)) as (F1 & F2 & F3).
    pose proof (layout_total _ _ LR F1) as T1. pose proof (layout_total _ _ LC F2) as T2.
    destruct (segment_ok (base_of lc c0) (size_of lc c0) x ltac:(lia)) as (s & ES & LS & VS).
    assert (G : exists w : list R, w = mvec RA B0 s /\ length w = size_of lr r0 /\
        forall i, i < size_of lr r0 -> nth i w 0%R = sumn (size_of lc c0) (fun k => (ent B0 i k * nth k s 0)%R)).
    { eexists. split; [reflexivity | ]. split.
      - unfold mvec. rewrite map_length. apply shaped_iff in F3 as [F3 _]. exact F3.
      - intros i Hi. exact (mvec_ent B0 _ _ s i F3 Hi). }
    destruct G as (w & EW & LM & VM).
    destruct (add_segment_ok (base_of lr r0) w y ltac:(lia)) as (y1 & EY & LY1 & VY).
    destruct (IH y1 ltac:(lia) (fun r c B H => F r c B (or_intror H))) as (y' & E & L' & V').
    exists y'. conj; [ | exact L' | ].
    + cbn [fold_left]. unfold vec_step at 2. cbn [obind]. rewrite ES. cbn [obind].
      etransitivity; [ | exact E]. f_equal. rewrite <- EW. exact EY.
    + intros r i Hr Hi. rewrite V' by assumption.
      destruct (locate_back _ r i LR Hr Hi) as [G1 _]. cbn [map rsum].
      rewrite VY by lia.
      assert (K : (if (base_of lr r0 <=? base_of lr r + i) && (base_of lr r + i <? base_of lr r0 + length w)
                   then nth (base_of lr r + i - base_of lr r0) w 0%R else 0%R) =
                  (if r0 =? r then sumn (size_of lc c0) (fun k => (ent B0 i k * nth (base_of lc c0 + k)%nat x 0)%R) else 0%R)).
      { rewrite LM.
        destruct (Nat.eqb_spec r0 r) as [-> | Hne].
        - rewrite (proj2 (Nat.leb_le _ _)) by lia. rewrite (proj2 (Nat.ltb_lt _ _)) by lia. cbn [andb].
          replace (base_of lr r + i - base_of lr r) with i by lia.
          rewrite (VM i Hi). apply sumn_ext. intros k Hk. now rewrite VS.
        - destruct (Nat.leb_spec (base_of lr r0) (base_of lr r + i)) as [K1 | K1]; [ | reflexivity].
          destruct (Nat.ltb_spec (base_of lr r + i) (base_of lr r0 + size_of lr r0)) as [K2 | K2]; [ | reflexivity].
          exfalso. apply Hne.
          apply (locate_inj lr r0 (base_of lr r + i - base_of lr r0) r i); auto; lia. }
      rewrite K. lra.
Qed.

Lemma mul_vec_ok (m : sbm RA) (x y : list R) : wf m -> length x = total (cbi m) -> length y = total (rbi m) ->
  exists y' : list R, mul_vec_onto RA m x y = Ok y' /\ length y' = total (rbi m) /\
    forall r, r < total (rbi m) -> nth r y' 0%R =
      (nth r y 0 + sumn (total (cbi m)) (fun c => elr m r c * nth c x 0))%R.
Proof.
  intros W LX LY.
  destruct (vec_fold (rbi m) (cbi m) x (wf_rlay _ _ W) (wf_clay _ _ W) LX (blocks RA m) y LY
              (fun r c B H => blocks_facts RA m r c B W H)) as (y' & E & L & V).
  exists y'. conj; [exact E | exact L | ].
  intros r Hr. destruct (locate _ r (wf_rlay _ _ W) Hr) as (b & i & Hb & Hi & -> & _).
  rewrite V by assumption. f_equal.
  etransitivity; [apply (sum_over_blocks m (fun r' c B => if r' =? b then
      sumn (size_of (cbi m) c) (fun k => (ent B i k * nth (base_of (cbi m) c + k)%nat x 0)%R) else 0%R) W) | ].
  rewrite sum_blocks by apply W. apply sumn_ext. intros c Hc.
  transitivity (sumn (size_of (cbi m) c) (fun k => (val m b i c k * nth (base_of (cbi m) c + k)%nat x 0)%R)).
  - etransitivity; [ | apply (sumn_only (length (rbi m)) b (fun b => sumn (size_of (cbi m) c)
        (fun k => (val m b i c k * nth (base_of (cbi m) c + k)%nat x 0)%R)) Hb)].
    apply sumn_ext. intros r' _. unfold val, val_at. destruct (blk m r' c) eqn:EB.
    + destruct (Nat.eqb_spec r' b) as [-> | ]; reflexivity.
    + destruct (r' =? b); [ | reflexivity]. symmetry. apply sumn_zero. intros. apply Rmult_0_l.
  - apply sumn_ext. intros k Hk. f_equal. symmetry. now apply elr_at.
Qed.

Lemma tmul_vec_ok (m : sbm RA) (x y : list R) : wf m -> length x = total (rbi m) -> length y = total (cbi m) ->
  exists y' : list R, tmul_vec_onto RA m x y = Ok y' /\ length y' = total (cbi m) /\
    forall c, c < total (cbi m) -> nth c y' 0%R =
      (nth c y 0 + sumn (total (rbi m)) (fun r => elr m r c * nth r x 0))%R.
Proof.
  intros W LX LY.
  set (ws := map (fun e : nat * nat * mat RA => let '(r, c, B) := e in
                    (c, r, mtrans RA (size_of (cbi m) c) B)) (blocks RA m)).
  destruct (vec_fold (cbi m) (rbi m) x (wf_clay _ _ W) (wf_rlay _ _ W) LX ws y LY) as (y' & E & L & V).
  { intros r c B H. apply in_map_iff in H as (((r1 & c1) & B1) & E1 & H). injection E1 as <- <- <-.
    apply blocks_facts in H as (H1 & H2 & H3); [ | exact W]. conj; auto. now apply mtrans_shaped. }
  exists y'. conj; [ | exact L | ].
  - etransitivity; [ | exact E]. unfold tmul_vec_onto, ws.
    assert (G : forall l (o : outcome (list (num RA))),
      fold_left (fun o (e : nat * nat * mat RA) => do y <- o; let '(r, c, B) := e in
        do s <- segment RA (base_of (rbi m) r) (size_of (rbi m) r) x;
        add_segment RA (base_of (cbi m) c) (mvec RA (mtrans RA (size_of (cbi m) c) B) s) y) l o =
      fold_left (vec_step (cbi m) (rbi m) x) (map (fun e : nat * nat * mat RA => let '(r, c, B) := e in
                    (c, r, mtrans RA (size_of (cbi m) c) B)) l) o).
    { induction l as [ | ((r1, c1) & B1) l IH]; intro o; [reflexivity | ]. cbn [fold_left map]. apply IH. }
    exact (G (blocks RA m) (Ok y)).
  - intros c Hc. destruct (locate _ c (wf_clay _ _ W) Hc) as (b & j & Hb & Hj & -> & _).
    rewrite V by assumption. f_equal. unfold ws. rewrite map_map.
    transitivity (rsum (map (fun e : nat * nat * mat RA => let '(r, c, B) := e in
        if c =? b then sumn (size_of (rbi m) r) (fun k => (ent B k j * nth (base_of (rbi m) r + k)%nat x 0)%R)
        else 0%R) (blocks RA m))).
    { f_equal. apply map_ext_in. intros ((r, c) & B) Hin. destruct (Nat.eqb_spec c b) as [-> | ]; [ | reflexivity].
      apply sumn_ext. intros k Hk. f_equal. apply blocks_facts in Hin as (_ & _ & HB); [ | exact W].
      exact (mtrans_val RA _ _ B k j HB Hj). }
    etransitivity; [apply (sum_over_blocks m (fun r c B => if c =? b then sumn (size_of (rbi m) r)
        (fun k => (ent B k j * nth (base_of (rbi m) r + k)%nat x 0)%R) else 0%R) W) | ].
    rewrite sum_blocks by apply W.
    transitivity (sumn (length (rbi m)) (fun r => sumn (size_of (rbi m) r)
        (fun k => (val m r k b j * nth (base_of (rbi m) r + k)%nat x 0)%R))).
    + etransitivity; [ | apply (sumn_only (length (cbi m)) b (fun b => sumn (length (rbi m)) (fun r =>
          sumn (size_of (rbi m) r) (fun k => (val m r k b j * nth (base_of (rbi m) r + k)%nat x 0)%R))) Hb)].
      apply sumn_ext. intros c' _. destruct (Nat.eqb_spec c' b) as [-> | Hne].
      * apply sumn_ext. intros r _. unfold val, val_at. destruct (blk m r b); [reflexivity | ].
        symmetry. apply sumn_zero. intros. apply Rmult_0_l.
      * apply sumn_zero. intros r _. now destruct (blk m r c').
    + apply sumn_ext. intros r Hr. apply sumn_ext. intros k Hk. f_equal. symmetry. now apply elr_at.
Qed.
