(** Proofs about the observation of an Aprilgrid. *)
From Coq Require Import ZArith List Bool Lia Sorted Permutation.
From Verif Require Import Base Arith CcmModel CcmProofs TgtModel TgtProofs.
Import ListNotations.
Open Scope nat_scope.

Lemma stores_nodup {V} (ws : list (nat * V)) : forall l l', NoDup (map fst ws) -> stores ws l = Ok l' ->
  length l' = length l /\
  (forall i v, In (i, v) ws -> nth_error l' i = Some v) /\
  (forall i, ~ In i (map fst ws) -> nth_error l' i = nth_error l i).
Proof.
  induction ws as [ | [k w] ws IH]; intros l l' N E.
  - cbn [stores] in E. injection E as <-. split; [reflexivity | ]. split; [intros ? ? [] | reflexivity].
  - cbn [stores map fst] in *. inversion_clear N as [ | ? ? N1 N2].
    destruct (store k w l) as [l1 | | | ] eqn:E1; cbn [obind] in E; try discriminate.
    assert (B : k < length l).
    { clear - E1. revert l l1 E1. induction k; intros [ | x l] l1 E1; cbn in E1; try discriminate; cbn; [lia | ].
      destruct (store k w l) as [l2 | | | ] eqn:E2; cbn in E1; try discriminate. apply IHk in E2. lia. }
    destruct (store_ok _ l k w B) as (l2 & E2 & L2 & G2). assert (l2 = l1) by congruence. subst l2.
    destruct (IH l1 l' N2 E) as (L & I & O). split; [congruence | ]. split.
    + intros i v [Q | Q]; [ | now apply I]. injection Q as <- <-. rewrite O by exact N1. rewrite G2.
      now rewrite Nat.eqb_refl.
    + intros i Hi. rewrite O by (intro; apply Hi; now right). rewrite G2. destruct (Nat.eqb_spec i k); [ | reflexivity].
      exfalso. apply Hi. now left.
Qed.

Section April.
Variable A : Arith.
Notation num := (num A).
Notation pt2 := (num * num)%type.
Implicit Types (o : april_options A) (t : target A).

(** ** Sorting. *)
Lemma insert_perm (d : detection A) l : Permutation (insert A d l) (d :: l).
Proof.
  induction l as [ | x l IH]; [apply Permutation_refl | ]. cbn [insert].
  destruct (did x <? did d)%Z; [ | apply Permutation_refl].
  transitivity (x :: d :: l); [now constructor | apply perm_swap].
Qed.
Lemma by_id_perm (l : list (detection A)) : Permutation (by_id A l) l.
Proof.
  induction l as [ | d l IH]; [apply Permutation_refl | ]. cbn [by_id fold_right].
  etransitivity; [apply insert_perm | now constructor].
Qed.
Notation leid := (fun a b : detection A => (did a <= did b)%Z).
Lemma insert_sorted d l : StronglySorted leid l -> StronglySorted leid (insert A d l).
Proof.
  induction l as [ | x l IH]; intro H; [repeat constructor | ]. cbn [insert].
  inversion_clear H as [ | ? ? H1 H2].
  destruct (Z.ltb_spec (did x) (did d)) as [L | L].
  - constructor; [now apply IH | ]. apply Forall_forall. intros y Hy.
    apply (Permutation_in _ (insert_perm d l)) in Hy. destruct Hy as [<- | Hy]; [lia | ].
    rewrite Forall_forall in H2. now apply H2.
  - constructor; [now constructor | ]. constructor; [exact L | ].
    eapply Forall_impl; [ | exact H2]. cbn. intros; lia.
Qed.
Lemma by_id_sorted l : StronglySorted leid (by_id A l).
Proof. induction l as [ | d l IH]; [constructor | ]. cbn [by_id fold_right]. now apply insert_sorted. Qed.

Lemma repeated_false l : StronglySorted leid l -> repeated A l = false ->
  StronglySorted (fun a b => (did a < did b)%Z) l.
Proof.
  induction l as [ | x l IH]; intros H R; [constructor | ]. inversion_clear H as [ | ? ? H1 H2].
  assert (Rl : repeated A l = false) by (destruct l as [ | y l]; [reflexivity | ]; cbn [repeated] in R;
    apply orb_false_iff in R; tauto).
  specialize (IH H1 Rl). constructor; [exact IH | ].
  destruct l as [ | y l]; [constructor | ].
  cbn [repeated] in R. apply orb_false_iff in R. destruct R as (R & _). apply Z.eqb_neq in R.
  inversion_clear H2 as [ | ? ? H3 H4]. inversion_clear IH as [ | ? ? I1 I2].
  constructor; [lia | ]. eapply Forall_impl; [ | exact I2]. cbn. intros; lia.
Qed.
Lemma repeated_true l : repeated A l = true -> ~ NoDup (map did l).
Proof.
  induction l as [ | x l IH]; [discriminate | ]. destruct l as [ | y l]; [discriminate | ].
  intros H N. cbn [repeated] in H. apply orb_true_iff in H. inversion_clear N as [ | ? ? N1 N2].
  destruct H as [H | H]; [ | now apply IH]. apply Z.eqb_eq in H. apply N1. left. now symmetry.
Qed.
Lemma strict_nodup l : StronglySorted (fun a b : detection A => (did a < did b)%Z) l -> NoDup (map did l).
Proof.
  induction 1 as [ | x l H IH F]; [constructor | ]. cbn [map]. constructor; [ | exact IH].
  intro Q. apply in_map_iff in Q. destruct Q as (y & E & Hy). rewrite Forall_forall in F.
  specialize (F y Hy). lia.
Qed.
Lemma repeated_iff l : repeated A (by_id A l) = true <-> ~ NoDup (map did l).
Proof.
  assert (P : Permutation (map did (by_id A l)) (map did l)) by (apply Permutation_map, by_id_perm).
  split.
  - intros H N. apply (repeated_true _ H). now apply (Permutation_NoDup (Permutation_sym P)).
  - intros H. destruct (repeated A (by_id A l)) eqn:E; [reflexivity | ]. exfalso. apply H.
    apply (Permutation_NoDup P). apply strict_nodup, repeated_false; [apply by_id_sorted | exact E].
Qed.

(** ** The writes as two runs of stores. *)
Definition flag o (p q : pt2) : bool := le A (displacement2 A p q) (max_displacement2 o).
Fixpoint point_writes t id j (raw ref : list pt2) : list (nat * pt2) :=
  match raw, ref with
  | _ :: raw', q :: ref' => (corner_index A t id j, q) :: point_writes t id (S j) raw' ref'
  | _, _ => []
  end.
Fixpoint flag_writes o t id j (raw ref : list pt2) : list (nat * bool) :=
  match raw, ref with
  | p :: raw', q :: ref' => (corner_index A t id j, flag o p q) :: flag_writes o t id (S j) raw' ref'
  | _, _ => []
  end.
Fixpoint all_points t (ds : list (detection A)) (ref : list (list pt2)) : list (nat * pt2) :=
  match ds, ref with
  | d :: ds', q :: ref' => point_writes t (Z.to_nat (did d)) 0 (dcorners d) q ++ all_points t ds' ref'
  | _, _ => []
  end.
Fixpoint all_flags o t (ds : list (detection A)) (ref : list (list pt2)) : list (nat * bool) :=
  match ds, ref with
  | d :: ds', q :: ref' => flag_writes o t (Z.to_nat (did d)) 0 (dcorners d) q ++ all_flags o t ds' ref'
  | _, _ => []
  end.

Lemma tag_writes_ok o t n id raw : forall j ref pts seen, length pts = n -> length seen = n ->
  (forall k, k < length raw -> corner_index A t id (j + k) < n) ->
  exists pts' seen', tag_writes A o t id j raw ref pts seen = Ok (pts', seen') /\
    stores (point_writes t id j raw ref) pts = Ok pts' /\ stores (flag_writes o t id j raw ref) seen = Ok seen' /\
    length pts' = n /\ length seen' = n.
Proof.
  induction raw as [ | p raw IH]; intros j ref pts seen L1 L2 B; [exists pts, seen; now repeat split | ].
  destruct ref as [ | q ref]; [exists pts, seen; now repeat split | ].
  cbn [tag_writes point_writes flag_writes stores].
  assert (Bj : corner_index A t id j < n) by (rewrite <- (Nat.add_0_r j); apply B; cbn; lia).
  destruct (store_ok _ pts (corner_index A t id j) q ltac:(lia)) as (p1 & E1 & G1 & _).
  destruct (store_ok _ seen (corner_index A t id j) (flag o p q) ltac:(lia)) as (s1 & E2 & G2 & _).
  unfold flag in E2. rewrite E1. cbn [obind]. rewrite E2. cbn [obind].
  destruct (IH (S j) ref p1 s1 ltac:(lia) ltac:(lia)) as (p2 & s2 & E & S1 & S2 & L).
  { intros k Hk. replace (S j + k) with (j + S k) by lia. apply B. cbn. lia. }
  exists p2, s2. split; [exact E | ]. split; [exact S1 | ]. split; [ | exact L].
  unfold flag. rewrite E2. exact S2.
Qed.

Lemma all_writes_ok o t n ds : forall ref pts seen, length pts = n -> length seen = n ->
  (forall d, In d ds -> (0 <= did d)%Z /\ length (dcorners d) = 4 /\
     forall j, j < 4 -> corner_index A t (Z.to_nat (did d)) j < n) ->
  exists pts' seen', all_writes A o t ds ref pts seen = Ok (pts', seen') /\
    stores (all_points t ds ref) pts = Ok pts' /\ stores (all_flags o t ds ref) seen = Ok seen' /\
    length pts' = n /\ length seen' = n.
Proof.
  induction ds as [ | d ds IH]; intros ref pts seen L1 L2 B; [exists pts, seen; now repeat split | ].
  destruct ref as [ | q ref]; [exists pts, seen; now repeat split | ].
  cbn [all_writes all_points all_flags]. destruct (B d (or_introl eq_refl)) as (B1 & B2 & B3).
  destruct (Z.ltb_spec (did d) 0); [lia | ].
  destruct (tag_writes_ok o t n (Z.to_nat (did d)) (dcorners d) 0 q pts seen L1 L2) as (p1 & s1 & E & S1 & S2 & G1 & G2).
  { intros k Hk. rewrite B2 in Hk. now apply B3. }
  rewrite E. cbn [obind fst snd].
  destruct (IH ref p1 s1 G1 G2) as (p2 & s2 & E' & S1' & S2' & L); [intros; apply B; now right | ].
  exists p2, s2. split; [exact E' | ]. rewrite !stores_app, S1, S2. cbn [obind]. now split.
Qed.

(** ** Which indices are written, and what. *)
Lemma point_writes_in t id raw : forall j ref i v, In (i, v) (point_writes t id j raw ref) <->
  exists k, k < length raw /\ nth_error ref k = Some v /\ i = corner_index A t id (j + k).
Proof.
  induction raw as [ | p raw IH]; intros j ref i v.
  - split; [intros [] | intros (k & H & _); cbn in H; lia].
  - destruct ref as [ | q ref].
    + split; [intros [] | intros (k & _ & H & _); destruct k; discriminate].
    + cbn [point_writes In]. rewrite IH. split.
      * intros [Q | (k & H1 & H2 & H3)].
        -- injection Q as <- <-. exists 0. cbn. rewrite Nat.add_0_r. split; [lia | now split].
        -- exists (S k). cbn. split; [lia | ]. split; [exact H2 | ]. now replace (j + S k) with (S j + k) by lia.
      * intros ([ | k] & H1 & H2 & H3); cbn in H1, H2.
        -- left. rewrite Nat.add_0_r in H3. congruence.
        -- right. exists k. split; [lia | ]. split; [exact H2 | ]. now replace (S j + k) with (j + S k) by lia.
Qed.
Lemma flag_writes_in o t id raw : forall j ref i v, In (i, v) (flag_writes o t id j raw ref) <->
  exists k p q, nth_error raw k = Some p /\ nth_error ref k = Some q /\ v = flag o p q /\ i = corner_index A t id (j + k).
Proof.
  induction raw as [ | p raw IH]; intros j ref i v.
  - split; [intros [] | intros ([ | k] & ? & ? & H & _); discriminate].
  - destruct ref as [ | q ref].
    + split; [intros [] | intros ([ | k] & ? & ? & _ & H & _); discriminate].
    + cbn [flag_writes In]. rewrite IH. split.
      * intros [Q | (k & p' & q' & H1 & H2 & H3 & H4)].
        -- injection Q as <- <-. exists 0, p, q. rewrite Nat.add_0_r. now repeat split.
        -- exists (S k), p', q'. replace (j + S k) with (S j + k) by lia. now repeat split.
      * intros ([ | k] & p' & q' & H1 & H2 & H3 & H4); cbn in H1, H2.
        -- left. rewrite Nat.add_0_r in H4. congruence.
        -- right. exists k, p', q'. replace (S j + k) with (j + S k) by lia. now repeat split.
Qed.
Lemma all_points_in t ds : forall ref i v, In (i, v) (all_points t ds ref) <->
  exists m d q, nth_error ds m = Some d /\ nth_error ref m = Some q /\
    In (i, v) (point_writes t (Z.to_nat (did d)) 0 (dcorners d) q).
Proof.
  induction ds as [ | d ds IH]; intros ref i v.
  - split; [intros [] | intros ([ | m] & ? & ? & H & _); discriminate].
  - destruct ref as [ | q ref].
    + split; [intros [] | intros ([ | m] & ? & ? & _ & H & _); discriminate].
    + cbn [all_points]. rewrite in_app_iff, IH. split.
      * intros [Q | (m & d' & q' & H)]; [exists 0, d, q; now repeat split | exists (S m), d', q'; exact H].
      * intros ([ | m] & d' & q' & H1 & H2 & H3); cbn in H1, H2.
        -- left. congruence.
        -- right. exists m, d', q'. now repeat split.
Qed.
Lemma all_flags_in o t ds : forall ref i v, In (i, v) (all_flags o t ds ref) <->
  exists m d q, nth_error ds m = Some d /\ nth_error ref m = Some q /\
    In (i, v) (flag_writes o t (Z.to_nat (did d)) 0 (dcorners d) q).
Proof.
  induction ds as [ | d ds IH]; intros ref i v.
  - split; [intros [] | intros ([ | m] & ? & ? & H & _); discriminate].
  - destruct ref as [ | q ref].
    + split; [intros [] | intros ([ | m] & ? & ? & _ & H & _); discriminate].
    + cbn [all_flags]. rewrite in_app_iff, IH. split.
      * intros [Q | (m & d' & q' & H)]; [exists 0, d, q; now repeat split | exists (S m), d', q'; exact H].
      * intros ([ | m] & d' & q' & H1 & H2 & H3); cbn in H1, H2.
        -- left. congruence.
        -- right. exists m, d', q'. now repeat split.
Qed.
Lemma same_targets o t ds : forall ref, map fst (all_flags o t ds ref) = map fst (all_points t ds ref).
Proof.
  assert (T1 : forall id raw j ref, map fst (flag_writes o t id j raw ref) = map fst (point_writes t id j raw ref)).
  { intros id raw. induction raw as [ | p raw IH]; intros j [ | q ref]; cbn; try reflexivity. now rewrite IH. }
  induction ds as [ | d ds IH]; intros [ | q ref]; cbn [all_flags all_points]; try reflexivity.
  now rewrite !map_app, T1, IH.
Qed.

Lemma NoDup_app_intro {V} (l1 l2 : list V) : NoDup l1 -> NoDup l2 -> (forall x, In x l1 -> ~ In x l2) -> NoDup (l1 ++ l2).
Proof.
  induction 1 as [ | x l1 N1 N IH]; intros N2 D; [exact N2 | ]. cbn [app]. constructor.
  - rewrite in_app_iff. intros [Q | Q]; [now apply N1 | ]. apply (D x); [now left | exact Q].
  - apply IH; [exact N2 | ]. intros y Hy. apply D. now right.
Qed.

Lemma all_points_nodup t tr tc ds : trows t = 2 * tr -> tcols t = 2 * tc ->
  (forall d, In d ds -> (0 <= did d)%Z /\ length (dcorners d) = 4 /\ Z.to_nat (did d) < tr * tc) ->
  NoDup (map did ds) -> forall ref, NoDup (map fst (all_points t ds ref)).
Proof.
  intros Hr Hc. destruct t as [rows cols pts]. cbn [trows tcols] in Hr, Hc. subst rows cols.
  set (t := Target (2 * tr) (2 * tc) pts).
  assert (T1 : forall id raw j ref, id < tr * tc -> j + length raw <= 4 -> NoDup (map fst (point_writes t id j raw ref))).
  { intros id raw. induction raw as [ | p raw IH]; intros j [ | q ref] Hid Hj; cbn [point_writes map fst]; try constructor.
    - intro Q. apply in_map_iff in Q. destruct Q as ((i & v) & E & Q). cbn [fst] in E. subst i.
      apply point_writes_in in Q. destruct Q as (k & Hk & _ & E). cbn [length] in Hj.
      apply (corner_inj A tr tc pts) in E; lia.
    - apply IH; [exact Hid | cbn in Hj; lia]. }
  induction ds as [ | d ds IH]; intros B N [ | q ref]; cbn [all_points]; try constructor.
  cbn [map] in N. inversion_clear N as [ | ? ? N1 N2]. destruct (B d (or_introl eq_refl)) as (B1 & B2 & B3).
  rewrite map_app. apply NoDup_app_intro.
  - apply T1; [exact B3 | lia].
  - apply IH; [intros; apply B; now right | exact N2].
  - intros i Hi Hi'. apply in_map_iff in Hi, Hi'. destruct Hi as ((i1 & v1) & E1 & Hi). destruct Hi' as ((i2 & v2) & E2 & Hi').
    cbn [fst] in E1, E2. subst i1 i2. apply point_writes_in in Hi. destruct Hi as (k & Hk & _ & ->).
    apply all_points_in in Hi'. destruct Hi' as (m & d' & q' & D' & _ & Hi').
    apply point_writes_in in Hi'. destruct Hi' as (k' & Hk' & _ & E). apply nth_error_In in D'.
    destruct (B d' (or_intror D')) as (B1' & B2' & B3').
    apply (corner_inj A tr tc pts) in E; [ | lia..]. destruct E as (E & _).
    apply N1. apply in_map_iff. exists d'. split; [lia | exact D'].
Qed.

Lemma usable_id o t tr tc w h d : trows t = 2 * tr -> tcols t = 2 * tc -> usable A o t w h d = true ->
  (did d < Z.of_nat (tr * tc))%Z.
Proof.
  intros Hr Hc H. unfold usable in H. apply andb_true_iff in H. destruct H as (_ & H). apply Z.ltb_lt in H.
  unfold tsize in H. rewrite Hr, Hc in H. replace (2 * tr * (2 * tc)) with (tr * tc * 4) in H by lia.
  now rewrite Nat.div_mul in H.
Qed.

(** ** The whole function, for outputs the caller has sized or left empty. *)
Theorem observe_ok o t tr tc w h refine tags rawpts pts seen :
  trows t = 2 * tr -> tcols t = 2 * tc ->
  (forall d, In d tags -> (0 <= did d)%Z /\ length (dcorners d) = 4) ->
  length rawpts = tsize t ->
  let used := filter (usable A o t w h) tags in
  (length used < min_tags o -> observe A o t w h refine tags rawpts pts seen = Ok (Some (false, pts, seen))) /\
  (min_tags o <= length used -> ~ NoDup (map did used) ->
     observe A o t w h refine tags rawpts pts seen = Ok None) /\
  (min_tags o <= length used -> NoDup (map did used) ->
     exists s ref pts' seen',
       observe A o t w h refine tags rawpts pts seen = Ok (Some (true, pts', seen')) /\
       Permutation s used /\ StronglySorted (fun a b => (did a < did b)%Z) s /\
       ref = (if do_subpix o then refine (map dcorners s) else map dcorners s) /\
       length pts' = tsize t /\ length seen' = tsize t /\
       (forall k d q j p r, nth_error s k = Some d -> nth_error ref k = Some q ->
          nth_error (dcorners d) j = Some p -> nth_error q j = Some r ->
          nth_error pts' (corner_index A t (Z.to_nat (did d)) j) = Some r /\
          nth_error seen' (corner_index A t (Z.to_nat (did d)) j) = Some (flag o p r)) /\
       (forall i, i < tsize t -> (forall d j, In d used -> j < 4 -> i <> corner_index A t (Z.to_nat (did d)) j) ->
          nth_error pts' i = nth_error (resize_points A (tsize t) pts rawpts) i /\
          nth_error seen' i = nth_error (resize (tsize t) false seen) i)).
Proof.
  intros Hr Hc Ht Lraw used. unfold observe. fold used. split; [ | split].
  - intro H. destruct (Nat.ltb_spec (length used) (min_tags o)); [reflexivity | lia].
  - intros H D. destruct (Nat.ltb_spec (length used) (min_tags o)); [lia | ].
    apply repeated_iff in D. now rewrite D.
  - intros H D. destruct (Nat.ltb_spec (length used) (min_tags o)); [lia | ].
    destruct (repeated A (by_id A used)) eqn:Rep; [apply repeated_iff in Rep; contradiction | ].
    set (s := by_id A used) in *. assert (P : Permutation s used) by apply by_id_perm.
    set (ref := if do_subpix o then refine (map dcorners s) else map dcorners s).
    assert (B : forall d, In d s -> (0 <= did d)%Z /\ length (dcorners d) = 4 /\ Z.to_nat (did d) < tr * tc).
    { intros d Hd. apply (Permutation_in _ P) in Hd. apply filter_In in Hd. destruct Hd as (H1 & H2).
      destruct (Ht d H1). split; [assumption | ]. split; [assumption | ].
      apply (usable_id o t tr tc w h d Hr Hc) in H2. lia. }
    assert (Bc : forall d j, In d s -> j < 4 -> corner_index A t (Z.to_nat (did d)) j < tsize t).
    { intros d j Hd Hj. destruct (B d Hd) as (_ & _ & B3). destruct t as [rows cols ps].
      cbn [trows tcols] in Hr, Hc. subst rows cols. unfold tsize. cbn [trows tcols]. now apply corner_lt. }
    destruct (all_writes_ok o t (tsize t) s ref (resize_points A (tsize t) pts rawpts) (resize (tsize t) false seen))
      as (pts' & seen' & E & S1 & S2 & L1 & L2).
    + unfold resize_points. destruct (Nat.eqb_spec (length pts) (tsize t)); assumption.
    + unfold resize. rewrite app_length, firstn_length, repeat_length. lia.
    + intros d Hd. destruct (B d Hd) as (B1 & B2 & B3). split; [exact B1 | ]. split; [exact B2 | ].
      intros j Hj. now apply Bc.
    + assert (N : NoDup (map fst (all_points t s ref))).
      { apply (all_points_nodup t tr tc); [exact Hr | exact Hc | exact B | ].
        apply (Permutation_NoDup (Permutation_map did (Permutation_sym P)) D). }
      assert (N' : NoDup (map fst (all_flags o t s ref))) by (rewrite same_targets; exact N).
      destruct (stores_nodup _ _ _ N S1) as (_ & I1 & O1). destruct (stores_nodup _ _ _ N' S2) as (_ & I2 & O2).
      exists s, ref, pts', seen'. rewrite E. cbn [obind fst snd].
      split; [reflexivity | ]. split; [exact P | ].
      split; [apply repeated_false; [apply by_id_sorted | exact Rep] | ]. split; [reflexivity | ].
      split; [exact L1 | ]. split; [exact L2 | ]. split.
      * intros k d q j p r K1 K2 K3 K4.
        assert (Hj : j < length (dcorners d)) by (apply nth_error_Some; congruence). split.
        -- apply I1. apply all_points_in. exists k, d, q. split; [exact K1 | ]. split; [exact K2 | ].
           apply point_writes_in. exists j. now repeat split.
        -- apply I2. apply all_flags_in. exists k, d, q. split; [exact K1 | ]. split; [exact K2 | ].
           apply flag_writes_in. exists j, p, r. now repeat split.
      * intros i Hi F.
        assert (X : ~ In i (map fst (all_points t s ref))).
        { intro Q. apply in_map_iff in Q. destruct Q as ((i1 & v) & E1 & Q). cbn [fst] in E1. subst i1.
          apply all_points_in in Q. destruct Q as (m & d & q & D1 & _ & Q). apply point_writes_in in Q.
          destruct Q as (k & Hk & _ & Q). apply nth_error_In in D1. destruct (B d D1) as (_ & B2 & _).
          apply (F d k); [ | lia | exact Q]. now apply (Permutation_in _ P). }
        split; [now apply O1 | ]. apply O2. now rewrite same_targets.
Qed.
End April.
