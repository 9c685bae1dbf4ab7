(** * C76, C77: detections of tags, and one detection per tag *)
From Coq Require Import Reals List Arith ZArith Bool Lia Lra NArith.
From Verif Require Import Base TagModel TagSpec TagProofs TagProps TdModel TdSpec TdProofs.
Import ListNotations.
Local Open Scope R_scope.

Lemma decode_rotation f w : (Z.to_nat (fdim f) <= 8)%nat -> (w < 2 ^ 64)%N -> (forall c, In c (fcodes f) -> (c < 2 ^ 64)%N) ->
  exists det k, decode f w = Ok det /\ (k < 4)%nat /\ d_rotation det = Z.of_nat k /\ d_good det = (d_hamming det <=? frecover f)%Z.
Proof.
  intros D W C. destruct (C75_nearest f w D W C) as (E & N). destruct (fcodes f) as [ | c0 cs ] eqn:F.
  - eexists. exists 0%nat. split; [ exact (E eq_refl) | ]. cbn [d_rotation d_good d_hamming]. split; [ lia | split; reflexivity ].
  - destruct (N ltac:(discriminate)) as (i & k & _ & K & X & _). eexists. exists k. split; [ exact X | ]. cbn [d_rotation d_good d_hamming]. split; [ exact K | split; reflexivity ].
Qed.
Lemma read_fits sample d w : (d <= 8)%nat -> read_code sample d = Some w -> fits d w.
Proof. intros D E. apply (proj1 (C75_read sample d D)) in E. exact (proj1 E). Qed.

(** What a quadrilateral of distinct points gives, whatever is in the image:
    never undefined behaviour, and the corners of a detection are those of the
    quadrilateral in the same order, turned so that the homography of the
    detection takes the corners of the tag to them. *)
Theorem C76_corners : forall homography bright f border c q per,
  (Z.to_nat (fdim f) <= 8)%nat -> (forall w, In w (fcodes f) -> (w < 2 ^ 64)%N) -> distinct q -> takes (homography q c) c q ->
  exists r, detect homography bright f border c q per = Ok r /\
    forall det, r = Some det ->
      t_h det = c /\ t_per det = per /\ (t_ham det <= frecover f)%Z /\
      exists k, (k < 4)%nat /\ forall i, (i < 4)%nat ->
        t_p det i = started k q i /\ project (t_H det) c (fst (corner i)) (snd (corner i)) = t_p det i.
Proof.
  intros homography bright f border c q per D C DQ T. unfold detect.
  destruct (read_code _ _) as [ w | ] eqn:RC; [ | exists None; split; [ reflexivity | discriminate ] ].
  pose proof (fits_64 _ _ D (read_fits _ _ _ D RC)) as W.
  destruct (decode_rotation f w D W C) as (det & k & -> & K & RO & GD). cbn [obind]. cbv zeta. rewrite RO.
  pose proof (project_turned _ _ _ k 0 K ltac:(lia) T) as P0. cbn [corner fst snd] in P0.
  rewrite P0, (nearest_corner_spec _ q k K DQ).
  2: { unfold started. cbn [Nat.add]. rewrite Nat.mod_small by exact K. reflexivity. }
  destruct (Z.ltb_spec (Z.of_nat k) 0) as [ ? | _ ]; [ lia | ]. rewrite Nat2Z.id.
  eexists. split; [ reflexivity | ]. intros d0 E. destruct (d_good det) eqn:G; [ | discriminate ]. injection E as <-.
  cbn [t_h t_per t_ham t_p t_H]. split; [ reflexivity | ]. split; [ reflexivity | ]. split.
  - apply Z.leb_le. congruence.
  - exists k. split; [ exact K | ]. intros i I. split; [ reflexivity | ]. apply project_turned; assumption.
Qed.
Print Assumptions C76_corners.

(** Reading the cells from another corner of the quadrilateral turns the word. *)
Lemma read_started_1 bright f border q d w : fdim f = Z.of_nat d -> (d <= 8)%nat ->
  read_code (fun iy ix => bright (cell_at f border q iy ix)) d = Some w ->
  read_code (fun iy ix => bright (cell_at f border (started 1 q) iy ix)) d = Some (turn_word d w).
Proof.
  intros E D R. apply (proj1 (C75_read _ d D)) in R. destruct R as (F & R). apply (proj1 (C75_read _ d D)). split; [ apply turn_word_fits | ].
  intros y x Hy Hx. rewrite (cell_started f border q y x d E Hy Hx), picture_turn by assumption. apply R; lia.
Qed.
Lemma cell_ext f border p q y x : (forall i, (i < 4)%nat -> p i = q i) -> cell_at f border p y x = cell_at f border q y x.
Proof. intros E. unfold cell_at, interpolate01. cbv zeta. apply interpolate_ext. exact E. Qed.
Lemma read_ext a b d w : (d <= 8)%nat -> (forall y x, (y < d)%nat -> (x < d)%nat -> a y x = b y x) -> read_code a d = Some w -> read_code b d = Some w.
Proof.
  intros D E R. apply (proj1 (C75_read _ d D)) in R. destruct R as (F & R). apply (proj1 (C75_read _ d D)). split; [ exact F | ].
  intros y x Hy Hx. rewrite <- E by assumption. apply R; assumption.
Qed.
Theorem C76_start : forall bright f border q d s w, fdim f = Z.of_nat d -> (d <= 8)%nat ->
  read_code (fun iy ix => bright (cell_at f border q iy ix)) d = Some w ->
  read_code (fun iy ix => bright (cell_at f border (started s q) iy ix)) d = Some (turns d s w).
Proof.
  intros bright f border q d s w E D R. induction s as [ | s IH ].
  - revert R. apply read_ext; [ exact D | ]. intros y x _ _. apply (f_equal bright), cell_ext.
    intros i I. unfold started. rewrite Nat.add_0_r, Nat.mod_small by exact I. reflexivity.
  - cbn [turns]. apply (read_started_1 bright f border _ d _ E D) in IH. revert IH. apply read_ext; [ exact D | ]. intros y x _ _. apply (f_equal bright), cell_ext.
    intros i I. rewrite started_started. reflexivity.
Qed.
Print Assumptions C76_start.

(** A tag whose cells are all in the image and of which fewer than half the
    minimum distance, and no more than the recovery limit, are wrong is detected
    with its number; the number of wrong cells, the centre and the four corners
    in the order of the tag do not depend on the corner at which the
    quadrilateral starts. *)
Theorem C76_tag : forall homography bright f border c q per d w i k D,
  fdim f = Z.of_nat d -> (d <= 8)%nat -> (forall x, In x (fcodes f) -> fits d x) ->
  separated d (fcodes f) D -> oriented d (fcodes f) D ->
  distinct q -> (forall s, (s < 4)%nat -> takes (homography (started s q) c) c (started s q)) ->
  (forall y x, (y < d)%nat -> (x < d)%nat -> bright (cell_at f border q y x) = Some (picture d w y x)) -> fits d w ->
  (i < length (fcodes f))%nat -> (k < 4)%nat ->
  (2 * differing (turns d k w) (code (fcodes f) i) < D)%nat -> (Z.of_nat (differing (turns d k w) (code (fcodes f) i)) <= frecover f)%Z ->
  forall s, (s < 4)%nat ->
    exists det, detect homography bright f border c (started s q) per = Ok (Some det) /\
      t_id det = Z.of_nat i /\ t_ham det = Z.of_nat (differing (turns d k w) (code (fcodes f) i)) /\
      t_c det = interpolate q 0 0 /\
      forall j, (j < 4)%nat -> t_p det j = q ((j + k) mod 4)%nat /\
        project (t_H det) (t_h det) (fst (corner j)) (snd (corner j)) = q ((j + k) mod 4)%nat.
Proof.
  intros homography bright f border c q per d w i k D ED D8 FC SEP ORI DQ TK CELLS FW Hi Hk WR REC s Hs.
  assert (TD : Z.to_nat (fdim f) = d) by (rewrite ED; apply Nat2Z.id).
  assert (RC : read_code (fun iy ix => bright (cell_at f border q iy ix)) d = Some w).
  { apply (proj1 (C75_read _ d D8)). split; [ exact FW | exact CELLS ]. }
  pose proof (C76_start bright f border q d s w ED D8 RC) as RS.
  set (m := ((k + (4 - s)) mod 4)%nat).
  assert (M : (m < 4)%nat) by (apply Nat.mod_upper_bound; lia).
  assert (KM : (k = (m + s) mod 4)%nat).
  { unfold m. rewrite Nat.add_mod_idemp_l by lia. replace (k + (4 - s) + s)%nat with (k + 1 * 4)%nat by lia. rewrite Nat.mod_add by lia. rewrite Nat.mod_small by exact Hk. reflexivity. }
  assert (TW : turns d m (turns d s w) = turns d k w).
  { rewrite <- turns_plus, turns_mod by exact FW. rewrite <- KM. reflexivity. }
  pose proof (C75_corrects f (turns d s w) i m D) as CR. cbv zeta in CR. rewrite TD, TW in CR.
  destruct (CR D8 (turns_fits d s w FW) FC SEP Hi M WR) as (det & DEC & ID & _ & _ & GOOD & OR).
  destruct (OR ORI) as (ROT & HAM). specialize (GOOD REC).
  unfold detect. rewrite TD, RS, DEC. cbn [obind]. cbv zeta. rewrite ROT, GOOD.
  assert (DS : distinct (started s q)).
  { intros a b Ha Hb E. unfold started in E. apply DQ in E; [ | apply Nat.mod_upper_bound; lia | apply Nat.mod_upper_bound; lia ].
    clear - Ha Hb E Hs. destruct a as [ | [ | [ | [ | a ] ] ] ]; try lia; destruct b as [ | [ | [ | [ | b ] ] ] ]; try lia;
      destruct s as [ | [ | [ | [ | s ] ] ] ]; try lia; cbn in E; discriminate E. }
  pose proof (project_turned _ _ _ m 0 M ltac:(lia) (TK s Hs)) as P0. cbn [corner fst snd] in P0.
  rewrite P0, (nearest_corner_spec _ (started s q) m M DS).
  2: { unfold started at 1. cbn [Nat.add]. rewrite (Nat.mod_small m) by exact M. reflexivity. }
  destruct (Z.ltb_spec (Z.of_nat m) 0) as [ ? | _ ]; [ lia | ]. rewrite Nat2Z.id.
  eexists. split; [ reflexivity | ]. cbn [t_id t_ham t_c t_p t_H t_h]. split; [ exact ID | ]. split; [ exact HAM | ]. split.
  { clear - Hs. unfold interpolate01. destruct s as [ | [ | [ | [ | s ] ] ] ]; try lia; unfold interpolate, started; cbv zeta; cbn; f_equal; field. }
  assert (ST : forall j, started m (started s q) j = q ((j + k) mod 4)%nat).
  { intros j. rewrite started_started. unfold started. f_equal. rewrite KM, Nat.add_mod_idemp_r by lia. f_equal. }
  intros j Hj. split; [ exact (ST j) | ]. rewrite (project_turned _ _ _ m j M Hj (TK s Hs)). apply ST.
Qed.
Print Assumptions C76_tag.

(** ** C77 *)
(** Whatever the detections: nothing is invented, and each has a kept one with
    the same number that is no worse. *)
Lemma remove_from : forall ds kept,
  (forall x, In x (remove_duplicates ds kept) -> In x kept \/ In x ds) /\
  (forall d, In d kept \/ In d ds -> exists o, In o (remove_duplicates ds kept) /\ t_id o = t_id d /\ no_worse o d).
Proof.
  induction ds as [ | d ds IH ]; intros kept; cbn [remove_duplicates].
  - split; [ intros x H; left; exact H | ]. intros d [ H | [] ]. exists d. split; [ exact H | ]. split; [ reflexivity | apply no_worse_refl ].
  - pose proof (settle_spec d kept) as S. pose proof (settle_length d kept) as L. destruct (settle d kept) as (fresh & kept'). cbn [snd] in L. destruct S as (F & N).
    set (K := if fresh then kept' ++ [d] else kept'). destruct (IH K) as (I1 & I2).
    assert (BACK : forall x, In x kept' -> In x kept \/ x = d).
    { intros x H. apply In_nth_error in H. destruct H as (i & H).
      destruct (nth_error kept i) as [ o | ] eqn:E.
      - destruct (N i o E) as (o' & E' & [ (-> & _) | (-> & _) ]); rewrite H in E'; injection E' as <-; [ left; apply (nth_error_In _ _ E) | right; reflexivity ].
      - exfalso. apply nth_error_None in E. apply (f_equal (fun o => match o with Some _ => true | None => false end)) in H.
        assert (X : nth_error kept' i = None) by (apply nth_error_None; lia). rewrite X in H. discriminate. }
    assert (KEPT : forall o, In o kept -> exists o', In o' K /\ t_id o' = t_id o /\ no_worse o' o).
    { intros o H. apply In_nth_error in H. destruct H as (i & H). destruct (N i o H) as (o' & E' & C). exists o'.
      split; [ unfold K; apply nth_error_In in E'; destruct fresh; [ apply in_or_app; left; exact E' | exact E' ] | ].
      destruct C as [ (-> & _) | (-> & ST & W) ]; [ split; [ reflexivity | apply no_worse_refl ] | split; [ exact (proj1 ST) | exact W ] ]. }
    assert (NEW : exists o', In o' K /\ t_id o' = t_id d /\ no_worse o' d).
    { destruct fresh eqn:FR.
      - exists d. split; [ apply in_or_app; right; left; reflexivity | ]. split; [ reflexivity | apply no_worse_refl ].
      - assert (X : exists o, In o kept /\ same_tag d o).
        { destruct (Exists_dec (fun o => same_tag d o) kept) as [ X | X ].
          - intros o. unfold same_tag. destruct (Z.eq_dec (t_id d) (t_id o)), (Bool.bool_dec (overlaps d o) true); [ left; split; assumption | right; tauto | right; tauto | right; tauto ].
          - apply Exists_exists. exact X.
          - exfalso. assert (false = true); [ | discriminate ]. apply F. intros o Ho ST. apply X, Exists_exists. exists o. split; assumption. }
        destruct X as (o & Ho & ST). apply In_nth_error in Ho. destruct Ho as (i & Ho). destruct (N i o Ho) as (o' & E' & C). exists o'.
        split; [ exact (nth_error_In _ _ E') | ].
        destruct C as [ (-> & W) | (-> & _) ]; [ split; [ symmetry; exact (proj1 ST) | exact (W ST) ] | split; [ reflexivity | apply no_worse_refl ] ]. }
    split.
    + intros x H. destruct (I1 x H) as [ HK | HD ]; [ | right; right; exact HD ]. unfold K in HK. destruct fresh.
      * apply in_app_or in HK. destruct HK as [ HK | [ <- | [] ] ]; [ | right; left; reflexivity ].
        destruct (BACK x HK) as [ ? | -> ]; [ left; assumption | right; left; reflexivity ].
      * destruct (BACK x HK) as [ ? | -> ]; [ left; assumption | right; left; reflexivity ].
    + intros x H. assert (X : exists o', (In o' K \/ In o' ds) /\ t_id o' = t_id x /\ no_worse o' x).
      { destruct H as [ H | [ <- | H ] ].
        - destruct (KEPT x H) as (o & A & B). exists o. split; [ left; exact A | exact B ].
        - destruct NEW as (o & A & B). exists o. split; [ left; exact A | exact B ].
        - exists x. split; [ right; exact H | ]. split; [ reflexivity | apply no_worse_refl ]. }
      destruct X as (o & HO & EI & W). destruct (I2 o HO) as (o2 & A & B & C). exists o2. split; [ exact A | ]. split; [ congruence | exact (no_worse_trans _ _ _ C W) ].
Qed.
Theorem C77_kept : forall ds,
  (forall x, In x (remove_duplicates ds []) -> In x ds) /\
  (forall d, In d ds -> exists o, In o (remove_duplicates ds []) /\ t_id o = t_id d /\ no_worse o d).
Proof.
  intros ds. destruct (remove_from ds []) as (A & B). split.
  - intros x H. destruct (A x H) as [ [] | H' ]. exact H'.
  - intros d H. apply B. right. exact H.
Qed.
Print Assumptions C77_kept.

(** Where overlapping is an equivalence among the detections, exactly one
    detection of each tag is kept, and none of its detections is better. *)
Lemma remove_clustered l : clustered l -> forall ds kept,
  (forall x, In x kept -> In x l) -> (forall x, In x ds -> In x l) ->
  ForallOrdPairs (fun a b => ~ same_tag a b) kept ->
  ForallOrdPairs (fun a b => ~ same_tag a b) (remove_duplicates ds kept) /\
  forall d, In d kept \/ In d ds -> exists o, In o (remove_duplicates ds kept) /\ same_tag o d /\ no_worse o d.
Proof.
  intros (RF & TR). induction ds as [ | d ds IH ]; intros kept IK ID FO; cbn [remove_duplicates].
  - split; [ exact FO | ]. intros d [ H | [] ]. exists d. split; [ exact H | ]. split; [ apply RF, IK, H | apply no_worse_refl ].
  - pose proof (settle_spec d kept) as S. pose proof (settle_length d kept) as L. destruct (settle d kept) as (fresh & kept') eqn:ES. cbn [snd] in L. destruct S as (F & N).
    set (K := if fresh then kept' ++ [d] else kept').
    assert (LD : In d l) by (apply ID; left; reflexivity).
    (* an entry and what it became are the same tag *)
    assert (BEC : forall i o, nth_error kept i = Some o -> exists o', nth_error kept' i = Some o' /\ In o' l /\ same_tag o' o /\ no_worse o' o).
    { intros i o E. destruct (N i o E) as (o' & E' & C). exists o'. split; [ exact E' | ]. assert (LO : In o l) by (apply IK; exact (nth_error_In _ _ E)).
      destruct C as [ (-> & _) | (-> & ST & W) ]; [ split; [ exact LO | split; [ apply RF; exact LO | apply no_worse_refl ] ] | split; [ exact LD | split; assumption ] ]. }
    assert (IK' : forall x, In x kept' -> exists i o, nth_error kept i = Some o /\ nth_error kept' i = Some x).
    { intros x H. apply In_nth_error in H. destruct H as (i & H). destruct (nth_error kept i) as [ o | ] eqn:E; [ exists i, o; split; [ exact E | exact H ] | ].
      apply nth_error_None in E. assert (X : nth_error kept' i = None) by (apply nth_error_None; lia). congruence. }
    assert (LK' : forall x, In x kept' -> In x l).
    { intros x H. destruct (IK' x H) as (i & o & E & E'). destruct (BEC i o E) as (o' & E2 & LO & _). congruence. }
    assert (FO' : ForallOrdPairs (fun a b => ~ same_tag a b) kept').
    { clear - FO BEC TR L IK. revert kept' BEC L. induction FO as [ | a kept A FO IHF ]; intros kept' BEC L.
      - destruct kept'; [ constructor | discriminate ].
      - destruct kept' as [ | a' kept' ]; [ discriminate | ]. constructor.
        + apply Forall_forall. intros b' Hb. apply In_nth_error in Hb. destruct Hb as (i & Hb).
          destruct (BEC 0%nat a eq_refl) as (a2 & E2 & LA & SA & _). cbn in E2. injection E2 as <-.
          assert (X : exists b, nth_error kept i = Some b).
          { destruct (nth_error kept i) eqn:E; [ eexists; reflexivity | ]. apply nth_error_None in E. assert (nth_error kept' i = None) by (apply nth_error_None; cbn in L; lia). congruence. }
          destruct X as (b & Eb). destruct (BEC (S i) b Eb) as (b2 & E2 & LB & SB & _). cbn in E2. assert (b2 = b') by congruence. subst b2.
          rewrite Forall_forall in A. intros ST. apply (A b (nth_error_In _ _ Eb)).
          assert (La : In a l) by (apply IK; left; reflexivity). assert (Lb : In b l) by (apply IK; right; exact (nth_error_In _ _ Eb)).
          apply (TR a a' b La LA Lb (same_tag_sym _ _ SA)). apply (TR a' b' b LA LB Lb ST SB).
        + apply IHF.
          * intros x H. apply IK. right. exact H.
          * intros i o E. exact (BEC (S i) o E).
          * cbn in L. lia. }
    assert (FK : ForallOrdPairs (fun a b => ~ same_tag a b) K).
    { unfold K. destruct fresh eqn:FR; [ | exact FO' ].
      assert (ND : forall x, In x kept' -> ~ same_tag x d).
      { intros x H ST. destruct (IK' x H) as (i & o & E & E'). destruct (BEC i o E) as (o' & E2 & LO & SO & _). assert (o' = x) by congruence. subst o'.
        apply (proj1 F eq_refl o (nth_error_In _ _ E)). apply (TR d x o LD LO (IK o (nth_error_In _ _ E)) (same_tag_sym _ _ ST) SO). }
      clear - FO' ND. induction FO' as [ | a k A FO IHF ]; cbn [app]; [ constructor; constructor | ]. constructor.
      - apply Forall_app. split; [ exact A | ]. constructor; [ | constructor ]. apply ND. left. reflexivity.
      - apply IHF. intros x H. apply ND. right. exact H. }
    assert (LK : forall x, In x K -> In x l).
    { intros x H. unfold K in H. destruct fresh; [ apply in_app_or in H; destruct H as [ H | [ <- | [] ] ]; [ apply LK'; exact H | exact LD ] | apply LK'; exact H ]. }
    destruct (IH K LK (fun x H => ID x (or_intror H)) FK) as (I1 & I2). split; [ exact I1 | ].
    assert (NEW : exists o', In o' K /\ same_tag o' d /\ no_worse o' d).
    { destruct fresh eqn:FR.
      - exists d. split; [ apply in_or_app; right; left; reflexivity | ]. split; [ apply RF; exact LD | apply no_worse_refl ].
      - assert (X : exists o, In o kept /\ same_tag d o).
        { destruct (Exists_dec (fun o => same_tag d o) kept) as [ X | X ].
          - intros o. unfold same_tag. destruct (Z.eq_dec (t_id d) (t_id o)), (Bool.bool_dec (overlaps d o) true); [ left; split; assumption | right; tauto | right; tauto | right; tauto ].
          - apply Exists_exists. exact X.
          - exfalso. assert (false = true); [ | discriminate ]. apply F. intros o Ho ST. apply X, Exists_exists. exists o. split; assumption. }
        destruct X as (o & Ho & ST). apply In_nth_error in Ho. destruct Ho as (i & Ho). destruct (N i o Ho) as (o' & E' & C). exists o'.
        split; [ exact (nth_error_In _ _ E') | ].
        destruct C as [ (-> & W) | (-> & _) ]; [ split; [ apply same_tag_sym; exact ST | exact (W ST) ] | split; [ apply RF; exact LD | apply no_worse_refl ] ]. }
    intros x H.
    assert (X : exists o', (In o' K \/ In o' ds) /\ In o' l /\ In x l /\ same_tag o' x /\ no_worse o' x).
    { destruct H as [ H | [ <- | H ] ].
      - pose proof (IK x H) as LX. apply In_nth_error in H. destruct H as (i & H). destruct (BEC i x H) as (o' & E' & LO & SO & W). exists o'.
        split; [ left; unfold K; apply nth_error_In in E'; destruct fresh; [ apply in_or_app; left; exact E' | exact E' ] | ].
        split; [ exact LO | split; [ exact LX | split; assumption ] ].
      - destruct NEW as (o & A & B & C). exists o. split; [ left; exact A | ]. split; [ exact (LK o A) | split; [ exact LD | split; assumption ] ].
      - assert (LX : In x l) by (apply ID; right; exact H). exists x. split; [ right; exact H | ]. split; [ exact LX | split; [ exact LX | split; [ apply RF; exact LX | apply no_worse_refl ] ] ]. }
    destruct X as (o & HO & LO & LX & SO & W). destruct (I2 o HO) as (o2 & A & B & C). exists o2. split; [ exact A | ].
    split; [ | exact (no_worse_trans _ _ _ C W) ].
    assert (L2 : In o2 l).
    { destruct (remove_from ds K) as (BK & _). destruct (BK o2 A) as [ Y | Y ]; [ exact (LK _ Y) | apply ID; right; exact Y ]. }
    exact (TR o2 o x L2 LO LX B SO).
Qed.
Theorem C77_one : forall ds, clustered ds ->
  ForallOrdPairs (fun a b => ~ same_tag a b) (remove_duplicates ds []) /\
  forall d, In d ds -> exists o, In o (remove_duplicates ds []) /\ same_tag o d /\ forall x, In x ds -> same_tag x d -> no_worse o x.
Proof.
  intros ds CL. destruct (remove_clustered ds CL ds [] (fun x (H : In x []) => match H with end) (fun x H => H) ltac:(constructor)) as (A & B).
  split; [ exact A | ]. intros d H. destruct (B d (or_intror H)) as (o & HO & SO & _). exists o. split; [ exact HO | ]. split; [ exact SO | ].
  intros x Hx SX. destruct (B x (or_intror Hx)) as (o' & HO' & SO' & W').
  assert (IN : forall y, In y (remove_duplicates ds []) -> In y ds) by (apply C77_kept).
  destruct CL as (RF & TR).
  assert (same_tag o o') as OO.
  { apply (TR o d o' (IN _ HO) H (IN _ HO') SO). apply (TR d x o' H Hx (IN _ HO') (same_tag_sym _ _ SX) (same_tag_sym _ _ SO')). }
  assert (o = o') as ->; [ | exact W' ].
  clear - A HO HO' OO. revert HO HO'. induction A as [ | a k F FO IH ]; [ intros [] | ]. rewrite Forall_forall in F.
  intros [ -> | H1 ] [ -> | H2 ]; [ reflexivity | exfalso; exact (F o' H2 OO) | exfalso; exact (F o H1 (same_tag_sym _ _ OO)) | exact (IH H1 H2) ].
Qed.
Print Assumptions C77_one.

(** ** Examples and the duplicate *)
Definition square (x : R) (i : nat) : point := (x + fst (corner i), snd (corner i)).
Definition seen (x : R) (id ham : Z) (per : R) : detection := Detection id ham (square x) (x, 0) per (fun _ _ => 0) (0, 0).
Lemma distance_level a b y : a <= b -> distance2D (a, y) (b, y) = b - a.
Proof.
  intros L. unfold distance2D. cbn [fst snd]. cbv zeta. replace ((a - b) * (a - b) + (y - y) * (y - y)) with (Rsqr (b - a)) by (unfold Rsqr; ring).
  apply sqrt_Rsqr. lra.
Qed.
Lemma distance_upright x a b : a <= b -> distance2D (x, a) (x, b) = b - a.
Proof.
  intros L. unfold distance2D. cbn [fst snd]. cbv zeta. replace ((x - x) * (x - x) + (a - b) * (a - b)) with (Rsqr (b - a)) by (unfold Rsqr; ring).
  apply sqrt_Rsqr. lra.
Qed.
Lemma overlaps_seen x y i j m n p r : x <= y -> overlaps (seen x i m p) (seen y j n r) = rltb (y - x) 1.
Proof.
  intros L. unfold overlaps, seen, square. cbn [t_p t_c corner fst snd]. cbv zeta. rewrite (distance_level x y 0 L).
  assert (S : forall x, distance2D (x + -1, -1) (x + 1, -1) + distance2D (x + 1, -1) (x + 1, 1) + distance2D (x + 1, 1) (x + -1, 1) + distance2D (x + -1, 1) (x + -1, -1) = 8).
  { intros z. rewrite (distance_sym (z + 1, 1) (z + -1, 1)), (distance_sym (z + -1, 1) (z + -1, -1)), !distance_level, !distance_upright by lra. lra. }
  f_equal. pose proof (S x). pose proof (S y). lra.
Qed.

(** Detections A and B of one number that do not overlap, then a better one C
    overlapping both: C replaces each of them and is returned twice. *)
Theorem C77_duplicate_refuted : exists A B C, overlaps A B = false /\
  remove_duplicates [A; B; C] [] = [C; C] /\ same_tag C C.
Proof.
  exists (seen 0 7 1 8), (seen (3 / 2) 7 1 8), (seen (3 / 4) 7 0 8).
  assert (AB : overlaps (seen 0 7 1 8) (seen (3 / 2) 7 1 8) = false) by (rewrite overlaps_seen by lra; apply rltb_false; lra).
  assert (AC : overlaps (seen 0 7 1 8) (seen (3 / 4) 7 0 8) = true) by (rewrite overlaps_seen by lra; apply rltb_true; lra).
  assert (CB : overlaps (seen (3 / 4) 7 0 8) (seen (3 / 2) 7 1 8) = true) by (rewrite overlaps_seen by lra; apply rltb_true; lra).
  assert (CC : overlaps (seen (3 / 4) 7 0 8) (seen (3 / 4) 7 0 8) = true) by (rewrite overlaps_seen by lra; apply rltb_true; lra).
  split; [ exact AB | ]. split; [ | split; [ reflexivity | exact CC ] ].
  cbn [remove_duplicates settle app]. rewrite (overlaps_sym (seen (3 / 2) 7 1 8)), AB. cbn [remove_duplicates settle app negb orb t_id seen Z.eqb Pos.eqb].
  rewrite (overlaps_sym (seen (3 / 4) 7 0 8) (seen 0 7 1 8)), AC, CB. reflexivity.
Qed.
Print Assumptions C77_duplicate_refuted.

(** Two tags, one of them seen twice. *)
Example C77_ex : let ds := [seen 0 7 1 8; seen 5 9 0 8; seen (1 / 2) 7 0 8] in
  clustered ds /\ remove_duplicates ds [] = [seen (1 / 2) 7 0 8; seen 5 9 0 8].
Proof.
  cbv zeta.
  assert (SELF : forall x i m p, overlaps (seen x i m p) (seen x i m p) = true) by (intros; rewrite overlaps_seen by lra; apply rltb_true; lra).
  assert (O1 : overlaps (seen 0 7 1 8) (seen (1 / 2) 7 0 8) = true) by (rewrite overlaps_seen by lra; apply rltb_true; lra).
  split.
  - assert (ID : forall a b, In a [seen 0 7 1 8; seen 5 9 0 8; seen (1 / 2) 7 0 8] -> In b [seen 0 7 1 8; seen 5 9 0 8; seen (1 / 2) 7 0 8] -> t_id a = t_id b -> overlaps a b = true).
    { intros a b [ <- | [ <- | [ <- | [] ] ] ] [ <- | [ <- | [ <- | [] ] ] ] E; cbn in E; try discriminate; try apply SELF; [ exact O1 | rewrite overlaps_sym; exact O1 ]. }
    split.
    + intros a H. split; [ reflexivity | apply ID; [ exact H | exact H | reflexivity ] ].
    + intros a b c A B C (E1 & _) (E2 & _). assert (E : t_id a = t_id c) by congruence. split; [ exact E | apply ID; assumption ].
  - cbn [remove_duplicates settle app negb orb t_id seen Z.eqb Pos.eqb]. rewrite (overlaps_sym (seen (1 / 2) 7 0 8)), O1. reflexivity.
Qed.

(** Tag 7 upside down with one wrong cell, on a square of the image whose
    homography is the affine map onto it. *)
Definition ex_quad (i : nat) : point := (100 + 50 * fst (corner i), 80 + 50 * snd (corner i)).
Definition affine (q : nat -> point) (c : point) : matrix := fun i j =>
  match i, j with
  | 0%nat, 0%nat => (fst (q 1%nat) - fst (q 0%nat)) / 2 | 0%nat, 1%nat => (fst (q 3%nat) - fst (q 0%nat)) / 2 | 0%nat, 2%nat => (fst (q 0%nat) + fst (q 2%nat)) / 2 - fst c
  | 1%nat, 0%nat => (snd (q 1%nat) - snd (q 0%nat)) / 2 | 1%nat, 1%nat => (snd (q 3%nat) - snd (q 0%nat)) / 2 | 1%nat, 2%nat => (snd (q 0%nat) + snd (q 2%nat)) / 2 - snd c
  | 2%nat, 2%nat => 1 | _, _ => 0
  end.
Definition ex_word : N := N.lxor (turns 6 2 (code TagTables.t36h11 7)) 32.
Definition ex_bright (p : point) : option bool :=
  Some (picture 6 ex_word (Z.to_nat (Int_part ((snd p - 30) / 10) - 2)) (Z.to_nat (Int_part ((fst p - 50) / 10) - 2))).
Lemma int_part_half n : Int_part (2 + INR n + / 2) = (2 + Z.of_nat n)%Z.
Proof.
  unfold Int_part. assert (E : (2 + Z.of_nat n + 1 = up (2 + INR n + / 2))%Z).
  { apply tech_up; rewrite !plus_IZR, <- INR_IZR_INZ; lra. }
  lia.
Qed.
Example C76_ex : let f := TagTables.tagCodes36h11 in
  distinct ex_quad /\ (forall s, (s < 4)%nat -> takes (affine (started s ex_quad) (320, 240)) (320, 240) (started s ex_quad)) /\
  (forall y x, (y < 6)%nat -> (x < 6)%nat -> ex_bright (cell_at f 2 ex_quad y x) = Some (picture 6 ex_word y x)) /\
  forall s, (s < 4)%nat -> exists det, detect affine ex_bright f 2 (320, 240) (started s ex_quad) 400 = Ok (Some det) /\
    t_id det = 7%Z /\ t_ham det = 1%Z /\ t_c det = (100, 80) /\ t_p det 0%nat = (150, 130).
Proof.
  cbv zeta.
  assert (D : distinct ex_quad).
  { intros i j Hi Hj E. unfold ex_quad in E. injection E as E1 E2. destruct i as [ | [ | [ | [ | i ] ] ] ]; try lia; destruct j as [ | [ | [ | [ | j ] ] ] ]; try lia; cbn in E1, E2; lra. }
  assert (T : forall s, (s < 4)%nat -> takes (affine (started s ex_quad) (320, 240)) (320, 240) (started s ex_quad)).
  { intros s Hs i Hi. cbv zeta. destruct s as [ | [ | [ | [ | s ] ] ] ]; try lia; destruct i as [ | [ | [ | [ | i ] ] ] ]; try lia; cbn; (split; [ lra | split; field ]). }
  assert (C : forall y x, (y < 6)%nat -> (x < 6)%nat -> ex_bright (cell_at TagTables.tagCodes36h11 2 ex_quad y x) = Some (picture 6 ex_word y x)).
  { intros y x Hy Hx. unfold ex_bright, cell_at, interpolate01, interpolate. cbv zeta. cbn [fst snd ex_quad corner].
    change (IZR (2 * Z.of_nat 2 + fdim TagTables.tagCodes36h11)) with 10. change (INR 2) with 2.
    match goal with |- Some (picture 6 ex_word (Z.to_nat (Int_part ?a - 2)) (Z.to_nat (Int_part ?b - 2))) = _ =>
      replace a with (2 + INR y + / 2) by field; replace b with (2 + INR x + / 2) by field end.
    rewrite !int_part_half. f_equal. f_equal; lia. }
  split; [ exact D | ]. split; [ exact T | ]. split; [ exact C | ]. intros s Hs.
  destruct (C75_families TagTables.tagCodes36h11) as (D8 & _ & FC & SEP & _ & ORI); [ unfold checked; cbn; tauto | ].
  specialize (ORI ltac:(unfold checked_oriented; cbn; tauto)).
  assert (W : differing (turns 6 2 ex_word) (code (fcodes TagTables.tagCodes36h11) 7) = 1%nat) by (vm_compute; reflexivity).
  destruct (C76_tag affine ex_bright TagTables.tagCodes36h11 2 (320, 240) ex_quad 400 6 ex_word 7 2 11 eq_refl D8 FC SEP ORI D T C) with (s := s) as (det & A & B & H & CC & P).
  - vm_compute. reflexivity.
  - vm_compute. lia.
  - lia.
  - rewrite W. lia.
  - rewrite W. cbn. lia.
  - exact Hs.
  - exists det. rewrite W in H. split; [ exact A | ]. split; [ exact B | ]. split; [ exact H | ]. split.
    + rewrite CC. unfold interpolate, ex_quad. cbn. f_equal; field.
    + rewrite (proj1 (P 0%nat ltac:(lia))). unfold ex_quad. cbn. f_equal; lra.
Qed.
