(** C50: geometry and indexing of calibration targets. *)
From Coq Require Import ZArith Reals List Bool Lia Lra.
From Verif Require Import Base Arith RArith CcmModel CcmProofs TgtModel TgtProofs.
Import ListNotations.
Open Scope nat_scope.

(** Every grid point has its own index, and every index its own grid point.
    The library's inverse returns (column, row). *)
Theorem C50_index : forall A (t : target A),
  (forall r c, r < trows t -> c < tcols t ->
     from_grid t r c < tsize t /\ to_grid t (from_grid t r c) = Ok (c, r)) /\
  (forall i, i < tsize t ->
     exists r c, to_grid t i = Ok (c, r) /\ r < trows t /\ c < tcols t /\ from_grid t r c = i).
Proof.
  intros A t. unfold from_grid, to_grid, tsize. split.
  - intros r c Hr Hc. split; [now apply idx_lt | ].
    destruct (Nat.eqb_spec (tcols t) 0); [lia | ]. now rewrite idx_div, idx_mod.
  - intros i Hi. destruct (idx_split _ _ _ Hi) as (H1 & H2 & H3).
    exists (i / tcols t), (i mod tcols t). destruct (Nat.eqb_spec (tcols t) 0); [lia | ].
    repeat split; [assumption.. | now symmetry].
Qed.
Print Assumptions C50_index.

Definition board23 : target RA := Target (A := RA) 2 3 (repeat (0, 0, 0)%R 6).
Example C50_ex_index : to_grid board23 4 = Ok (1, 1) /\ to_grid board23 5 = Ok (2, 1) /\ from_grid board23 1 2 = 5.
Proof. unfold board23. split; [reflexivity | split; reflexivity]. Qed.

(** Feeding the result of pointToGridCoordinates to gridCoordinatesToPoint does
    not give the index back, and may leave the grid. *)
Theorem C50_roundtrip_refuted : exists (t : target RA) i a b,
  i < tsize t /\ to_grid t i = Ok (a, b) /\ from_grid t a b <> i /\ tsize t <= from_grid t a b.
Proof.
  exists board23, 5, 2, 1. unfold board23, tsize, from_grid. cbn [trows tcols].
  split; [lia | ]. split; [reflexivity | ]. split; lia.
Qed.
Print Assumptions C50_roundtrip_refuted.

(** Checkerboard. *)
Theorem C50_checkerboard : forall rows cols (rs cs : R) (raw : list (R * R * R)),
  length raw = rows * cols ->
  ((0 < rs)%R -> (0 < cs)%R -> exists t, checkerboard RA rows cols rs cs raw = Ok t /\
     trows t = rows /\ tcols t = cols /\ @length (R * R * R) (tpoints t) = rows * cols /\
     forall r c, r < rows -> c < cols -> grid_point t r c = Ok (rs * INR r, cs * INR c, 0)%R) /\
  ((rs <= 0)%R \/ (cs <= 0)%R -> checkerboard RA rows cols rs cs raw = Throw).
Proof.
  intros rows cols rs cs raw L. split.
  - intros H1 H2. eexists. split.
    { apply checkerboard_ok; [now apply rlt_true | now apply rlt_true | exact L]. }
    cbn [trows tcols tpoints]. split; [reflexivity | ]. split; [reflexivity | ].
    split; [apply (full_length RA) | ]. intros r c Hr Hc. rewrite full_grid by assumption.
    unfold checkerboard_point. now rewrite !of_nat_R.
  - intros H. unfold checkerboard. cbn [lt of_Z RA].
    destruct (rlt 0 rs) eqn:E1; [ | reflexivity]. destruct (rlt 0 cs) eqn:E2; [ | reflexivity].
    apply rlt_true in E1, E2. lra.
Qed.
Print Assumptions C50_checkerboard.

(** The row spacing, documented as the spacing in y, is the spacing in x. *)
Theorem C50_axes_refuted : exists rows cols (rs cs : R) (raw : list (R * R * R)) t p q,
  length raw = rows * cols /\ checkerboard RA rows cols rs cs raw = Ok t /\
  grid_point t 0 0 = Ok p /\ grid_point t 0 1 = Ok q /\
  fst (fst q) = fst (fst p) /\ snd (fst q) <> snd (fst p).
Proof.
  destruct (C50_checkerboard 1 2 1 1 [(0, 0, 0); (0, 0, 0)]%R eq_refl) as (H & _).
  destruct (H ltac:(lra) ltac:(lra)) as (t & E & _ & _ & _ & P).
  exists 1, 2, 1%R, 1%R, [(0, 0, 0); (0, 0, 0)]%R, t. do 2 eexists.
  split; [reflexivity | ]. split; [exact E | ].
  split; [apply P; lia | ]. split; [apply P; lia | ].
  cbn [fst snd INR]. split; lra.
Qed.
Print Assumptions C50_axes_refuted.

(** Circle grids. *)
Theorem C50_circlegrid : forall rows cols (s : R) asym (raw : list (R * R * R)),
  length raw = rows * cols ->
  ((0 < s)%R -> exists t, circlegrid RA rows cols s asym raw = Ok t /\
     trows t = rows /\ tcols t = cols /\ @length (R * R * R) (tpoints t) = rows * cols /\
     forall r c, r < rows -> c < cols -> grid_point t r c =
       Ok (if asym then (INR (2 * c + r mod 2) * s, INR r * s, 0) else (s * INR r, s * INR c, 0))%R) /\
  ((s <= 0)%R -> circlegrid RA rows cols s asym raw = Throw).
Proof.
  intros rows cols s asym raw L. split.
  - intros H. eexists. split.
    { apply circlegrid_ok; [now apply rlt_true | exact L]. }
    cbn [trows tcols tpoints]. split; [reflexivity | ]. split; [reflexivity | ].
    split; [apply (full_length RA) | ]. intros r c Hr Hc. rewrite full_grid by assumption.
    destruct asym; unfold asymmetric_point, checkerboard_point; now rewrite !of_nat_R.
  - intros H. unfold circlegrid. cbn [lt of_Z RA].
    destruct (rlt 0 s) eqn:E1; [ | reflexivity]. apply rlt_true in E1. lra.
Qed.
Print Assumptions C50_circlegrid.

(** Aprilgrid: the four corners of the tag in tag row [id / tag_cols] and tag
    column [id mod tag_cols] are the corners of a square of the tag's size,
    counter-clockwise from its origin, and origins are (1 + spacing) sizes
    apart. *)
Theorem C50_aprilgrid : forall tag_rows tag_cols (s sp : R) (raw : list (R * R * R)),
  length raw = 4 * (tag_rows * tag_cols) ->
  ((0 < s)%R -> (0 < sp)%R -> exists t, aprilgrid RA tag_rows tag_cols s sp raw = Ok t /\
     trows t = 2 * tag_rows /\ tcols t = 2 * tag_cols /\
     @length (R * R * R) (tpoints t) = 4 * (tag_rows * tag_cols) /\
     forall id, id < tag_rows * tag_cols ->
       let x := (INR (id mod tag_cols) * ((1 + sp) * s))%R in
       let y := (INR (id / tag_cols) * ((1 + sp) * s))%R in
       point t (corner_index RA t id 0) = Ok (x, y, 0)%R /\
       point t (corner_index RA t id 1) = Ok (x + s, y, 0)%R /\
       point t (corner_index RA t id 2) = Ok (x + s, y + s, 0)%R /\
       point t (corner_index RA t id 3) = Ok (x, y + s, 0)%R) /\
  ((s <= 0)%R \/ (sp <= 0)%R -> aprilgrid RA tag_rows tag_cols s sp raw = Throw).
Proof.
  intros tr tc s sp raw L. split.
  - intros H1 H2. eexists. split.
    { apply aprilgrid_ok; [now apply rlt_true | now apply rlt_true | exact L]. }
    cbn [trows tcols tpoints]. split; [reflexivity | ]. split; [reflexivity | ].
    split; [rewrite (full_length RA); lia | ]. intros id Hid.
    set (x := (INR (id mod tc) * ((1 + sp) * s))%R). set (y := (INR (id / tc) * ((1 + sp) * s))%R).
    destruct (tag_row_lt tr tc id Hid) as (D & M).
    assert (C : forall a b, a < 2 -> b < 2 ->
      grid_point (Target (A := RA) (2 * tr) (2 * tc) (full RA (2 * tr) (2 * tc) (april_point RA s sp)))
        (2 * (id / tc) + a) (2 * (id mod tc) + b) = Ok (x + INR b * s, y + INR a * s, 0)%R).
    { intros a b Ha Hb. rewrite full_grid by lia. unfold april_point. rewrite !april_coord_R.
      replace ((2 * (id mod tc) + b) / 2) with (id mod tc) by (apply Nat.div_unique with b; lia).
      replace ((2 * (id mod tc) + b) mod 2) with b by (apply Nat.mod_unique with (id mod tc); lia).
      replace ((2 * (id / tc) + a) / 2) with (id / tc) by (apply Nat.div_unique with a; lia).
      replace ((2 * (id / tc) + a) mod 2) with a by (apply Nat.mod_unique with (id / tc); lia).
      unfold x, y. cbn [of_Z RA]. do 3 f_equal; ring. }
    rewrite !tag_row_col by (assumption || lia). cbn [Nat.eqb orb].
    change (0 / 2) with 0. change (1 / 2) with 0. change (2 / 2) with 1. change (3 / 2) with 1.
    assert (P00 := C 0 0 ltac:(lia) ltac:(lia)). assert (P01 := C 0 1 ltac:(lia) ltac:(lia)).
    assert (P11 := C 1 1 ltac:(lia) ltac:(lia)). assert (P10 := C 1 0 ltac:(lia) ltac:(lia)).
    unfold grid_point, from_grid in P00, P01, P11, P10. cbn [tcols] in P00, P01, P11, P10.
    split; [rewrite P00 | split; [rewrite P01 | split; [rewrite P11 | rewrite P10]]];
      cbn [INR]; do 3 f_equal; ring.
  - intros H. unfold aprilgrid. cbn [lt of_Z RA].
    destruct (rlt 0 s) eqn:E1; [ | reflexivity]. destruct (rlt 0 sp) eqn:E2; [ | reflexivity].
    apply rlt_true in E1, E2. lra.
Qed.
Print Assumptions C50_aprilgrid.

(** The corners of the tags are the points of the grid, each exactly once. *)
Theorem C50_tags : forall A (t : target A) tag_rows tag_cols,
  trows t = 2 * tag_rows -> tcols t = 2 * tag_cols ->
  (forall id j, id < tag_rows * tag_cols -> j < 4 -> corner_index A t id j < tsize t) /\
  (forall i, i < tsize t -> exists id j, id < tag_rows * tag_cols /\ j < 4 /\ corner_index A t id j = i) /\
  (forall id j id' j', id < tag_rows * tag_cols -> j < 4 -> id' < tag_rows * tag_cols -> j' < 4 ->
     corner_index A t id j = corner_index A t id' j' -> id = id' /\ j = j').
Proof.
  intros A [rows cols pts] tr tc. cbn [trows tcols]. intros -> ->. unfold tsize. cbn [trows tcols].
  split; [intros; now apply corner_lt | ]. split; [intros i Hi; now apply corner_onto | ].
  intros id j id' j' H1 H2 H3 H4 E. exact (corner_inj A tr tc pts id j id' j' H1 H2 H3 H4 E).
Qed.
Print Assumptions C50_tags.

Example C50_ex_tags :
  map (corner_index RA (Target (A := RA) 4 4 []) 3) [0; 1; 2; 3] = [10; 11; 15; 14] /\
  map (corner_index RA (Target (A := RA) 4 4 []) 0) [0; 1; 2; 3] = [0; 1; 5; 4].
Proof. split; reflexivity. Qed.

(** No two points of a target coincide. *)
Theorem C50_distinct : forall rows cols (a b : R) asym (raw : list (R * R * R)) t,
  (0 < a)%R -> (0 < b)%R ->
  (length raw = rows * cols /\ checkerboard RA rows cols a b raw = Ok t \/
   length raw = rows * cols /\ circlegrid RA rows cols a asym raw = Ok t \/
   length raw = 4 * (rows * cols) /\ aprilgrid RA rows cols a b raw = Ok t) ->
  (forall i, i < tsize t -> exists p, point t i = Ok p) /\
  (forall i i', i < tsize t -> i' < tsize t -> point t i = point t i' -> i = i').
Proof.
  intros rows cols a b asym raw t Ha Hb H.
  assert (K : exists m n f, t = Target (A := RA) m n (full RA m n f) /\
    forall r c r' c', r < m -> c < n -> r' < m -> c' < n -> f r c = f r' c' -> r = r' /\ c = c').
  { destruct H as [(L & E) | [(L & E) | (L & E)]].
    - rewrite checkerboard_ok in E by (try (now apply rlt_true); exact L).
      exists rows, cols, (checkerboard_point RA a b). split; [congruence | ].
      unfold checkerboard_point. intros r c r' c' _ _ _ _ Q. rewrite !of_nat_R in Q.
      injection Q as Q1 Q2. split; [now apply (scaled_inj a) | now apply (scaled_inj b)].
    - rewrite circlegrid_ok in E by (try (now apply rlt_true); exact L).
      exists rows, cols, (if asym then asymmetric_point RA a else checkerboard_point RA a a).
      split; [congruence | ]. destruct asym.
      + unfold asymmetric_point. intros r c r' c' _ _ _ _ Q. rewrite !of_nat_R in Q.
        injection Q as Q1 Q2. apply (scaled_inj_r a) in Q1; [ | assumption].
        apply (scaled_inj_r a) in Q2; [ | assumption]. subst r'. split; [reflexivity | lia].
      + unfold checkerboard_point. intros r c r' c' _ _ _ _ Q. rewrite !of_nat_R in Q.
        injection Q as Q1 Q2. split; now apply (scaled_inj a).
    - rewrite aprilgrid_ok in E by (try (now apply rlt_true); exact L).
      exists (2 * rows), (2 * cols), (april_point RA a b). split; [congruence | ].
      unfold april_point. intros r c r' c' _ _ _ _ Q. injection Q as Q1 Q2.
      split; now apply (april_inj a b). }
  destruct K as (m & n & f & -> & F). unfold tsize, point. cbn [trows tcols tpoints]. split.
  - intros i Hi. eexists. apply load_ok. now apply full_nth.
  - intros i i' Hi Hi' E. destruct (idx_split _ _ _ Hi) as (H1 & H2 & H3).
    destruct (idx_split _ _ _ Hi') as (H1' & H2' & H3').
    unfold load in E. rewrite !full_nth in E by assumption. injection E as E.
    destruct (F _ _ _ _ H1 H2 H1' H2' E) as (Q1 & Q2). congruence.
Qed.
Print Assumptions C50_distinct.

(** getPointDataPointer refuses every valid index and accepts the others. *)
Theorem C50_data_pointer : forall (t : target RA),
  @length (R * R * R) (tpoints t) = tsize t ->
  (forall i, i < tsize t -> data_pointer t i = Throw) /\
  (forall i, 0 < tsize t -> tsize t <= i -> data_pointer t i = UB).
Proof.
  intros t L. unfold data_pointer. change (num RA) with R. rewrite L. split.
  - intros i Hi. destruct (Nat.eqb_spec (tsize t) 0); [reflexivity | ].
    destruct (Nat.ltb_spec (tsize t - 1) i); [lia | reflexivity].
  - intros i Hs Hi. destruct (Nat.eqb_spec (tsize t) 0); [lia | ].
    destruct (Nat.ltb_spec (tsize t - 1) i); [ | lia]. destruct (Nat.ltb_spec i (tsize t)); [lia | reflexivity].
Qed.
Print Assumptions C50_data_pointer.
Theorem C50_data_pointer_refuted : exists (t : target RA) i,
  i < tsize t /\ point t i = Ok (0, 0, 0)%R /\ data_pointer t i = Throw.
Proof.
  exists board23, 4. unfold board23, tsize. cbn [trows tcols]. split; [lia | ]. split; reflexivity.
Qed.
Print Assumptions C50_data_pointer_refuted.

Example C50_ex_aprilgrid : exists t, aprilgrid RA 2 2 1%R (1/2)%R (repeat (7, 7, 7)%R 16) = Ok t /\
  point t 15 = Ok (5/2, 5/2, 0)%R.
Proof.
  destruct (C50_aprilgrid 2 2 1 (1/2) (repeat (7, 7, 7)%R 16) eq_refl) as (H & _).
  destruct (H ltac:(lra) ltac:(lra)) as (t & E & Er & Ec & _ & P). exists t. split; [exact E | ].
  destruct (P 3 ltac:(lia)) as (_ & _ & Q & _).
  replace (corner_index RA t 3 2) with 15 in Q by (unfold corner_index; rewrite Ec; reflexivity).
  rewrite Q. cbn [Nat.modulo Nat.divmod Nat.div fst snd Nat.sub INR]. do 3 f_equal; lra.
Qed.
