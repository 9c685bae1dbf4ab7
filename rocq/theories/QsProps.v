(** * C80: chaining line segments into quadrilaterals *)
From Coq Require Import Reals ZArith List Bool Lia Lra Permutation.
From Verif Require Import Base KinModel RotEuler LutModel LutSpec LutProofs LutProps TdModel QsModel QsSpec QsProofs QsSearch.
Import ListNotations.
Local Open Scope R_scope.

(** A fitted line becomes a segment between the same points whose length and
    angle agree with them, with at least half of the gradients (by magnitude) on
    one and the same side. *)
Theorem C80_segment : forall p0 p1 votes s, make_segment p0 p1 votes = Some s ->
  proper s /\ (s_p0 s = p0 /\ s_p1 s = p1 \/ s_p0 s = p1 /\ s_p1 s = p0) /\
  ((forall v, In v votes -> 0 <= snd v) ->
     weight (fun t => cross (course s) (cos t, sin t) < 0) (fun t => Rlt_dec _ _) votes <=
     weight (fun t => 0 <= cross (course s) (cos t, sin t)) (fun t => Rle_dec _ _) votes).
Proof.
  intros p0 p1 votes s H. destruct (make_segment_proper _ _ _ _ H) as (A & B). split; [ exact A | ]. split; [ exact B | ]. intros N. exact (make_segment_votes _ _ _ _ H N).
Qed.
Print Assumptions C80_segment.

Lemma quadrilateral_turn a b c d p q r s : quadrilateral a b c d p q r s -> quadrilateral b c d a q r s p.
Proof.
  intros ((C1 & C2 & C3 & C4) & (N1 & N2 & N3 & N4) & (w & x & y & z & T1 & T2 & T3 & T4 & S) & (D1 & D2) & (BIG & RAT)).
  split; [ tauto | ]. split; [ tauto | ]. split; [ exists x, y, z, w; split; [ exact T2 | split; [ exact T3 | split; [ exact T4 | split; [ exact T1 | lra ] ] ] ] | ].
  split; [ split; [ exact D2 | rewrite norm_minus; exact D1 ] | ]. cbv zeta in BIG, RAT |- *. cbn [In] in BIG, RAT |- *.
  split; [ intros e HE; apply BIG; tauto | intros e f HE HF; apply RAT; tauto ].
Qed.

(** The grid and the successors *)
Lemma add_all_ok (os : list (R * R * nat)) : forall g : grid nat, g_x0 g = 0 -> g_y0 g = 0 -> g_pp g = 10 ->
  (forall o, In o os -> Rabs (fst (fst o)) <= 1000000000 /\ Rabs (snd (fst o)) <= 1000000000) -> exists g', add_all g os = Ok g' /\ same_shape g g'.
Proof.
  induction os as [ | [ [ x y ] o ] r IH ]; intros g X Y P B; cbn [add_all].
  - exists g. split; [ reflexivity | ]. unfold same_shape. tauto.
  - destruct (B _ (or_introl eq_refl)) as (BX & BY). cbn [fst snd] in BX, BY.
    destruct (proj1 (C79_defined g x y ltac:(rewrite P; lra))) with (o := o) as (g1 & E); [ rewrite X, P, Rminus_0_r; lra | rewrite Y, P, Rminus_0_r; lra | ].
    rewrite E. cbn [obind]. pose proof (add_shape _ _ _ _ _ E) as SH. destruct SH as (S1 & S2 & S3 & S4 & S5).
    destruct (IH g1) as (g2 & E2 & SH2); [ congruence | congruence | congruence | intros o' HO; apply B; right; exact HO | ].
    exists g2. split; [ exact E2 | ]. apply (shape_trans g g1 g2); [ unfold same_shape; tauto | exact SH2 ].
Qed.

Section Run.
Variables (segs : list segment) (width height : R).
Notation sg := (nth_segment segs).
Hypothesis WOK : 0 <= width <= 1000000000.
Hypothesis HOK : 0 <= height <= 1000000000.
Hypothesis SOK : forall s, In s segs -> proper s /\ in_reach s.

Lemma sg_in i : (i < length segs)%nat -> proper (sg i) /\ in_reach (sg i).
Proof. intros H. apply SOK. unfold nth_segment. apply nth_In. exact H. Qed.

Lemma gridder_ok : exists g g', make_gridder segs width height = Ok g' /\ g_pp g = 10 /\ (1 <= g_w g)%Z /\ (1 <= g_h g)%Z /\ (forall j i, g_cells g j i = []) /\
   g_x0 g = 0 /\ g_y0 g = 0 /\
   (forall x y, 0 <= x <= width -> 0 <= y <= height -> covered g (x, y)) /\
   add_all g (map (fun i => let s := sg i in (s_p0 s, i)) (seq 0 (length segs))) = Ok g' /\ same_shape g g'.
Proof.
  destruct (@C79_make nat 0 0 width height 10) as (g & MK & X0 & Y0 & PP & W & H & COV); try lra.
  assert (EMP : forall j i, g_cells g j i = []).
  { assert (QX : 0 <= (width - 0) / 10 < 2147483646) by lra. assert (QY : 0 <= (height - 0) / 10 < 2147483646) by lra.
    unfold make_grid, quotient in MK. destruct (Req_EM_T 10 0); [ lra | ]. cbn [obind] in MK. rewrite !to_int_fits in MK by lra. cbn [obind] in MK.
    destruct (_ || _) in MK; [ discriminate | ]. match type of MK with Ok ?e = _ => assert (XE : g = e) by congruence end. rewrite XE. reflexivity. }
  set (os := map (fun i => let s := sg i in (s_p0 s, i)) (seq 0 (length segs))).
  destruct (add_all_ok os g X0 Y0 PP) as (g' & ADD & SH).
  { intros o HO. unfold os in HO. apply in_map_iff in HO. destruct HO as (i & <- & HI). apply in_seq in HI. cbv zeta. cbn [fst snd]. destruct (sg_in i ltac:(lia)) as (_ & (B & _)). exact B. }
  exists g, g'. split; [ unfold make_gridder; rewrite MK; cbn [obind]; exact ADD | ].
  split; [ exact PP | ]. split; [ exact W | ]. split; [ exact H | ]. split; [ exact EMP | ]. split; [ exact X0 | ]. split; [ exact Y0 | ]. split; [ exact COV | ]. split; [ exact ADD | exact SH ].
Qed.

Lemma children_ok g' : make_gridder segs width height = Ok g' -> forall i, (i < length segs)%nat ->
  exists bound l, (forall n, (bound <= n)%nat -> children_of n segs g' i = Ok l) /\ NoDup l /\
    (forall j, In j l -> (j < length segs)%nat /\ successor (sg i) (sg j)) /\
    (forall j, (j < length segs)%nat -> starts_near width height (sg i) (sg j) -> successor (sg i) (sg j) -> In j l).
Proof.
  intros MG i HI. destruct gridder_ok as (g & g2 & MG2 & PP & W & H & EMP & X0 & Y0 & COV & ADD & SH). assert (g2 = g') by congruence. subst g2. clear MG2.
  destruct (sg_in i HI) as (PR & ((_ & _) & (BX & BY) & BL)). pose proof PR as (L4 & _).
  destruct SH as (S1 & S2 & S3 & S4 & S5).
  destruct (proj2 (C79_defined g' (fst (s_p1 (sg i))) (snd (s_p1 (sg i))) ltac:(rewrite S5, PP; lra)) (/ 2 * s_length (sg i))) as (it & FI).
  { rewrite S3. exact W. } { rewrite S4. exact H. } { lra. } { rewrite S1, X0, Rminus_0_r, S5, PP. lra. } { rewrite S2, Y0, Rminus_0_r, S5, PP. lra. }
  set (os := map (fun i => let s := sg i in (s_p0 s, i)) (seq 0 (length segs))) in *.
  destruct (C79_find g g' os (fst (s_p1 (sg i))) (snd (s_p1 (sg i))) (/ 2 * s_length (sg i)) it) as (ch & l & b & DR & PM & NE & _); [ rewrite PP; lra | exact W | exact H | exact EMP | lra | exact ADD | exact FI | ].
  assert (OSL : map snd (filter (fun e => ch (fst e)) os) = filter (fun j => ch (s_p0 (sg j))) (seq 0 (length segs))).
  { unfold os. generalize (seq 0 (length segs)) as l0. induction l0 as [ | x l0 IH ]; cbn [map filter fst]; [ reflexivity | ]. cbv zeta in *. destruct (ch (s_p0 (sg x))); cbn [map snd]; rewrite IH; reflexivity. }
  rewrite OSL in PM.
  assert (INL : forall j, In j l <-> (j < length segs)%nat /\ ch (s_p0 (sg j)) = true).
  { intros j. split.
    - intros HJ. apply (Permutation_in _ PM) in HJ. apply filter_In in HJ. destruct HJ as (A & B). apply in_seq in A. split; [ lia | exact B ].
    - intros (A & B). apply (Permutation_in _ (Permutation_sym PM)). apply filter_In. split; [ apply in_seq; lia | exact B ]. }
  exists b, (filter (fun j => follows (sg i) (sg j)) l). split; [ | split; [ | split ] ].
  - intros n HN. unfold children_of. cbv zeta. rewrite FI. cbn [obind]. rewrite (DR n n HN HN). reflexivity.
  - apply NoDup_filter. apply (Permutation_NoDup (Permutation_sym PM)). apply NoDup_filter, seq_NoDup.
  - intros j HJ. apply filter_In in HJ. destruct HJ as (A & B). apply INL in A. destruct A as (A & _). split; [ exact A | ]. apply follows_spec; [ exact PR | apply sg_in; exact A | exact B ].
  - intros j HJ (PX & PY & NX & NY) SU. apply filter_In. split.
    + apply INL. split; [ exact HJ | ]. destruct (sg j) as [ [ x y ] p1 th ln ] eqn:EJ. cbn [s_p0 fst snd] in *. apply NE; [ apply COV; assumption | ]. unfold near. cbn [fst snd]. split; lra.
    + apply follows_spec; [ exact PR | apply sg_in; exact HJ | exact SU ].
Qed.

Lemma all_children_ok g' : make_gridder segs width height = Ok g' -> exists bound cs, (forall n, (bound <= n)%nat -> all_children n segs g' (seq 0 (length segs)) = Ok cs) /\
  (forall i, NoDup (nth i cs [])) /\ (forall i j, In j (nth i cs []) -> (i < length segs)%nat /\ (j < length segs)%nat /\ successor (sg i) (sg j)) /\
  (forall i j, (i < length segs)%nat -> (j < length segs)%nat -> starts_near width height (sg i) (sg j) -> successor (sg i) (sg j) -> In j (nth i cs [])).
Proof.
  intros MG.
  assert (G : forall m k, (k + m <= length segs)%nat -> exists bound cs, (forall n, (bound <= n)%nat -> all_children n segs g' (seq k m) = Ok cs) /\ length cs = m /\
    (forall i, NoDup (nth i cs [])) /\ (forall i j, In j (nth i cs []) -> (k + i < length segs)%nat /\ (j < length segs)%nat /\ successor (sg (k + i)%nat) (sg j)) /\
    (forall i j, (i < m)%nat -> (j < length segs)%nat -> starts_near width height (sg (k + i)%nat) (sg j) -> successor (sg (k + i)%nat) (sg j) -> In j (nth i cs []))).
  { induction m as [ | m IH ]; intros k HK.
    - exists 0%nat, []. cbn [seq all_children length]. split; [ reflexivity | ]. split; [ reflexivity | ]. split; [ intros [ | i ]; constructor | ]. split; [ intros [ | i ] j [] | intros; lia ].
    - destruct (IH (S k) ltac:(lia)) as (b2 & cs & A1 & A2 & A3 & A4 & A5). destruct (children_ok g' MG k ltac:(lia)) as (b1 & l & B1 & B2 & B3 & B4).
      exists (b1 + b2)%nat, (l :: cs). split; [ intros n HN; cbn [seq all_children]; rewrite B1 by lia; cbn [obind]; rewrite A1 by lia; reflexivity | ].
      split; [ cbn [length]; lia | ]. split; [ intros [ | i ]; cbn [nth]; [ exact B2 | apply A3 ] | ]. split.
      + intros [ | i ] j; cbn [nth]; intros HJ; [ rewrite Nat.add_0_r; split; [ lia | exact (B3 j HJ) ] | ]. destruct (A4 i j HJ) as (X & Y & Z). rewrite Nat.add_succ_comm in X, Z. tauto.
      + intros [ | i ] j HI HJ; cbn [nth]; [ rewrite Nat.add_0_r; apply B4; exact HJ | ]. rewrite <- Nat.add_succ_comm. apply A5; [ lia | exact HJ ]. }
  destruct (G (length segs) 0%nat ltac:(lia)) as (b & cs & A1 & A2 & A3 & A4 & A5). exists b, cs. cbn [Nat.add] in *. split; [ exact A1 | ]. split; [ exact A3 | ]. split; [ exact A4 | exact A5 ].
Qed.
End Run.

Lemma rotation_cases {A} (a b c d : A) l : rotation [a; b; c; d] l -> l = [a; b; c; d] \/ l = [b; c; d; a] \/ l = [c; d; a; b] \/ l = [d; a; b; c].
Proof.
  intros (m & n & E & ->). destruct m as [ | m0 [ | m1 [ | m2 [ | m3 [ | m4 m ] ] ] ] ]; cbn [app] in E.
  - subst n. rewrite app_nil_r. tauto.
  - injection E as <- <-. cbn [app]. tauto.
  - injection E as <- <- <-. cbn [app]. tauto.
  - injection E as <- <- <- <-. cbn [app]. tauto.
  - injection E as <- <- <- <- <-. cbn [app]. tauto.
  - discriminate.
Qed.

(** For segments as built above, of any number, the chaining and the search end
    and report: only loops of four segments, each a successor of the one before,
    that make a quadrilateral, with its corners where the lines cross and the sum
    of the lengths as perimeter; never the same loop twice, also not from
    another of its segments; and every such loop of segments that start in the
    picture near the end of the one before. *)
Theorem C80_quads : forall segs width height, 0 <= width <= 1000000000 -> 0 <= height <= 1000000000 -> (forall s, In s segs -> proper s /\ in_reach s) ->
  exists bound qs, (forall n, (bound <= n)%nat -> quads_of n segs width height = Ok qs) /\
    (forall q, In q qs -> exists a b c d p1 p2 p3 p4, (a < length segs)%nat /\ (b < length segs)%nat /\ (c < length segs)%nat /\ (d < length segs)%nat /\
       (successor (nth a segs s0) (nth b segs s0) /\ successor (nth b segs s0) (nth c segs s0) /\ successor (nth c segs s0) (nth d segs s0) /\ successor (nth d segs s0) (nth a segs s0)) /\
       quadrilateral (nth a segs s0) (nth b segs s0) (nth c segs s0) (nth d segs s0) p1 p2 p3 p4 /\
       q_points q = [p1; p2; p3; p4] /\ q_segments q = [a; b; c; d; a] /\
       q_perimeter q = s_length (nth a segs s0) + s_length (nth b segs s0) + s_length (nth c segs s0) + s_length (nth d segs s0)) /\
    (forall i j q q', nth_error qs i = Some q -> nth_error qs j = Some q' -> rotation (firstn 4 (q_segments q)) (firstn 4 (q_segments q')) -> i = j) /\
    (forall a b c d p1 p2 p3 p4, (a < length segs)%nat -> (b < length segs)%nat -> (c < length segs)%nat -> (d < length segs)%nat ->
       let A := nth a segs s0 in let B := nth b segs s0 in let C := nth c segs s0 in let D := nth d segs s0 in
       successor A B -> successor B C -> successor C D -> successor D A ->
       starts_near width height A B -> starts_near width height B C -> starts_near width height C D -> starts_near width height D A ->
       quadrilateral A B C D p1 p2 p3 p4 ->
       exists q, In q qs /\ rotation [(a, p1); (b, p2); (c, p3); (d, p4)] (combine (q_segments q) (q_points q))).
Proof.
  intros segs width height WOK HOK SOK. destruct (gridder_ok segs width height WOK HOK SOK) as (_ & g' & MG & _).
  destruct (all_children_ok segs width height WOK HOK SOK g' MG) as (bound & cs & A1 & A2 & A3 & A4).
  set (ch := fun i => nth i cs []). exists bound, (find_quads segs ch).
  pose proof (sg_in segs SOK) as PR.
  assert (DIST : forall a b c d, In b (ch a) -> In c (ch b) -> In d (ch c) -> In a (ch d) ->
     s_theta (nth_segment segs a) <> s_theta (nth_segment segs b) /\ s_theta (nth_segment segs b) <> s_theta (nth_segment segs c) /\ s_theta (nth_segment segs c) <> s_theta (nth_segment segs d) /\
     s_theta (nth_segment segs d) <> s_theta (nth_segment segs a) /\ s_theta (nth_segment segs a) <> s_theta (nth_segment segs c) /\ s_theta (nth_segment segs b) <> s_theta (nth_segment segs d)).
  { intros a b c d B C D E. destruct (A3 a b B) as (LA & LB & SB). destruct (A3 b c C) as (_ & LC & SC). destruct (A3 c d D) as (_ & LD & SD). destruct (A3 d a E) as (_ & _ & SA).
    destruct (PR a LA) as (PA & _), (PR b LB) as (PB & _), (PR c LC) as (PC & _), (PR d LD) as (PD & _).
    split; [ apply successor_distinct; assumption | ]. split; [ apply successor_distinct; assumption | ]. split; [ apply successor_distinct; assumption | ]. split; [ apply successor_distinct; assumption | ].
    split; [ apply (successor_opposite _ (nth_segment segs b)); assumption | apply (successor_opposite _ (nth_segment segs c)); assumption ]. }
  split; [ | split; [ | split ] ].
  - intros n HN. unfold quads_of. rewrite MG. cbn [obind]. rewrite (A1 n HN). reflexivity.
  - intros q HQ. apply find_quads_in in HQ. destruct HQ as (a & b & c & d & p1 & p2 & p3 & p4 & HA & HB & HC & HD & HE & _ & _ & _ & QU & ->).
    destruct (A3 a b HB) as (_ & LB & SB). destruct (A3 b c HC) as (_ & LC & SC). destruct (A3 c d HD) as (_ & LD & SD). destruct (A3 d a HE) as (_ & _ & SA).
    exists a, b, c, d, p1, p2, p3, p4. cbn [q_points q_segments q_perimeter]. split; [ exact HA | ]. split; [ exact LB | ]. split; [ exact LC | ]. split; [ exact LD | ].
    split; [ split; [ exact SB | split; [ exact SC | split; [ exact SD | exact SA ] ] ] | ]. split; [ exact QU | ]. split; [ reflexivity | ]. split; [ reflexivity | ]. reflexivity.
  - intros i j q q' NI NJ RO. pose proof (find_quads_nodup segs ch A2) as ND.
    assert (SAME : q_segments q = q_segments q').
    { pose proof (nth_error_In _ _ NI) as HQ. pose proof (nth_error_In _ _ NJ) as HQ'. apply find_quads_in in HQ, HQ'.
      destruct HQ as (a & b & c & d & p1 & p2 & p3 & p4 & _ & HB & HC & HD & HE & T1 & T2 & T3 & _ & ->). destruct HQ' as (a' & b' & c' & d' & p1' & p2' & p3' & p4' & _ & HB' & HC' & HD' & HE' & T1' & T2' & T3' & _ & ->).
      cbn [q_segments firstn] in RO |- *. destruct (DIST a b c d HB HC HD HE) as (X1 & X2 & X3 & X4 & X5 & X6).
      apply rotation_cases in RO. destruct RO as [ E | [ E | [ E | E ] ] ]; injection E as -> -> -> ->; try reflexivity; exfalso; lra. }
    assert (MI : nth_error (map q_segments (find_quads segs ch)) i = Some (q_segments q)) by (rewrite nth_error_map, NI; reflexivity).
    assert (MJ : nth_error (map q_segments (find_quads segs ch)) j = Some (q_segments q)) by (rewrite nth_error_map, NJ, SAME; reflexivity).
    assert (LI : (i < length (map q_segments (find_quads segs ch)))%nat) by (apply nth_error_Some; rewrite MI; discriminate).
    apply (proj1 (NoDup_nth_error _) ND i j LI). congruence.
  - intros a b c d p1 p2 p3 p4 LA LB LC LD A B C D S1 S2 S3 S4 N1 N2 N3 N4 QU.
    assert (HB : In b (ch a)) by (apply A4; assumption). assert (HC : In c (ch b)) by (apply A4; assumption). assert (HD : In d (ch c)) by (apply A4; assumption). assert (HA : In a (ch d)) by (apply A4; assumption).
    pose proof (quadrilateral_turn _ _ _ _ _ _ _ _ QU) as QU2. pose proof (quadrilateral_turn _ _ _ _ _ _ _ _ QU2) as QU3. pose proof (quadrilateral_turn _ _ _ _ _ _ _ _ QU3) as QU4.
    set (ta := s_theta A). set (tb := s_theta B). set (tc := s_theta C). set (td := s_theta D).
    assert (MAX : (tb <= ta /\ tc <= ta /\ td <= ta) \/ (ta <= tb /\ tc <= tb /\ td <= tb) \/ (ta <= tc /\ tb <= tc /\ td <= tc) \/ (ta <= td /\ tb <= td /\ tc <= td)).
    { destruct (Rle_dec tb ta), (Rle_dec tc ta), (Rle_dec td ta), (Rle_dec tc tb), (Rle_dec td tb), (Rle_dec td tc); lra. }
    destruct MAX as [ (M1 & M2 & M3) | [ (M1 & M2 & M3) | [ (M1 & M2 & M3) | (M1 & M2 & M3) ] ] ].
    + exists (Quad [p1; p2; p3; p4] [a; b; c; d; a] (perimeter segs a b c d)). split; [ apply find_quads_in; exists a, b, c, d, p1, p2, p3, p4; tauto | ]. exists [], [(a, p1); (b, p2); (c, p3); (d, p4)]. split; reflexivity.
    + exists (Quad [p2; p3; p4; p1] [b; c; d; a; b] (perimeter segs b c d a)). split; [ apply find_quads_in; exists b, c, d, a, p2, p3, p4, p1; tauto | ]. exists [(a, p1)], [(b, p2); (c, p3); (d, p4)]. split; reflexivity.
    + exists (Quad [p3; p4; p1; p2] [c; d; a; b; c] (perimeter segs c d a b)). split; [ apply find_quads_in; exists c, d, a, b, p3, p4, p1, p2; tauto | ]. exists [(a, p1); (b, p2)], [(c, p3); (d, p4)]. split; reflexivity.
    + exists (Quad [p4; p1; p2; p3] [d; a; b; c; d] (perimeter segs d a b c)). split; [ apply find_quads_in; exists d, a, b, c, p4, p1, p2, p3; tauto | ]. exists [(a, p1); (b, p2); (c, p3)], [(d, p4)]. split; reflexivity.
Qed.
Print Assumptions C80_quads.

(** A square of side 40, its left side at [x]. *)
Definition box (x : R) : list segment :=
  [Segment (x, 10) (x, 50) (- (PI / 2)) 40; Segment (x, 50) (x + 40, 50) PI 40; Segment (x + 40, 50) (x + 40, 10) (PI / 2) 40; Segment (x + 40, 10) (x, 10) 0 40].
Lemma norm_val u e : dot u u = e * e -> 0 <= e -> norm u = e.
Proof. intros H P. unfold norm. rewrite H. apply sqrt_square. exact P. Qed.
Lemma box_proper x s : In s (box x) -> proper s.
Proof.
  unfold box. cbn [In]. intros [ <- | [ <- | [ <- | [ <- | [] ] ] ] ]; unfold proper, course, minus; cbn [s_p0 s_p1 s_theta s_length fst snd]; rewrite ?cos_neg, ?sin_neg, ?cos_PI2, ?sin_PI2, ?cos_PI, ?sin_PI, ?cos_0, ?sin_0;
    (split; [ lra | split; [ apply norm_val; [ unfold dot; cbn [fst snd]; ring | lra ] | split; ring ] ]).
Qed.
Lemma box_outline x : outline (nth 0 (box x) s0) (nth 1 (box x) s0) (nth 2 (box x) s0) (nth 3 (box x) s0) (x, 50) (x + 40, 50) (x + 40, 10) (x, 10).
Proof.
  unfold box. cbn [nth].
  assert (CR : forall s t p, cross (course s) (course t) = -1600 -> on_line s p -> on_line t p -> crossing s t p).
  { intros s t p E A B. split; [ rewrite E; rewrite Rabs_left; lra | split; assumption ]. }
  assert (TU : forall u v, norm u = 40 -> norm v = 40 -> dot u v = 0 -> cross u v = -1600 -> turn u v (- (PI / 2))).
  { intros u v U V D C. unfold turn. rewrite U, V, D, C, cos_neg, sin_neg, cos_PI2, sin_PI2. pose proof PI_RGT_0. split; [ lra | split; lra ]. }
  assert (N1 : norm (minus (x + 40, 50) (x, 50)) = 40) by (apply norm_val; [ unfold dot, minus; cbn [fst snd]; ring | lra ]).
  assert (N2 : norm (minus (x + 40, 10) (x + 40, 50)) = 40) by (apply norm_val; [ unfold dot, minus; cbn [fst snd]; ring | lra ]).
  assert (N3 : norm (minus (x, 10) (x + 40, 10)) = 40) by (apply norm_val; [ unfold dot, minus; cbn [fst snd]; ring | lra ]).
  assert (N4 : norm (minus (x, 50) (x, 10)) = 40) by (apply norm_val; [ unfold dot, minus; cbn [fst snd]; ring | lra ]).
  split; [ split; [ | split; [ | split ] ]; apply CR; unfold on_line, cross, course, minus; cbn [s_p0 s_p1 fst snd]; ring | ].
  split.
  - exists (- (PI / 2)), (- (PI / 2)), (- (PI / 2)), (- (PI / 2)).
    split; [ apply TU; [ exact N1 | exact N2 | unfold dot, minus; cbn [fst snd]; ring | unfold cross, minus; cbn [fst snd]; ring ] | ].
    split; [ apply TU; [ exact N2 | exact N3 | unfold dot, minus; cbn [fst snd]; ring | unfold cross, minus; cbn [fst snd]; ring ] | ].
    split; [ apply TU; [ exact N3 | exact N4 | unfold dot, minus; cbn [fst snd]; ring | unfold cross, minus; cbn [fst snd]; ring ] | ].
    split; [ apply TU; [ exact N4 | exact N1 | unfold dot, minus; cbn [fst snd]; ring | unfold cross, minus; cbn [fst snd]; ring ] | lra ].
  - assert (DG : forall u, dot u u = 3200 -> 6 <= norm u).
    { intros u H. unfold norm. rewrite H. rewrite <- (sqrt_square 6) by lra. apply sqrt_le_1_alt. lra. }
    split; [ split; apply DG; unfold dot, minus; cbn [fst snd]; ring | ]. cbv zeta. rewrite N1, N2, N3, N4. cbn [In].
    split; [ intros e HE; assert (e = 40) by (decompose [or] HE; congruence || tauto); lra | ].
    intros e f HE HF. assert (e = 40) by (decompose [or] HE; congruence || tauto). assert (f = 40) by (decompose [or] HF; congruence || tauto). lra.
Qed.
Lemma outline_quadrilateral a b c d p q r s : outline a b c d p q r s -> fst p <> -1 -> fst q <> -1 -> fst r <> -1 -> fst s <> -1 -> quadrilateral a b c d p q r s.
Proof. intros (A & B & C & D) P Q U S. unfold quadrilateral. cbv zeta in *. tauto. Qed.
Lemma box_successor x i : x <> -1 -> x + 40 <> -1 -> (i < 4)%nat -> successor (nth i (box x) s0) (nth ((i + 1) mod 4) (box x) s0).
Proof.
  intros X Y HI. pose proof (box_outline x) as ((C0 & C1 & C2 & C3) & _).
  assert (ZERO : forall p, norm (minus p p) <= 40) by (intros p; rewrite (norm_val _ 0); [ lra | unfold dot, minus; cbn [fst snd]; ring | lra ]).
  destruct i as [ | [ | [ | [ | i ] ] ] ]; [ | | | | lia ]; cbn [Nat.add]; [ change (1 mod 4)%nat with 1%nat | change (2 mod 4)%nat with 2%nat | change (3 mod 4)%nat with 3%nat | change (4 mod 4)%nat with 0%nat ];
    (split; [ unfold cross, course, minus, box; cbn [nth s_p0 s_p1 fst snd]; lra | ]).
  - exists (x, 50). split; [ exact C0 | ]. split; [ exact X | ]. split; apply ZERO.
  - exists (x + 40, 50). split; [ exact C1 | ]. split; [ exact Y | ]. split; apply ZERO.
  - exists (x + 40, 10). split; [ exact C2 | ]. split; [ exact Y | ]. split; apply ZERO.
  - exists (x, 10). split; [ exact C3 | ]. split; [ exact X | ]. split; apply ZERO.
Qed.
Lemma box_reach x s : Rabs x <= 1000 -> In s (box x) -> in_reach s.
Proof.
  intros B. assert (BX : Rabs x <= 1000000000) by lra. assert (BY : Rabs (x + 40) <= 1000000000) by (pose proof (Rabs_triang x 40) as T; rewrite (Rabs_pos_eq 40) in T by lra; lra).
  assert (B1 : Rabs 10 <= 1000000000) by (rewrite Rabs_pos_eq; lra). assert (B2 : Rabs 50 <= 1000000000) by (rewrite Rabs_pos_eq; lra).
  unfold box. cbn [In]. intros [ <- | [ <- | [ <- | [ <- | [] ] ] ] ]; unfold in_reach; cbn [s_p0 s_p1 s_length fst snd]; (split; [ tauto | split; [ tauto | lra ] ]).
Qed.

(** The square is found, once. *)
Example C80_ex : exists bound q, (forall n, (bound <= n)%nat -> quads_of n (box 20) 100 100 = Ok [q]) /\ rotation [0; 1; 2; 3]%nat (firstn 4 (q_segments q)) /\
  make_segment (20, 10) (20, 50) [] <> None.
Proof.
  destruct (C80_quads (box 20) 100 100) as (bound & qs & RUN & SND & ONE & ALL); [ lra | lra | intros s HS; split; [ exact (box_proper 20 s HS) | apply (box_reach 20); [ rewrite Rabs_pos_eq; lra | exact HS ] ] | ].
  assert (NEAR : forall i, (i < 4)%nat -> starts_near 100 100 (nth i (box 20) s0) (nth ((i + 1) mod 4) (box 20) s0)).
  { intros i HI. destruct i as [ | [ | [ | [ | i ] ] ] ]; [ | | | | lia ]; cbn [Nat.add]; [ change (1 mod 4)%nat with 1%nat | change (2 mod 4)%nat with 2%nat | change (3 mod 4)%nat with 3%nat | change (4 mod 4)%nat with 0%nat ];
      unfold starts_near, box; cbn [nth s_p0 s_p1 s_length fst snd]; (split; [ lra | split; [ lra | split; rewrite Rminus_diag_eq by reflexivity; rewrite Rabs_R0; lra ] ]). }
  assert (SUC : forall i, (i < 4)%nat -> successor (nth i (box 20) s0) (nth ((i + 1) mod 4) (box 20) s0)) by (intros i HI; apply box_successor; [ lra | lra | exact HI ]).
  pose proof (outline_quadrilateral _ _ _ _ _ _ _ _ (box_outline 20)) as QU. cbn [fst] in QU.
  destruct (ALL 0%nat 1%nat 2%nat 3%nat (20, 50) (20 + 40, 50) (20 + 40, 10) (20, 10)) as (q & HQ & RO); try (cbn; lia); [ exact (SUC 0%nat ltac:(lia)) | exact (SUC 1%nat ltac:(lia)) | exact (SUC 2%nat ltac:(lia)) | exact (SUC 3%nat ltac:(lia)) | exact (NEAR 0%nat ltac:(lia)) | exact (NEAR 1%nat ltac:(lia)) | exact (NEAR 2%nat ltac:(lia)) | exact (NEAR 3%nat ltac:(lia)) | apply QU; lra | ].
  assert (STEP : forall i j, (i < 4)%nat -> (j < 4)%nat -> successor (nth i (box 20) s0) (nth j (box 20) s0) -> j = ((i + 1) mod 4)%nat).
  { intros i j HI HJ (NEG & _). destruct i as [ | [ | [ | [ | i ] ] ] ]; [ | | | | lia ]; (destruct j as [ | [ | [ | [ | j ] ] ] ]; [ | | | | lia ]); try reflexivity; exfalso;
      unfold cross, course, minus, box in NEG; cbn [nth s_p0 s_p1 fst snd] in NEG; lra. }
  assert (FORM : forall q', In q' qs -> rotation [0; 1; 2; 3]%nat (firstn 4 (q_segments q'))).
  { intros q' HQ'. destruct (SND q' HQ') as (a & b & c & d & p1 & p2 & p3 & p4 & LA & LB & LC & LD & (S1 & S2 & S3 & S4) & _ & _ & -> & _). change (length (box 20)) with 4%nat in *.
    pose proof (STEP _ _ LA LB S1) as EB. pose proof (STEP _ _ LB LC S2) as EC. pose proof (STEP _ _ LC LD S3) as ED. subst d. subst c. subst b. cbn [firstn].
    destruct a as [ | [ | [ | [ | a ] ] ] ]; [ | | | | lia ]; cbn.
    - exists [], [0; 1; 2; 3]%nat. split; reflexivity.
    - exists [0]%nat, [1; 2; 3]%nat. split; reflexivity.
    - exists [0; 1]%nat, [2; 3]%nat. split; reflexivity.
    - exists [0; 1; 2]%nat, [3]%nat. split; reflexivity. }
  assert (ROT : forall l l' : list nat, rotation [0; 1; 2; 3]%nat l -> rotation [0; 1; 2; 3]%nat l' -> rotation l l').
  { intros l l' H H'. apply rotation_cases in H, H'. decompose [or] H; decompose [or] H'; subst; 
      first [ exists (@nil nat); eexists; split; [ reflexivity | reflexivity ] | eexists [_]; eexists; split; [ reflexivity | reflexivity ] | eexists [_; _]; eexists; split; [ reflexivity | reflexivity ] | eexists [_; _; _]; eexists; split; [ reflexivity | reflexivity ] ]. }
  exists bound, q. split; [ | split; [ exact (FORM q HQ) | ] ].
  - intros n HN. rewrite (RUN n HN). apply f_equal. destruct qs as [ | q0 [ | q1 r ] ]; [ destruct HQ | destruct HQ as [ -> | [] ]; reflexivity | ].
    exfalso. assert (E : 0%nat = 1%nat) by (apply (ONE 0%nat 1%nat q0 q1); [ reflexivity | reflexivity | apply ROT; apply FORM; cbn [In]; tauto ]). discriminate.
  - unfold make_segment. assert (D : distance2D (20, 10) (20, 50) = 40) by (rewrite distance_norm; apply norm_val; [ unfold dot, minus; cbn [fst snd]; ring | lra ]). rewrite D.
    destruct (Rlt_dec 40 4); [ lra | ]. cbn [votes_for]. discriminate.
Qed.

(** A square with a corner at first coordinate -1, which the code takes for the
    mark of parallel lines, is not found, although it has the outline required. *)
Theorem C80_minus_one_refuted : exists segs p q r s, (forall e, In e segs -> proper e /\ in_reach e) /\ length segs = 4%nat /\
  outline (nth 0 segs s0) (nth 1 segs s0) (nth 2 segs s0) (nth 3 segs s0) p q r s /\
  p = s_p1 (nth 0 segs s0) /\ q = s_p1 (nth 1 segs s0) /\ r = s_p1 (nth 2 segs s0) /\ s = s_p1 (nth 3 segs s0) /\
  exists bound, forall n, (bound <= n)%nat -> quads_of n segs 100 100 = Ok [].
Proof.
  assert (OK : forall e, In e (box (-1)) -> proper e /\ in_reach e) by (intros e HE; split; [ exact (box_proper (-1) e HE) | apply (box_reach (-1)); [ rewrite Rabs_left; lra | exact HE ] ]).
  exists (box (-1)), (-1, 50), (-1 + 40, 50), (-1 + 40, 10), (-1, 10). split; [ exact OK | ]. split; [ reflexivity | ]. split; [ exact (box_outline (-1)) | ].
  split; [ reflexivity | ]. split; [ reflexivity | ]. split; [ reflexivity | ]. split; [ reflexivity | ].
  destruct (C80_quads (box (-1)) 100 100) as (bound & qs & RUN & SND & _); [ lra | lra | exact OK | ].
  exists bound. intros n HN. rewrite (RUN n HN). apply f_equal. destruct qs as [ | q r ]; [ reflexivity | exfalso ].
  destruct (SND q (or_introl eq_refl)) as (a & b & c & d & p1 & p2 & p3 & p4 & LA & LB & LC & LD & (S1 & S2 & S3 & S4) & _). change (length (box (-1))) with 4%nat in *.
  assert (STEP : forall i j, (i < 4)%nat -> (j < 4)%nat -> successor (nth i (box (-1)) s0) (nth j (box (-1)) s0) -> (i = 1 /\ j = 2 \/ i = 2 /\ j = 3)%nat).
  { intros i j HI HJ (NEG & p & CR & NP & _). destruct (box_outline (-1)) as ((C0 & _ & _ & C3) & _).
    destruct i as [ | [ | [ | [ | i ] ] ] ]; [ | | | | lia ]; (destruct j as [ | [ | [ | [ | j ] ] ] ]; [ | | | | lia ]); try lia; exfalso;
      try (unfold cross, course, minus, box in NEG; cbn [nth s_p0 s_p1 fst snd] in NEG; lra).
    - rewrite (crossing_unique _ _ _ _ CR C0) in NP. cbn [fst] in NP. lra.
    - rewrite (crossing_unique _ _ _ _ CR C3) in NP. cbn [fst] in NP. lra. }
  apply STEP in S1; [ | assumption | assumption ]. apply STEP in S2; [ | assumption | assumption ]. apply STEP in S3; [ | assumption | assumption ]. lia.
Qed.
Print Assumptions C80_minus_one_refuted.
