(** * C79: the lookup grid of the tag detector *)
From Coq Require Import Reals ZArith List Bool Lia Lra Permutation ZifyBool.
From Verif Require Import Base LutModel LutSpec LutProofs.
Import ListNotations.
Local Open Scope Z_scope.

Lemma clamp_in n i : 1 <= n -> 0 <= clamp n i <= n - 1.
Proof. unfold clamp. lia. Qed.
Lemma clamp_mono n i j : i <= j -> clamp n i <= clamp n j.
Proof. unfold clamp. lia. Qed.
Lemma clamp_id n i : 0 <= i < n -> clamp n i = i.
Proof. unfold clamp. lia. Qed.

(** Positions whose cell fits an int. *)
Lemma column_fits {T} (g : grid T) x : (0 < g_pp g)%R -> (Rabs (x - g_x0 g) < 2147483648 * g_pp g)%R -> column g x = Ok (col g x).
Proof.
  intros P H. unfold column, quotient. destruct (Req_EM_T (g_pp g) 0); [ lra | ]. cbn [obind]. unfold col. apply to_int_fits. apply Rabs_def2 in H.
  split; [ apply (Rmult_lt_reg_r (g_pp g)); [ exact P | ]; unfold Rdiv; rewrite Rmult_assoc, Rinv_l, Rmult_1_r by lra; lra | ].
  apply (Rmult_lt_reg_r (g_pp g)); [ exact P | ]. unfold Rdiv. rewrite Rmult_assoc, Rinv_l, Rmult_1_r by lra. lra.
Qed.
Lemma row_fits {T} (g : grid T) y : (0 < g_pp g)%R -> (Rabs (y - g_y0 g) < 2147483648 * g_pp g)%R -> row_of g y = Ok (rw g y).
Proof.
  intros P H. unfold row_of, quotient. destruct (Req_EM_T (g_pp g) 0); [ lra | ]. cbn [obind]. unfold rw. apply to_int_fits. apply Rabs_def2 in H.
  split; [ apply (Rmult_lt_reg_r (g_pp g)); [ exact P | ]; unfold Rdiv; rewrite Rmult_assoc, Rinv_l, Rmult_1_r by lra; lra | ].
  apply (Rmult_lt_reg_r (g_pp g)); [ exact P | ]. unfold Rdiv. rewrite Rmult_assoc, Rinv_l, Rmult_1_r by lra. lra.
Qed.
Lemma div_le a b p : (0 < p)%R -> (a <= b)%R -> (a / p <= b / p)%R.
Proof. intros P H. apply Rmult_le_compat_r; [ left; apply Rinv_0_lt_compat; exact P | exact H ]. Qed.
Lemma div_between a lo hi p : (0 < p)%R -> ((lo < a / p < hi) <-> (lo * p < a < hi * p))%R.
Proof.
  intros P. assert (E : (a = a / p * p)%R) by (field; lra). split; intros (A & B).
  - rewrite E. split; apply Rmult_lt_compat_r; assumption.
  - split; apply (Rmult_lt_reg_r p); try exact P; rewrite <- E; assumption.
Qed.

(** A grid over a proper area is made with at least one cell, covering it. *)
Theorem C79_make : forall {T} x0 y0 x1 y1 pp, (0 < pp)%R -> (x0 <= x1)%R -> (y0 <= y1)%R -> (x1 - x0 < 2147483646 * pp)%R -> (y1 - y0 < 2147483646 * pp)%R ->
  exists g : grid T, make_grid x0 y0 x1 y1 pp = Ok g /\ g_x0 g = x0 /\ g_y0 g = y0 /\ g_pp g = pp /\ 1 <= g_w g /\ 1 <= g_h g /\
    forall x y, (x0 <= x <= x1)%R -> (y0 <= y <= y1)%R -> covered g (x, y).
Proof.
  intros T x0 y0 x1 y1 pp P X Y BX BY. unfold make_grid, quotient. destruct (Req_EM_T pp 0); [ lra | ]. cbn [obind].
  assert (QX : (0 <= (x1 - x0) / pp < 2147483646)%R).
  { split; [ apply Rmult_le_pos; [ lra | left; apply Rinv_0_lt_compat; lra ] | apply (Rmult_lt_reg_r pp); [ lra | ]; unfold Rdiv; rewrite Rmult_assoc, Rinv_l, Rmult_1_r by lra; lra ]. }
  assert (QY : (0 <= (y1 - y0) / pp < 2147483646)%R).
  { split; [ apply Rmult_le_pos; [ lra | left; apply Rinv_0_lt_compat; lra ] | apply (Rmult_lt_reg_r pp); [ lra | ]; unfold Rdiv; rewrite Rmult_assoc, Rinv_l, Rmult_1_r by lra; lra ]. }
  rewrite !to_int_fits by lra. cbn [obind].
  pose proof (trunc_pos ((x1 - x0) / pp + 1) ltac:(lra)) as TX. pose proof (trunc_pos ((y1 - y0) / pp + 1) ltac:(lra)) as TY.
  set (w := trunc ((x1 - x0) / pp + 1)) in *. set (h := trunc ((y1 - y0) / pp + 1)) in *.
  assert (W : 1 <= w) by (apply lt_of_IZR; lra). assert (H : 1 <= h) by (apply lt_of_IZR; lra).
  destruct (Z.ltb_spec w 0); [ lia | ]. destruct (Z.ltb_spec h 0); [ lia | ]. cbn [orb].
  eexists. split; [ reflexivity | ]. cbn [g_x0 g_y0 g_w g_h g_pp]. split; [ reflexivity | ]. split; [ reflexivity | ]. split; [ reflexivity | ]. split; [ exact W | ]. split; [ exact H | ].
  intros x y HX HY. unfold covered. cbn [g_x0 g_y0 g_w g_h g_pp fst snd].
  assert (EX : (x1 - x0 = (x1 - x0) / pp * pp)%R) by (field; lra). assert (EY : (y1 - y0 = (y1 - y0) / pp * pp)%R) by (field; lra).
  assert (MX : ((x1 - x0) / pp * pp < IZR w * pp)%R) by (apply Rmult_lt_compat_r; lra). assert (MY : ((y1 - y0) / pp * pp < IZR h * pp)%R) by (apply Rmult_lt_compat_r; lra).
  split; lra.
Qed.

(** Adding and looking up succeed for positions within int range. *)
Theorem C79_defined : forall {T} (g : grid T) x y, (0 < g_pp g)%R ->
  ((Rabs (x - g_x0 g) < 2147483648 * g_pp g)%R -> (Rabs (y - g_y0 g) < 2147483648 * g_pp g)%R -> forall o, exists g', add g x y o = Ok g') /\
  (forall r, 1 <= g_w g -> 1 <= g_h g -> (0 <= r)%R -> (Rabs (x - g_x0 g) + r < 2147483648 * g_pp g)%R -> (Rabs (y - g_y0 g) + r < 2147483648 * g_pp g)%R ->
     exists it, find g x y r = Ok it).
Proof.
  intros T g x y P. split.
  - intros X Y o. unfold add. rewrite column_fits, row_fits by assumption. cbn [obind]. destruct (_ && _); eexists; reflexivity.
  - intros r W H R X Y.
    assert (B : forall a b, (Rabs (a - b) + r < 2147483648 * g_pp g -> Rabs (a - r - b) < 2147483648 * g_pp g /\ Rabs (a + r - b) < 2147483648 * g_pp g)%R).
    { intros a b L. pose proof (Rabs_triang (a - b) (- r)) as A1. pose proof (Rabs_triang (a - b) r) as A2. rewrite Rabs_Ropp in A1. rewrite (Rabs_pos_eq r) in A1, A2 by exact R.
      replace (a - b + - r)%R with (a - r - b)%R in A1 by ring. replace (a - b + r)%R with (a + r - b)%R in A2 by ring. lra. }
    destruct (B _ _ X), (B _ _ Y). unfold find. rewrite !column_fits, !row_fits by assumption. cbn [obind]. cbv zeta. unfold cell.
    pose proof (clamp_in (g_w g) (col g (x - r)) W). pose proof (clamp_in (g_h g) (rw g (y - r)) H).
    destruct (Z.leb_spec 0 (clamp (g_h g) (rw g (y - r)))), (Z.ltb_spec (clamp (g_h g) (rw g (y - r))) (g_h g)), (Z.leb_spec 0 (clamp (g_w g) (col g (x - r)))), (Z.ltb_spec (clamp (g_w g) (col g (x - r))) (g_w g)); try lia.
    cbn [andb obind]. eexists. reflexivity.
Qed.

(** Looking up around (x, y): the loop ends, and returns, each as often as it
    was added, all the objects added at covered positions near (x, y), and
    otherwise only objects added at covered positions; around a position whose
    range lies in the grid none is further than the range plus one cell (two for
    those left of or below the grid). *)
Theorem C79_find : forall {T} (g g' : grid T) (os : list (R * R * T)) x y r it,
  (0 < g_pp g)%R -> 1 <= g_w g -> 1 <= g_h g -> (forall j i, g_cells g j i = []) -> (0 <= r)%R ->
  add_all g os = Ok g' -> find g' x y r = Ok it ->
  exists (chosen : R * R -> bool) (l : list T) (bound : nat),
    (forall rounds fuel, (bound <= rounds)%nat -> (bound <= fuel)%nat -> drain rounds fuel g' it = Ok l) /\
    Permutation l (map snd (filter (fun e => chosen (fst e)) os)) /\
    (forall p, covered g p -> near r (x, y) p -> chosen p = true) /\
    (forall p, chosen p = true -> covered g p) /\
    (forall p, covered g (x - r, y - r)%R -> covered g (x + r, y + r)%R -> chosen p = true -> near (r + 2 * g_pp g) (x, y) p /\
       ((g_x0 g <= fst p)%R -> (g_y0 g <= snd p)%R -> (g_x0 g <= x - r)%R -> (g_y0 g <= y - r)%R -> near (r + g_pp g) (x, y) p)).
Proof.
  intros T g g' os x y r it P W H EMPTY R0 ADD FIND.
  set (ix0 := clamp (g_w g) (col g (x - r))). set (ix1 := clamp (g_w g) (col g (x + r))).
  set (iy0 := clamp (g_h g) (rw g (y - r))). set (iy1 := clamp (g_h g) (rw g (y + r))).
  assert (MONO : forall a b, (a <= b)%R -> col g a <= col g b /\ rw g a <= rw g b).
  { intros a b L. split; apply trunc_mono, div_le; lra. }
  destruct (MONO (x - r) (x + r))%R as (MX & _); [ lra | ]. destruct (MONO (y - r) (y + r))%R as (_ & MY); [ lra | ].
  pose proof (clamp_in (g_w g) (col g (x - r)) W) as BX0. pose proof (clamp_in (g_w g) (col g (x + r)) W) as BX1. pose proof (clamp_mono (g_w g) _ _ MX) as BXM.
  pose proof (clamp_in (g_h g) (rw g (y - r)) H) as BY0. pose proof (clamp_in (g_h g) (rw g (y + r)) H) as BY1. pose proof (clamp_mono (g_h g) _ _ MY) as BYM.
  fold ix0 in BX0, BXM. fold ix1 in BX1, BXM. fold iy0 in BY0, BYM. fold iy1 in BY1, BYM.
  destruct (add_all_rows os g g' ix0 ix1 iy0 iy1 P ltac:(lia) ltac:(lia) ltac:(lia) ltac:(lia) ADD) as (SH & PERM). cbv zeta in PERM.
  pose proof SH as (S1 & S2 & S3 & S4 & S5).
  assert (P' : (0 < g_pp g')%R) by (rewrite S5; exact P).
  assert (IT : it = Iterator ix0 ix1 iy0 iy1 ix0 iy0 (g_cells g' iy0 ix0)).
  { unfold find in FIND. destruct (column g' (x - r)) as [ a0 | | | ] eqn:E1; cbn [obind] in FIND; try discriminate. destruct (row_of g' (y - r)) as [ b0 | | | ] eqn:E2; cbn [obind] in FIND; try discriminate.
    destruct (column g' (x + r)) as [ a1 | | | ] eqn:E3; cbn [obind] in FIND; try discriminate. destruct (row_of g' (y + r)) as [ b1 | | | ] eqn:E4; cbn [obind] in FIND; try discriminate.
    apply column_ok in E1; [ | exact P' ]. apply column_ok in E3; [ | exact P' ]. apply row_ok in E2; [ | exact P' ]. apply row_ok in E4; [ | exact P' ].
    rewrite S1, S5 in E1, E3. rewrite S2, S5 in E2, E4. fold (col g (x - r)) in E1. fold (col g (x + r)) in E3. fold (rw g (y - r)) in E2. fold (rw g (y + r)) in E4.
    subst a0 b0 a1 b1. rewrite S3, S4 in FIND. cbv zeta in FIND. fold ix0 ix1 iy0 iy1 in FIND.
    rewrite (cell_in g' ix0 ix1 iy0 iy1) in FIND by lia. cbn [obind] in FIND. congruence. }
  assert (NIL : forall m k a b, rows g m k a b = []).
  { intros m k a b. assert (NR : forall n a b, row g n a b = []) by (clear - EMPTY; induction n as [ | n IH ]; intros; cbn [row]; [ reflexivity | rewrite EMPTY, IH; reflexivity ]).
    revert b. induction m as [ | m IH ]; intros b; cbn [rows]; [ reflexivity | rewrite NR, IH; reflexivity ]. }
  rewrite NIL, app_nil_r in PERM.
  set (l := rows g' (Z.to_nat (iy1 - iy0 + 1)) (Z.to_nat (ix1 - ix0 + 1)) ix0 iy0) in *.
  exists (hit g ix0 ix1 iy0 iy1), l, (S (length l + (Z.to_nat (ix1 - ix0 + 1) * Z.to_nat (iy1 - iy0 + 1) + Z.to_nat (ix1 - ix0 + 1)))).
  assert (COV : forall p, covered g p <-> (0 <= col g (fst p) < g_w g /\ 0 <= rw g (snd p) < g_h g)).
  { intros p. unfold covered, col, rw. rewrite !trunc_in by assumption. rewrite !div_between by exact P. split; intros ((A1 & A2) & (A3 & A4)); (split; split; lra). }
  split; [ | split; [ exact PERM | split; [ | split ] ] ].
  - intros rounds fuel Rn F. rewrite IT. apply (drain_spec g' ix0 ix1 iy0 iy1); [ lia | lia | lia | | lia ].
    apply placed_start; lia.
  - intros p C (NX & NY). apply COV in C. cbn [fst snd] in NX, NY.
    assert (NX' : (x - r <= fst p <= x + r)%R) by (unfold Rabs in NX; destruct (Rcase_abs (fst p - x)) in NX; lra).
    assert (NY' : (y - r <= snd p <= y + r)%R) by (unfold Rabs in NY; destruct (Rcase_abs (snd p - y)) in NY; lra).
    destruct (MONO (x - r) (fst p))%R as (M1 & _); [ lra | ]. destruct (MONO (fst p) (x + r))%R as (M2 & _); [ lra | ].
    destruct (MONO (y - r) (snd p))%R as (_ & M3); [ lra | ]. destruct (MONO (snd p) (y + r))%R as (_ & M4); [ lra | ].
    apply (clamp_mono (g_w g)) in M1, M2. apply (clamp_mono (g_h g)) in M3, M4. rewrite (clamp_id (g_w g) (col g (fst p))) in M1, M2 by lia. rewrite (clamp_id (g_h g) (rw g (snd p))) in M3, M4 by lia.
    fold ix0 in M1. fold ix1 in M2. fold iy0 in M3. fold iy1 in M4. unfold hit. lia.
  - intros p C. apply COV. unfold hit in C. lia.
  - intros p C0 C1 C. apply COV in C0, C1. cbn [fst snd] in C0, C1. unfold hit in C. unfold ix0, ix1, iy0, iy1 in C. rewrite !clamp_id in C by lia.
    assert (D : forall a b, (a <= b)%R -> True) by trivial.
    assert (GAP : forall a b o, trunc ((a - o) / g_pp g) <= trunc ((b - o) / g_pp g) -> 0 <= trunc ((a - o) / g_pp g) ->
       (a < b + 2 * g_pp g)%R /\ ((o <= b)%R -> (a < b + g_pp g)%R)).
    { clear - P. intros a b o L A0. set (s := ((a - o) / g_pp g)%R) in *. set (t := ((b - o) / g_pp g)%R) in *.
      assert (ES : (a = o + s * g_pp g)%R) by (unfold s; field; lra). assert (ET : (b = o + t * g_pp g)%R) by (unfold t; field; lra).
      apply IZR_le in L. apply IZR_le in A0.
      assert (U : (s < IZR (trunc s) + 1)%R) by (destruct (Rle_lt_dec 0 s) as [ Q | Q ]; [ apply trunc_pos; exact Q | pose proof (trunc_neg s Q); lra ]).
      assert (V : (IZR (trunc t) - 1 < t)%R) by (destruct (Rle_lt_dec 0 t) as [ Q | Q ]; [ pose proof (trunc_pos t Q); lra | apply trunc_neg; exact Q ]).
      split.
      - assert ((s - t) * g_pp g < 2 * g_pp g)%R by (apply Rmult_lt_compat_r; lra). lra.
      - intros Q. assert (T0 : (0 <= t)%R) by (unfold t; apply Rmult_le_pos; [ lra | left; apply Rinv_0_lt_compat; exact P ]).
        pose proof (trunc_pos t T0). assert ((s - t) * g_pp g < 1 * g_pp g)%R by (apply Rmult_lt_compat_r; lra). lra. }
    unfold col, rw in C, C0, C1.
    destruct (GAP (x - r) (fst p) (g_x0 g))%R as (A1 & A2); [ lia | lia | ]. destruct (GAP (fst p) (x + r) (g_x0 g))%R as (A3 & A4); [ lia | lia | ].
    destruct (GAP (y - r) (snd p) (g_y0 g))%R as (A5 & A6); [ lia | lia | ]. destruct (GAP (snd p) (y + r) (g_y0 g))%R as (A7 & A8); [ lia | lia | ].
    split.
    + split; cbn [fst snd]; apply Rabs_le; lra.
    + intros Q1 Q2 Q3 Q4. specialize (A2 Q1). specialize (A6 Q2). specialize (A4 ltac:(lra)). specialize (A8 ltac:(lra)). split; cbn [fst snd]; apply Rabs_le; lra.
Qed.
Print Assumptions C79_find.
Print Assumptions C79_make.
Print Assumptions C79_defined.

(** A grid made over a reversed area can have no cells; looking something up in
    it reads before the vector. *)
Theorem C79_reversed_refuted : exists x0 y0 x1 y1 pp (g : grid nat), (0 < pp)%R /\ make_grid x0 y0 x1 y1 pp = Ok g /\ find g 0%R 0%R 1%R = UB.
Proof.
  exists 3%R, 0%R, 2%R, 5%R, 1%R. eexists. split; [ lra | ].
  assert (T1 : to_int 0 = Ok 0).
  { rewrite to_int_fits by lra. f_equal. pose proof (trunc_pos 0 ltac:(lra)) as TP. assert (trunc 0 <= 0) by (apply lt_of_IZR; lra). assert (0 <= trunc 0) by (apply lt_of_IZR; lra). lia. }
  assert (T2 : to_int 6 = Ok 6).
  { rewrite to_int_fits by lra. f_equal. pose proof (trunc_pos 6 ltac:(lra)) as TP. assert (trunc 6 <= 6) by (apply lt_of_IZR; lra). assert (6 <= trunc 6) by (apply lt_of_IZR; lra). lia. }
  split.
  - unfold make_grid, quotient. destruct (Req_EM_T 1 0); [ lra | ]. cbn [obind]. replace ((2 - 3) / 1 + 1)%R with 0%R by field. replace ((5 - 0) / 1 + 1)%R with 6%R by field.
    rewrite T1, T2. cbn [obind]. reflexivity.
  - unfold find. rewrite !column_fits, !row_fits; cbn [g_pp g_x0 g_y0]; try lra; try (apply Rabs_def1; lra). cbn [obind]. cbv zeta. cbn [g_w g_h]. unfold cell. cbn [g_w g_h].
    assert (C : clamp 0 (col (Grid 3 0 0 6 1 (fun _ _ : Z => @nil nat)) (0 - 1)) = -1) by (unfold clamp; lia). rewrite C.
    cbn [Z.leb Z.compare andb]. rewrite andb_false_r. reflexivity.
Qed.
Print Assumptions C79_reversed_refuted.

(** Four objects on a grid of cells of side 10, one of them just left of it. *)
Example C79_ex : exists g g' it (l : list nat) b, make_grid 0 0 100 100 10 = Ok g /\
  add_all g [((5, 5), 1%nat); ((12, 8), 2%nat); ((95, 95), 3%nat); ((-3, 5), 4%nat)]%R = Ok g' /\ find g' 6 6 7 = Ok it /\
  drain b b g' it = Ok l /\ In 1%nat l /\ In 2%nat l.
Proof.
  destruct (@C79_make nat 0 0 100 100 10) as (g & MK & X0 & Y0 & PP & W & H & COV); try lra.
  assert (AD : forall (g1 : grid nat) x y o, g_x0 g1 = 0%R -> g_y0 g1 = 0%R -> g_pp g1 = 10%R -> (Rabs x < 200)%R -> (Rabs y < 200)%R -> exists g2, add g1 x y o = Ok g2 /\ same_shape g1 g2).
  { intros g1 x y o A B C D E. destruct (proj1 (C79_defined g1 x y ltac:(rewrite C; lra))) with (o := o) as (g2 & EQ).
    - rewrite A, C, Rminus_0_r. lra.
    - rewrite B, C, Rminus_0_r. lra.
    - exists g2. split; [ exact EQ | apply (add_shape _ _ _ _ _ EQ) ]. }
  destruct (AD g 5%R 5%R 1%nat X0 Y0 PP) as (g1 & E1 & A1 & B1 & C1 & D1 & F1); [ apply Rabs_def1; lra | apply Rabs_def1; lra | ].
  destruct (AD g1 12%R 8%R 2%nat) as (g2 & E2 & A2 & B2 & C2 & D2 & F2); [ congruence | congruence | congruence | apply Rabs_def1; lra | apply Rabs_def1; lra | ].
  destruct (AD g2 95%R 95%R 3%nat) as (g3 & E3 & A3 & B3 & C3 & D3 & F3); [ congruence | congruence | congruence | apply Rabs_def1; lra | apply Rabs_def1; lra | ].
  destruct (AD g3 (-3)%R 5%R 4%nat) as (g4 & E4 & A4 & B4 & C4 & D4 & F4); [ congruence | congruence | congruence | apply Rabs_def1; lra | apply Rabs_def1; lra | ].
  set (os := [((5, 5), 1%nat); ((12, 8), 2%nat); ((95, 95), 3%nat); ((-3, 5), 4%nat)]%R).
  assert (ADD : add_all g os = Ok g4) by (unfold os; cbn [add_all]; rewrite E1; cbn [obind]; rewrite E2; cbn [obind]; rewrite E3; cbn [obind]; rewrite E4; reflexivity).
  assert (Q4 : g_x0 g4 = 0%R /\ g_y0 g4 = 0%R /\ g_pp g4 = 10%R) by (split; [ congruence | split; congruence ]). destruct Q4 as (Q1 & Q2 & Q3).
  destruct (proj2 (C79_defined g4 6%R 6%R ltac:(rewrite Q3; lra)) 7%R) as (it & FI); [ congruence || lia | congruence || lia | lra | | | ].
  - rewrite Q1, Q3, Rminus_0_r, Rabs_pos_eq by lra. lra.
  - rewrite Q2, Q3, Rminus_0_r, Rabs_pos_eq by lra. lra.
  - assert (EMP : forall j i, g_cells g j i = []).
    { unfold make_grid, quotient in MK. destruct (Req_EM_T 10 0); [ lra | ]. cbn [obind] in MK. rewrite !to_int_fits in MK by lra. cbn [obind] in MK.
      destruct (_ || _) in MK; [ discriminate | ]. match type of MK with Ok ?e = _ => assert (XE : g = e) by congruence end. rewrite XE. reflexivity. }
    destruct (C79_find g g4 os 6%R 6%R 7%R it) as (ch & l & b & DR & PM & NE & _); [ rewrite PP; lra | exact W | exact H | exact EMP | lra | exact ADD | exact FI | ].
    exists g, g4, it, l, b. split; [ exact MK | ]. split; [ exact ADD | ]. split; [ exact FI | ]. split; [ apply DR; lia | ].
    assert (N : forall x y, (0 <= x <= 13)%R -> (0 <= y <= 13)%R -> ch (x, y) = true).
    { intros x y HX HY. apply NE; [ apply COV; lra | ]. split; cbn [fst snd]; apply Rabs_le; lra. }
    assert (INL : forall o, In o (map snd (filter (fun e => ch (fst e)) os)) -> In o l) by (intros o; apply Permutation_in, Permutation_sym; exact PM).
    split; apply INL; unfold os; cbn [filter fst]; rewrite !N by lra; cbn [map snd]; [ left; reflexivity | right; left; reflexivity ].
Qed.
