(** * Proofs about the lookup grid *)
From Coq Require Import Reals ZArith List Bool Lia Lra Permutation ZifyBool.
From Verif Require Import Base LutModel LutSpec.
Import ListNotations.
Local Open Scope Z_scope.

(** ** Truncation *)
Lemma int_part_bounds r : (IZR (Int_part r) <= r < IZR (Int_part r) + 1)%R.
Proof. destruct (base_Int_part r). split; lra. Qed.
Lemma trunc_pos r : (0 <= r)%R -> (IZR (trunc r) <= r < IZR (trunc r) + 1)%R.
Proof. intros H. unfold trunc. destruct (Rle_dec 0 r); [ apply int_part_bounds | lra ]. Qed.
Lemma trunc_neg r : (r < 0)%R -> (IZR (trunc r) - 1 < r <= IZR (trunc r))%R.
Proof. intros H. unfold trunc. destruct (Rle_dec 0 r); [ lra | ]. rewrite opp_IZR. pose proof (int_part_bounds (- r)). lra. Qed.
Lemma lt_of_IZR a b : (IZR a < IZR b + 1)%R -> a <= b.
Proof. intros H. assert (IZR a < IZR (b + 1))%R by (rewrite plus_IZR; exact H). apply lt_IZR in H0. lia. Qed.
Lemma trunc_mono r s : (r <= s)%R -> trunc r <= trunc s.
Proof.
  intros H. apply lt_of_IZR. destruct (Rle_lt_dec 0 r) as [ A | A ], (Rle_lt_dec 0 s) as [ B | B ].
  - pose proof (trunc_pos r A). pose proof (trunc_pos s B). lra.
  - lra.
  - pose proof (trunc_neg r A). pose proof (trunc_pos s B).
    assert (T0 : trunc r <= 0) by (apply lt_of_IZR; lra). assert (T1 : 0 <= trunc s) by (apply lt_of_IZR; lra).
    assert (E : (IZR (trunc r) <= IZR (trunc s))%R) by (apply IZR_le; lia). lra.
  - pose proof (trunc_neg r A). pose proof (trunc_neg s B). lra.
Qed.
Lemma trunc_in r w : 1 <= w -> (0 <= trunc r /\ trunc r < w <-> (-1 < r < IZR w)%R).
Proof.
  intros W. assert (W1 : (1 <= IZR w)%R) by (apply IZR_le; lia). destruct (Rle_lt_dec 0 r) as [ A | A ].
  - pose proof (trunc_pos r A) as P. split.
    + intros (_ & B). assert (trunc r + 1 <= w) by lia. apply IZR_le in H. rewrite plus_IZR in H. lra.
    + intros (_ & B). split; [ apply lt_of_IZR; lra | ]. apply lt_IZR. lra.
  - pose proof (trunc_neg r A) as P. split.
    + intros (B & _). apply IZR_le in B. lra.
    + intros (B & _). assert (T0 : trunc r <= 0) by (apply lt_of_IZR; lra). split; [ | lia ]. apply lt_of_IZR. lra.
Qed.
Lemma to_int_ok r z : to_int r = Ok z -> z = trunc r.
Proof. unfold to_int. cbv zeta. destruct (_ && _); congruence. Qed.
Lemma to_int_fits r : (-2147483649 < r < 2147483648)%R -> to_int r = Ok (trunc r).
Proof.
  intros (A & B). unfold to_int. cbv zeta.
  assert (-2147483648 <= trunc r).
  { apply lt_of_IZR. destruct (Rle_lt_dec 0 r) as [ C | C ]; [ pose proof (trunc_pos r C) | pose proof (trunc_neg r C) ]; lra. }
  assert (trunc r <= 2147483647).
  { apply lt_of_IZR. destruct (Rle_lt_dec 0 r) as [ C | C ]; [ pose proof (trunc_pos r C) | pose proof (trunc_neg r C) ]; lra. }
  destruct (Z.leb_spec (-2147483648) (trunc r)); [ | lia ]. destruct (Z.leb_spec (trunc r) 2147483647); [ reflexivity | lia ].
Qed.

Section Grid.
Context {T : Type}.
Notation grid := (grid T).
Notation iterator := (iterator T).

Lemma column_ok (g : grid) x z : (0 < g_pp g)%R -> column g x = Ok z -> z = trunc ((x - g_x0 g) / g_pp g).
Proof. intros P. unfold column, quotient. destruct (Req_EM_T _ _); [ lra | ]. cbn [obind]. apply to_int_ok. Qed.
Lemma row_ok (g : grid) y z : (0 < g_pp g)%R -> row_of g y = Ok z -> z = trunc ((y - g_y0 g) / g_pp g).
Proof. intros P. unfold row_of, quotient. destruct (Req_EM_T _ _); [ lra | ]. cbn [obind]. apply to_int_ok. Qed.

(** ** What the iterator visits *)
Fixpoint row (g : grid) (n : nat) (ix iy : Z) : list T :=
  match n with O => [] | S m => g_cells g iy ix ++ row g m (ix + 1) iy end.
Fixpoint rows (g : grid) (m k : nat) (ix0 iy : Z) : list T :=
  match m with O => [] | S j => row g k ix0 iy ++ rows g j k ix0 (iy + 1) end.

Variable g : grid.
Variables ix0 ix1 iy0 iy1 : Z.
Hypothesis BX : 0 <= ix0 <= ix1 /\ ix1 < g_w g.
Hypothesis BY : 0 <= iy0 <= iy1 /\ iy1 < g_h g.
Let k : nat := Z.to_nat (ix1 - ix0 + 1).
Definition box (it : iterator) : Prop := i_x0 it = ix0 /\ i_x1 it = ix1 /\ i_y0 it = iy0 /\ i_y1 it = iy1.

(** What is left from a position on: the rest of its row, then the rows after. *)
Definition ahead (ix iy : Z) : list T := row g (Z.to_nat (ix1 - ix + 1)) ix iy ++ rows g (Z.to_nat (iy1 - iy)) k ix0 (iy + 1).
Definition todo (ix iy : Z) : nat := (Z.to_nat (ix1 - ix + 1) + Z.to_nat (iy1 - iy) * k)%nat.

Lemma cell_in ix iy : ix0 <= ix <= ix1 -> iy0 <= iy <= iy1 -> cell g iy ix = Ok (g_cells g iy ix).
Proof using BX BY.
  intros X Y. unfold cell. destruct (Z.leb_spec 0 iy), (Z.ltb_spec iy (g_h g)), (Z.leb_spec 0 ix), (Z.ltb_spec ix (g_w g)); try lia. reflexivity.
Qed.
Lemma row_S n ix iy : (0 < n)%nat -> row g n ix iy = g_cells g iy ix ++ row g (n - 1) (ix + 1) iy.
Proof. intros H. destruct n as [ | n ]; [ lia | ]. cbn [row]. rewrite Nat.sub_0_r || replace (S n - 1)%nat with n by lia. reflexivity. Qed.
Lemma rows_S m ix iy : (0 < m)%nat -> rows g m k ix iy = row g k ix iy ++ rows g (m - 1) k ix (iy + 1).
Proof. intros H. destruct m as [ | m ]; [ lia | ]. cbn [rows]. replace (S m - 1)%nat with m by lia. reflexivity. Qed.
Lemma ahead_next_row ix iy : ix1 < ix -> iy < iy1 -> ahead ix iy = ahead ix0 (iy + 1).
Proof using BX BY.
  intros X Y. unfold ahead. replace (Z.to_nat (ix1 - ix + 1)) with 0%nat by lia. cbn [row app].
  rewrite rows_S by lia. fold k. f_equal. f_equal. lia.
Qed.
Lemma ahead_step ix iy : ix <= ix1 -> ahead ix iy = g_cells g iy ix ++ ahead (ix + 1) iy.
Proof.
  intros X. unfold ahead. rewrite row_S by lia. rewrite <- app_assoc. f_equal. f_equal. f_equal. lia.
Qed.
Lemma ahead_end ix iy : ix1 < ix -> iy1 <= iy -> ahead ix iy = [].
Proof.
  intros X Y. unfold ahead. replace (Z.to_nat (ix1 - ix + 1)) with 0%nat by lia. replace (Z.to_nat (iy1 - iy)) with 0%nat by lia. reflexivity.
Qed.

(** An iterator that is somewhere in the box, or at its end. *)
Definition placed (it : iterator) (l : list T) : Prop :=
  box it /\ ((ix0 <= i_x it <= ix1 /\ iy0 <= i_y it <= iy1 /\ l = i_c it ++ ahead (i_x it + 1) (i_y it)) \/
             (i_c it = [] /\ ix0 <= i_x it /\ iy1 < i_y it /\ l = [])).
Lemma seek_spec (it : iterator) : box it -> forall fuel ix iy, ix0 <= ix -> iy0 <= iy <= iy1 -> ix <= ix1 + 1 -> (todo ix iy < fuel)%nat ->
  exists it', seek fuel g it ix iy = Ok it' /\ placed it' (ahead ix iy) /\ (i_c it' = [] -> ahead ix iy = []).
Proof using BX BY.
  intros (B0 & B1 & B2 & B3). induction fuel as [ | f IH ]; intros ix iy X Y X1 F; [ lia | ]. cbn [seek]. rewrite B0, B1, B3.
  assert (HERE : forall ix iy, ix0 <= ix <= ix1 -> iy0 <= iy <= iy1 -> (todo ix iy < S f)%nat ->
    exists it', (if iy1 <? iy then Ok (moved it ix iy []) else do c <- cell g iy ix; match c with [] => seek f g it (ix + 1) iy | _ :: _ => Ok (moved it ix iy c) end) = Ok it' /\
      placed it' (ahead ix iy) /\ (i_c it' = [] -> ahead ix iy = [])).
  { clear ix iy X Y X1 F. intros ix iy X Y F. destruct (Z.ltb_spec iy1 iy); [ lia | ]. rewrite cell_in by assumption. cbn [obind].
    rewrite ahead_step by lia. destruct (g_cells g iy ix) as [ | o c ] eqn:C.
    - cbn [app]. apply IH; try lia. unfold todo in *. lia.
    - exists (moved it ix iy (o :: c)). split; [ reflexivity | ]. split; [ | discriminate ]. split; [ split; [ exact B0 | split; [ exact B1 | split; [ exact B2 | exact B3 ] ] ] | ].
      left. cbn [moved i_x i_y i_c]. split; [ exact X | ]. split; [ exact Y | ]. reflexivity. }
  destruct (Z.ltb_spec ix1 ix) as [ L | G ].
  - destruct (Z.eq_dec iy iy1) as [ -> | NE ].
    + destruct (Z.ltb_spec iy1 (iy1 + 1)); [ | lia ]. exists (moved it ix0 (iy1 + 1) []). split; [ reflexivity | ].
      rewrite ahead_end by lia. split; [ | reflexivity ]. split; [ split; [ exact B0 | split; [ exact B1 | split; [ exact B2 | exact B3 ] ] ] | ].
      right. cbn [moved i_x i_y i_c]. split; [ reflexivity | ]. split; [ lia | ]. split; [ lia | reflexivity ].
    + rewrite ahead_next_row by lia. apply HERE; try lia. unfold todo in *. fold k in F |- *. replace (Z.to_nat (iy1 - iy)) with (S (Z.to_nat (iy1 - (iy + 1)))) in F by lia. fold k. cbn [Nat.mul] in F. fold k. unfold k in *. lia.
  - apply HERE; lia.
Qed.
Lemma find_next_spec (it : iterator) fuel l o : placed it (o :: l) -> i_c it <> [] -> (k * Z.to_nat (iy1 - iy0 + 1) + k < fuel)%nat ->
  exists it', find_next fuel g it = Ok it' /\ placed it' l /\ hd o (i_c it) = o /\ (i_c it' = [] -> l = []).
Proof using BX BY.
  intros (B & [ (X & Y & E) | (E & _) ]) NE F; [ | contradiction ]. unfold find_next.
  destruct (i_c it) as [ | o' c ] eqn:C; [ contradiction | ]. cbn [app] in E. assert (o' = o) by congruence. subst o'. assert (E' : l = c ++ ahead (i_x it + 1) (i_y it)) by congruence.
  cbn [tl hd]. destruct c as [ | o2 c ].
  - cbn [app] in E'. destruct (seek_spec it B fuel (i_x it + 1) (i_y it) ltac:(lia) Y ltac:(lia)) as (it' & S & P & EN).
    { unfold todo. unfold k in *. nia. }
    exists it'. rewrite E'. split; [ exact S | ]. split; [ exact P | ]. split; [ reflexivity | exact EN ].
  - exists (moved it (i_x it) (i_y it) (o2 :: c)). split; [ reflexivity | ]. split; [ | split; [ reflexivity | discriminate ] ].
    split; [ exact B | ]. left. split; [ exact X | ]. split; [ exact Y | exact E' ].
Qed.
Lemma seek_end (it : iterator) fuel ix iy : box it -> iy1 < iy -> (0 < fuel)%nat -> exists it', seek fuel g it ix iy = Ok it' /\ i_c it' = [].
Proof.
  intros (B0 & B1 & B2 & B3) Y F. destruct fuel as [ | f ]; [ lia | ]. cbn [seek]. rewrite B0, B1, B3.
  destruct (Z.ltb_spec ix1 ix); [ destruct (Z.ltb_spec iy1 (iy + 1)); [ | lia ] | destruct (Z.ltb_spec iy1 iy); [ | lia ] ]; (eexists; split; [ reflexivity | reflexivity ]).
Qed.
Lemma has_next_spec (it : iterator) fuel l : placed it l -> (k * Z.to_nat (iy1 - iy0 + 1) + k < fuel)%nat ->
  exists it', has_next fuel g it = Ok (match l with [] => false | _ => true end, it') /\ (l <> [] -> placed it' l /\ i_c it' <> []).
Proof using BX BY.
  intros P F. pose proof P as (B & C). unfold has_next. destruct (i_c it) as [ | o c ] eqn:EC.
  - unfold find_next. rewrite EC. cbn [tl]. destruct C as [ (X & Y & E) | (_ & X & Y & E) ].
    + destruct (seek_spec it B fuel (i_x it + 1) (i_y it) ltac:(lia) Y ltac:(lia)) as (it' & S & P' & EN).
      { unfold todo. unfold k in *. nia. }
      cbn [app] in E. rewrite <- E in P', EN. rewrite S. cbn [obind]. exists it'. destruct (i_c it') eqn:EC'.
      * rewrite EN by reflexivity. split; [ reflexivity | congruence ].
      * destruct l as [ | o l ].
        -- exfalso. destruct P' as (_ & [ (_ & _ & Q) | (Q & _) ]); [ rewrite EC' in Q; discriminate | congruence ].
        -- split; [ reflexivity | ]. intros _. split; [ exact P' | congruence ].
    + destruct (seek_end it fuel (i_x it + 1) (i_y it) B Y ltac:(lia)) as (it' & S & EN). rewrite S. cbn [obind]. rewrite EN, E. exists it'. split; [ reflexivity | congruence ].
  - cbn [obind]. rewrite EC. exists it. destruct l as [ | o2 l ].
    + exfalso. destruct C as [ (_ & _ & Q) | (Q & _) ]; [ discriminate | discriminate ].
    + split; [ reflexivity | ]. intros _. split; [ exact P | congruence ].
Qed.
Lemma drain_spec fuel : (k * Z.to_nat (iy1 - iy0 + 1) + k < fuel)%nat -> forall l rounds it, placed it l -> (length l < rounds)%nat -> drain rounds fuel g it = Ok l.
Proof using BX BY.
  intros F. induction l as [ | o l IH ]; intros rounds it P R; (destruct rounds as [ | r ]; [ cbn in R; lia | ]); cbn [drain];
    destruct (has_next_spec it fuel _ P F) as (it1 & H & NX); rewrite H; cbn [obind]; [ reflexivity | ].
  destruct (NX ltac:(discriminate)) as (P1 & NE). unfold next.
  destruct (find_next_spec it1 fuel l o P1 NE F) as (it2 & FN & P2 & HD & _). destruct (i_c it1) as [ | o1 c1 ] eqn:C1; [ contradiction | ].
  cbn [hd] in HD. subst o1. rewrite FN. cbn [obind]. rewrite (IH r it2 P2) by (cbn in R; lia). reflexivity.
Qed.
Lemma placed_start : placed (Iterator ix0 ix1 iy0 iy1 ix0 iy0 (g_cells g iy0 ix0)) (rows g (Z.to_nat (iy1 - iy0 + 1)) k ix0 iy0).
Proof using BX BY.
  split; [ split; [ reflexivity | split; [ reflexivity | split; reflexivity ] ] | ]. left. cbn [i_x i_y i_c]. split; [ lia | ]. split; [ lia | ].
  rewrite <- ahead_step by lia. rewrite rows_S by lia. unfold ahead. fold k. f_equal. f_equal. lia.
Qed.
End Grid.

(** ** What the cells hold *)
Section Adds.
Context {T : Type}.
Implicit Types g : grid T.
Definition same_shape g g' : Prop := g_x0 g' = g_x0 g /\ g_y0 g' = g_y0 g /\ g_w g' = g_w g /\ g_h g' = g_h g /\ g_pp g' = g_pp g.
Definition col g (x : R) : Z := trunc ((x - g_x0 g) / g_pp g).
Definition rw g (y : R) : Z := trunc ((y - g_y0 g) / g_pp g).
Definition hit g (ix0 ix1 iy0 iy1 : Z) (p : R * R) : bool :=
  (ix0 <=? col g (fst p)) && (col g (fst p) <=? ix1) && (iy0 <=? rw g (snd p)) && (rw g (snd p) <=? iy1).

Lemma row_put (c c' : Z -> Z -> list T) x0 y0 w h pp o a b n : forall ix iy,
  (forall j i, c' j i = if (j =? b) && (i =? a) then o :: c j i else c j i) ->
  let G' := Grid x0 y0 w h pp c' in let G := Grid x0 y0 w h pp c in
  Permutation (row G' n ix iy) (if (iy =? b) && (ix <=? a) && (a <? ix + Z.of_nat n) then o :: row G n ix iy else row G n ix iy).
Proof.
  induction n as [ | n IH ]; intros ix iy E; cbv zeta; cbn [row].
  - destruct (iy =? b), (Z.leb_spec ix a), (Z.ltb_spec a (ix + Z.of_nat 0)); cbn [andb]; (constructor || lia).
  - cbn [g_cells]. rewrite E. specialize (IH (ix + 1) iy E). cbv zeta in IH.
    destruct (Z.eqb_spec iy b), (Z.eqb_spec ix a), (Z.leb_spec ix a), (Z.leb_spec (ix + 1) a), (Z.ltb_spec a (ix + 1 + Z.of_nat n)), (Z.ltb_spec a (ix + Z.of_nat (S n))); try lia; cbn [andb] in *.
    all: first [ cbn [app]; apply perm_skip, Permutation_app_head; exact IH
               | apply Permutation_app_head; exact IH
               | etransitivity; [ apply Permutation_app_head; exact IH | ]; symmetry; apply Permutation_middle ].
Qed.
Lemma rows_put (c c' : Z -> Z -> list T) x0 y0 w h pp o a b k m : forall ix0 iy,
  (forall j i, c' j i = if (j =? b) && (i =? a) then o :: c j i else c j i) ->
  let G' := Grid x0 y0 w h pp c' in let G := Grid x0 y0 w h pp c in
  Permutation (rows G' m k ix0 iy) (if (iy <=? b) && (b <? iy + Z.of_nat m) && (ix0 <=? a) && (a <? ix0 + Z.of_nat k) then o :: rows G m k ix0 iy else rows G m k ix0 iy).
Proof.
  induction m as [ | m IH ]; intros ix0 iy E; cbv zeta; cbn [rows].
  - destruct (Z.leb_spec iy b), (Z.ltb_spec b (iy + Z.of_nat 0)); cbn [andb]; (constructor || lia).
  - specialize (IH ix0 (iy + 1) E). cbv zeta in IH. pose proof (row_put c c' x0 y0 w h pp o a b k ix0 iy E) as R. cbv zeta in R.
    destruct (Z.leb_spec ix0 a), (Z.ltb_spec a (ix0 + Z.of_nat k)).
    2-4: rewrite ?andb_false_r in IH, R |- *; cbn [andb] in *; rewrite ?andb_false_r in R |- *; etransitivity; [ apply Permutation_app_tail; exact R | apply Permutation_app_head; rewrite ?andb_false_r in IH; exact IH ].
    rewrite !andb_true_r in IH, R |- *.
    destruct (Z.eqb_spec iy b), (Z.leb_spec iy b), (Z.leb_spec (iy + 1) b), (Z.ltb_spec b (iy + 1 + Z.of_nat m)), (Z.ltb_spec b (iy + Z.of_nat (S m))); try lia; cbn [andb] in *.
    all: first [ etransitivity; [ apply Permutation_app_tail; exact R | ]; cbn [app]; apply perm_skip, Permutation_app_head; exact IH
               | etransitivity; [ apply Permutation_app_tail; exact R | ]; apply Permutation_app_head; exact IH
               | etransitivity; [ apply Permutation_app_tail; exact R | ]; etransitivity; [ apply Permutation_app_head; exact IH | ]; symmetry; apply Permutation_middle ].
Qed.
Lemma add_shape g x y o g' : add g x y o = Ok g' -> same_shape g g'.
Proof.
  unfold add. destruct (column g x) as [ ix | | | ]; cbn [obind]; try discriminate. destruct (row_of g y) as [ iy | | | ]; cbn [obind]; try discriminate.
  destruct (_ && _); intros E; assert (g' = g') by reflexivity; [ | ];
    match type of E with Ok ?e = _ => assert (X : g' = e) by congruence; rewrite X end; (split; [ reflexivity | split; [ reflexivity | split; [ reflexivity | split; reflexivity ] ] ]).
Qed.
Lemma rows_ext g g' : (forall j i, g_cells g' j i = g_cells g j i) -> forall m k ix iy, rows g' m k ix iy = rows g m k ix iy.
Proof.
  intros E. assert (R : forall n ix iy, row g' n ix iy = row g n ix iy) by (induction n as [ | n IH ]; intros; cbn [row]; [ reflexivity | rewrite E, IH; reflexivity ]).
  induction m as [ | m IH ]; intros k ix iy; cbn [rows]; [ reflexivity | rewrite R, IH; reflexivity ].
Qed.
Lemma add_rows g x y o g' ix0 ix1 iy0 iy1 : (0 < g_pp g)%R -> 0 <= ix0 <= ix1 -> ix1 < g_w g -> 0 <= iy0 <= iy1 -> iy1 < g_h g -> add g x y o = Ok g' ->
  let m := Z.to_nat (iy1 - iy0 + 1) in let k := Z.to_nat (ix1 - ix0 + 1) in
  Permutation (rows g' m k ix0 iy0) (if hit g ix0 ix1 iy0 iy1 (x, y) then o :: rows g m k ix0 iy0 else rows g m k ix0 iy0).
Proof.
  intros P BX BX1 BY BY1 A. cbv zeta. unfold add in A. destruct (column g x) as [ ix | | | ] eqn:CX; cbn [obind] in A; try discriminate.
  destruct (row_of g y) as [ iy | | | ] eqn:CY; cbn [obind] in A; try discriminate. apply column_ok in CX; [ | exact P ]. apply row_ok in CY; [ | exact P ].
  unfold hit. cbn [fst snd]. unfold col, rw. rewrite <- CX, <- CY.
  destruct g as [ gx0 gy0 gw gh gpp gc ]. cbn [g_x0 g_y0 g_w g_h g_pp g_cells] in *.
  destruct ((0 <=? ix) && (0 <=? iy) && (ix <? gw) && (iy <? gh)) eqn:IN.
  - match type of A with Ok ?e = _ => assert (X : g' = e) by congruence; rewrite X end. clear A X.
    pose proof (rows_put gc (fun b a => if (b =? iy) && (a =? ix) then o :: gc b a else gc b a) gx0 gy0 gw gh gpp o ix iy (Z.to_nat (ix1 - ix0 + 1)) (Z.to_nat (iy1 - iy0 + 1)) ix0 iy0 (fun _ _ => eq_refl)) as R. cbv zeta in R.
    match goal with |- Permutation _ (if ?c then _ else _) => match type of R with Permutation _ (if ?d then _ else _) => replace c with d by lia end end. exact R.
  - assert (X : g' = Grid gx0 gy0 gw gh gpp gc) by congruence. rewrite X.
    match goal with |- Permutation _ (if ?c then _ else _) => replace c with false by lia end. reflexivity.
Qed.
Lemma shape_hit g g' a b c d p : same_shape g g' -> hit g' a b c d p = hit g a b c d p.
Proof. intros (A & B & _ & _ & C). unfold hit, col, rw. rewrite A, B, C. reflexivity. Qed.
Lemma shape_trans g g' g'' : same_shape g g' -> same_shape g' g'' -> same_shape g g''.
Proof. intros (A & B & C & D & E) (A' & B' & C' & D' & E'). unfold same_shape. rewrite A', B', C', D', E'. split; [ exact A | split; [ exact B | split; [ exact C | split; [ exact D | exact E ] ] ] ]. Qed.
Lemma add_all_rows os : forall g g' ix0 ix1 iy0 iy1, (0 < g_pp g)%R -> 0 <= ix0 <= ix1 -> ix1 < g_w g -> 0 <= iy0 <= iy1 -> iy1 < g_h g -> add_all g os = Ok g' ->
  let m := Z.to_nat (iy1 - iy0 + 1) in let k := Z.to_nat (ix1 - ix0 + 1) in
  same_shape g g' /\
  Permutation (rows g' m k ix0 iy0) (map snd (filter (fun e => hit g ix0 ix1 iy0 iy1 (fst e)) os) ++ rows g m k ix0 iy0).
Proof.
  induction os as [ | ((x & y) & o) os IH ]; intros g g' ix0 ix1 iy0 iy1 P BX BX1 BY BY1 A; cbv zeta; cbn [add_all] in A.
  - assert (X : g' = g) by congruence. rewrite X. split; [ split; [ reflexivity | split; [ reflexivity | split; [ reflexivity | split; reflexivity ] ] ] | reflexivity ].
  - destruct (add g x y o) as [ g1 | | | ] eqn:A1; cbn [obind] in A; try discriminate. pose proof (add_shape _ _ _ _ _ A1) as SH. pose proof SH as (S1 & S2 & S3 & S4 & S5).
    destruct (IH g1 g' ix0 ix1 iy0 iy1 ltac:(rewrite S5; exact P) BX ltac:(rewrite S3; exact BX1) BY ltac:(rewrite S4; exact BY1) A) as (SH' & PE).
    split; [ exact (shape_trans _ _ _ SH SH') | ].
    rewrite (filter_ext _ (fun e => hit g ix0 ix1 iy0 iy1 (fst e))) in PE by (intros e; apply shape_hit; exact SH).
    etransitivity; [ exact PE | ]. pose proof (add_rows g x y o g1 ix0 ix1 iy0 iy1 P BX BX1 BY BY1 A1) as R. cbv zeta in R.
    cbn [filter fst]. destruct (hit g ix0 ix1 iy0 iy1 (x, y)); cbn [map snd app].
    + etransitivity; [ apply Permutation_app_head; exact R | ]. symmetry. apply Permutation_middle.
    + apply Permutation_app_head. exact R.
Qed.
End Adds.
