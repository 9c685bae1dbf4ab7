(** * C95: reading the cells of a tag *)
From Coq Require Import Reals Lra Lia List ZArith NArith Bool Arith.
From Verif Require Import Base LutModel LutProofs GfModel GfSpec GfProofs TagModel TagSpec TagProofs TagProps TdModel GmModel GmSpec GmProofs.
Import ListNotations.
Local Open Scope R_scope.

(** However observations and questions are mixed, a question is answered from
    exactly the observations made so far: zero, their mean or the only best fit. *)
Theorem C95_model : forall inverse, gives_inverses inverse -> forall ops x y,
  exists c, predicted inverse (observed ops) c /\ snd (gray_at inverse (used inverse ops) x y) = bilinear c x y.
Proof.
  intros inverse INV ops x y. exists (fitted inverse (observed ops)). split; [ apply fitted_predicted; exact INV | ].
  apply (proj2 (gray_at_follows inverse _ _ x y (used_follows inverse ops))).
Qed.
Print Assumptions C95_model.

(** A quadrilateral is read in a nonempty image without undefined behaviour.  The
    reading fails exactly if a cell lies outside; otherwise a cell is set in the
    word exactly if it is brighter than half way between the two predictions. *)
Theorem C95_read : forall inverse, gives_inverses inverse -> forall fim q border d,
  complete fim -> (0 < width fim)%nat -> (0 < height fim)%nat -> (1 <= d <= 8)%nat ->
  let dd := (2 * Z.of_nat border + Z.of_nat d)%Z in
  representable q dd ->
  let at_ := fun i : nat => (IZR (Z.of_nat border + Z.of_nat i) + / 2) / IZR dd in
  let cell := fun iy ix : nat => seen fim (interpolate01 q (at_ ix) (at_ iy)) in
  exists white black,
    predicted inverse (observations fim q dd (outside_ring dd)) white /\ predicted inverse (observations fim q dd (border_ring dd)) black /\
    ((exists iy ix, (iy < d)%nat /\ (ix < d)%nat /\ cell iy ix = None) -> read_quad inverse fim q border d = Ok None) /\
    ((forall iy ix, (iy < d)%nat -> (ix < d)%nat -> cell iy ix <> None) ->
       exists w, read_quad inverse fim q border d = Ok (Some w) /\ fits d w /\
         forall iy ix v, (iy < d)%nat -> (ix < d)%nat -> cell iy ix = Some v ->
           (picture d w iy ix = true <-> (bilinear black (at_ ix) (at_ iy) + bilinear white (at_ ix) (at_ iy)) / 2 < v)).
Proof.
  intros inverse INV fim q border d C PW PH D dd RP at_ cell.
  set (lw := observations fim q dd (outside_ring dd)). set (lb := observations fim q dd (border_ring dd)).
  exists (fitted inverse lw), (fitted inverse lb). split; [ apply fitted_predicted; exact INV | split; [ apply fitted_predicted; exact INV | ] ].
  rewrite (read_quad_ok inverse fim q border d C PW PH (proj1 D) RP). fold dd. fold lw. fold lb.
  set (b := bit_at inverse fim q dd (Z.of_nat border) lw lb). destruct (C75_read b d (proj2 D)) as [S N].
  assert (B : forall iy ix, b iy ix = match cell iy ix with None => None | Some v => Some (if Rlt_dec ((bilinear (fitted inverse lb) (at_ ix) (at_ iy) + bilinear (fitted inverse lw) (at_ ix) (at_ iy)) / 2) v then true else false) end) by reflexivity.
  split.
  - intros (iy & ix & Y & X & E). f_equal. apply N. exists iy, ix. split; [ exact Y | split; [ exact X | ] ]. rewrite B, E. reflexivity.
  - intros H. destruct (read_code b d) as [w | ] eqn:E.
    + exists w. split; [ reflexivity | ]. destruct (proj1 (S w) eq_refl) as [F P]. split; [ exact F | ]. intros iy ix v Y X V. pose proof (P iy ix Y X) as Q. rewrite B, V in Q.
      destruct (Rlt_dec _ v) as [L | L].
      * split; [ intros _; exact L | intros _; congruence ].
      * split; [ intros T; exfalso; congruence | intros T; contradiction ].
    + exfalso. destruct (proj1 N eq_refl) as (iy & ix & Y & X & Z). apply (H iy ix Y X). rewrite B in Z. destruct (cell iy ix); [ discriminate | reflexivity ].
Qed.
Print Assumptions C95_read.

(** A tag is read back: the ring outside shows white, the outermost ring black,
    each bilinear or constant, and every cell of the picture of [w] is seen nearer
    to its colour.  Then the word read is [w]. *)
Theorem C95_exact : forall inverse, gives_inverses inverse -> forall fim q border d w white black,
  complete fim -> (0 < width fim)%nat -> (0 < height fim)%nat -> (1 <= d <= 8)%nat -> fits d w ->
  let dd := (2 * Z.of_nat border + Z.of_nat d)%Z in
  representable q dd ->
  shows inverse (observations fim q dd (outside_ring dd)) white -> shows inverse (observations fim q dd (border_ring dd)) black ->
  (forall iy ix : nat, (iy < d)%nat -> (ix < d)%nat ->
     let x := (IZR (Z.of_nat border + Z.of_nat ix) + / 2) / IZR dd in let y := (IZR (Z.of_nat border + Z.of_nat iy) + / 2) / IZR dd in
     exists v, seen fim (interpolate01 q x y) = Some v /\
       if picture d w iy ix then Rabs (v - bilinear white x y) < (bilinear white x y - bilinear black x y) / 2
       else Rabs (v - bilinear black x y) < (bilinear white x y - bilinear black x y) / 2) ->
  read_quad inverse fim q border d = Ok (Some w).
Proof.
  intros inverse INV fim q border d w white black C PW PH D F dd RP SW SB H.
  rewrite (read_quad_ok inverse fim q border d C PW PH (proj1 D) RP). fold dd. f_equal. apply (C75_read _ d (proj2 D)). split; [ exact F | ].
  intros iy ix Y X. destruct (H iy ix Y X) as (v & V & P). unfold bit_at. cbv zeta. rewrite V. f_equal.
  rewrite (fitted_exact inverse INV _ _ SW), (fitted_exact inverse INV _ _ SB).
  destruct (picture d w iy ix); apply Rabs_def2 in P; destruct (Rlt_dec _ v) as [L | L]; try reflexivity; exfalso; lra.
Qed.
Print Assumptions C95_exact.

(** The rounding is not to the nearest pixel: on the left and at the top, points up
    to a pixel and a half outside the image are taken for its first column and row;
    on the right and at the bottom only points up to half a pixel outside are. *)
Theorem C95_nearest_pixel_refuted : forall fim, complete fim -> (0 < width fim)%nat -> (0 < height fim)%nat -> INR (width fim) < 2147483647 -> INR (height fim) < 2147483647 ->
  pixel_at fim (-5 / 4, -5 / 4) = Ok (Some (nth 0 (pixels fim) 0)) /\
  pixel_at fim (INR (width fim) - / 2, 0) = Ok None /\ pixel_at fim (0, INR (height fim) - / 2) = Ok None.
Proof.
  intros fim C PW PH W H. assert (W1 : 1 <= INR (width fim)) by (change 1 with (INR 1); apply le_INR; lia). assert (H1 : 1 <= INR (height fim)) by (change 1 with (INR 1); apply le_INR; lia).
  split; [ | split ]; (rewrite pixel_at_seen; cbn [fst snd]; [ | exact C | exact PW | exact PH | apply Rabs_def1; lra | apply Rabs_def1; lra ]); f_equal; unfold seen; cbn [fst snd].
  - destruct (Rlt_dec (-3 / 2) (-5 / 4)); [ | lra ]. destruct (Rlt_dec (-5 / 4) (INR (width fim) - / 2)); [ | lra ]. destruct (Rlt_dec (-5 / 4) (INR (height fim) - / 2)); [ | lra ].
    assert (T : trunc (-5 / 4 + / 2) = 0%Z). { assert (0 <= trunc (-5 / 4 + / 2) /\ trunc (-5 / 4 + / 2) < 1)%Z; [ apply trunc_in; [ lia | lra ] | lia ]. }
    rewrite T. reflexivity.
  - destruct (Rlt_dec (-3 / 2) _); [ | reflexivity ]. destruct (Rlt_dec (INR (width fim) - / 2) (INR (width fim) - / 2)); [ lra | reflexivity ].
  - destruct (Rlt_dec (-3 / 2) 0); [ | reflexivity ]. destruct (Rlt_dec 0 (INR (width fim) - / 2)); [ | reflexivity ]. destruct (Rlt_dec (-3 / 2) _); [ | reflexivity ]. destruct (Rlt_dec (INR (height fim) - / 2) (INR (height fim) - / 2)); [ lra | reflexivity ].
Qed.
Print Assumptions C95_nearest_pixel_refuted.

(** The inverses of diagonal matrices; eight observations at the corners of a
    square determine a gray value, and the prediction is the one observed. *)
Definition diagonal (A : sym) : option (nat -> nat -> R) :=
  if Req_EM_T (a01 A * a01 A + a02 A * a02 A + a03 A * a03 A + a12 A * a12 A + a13 A * a13 A + a23 A * a23 A) 0 then
  if Req_EM_T (a00 A * a11 A * a22 A * a33 A) 0 then None
  else Some (fun i j => if (i =? j)%nat then / entry A i i else 0) else None.
Lemma diagonal_inverses : gives_inverses diagonal.
Proof.
  intros A M E. unfold diagonal in E. destruct (Req_EM_T _ 0) as [Z | ] in E; [ | discriminate ]. destruct (Req_EM_T _ 0) as [ | N ] in E; [ discriminate | ]. injection E as <-.
  assert (P : forall x : R, 0 <= x * x) by (intros; apply Rle_0_sqr).
  pose proof (P (a01 A)). pose proof (P (a02 A)). pose proof (P (a03 A)). pose proof (P (a12 A)). pose proof (P (a13 A)). pose proof (P (a23 A)).
  assert (Z1 : a01 A = 0) by (apply Rsqr_0_uniq; unfold Rsqr; lra). assert (Z2 : a02 A = 0) by (apply Rsqr_0_uniq; unfold Rsqr; lra). assert (Z3 : a03 A = 0) by (apply Rsqr_0_uniq; unfold Rsqr; lra).
  assert (Z4 : a12 A = 0) by (apply Rsqr_0_uniq; unfold Rsqr; lra). assert (Z5 : a13 A = 0) by (apply Rsqr_0_uniq; unfold Rsqr; lra). assert (Z6 : a23 A = 0) by (apply Rsqr_0_uniq; unfold Rsqr; lra).
  assert (N0 : a00 A <> 0) by (intros Q; apply N; rewrite Q; ring). assert (N1 : a11 A <> 0) by (intros Q; apply N; rewrite Q; ring).
  assert (N2 : a22 A <> 0) by (intros Q; apply N; rewrite Q; ring). assert (N3 : a33 A <> 0) by (intros Q; apply N; rewrite Q; ring).
  intros i j Hi Hj. do 4 (destruct i as [ | i ]; [ do 4 (destruct j as [ | j ]; [ unfold times4, entry, identity; cbn [Nat.eqb Nat.min Nat.max]; rewrite ?Z1, ?Z2, ?Z3, ?Z4, ?Z5, ?Z6; split; field; assumption | ]); lia | ]). lia.
Qed.
Definition corners8 (c : vec) : list op :=
  let at_ x y := Observe x y (bilinear c x y) in [at_ 1 1; at_ 1 (-1); Ask 3 4; at_ (-1) 1; at_ (-1) (-1); at_ 1 1; at_ 1 (-1); Ask 0 0; at_ (-1) 1; at_ (-1) (-1)].
Example C95_ex_fit : forall c x y, gives_inverses diagonal /\ determined diagonal (observed (corners8 c)) /\ snd (gray_at diagonal (used diagonal (corners8 c)) x y) = bilinear c x y.
Proof.
  intros c x y. assert (D : determined diagonal (observed (corners8 c))).
  { split; [ cbn; lia | ]. unfold diagonal, corners8, observed, normal_matrix, sum_over. cbn [flat_map app fold_right fst snd a00 a01 a02 a03 a11 a12 a13 a22 a23 a33].
    destruct (Req_EM_T _ 0) as [ | N ]; [ | exfalso; apply N; lra ]. destruct (Req_EM_T _ 0) as [ Q | ]; [ exfalso; lra | discriminate ]. }
  split; [ exact diagonal_inverses | split; [ exact D | ] ].
  rewrite (proj2 (gray_at_follows diagonal _ _ x y (used_follows diagonal (corners8 c)))). apply (fitted_exact diagonal diagonal_inverses).
  split; [ discriminate | split; [ | left; exact D ] ]. intros a b v I. cbn [observed corners8 flat_map app In] in I.
  repeat (destruct I as [E | I]; [ injection E as <- <- <-; reflexivity | ]). destruct I.
Qed.

(** A tag of one cell in an image of five by five pixels. *)
Definition tag5 : image := Image 5 5 [1;1;1;1;1; 1;0;0;0;1; 1;0;1;0;1; 1;0;0;0;1; 1;1;1;1;1].
Definition frame5 (i : nat) : TdModel.point := match i with 0%nat => (/ 2, / 2) | 1%nat => (7 / 2, / 2) | 2%nat => (7 / 2, 7 / 2) | _ => (/ 2, 7 / 2) end.
Lemma frame5_at x y : interpolate01 frame5 x y = (3 * x + / 2, 3 * y + / 2).
Proof. unfold interpolate01, interpolate, frame5. cbv zeta. cbn [fst snd]. f_equal; field. Qed.
Lemma frame5_cell iy ix : cell_place frame5 3 iy ix = (IZR (ix + 1), IZR (iy + 1)).
Proof. unfold cell_place. rewrite frame5_at, !plus_IZR. f_equal; field. Qed.
Lemma tag5_seen iy ix : (-1 <= iy <= 3)%Z -> (-1 <= ix <= 3)%Z -> seen tag5 (cell_place frame5 3 iy ix) = Some (nth (Z.to_nat (iy + 1) * 5 + Z.to_nat (ix + 1)) (pixels tag5) 0).
Proof.
  intros Y X. rewrite frame5_cell. unfold seen. cbn [fst snd tag5 width height pixels]. cbn [INR].
  assert (IN : forall k : Z, (-1 <= k <= 3)%Z -> 0 <= IZR (k + 1) <= 4 /\ trunc (IZR (k + 1) + / 2) = (k + 1)%Z).
  { intros k K. assert (A : 0 <= IZR (k + 1) <= 4) by (split; apply IZR_le; lia). split; [ exact A | ].
    assert (B : (0 <= trunc (IZR (k + 1) + / 2) < k + 2)%Z). { pose proof (proj2 (trunc_in (IZR (k + 1) + / 2) (k + 2) ltac:(lia))) as T. apply T. rewrite !plus_IZR in *. lra. }
    destruct (Z.eq_dec (k + 1) 0) as [E | E]; [ lia | ].
    destruct (Z_lt_le_dec (trunc (IZR (k + 1) + / 2)) (k + 1)) as [L | L]; [ | lia ].
    exfalso. assert (T : -1 < IZR (k + 1) + / 2 < IZR (k + 1)) by (apply trunc_in; lia). lra. }
  destruct (IN ix X) as [AX TX]. destruct (IN iy Y) as [AY TY]. rewrite TX, TY.
  destruct (Rlt_dec _ _); [ | lra ]. destruct (Rlt_dec _ _); [ | lra ]. destruct (Rlt_dec _ _); [ | lra ]. destruct (Rlt_dec _ _); [ reflexivity | lra ].
Qed.
Lemma tag5_shows ring c : (exists iy ix, (-1 <= iy <= 3)%Z /\ (-1 <= ix <= 3)%Z /\ ring iy ix = true) ->
  (forall iy ix, (-1 <= iy <= 3)%Z -> (-1 <= ix <= 3)%Z -> ring iy ix = true -> nth (Z.to_nat (iy + 1) * 5 + Z.to_nat (ix + 1)) (pixels tag5) 0 = c) ->
  shows diagonal (observations tag5 frame5 3 ring) (Vec 0 0 0 c).
Proof.
  intros (ey & ex & EY & EX & E) H. assert (IN : forall k, In k (from_minus_one 3) <-> (-1 <= k <= 3)%Z) by (intros; apply (in_from tag5); [ cbn; lia | cbn; lia | lia ]).
  split; [ | split; [ | right; cbn; tauto ] ].
  - intros Q. assert (I : In ((IZR ex + / 2) / 3, (IZR ey + / 2) / 3, nth (Z.to_nat (ey + 1) * 5 + Z.to_nat (ex + 1)) (pixels tag5) 0) (observations tag5 frame5 3 ring)).
    { unfold observations. apply in_flat_map. exists ey. split; [ apply IN; exact EY | ]. apply in_flat_map. exists ex. split; [ apply IN; exact EX | ]. rewrite E, tag5_seen by assumption. left. reflexivity. }
    rewrite Q in I. destruct I.
  - intros x y v I. unfold observations in I. apply in_flat_map in I. destruct I as (iy & Y & I). apply in_flat_map in I. destruct I as (ix & X & I). apply IN in X, Y.
    destruct (ring iy ix) eqn:R; [ | destruct I ]. rewrite tag5_seen in I by assumption. destruct I as [Q | []]. assert (V : v = nth (Z.to_nat (iy + 1) * 5 + Z.to_nat (ix + 1)) (pixels tag5) 0) by congruence.
    rewrite V, (H iy ix Y X R). unfold bilinear. cbn [v0 v1 v2 v3]. ring.
Qed.
Example C95_ex_tag : complete tag5 /\ representable frame5 3 /\ shows diagonal (observations tag5 frame5 3 (outside_ring 3)) (Vec 0 0 0 1) /\
  shows diagonal (observations tag5 frame5 3 (border_ring 3)) (Vec 0 0 0 0) /\ read_quad diagonal tag5 frame5 1 1 = Ok (Some 1%N).
Proof.
  assert (CASES : forall k, (-1 <= k <= 3)%Z -> k = (-1)%Z \/ k = 0%Z \/ k = 1%Z \/ k = 2%Z \/ k = 3%Z) by (intros; lia).
  assert (RP : representable frame5 3).
  { intros iy ix Y X. rewrite frame5_cell. cbn [fst snd]. split; (rewrite Rabs_right; [ apply IZR_lt; lia | apply Rle_ge, IZR_le; lia ]). }
  assert (W : shows diagonal (observations tag5 frame5 3 (outside_ring 3)) (Vec 0 0 0 1)).
  { apply tag5_shows; [ exists (-1)%Z, (-1)%Z; split; [ lia | split; [ lia | reflexivity ] ] | ]. intros iy ix Y X.
    destruct (CASES iy Y) as [-> | [-> | [-> | [-> | ->]]]]; destruct (CASES ix X) as [-> | [-> | [-> | [-> | ->]]]]; intros E; try discriminate E; reflexivity. }
  assert (B : shows diagonal (observations tag5 frame5 3 (border_ring 3)) (Vec 0 0 0 0)).
  { apply tag5_shows; [ exists 0%Z, 0%Z; split; [ lia | split; [ lia | reflexivity ] ] | ]. intros iy ix Y X.
    destruct (CASES iy Y) as [-> | [-> | [-> | [-> | ->]]]]; destruct (CASES ix X) as [-> | [-> | [-> | [-> | ->]]]]; intros E; try discriminate E; reflexivity. }
  split; [ reflexivity | split; [ exact RP | split; [ exact W | split; [ exact B | ] ] ] ].
  apply (C95_exact diagonal diagonal_inverses tag5 frame5 1 1 1%N (Vec 0 0 0 1) (Vec 0 0 0 0)); [ reflexivity | cbn; lia | cbn; lia | lia | reflexivity | exact RP | exact W | exact B | ].
  intros iy ix Y X. assert (iy = 0%nat) by lia. assert (ix = 0%nat) by lia. subst. cbv zeta. exists 1. split.
  - change (seen tag5 (cell_place frame5 3 1 1) = Some 1). rewrite tag5_seen by lia. reflexivity.
  - replace (picture 1 1 0 0) with true by reflexivity. unfold bilinear. cbn [v0 v1 v2 v3]. apply Rabs_def1; lra.
Qed.
