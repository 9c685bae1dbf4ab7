(** * Proofs about the smoothing of the tag detector *)
From Coq Require Import Reals List Arith ZArith Bool Lia Lra.
From Verif Require Import Base BsplModel BsplSpec BsplProofs GfModel GfSpec.
Import ListNotations.
Local Open Scope R_scope.

Ltac decide_nat := repeat (match goal with
  | |- context [(?a <=? ?b)%nat] => first [ rewrite (proj2 (Nat.leb_le a b)) by lia | rewrite (proj2 (Nat.leb_gt a b)) by lia ]
  | |- context [(?a <? ?b)%nat] => first [ rewrite (proj2 (Nat.ltb_lt a b)) by lia | rewrite (proj2 (Nat.ltb_ge a b)) by lia ]
  end; cbn [andb orb]).
Lemma set_at_length l i v : length (set_at l i v) = length l.
Proof. revert i. induction l as [ | x l IH]; intros [ | i]; cbn; congruence. Qed.
Lemma set_at_nth l i v k : (i < length l)%nat -> nth k (set_at l i v) 0 = if (k =? i)%nat then v else nth k l 0.
Proof.
  revert i k. induction l as [ | x l IH]; intros i k Hi; [ cbn in Hi; lia | ].
  destruct i as [ | i], k as [ | k]; cbn [set_at nth Nat.eqb]; try reflexivity. cbn [length] in Hi. apply IH. lia.
Qed.
Lemma write_ok l i v : (i < length l)%nat -> write l i v = Ok (set_at l i v).
Proof. intros H. unfold write. rewrite (proj2 (Nat.ltb_lt _ _) H). reflexivity. Qed.
Lemma read_ok l i : (i < length l)%nat -> read l i = Ok (nth i l 0).
Proof. intros H. unfold read. rewrite (nth_error_nth' l 0 H). reflexivity. Qed.

Lemma total_ext n f g : (forall k, (k < n)%nat -> f k = g k) -> total n f = total n g.
Proof. apply (bsum_ext n f g). Qed.
Lemma total_scale n c f : total n (fun k => c * f k) = c * total n f.
Proof. induction n as [ | n IH]; cbn [total]; [ ring | rewrite IH; ring ]. Qed.
Lemma total_first n f : total (S n) f = f 0%nat + total n (fun k => f (S k)).
Proof. induction n as [ | n IH]; [ cbn [total]; ring | ]. change (total (S (S n)) f) with (total (S n) f + f (S n)). rewrite IH. cbn [total]. ring. Qed.

Lemma accumulate_ok a f tap j acc : (forall k, (k < length f)%nat -> (tap (j + k) < length a)%nat) ->
  accumulate a f tap j acc = Ok (acc + total (length f) (fun k => nth (tap (j + k)%nat) a 0 * weight f k)).
Proof.
  revert j acc. induction f as [ | c f IH]; intros j acc H; cbn [accumulate length].
  - cbn [total]. rewrite Rplus_0_r. reflexivity.
  - rewrite read_ok by (pose proof (H 0%nat ltac:(cbn; lia)) as Q; rewrite Nat.add_0_r in Q; exact Q). cbn [obind].
    rewrite IH by (intros k Hk; replace (S j + k)%nat with (j + S k)%nat by lia; apply H; cbn; lia).
    rewrite total_first. rewrite Nat.add_0_r. unfold weight at 2. cbn [nth]. f_equal. rewrite Rplus_assoc. f_equal. f_equal. apply total_ext. intros k _.
    unfold weight. cbn [nth]. replace (S j + k)%nat with (j + S k)%nat by lia. reflexivity.
Qed.
(** The result of a loop over consecutive rounds *)
Lemma rounds_ok a f tap roff : forall c s r, (length f / 2 <= s)%nat ->
  (forall i j, (s <= i < s + c)%nat -> (j < length f)%nat -> (tap i j < length a)%nat) ->
  (0 < c -> roff + s + c - length f / 2 <= length r)%nat ->
  exists r', rounds a f tap roff (seq s c) r = Ok r' /\ length r' = length r /\
    forall p, nth p r' 0 = if (roff + s - length f / 2 <=? p)%nat && (p <? roff + s + c - length f / 2)%nat
                           then total (length f) (fun j => nth (tap (p + length f / 2 - roff)%nat j) a 0 * weight f j) else nth p r 0.
Proof.
  set (h := (length f / 2)%nat). induction c as [ | c IH]; intros s r Hs Ht Hr; cbn [seq rounds].
  - exists r. split; [ reflexivity | ]. split; [ reflexivity | ]. intros p.
    destruct (Nat.leb_spec (roff + s - h) p), (Nat.ltb_spec p (roff + s + 0 - h)); cbn [andb]; [ lia | reflexivity | reflexivity | reflexivity ].
  - rewrite accumulate_ok by (intros k Hk; apply Ht; lia). cbn [obind]. fold h. rewrite write_ok by lia. cbn [obind].
    destruct (IH (S s) (set_at r (roff + s - h) (0 + total (length f) (fun k => nth (tap s (0 + k)%nat) a 0 * weight f k)))) as (r' & E & L & N).
    + lia. + intros i j Hi Hj. apply Ht; lia. + rewrite set_at_length. lia.
    + exists r'. split; [ exact E | ]. split; [ rewrite L; apply set_at_length | ]. intros p. rewrite N. rewrite set_at_nth by lia.
      destruct (Nat.leb_spec (roff + S s - h) p), (Nat.ltb_spec p (roff + S s + c - h)), (Nat.leb_spec (roff + s - h) p), (Nat.ltb_spec p (roff + s + S c - h)), (Nat.eqb_spec p (roff + s - h)); cbn [andb]; try lia; try reflexivity.
      subst p. rewrite Rplus_0_l. replace (roff + s - h + h - roff)%nat with s by lia. reflexivity.
Qed.

(** The pixel a round ends up multiplying *)
Definition tap (aoff alen n i j : nat) : nat :=
  if (i <? n)%nat then tap_first aoff alen i j else if (i <? alen)%nat then tap_middle aoff i j else tap_last aoff alen i j.
Lemma convolve_ok a aoff alen f r roff : (length f <= alen)%nat -> (aoff + alen <= length a)%nat -> (roff + alen <= length r)%nat -> (0 < alen)%nat ->
  exists r', convolve a aoff alen f r roff = Ok r' /\ length r' = length r /\
    forall p, nth p r' 0 = if (roff <=? p)%nat && (p <? roff + alen)%nat
      then total (length f) (fun j => nth (tap aoff alen (length f) (p - roff + length f / 2) j) a 0 * weight f j) else nth p r 0.
Proof.
  intros Hn Ha Hr H0. unfold convolve. set (n := length f) in *. set (h := (n / 2)%nat).
  assert (Hh : (h <= n)%nat) by (unfold h; apply Nat.div_le_upper_bound; lia).
  destruct (rounds_ok a f (tap_first aoff alen) roff (n - h) h r) as (r1 & E1 & L1 & N1).
  { unfold h, n. lia. } { intros i j Hi Hj. fold n in Hj. unfold tap_first. destruct (_ || _)%bool eqn:C; [ lia | ]. apply orb_false_iff in C. destruct C as [C1 C2]. apply Nat.ltb_ge in C1. apply Nat.leb_gt in C2. lia. }
  { fold n h. lia. }
  fold n h in E1, N1. rewrite E1. cbn [obind].
  destruct (rounds_ok a f (tap_middle aoff) roff (alen - n) n r1) as (r2 & E2 & L2 & N2).
  { fold n h. lia. } { intros i j Hi Hj. fold n in Hj. unfold tap_middle. lia. } { fold n h. rewrite L1. lia. }
  fold n h in N2. rewrite E2. cbn [obind].
  destruct (rounds_ok a f (tap_last aoff alen) roff h alen r2) as (r3 & E3 & L3 & N3).
  { fold n h. lia. } { intros i j Hi Hj. fold n in Hj. unfold tap_last. destruct (_ || _)%bool eqn:C; [ lia | ]. apply orb_false_iff in C. destruct C as [C1 C2]. apply Nat.ltb_ge in C2. apply Nat.leb_gt in C1. lia. }
  { fold n h. rewrite L2, L1. lia. }
  fold n h in N3. exists r3. split; [ exact E3 | ]. split; [ lia | ]. intros p. rewrite N3, N2, N1.
  destruct (Nat.lt_ge_cases p roff) as [A | A]; [ decide_nat; reflexivity | ].
  destruct (Nat.lt_ge_cases p (roff + alen)) as [B | B]; [ | decide_nat; reflexivity ].
  replace (p + h - roff)%nat with (p - roff + h)%nat by lia. unfold tap.
  destruct (Nat.lt_ge_cases (p - roff + h) n) as [C | C]; [ decide_nat; reflexivity | ].
  destruct (Nat.lt_ge_cases (p - roff + h) alen) as [D | D]; decide_nat; reflexivity.
Qed.
(** Without an offset it is the convolution. *)
Lemma tap_zero alen n i j : (j < n <= alen)%nat -> (i < alen + n / 2)%nat -> tap 0 alen n i j = clamped alen (Z.of_nat i - Z.of_nat j).
Proof.
  intros Hj Hi. unfold tap, tap_first, tap_middle, tap_last, clamped. assert (n / 2 <= n)%nat by (apply Nat.div_le_upper_bound; lia).
  destruct (Nat.ltb_spec i n), (Nat.ltb_spec i alen), (Nat.ltb_spec (0 + i) j), (Nat.leb_spec (alen + j) (0 + i)); cbn [orb]; lia.
Qed.

Lemma index_unique w x y x' y' : (x < w)%nat -> (x' < w)%nat -> (y * w + x = y' * w + x')%nat -> x = x' /\ y = y'.
Proof.
  intros H1 H2 E. assert (y = y').
  { assert (A : ((y * w + x) / w)%nat = y) by (rewrite Nat.div_add_l by lia; rewrite Nat.div_small by exact H1; lia).
    assert (B : ((y' * w + x') / w)%nat = y') by (rewrite Nat.div_add_l by lia; rewrite Nat.div_small by exact H2; lia).
    rewrite E in A. lia. }
  subst y'. split; lia.
Qed.
(** ** Rows *)
Section Image.
Variable m : image.
Hypothesis Hc : complete m.
Variable f : list R.
Hypothesis Hf : (length f <= width m)%nat.
Hypothesis Hw : (0 < width m)%nat.

Lemma row_value x y : (x < width m)%nat -> (y < height m)%nat ->
  total (length f) (fun j => nth (tap (y * width m) (width m) (length f) (x + length f / 2) j) (pixels m) 0 * weight f j) = smeared m f x y.
Proof.
  intros Hx Hy. unfold smeared. set (n := length f) in *. set (w := width m) in *. assert (Hh : (n / 2 <= n)%nat) by (apply Nat.div_le_upper_bound; lia).
  assert (CV : forall z, (forall j, (j < n)%nat -> tap (y * w) w n (x + n / 2) j = (y * w + clamped w (Z.of_nat x + Z.of_nat (n / 2) - Z.of_nat j))%nat) ->
    z = y -> total n (fun j => nth (tap (y * w) w n (x + n / 2) j) (pixels m) 0 * weight f j) = convolved w f (fun k => pixel m k z) x).
  { intros z H ->. unfold convolved. apply total_ext. intros j Hj. fold n. rewrite H by exact Hj. reflexivity. }
  destruct (Nat.eqb_spec y 0) as [-> | Ny].
  - apply CV; [ | reflexivity ]. intros j Hj. cbn [Nat.mul Nat.add]. rewrite tap_zero by lia. f_equal. lia.
  - assert (Y : (w <= y * w)%nat) by nia.
    destruct (Nat.ltb_spec x (n - n / 2)) as [X | X].
    + destruct (Nat.eqb_spec y 1) as [-> | N1].
      * apply total_ext. intros j Hj. f_equal. unfold tap. rewrite (proj2 (Nat.ltb_lt (x + n / 2) n)) by lia. unfold tap_first.
        destruct (Nat.leb_spec j (x + n / 2)).
        -- rewrite (proj2 (Nat.leb_le (w + j) (1 * w + (x + n / 2)))) by lia. rewrite orb_true_r. unfold pixel. f_equal. fold w. lia.
        -- rewrite (proj2 (Nat.leb_gt (w + j) (1 * w + (x + n / 2)))) by lia. rewrite (proj2 (Nat.ltb_ge (1 * w + (x + n / 2)) j)) by lia. cbn [orb]. unfold pixel. f_equal. fold w. lia.
      * assert (Y2 : (2 * w <= y * w)%nat) by (apply Nat.mul_le_mono_r; lia). unfold mass. fold n. rewrite <- total_scale. apply total_ext. intros j Hj. f_equal.
        unfold tap. rewrite (proj2 (Nat.ltb_lt (x + n / 2) n)) by lia. unfold tap_first. rewrite (proj2 (Nat.leb_le (w + j) (y * w + (x + n / 2)))) by lia. rewrite orb_true_r. unfold pixel. f_equal. fold w. lia.
    + destruct (Nat.ltb_spec x (w - n / 2)) as [X2 | X2].
      * apply CV; [ | reflexivity ]. intros j Hj. unfold tap, clamped. rewrite (proj2 (Nat.ltb_ge (x + n / 2) n)) by lia. rewrite (proj2 (Nat.ltb_lt (x + n / 2) w)) by lia. unfold tap_middle. lia.
      * unfold mass. fold n. rewrite <- total_scale. apply total_ext. intros j Hj. f_equal. unfold tap.
        rewrite (proj2 (Nat.ltb_ge (x + n / 2) n)) by lia. rewrite (proj2 (Nat.ltb_ge (x + n / 2) w)) by lia. unfold tap_last.
        rewrite (proj2 (Nat.leb_le (w + j) (y * w + (x + n / 2)))) by lia. cbn [orb]. unfold pixel. f_equal. fold w. lia.
Qed.
Lemma filter_rows_ok : forall c s r, (s + c <= height m)%nat -> length r = length (pixels m) ->
  exists r', filter_rows (pixels m) (width m) f (seq s c) r = Ok r' /\ length r' = length r /\
    forall x y, (x < width m)%nat -> (y < height m)%nat ->
      nth (y * width m + x) r' 0 = if (s <=? y)%nat && (y <? s + c)%nat then smeared m f x y else nth (y * width m + x) r 0.
Proof.
  induction c as [ | c IH]; intros s r Hs Hr; cbn [seq filter_rows].
  - exists r. split; [ reflexivity | ]. split; [ reflexivity | ]. intros x y _ _.
    destruct (Nat.leb_spec s y), (Nat.ltb_spec y (s + 0)); cbn [andb]; [ lia | reflexivity | reflexivity | reflexivity ].
  - assert (IN : (s * width m + width m <= length (pixels m))%nat) by (rewrite Hc; nia).
    destruct (convolve_ok (pixels m) (s * width m) (width m) f r (s * width m) Hf IN ltac:(lia) Hw) as (r1 & E1 & L1 & N1).
    rewrite E1. cbn [obind]. destruct (IH (S s) r1 ltac:(lia) ltac:(lia)) as (r' & E & L & N). exists r'. split; [ exact E | ]. split; [ lia | ].
    intros x y Hx Hy. rewrite (N x y Hx Hy), N1.
    destruct (Nat.eq_dec y s) as [-> | Ny].
    + rewrite (proj2 (Nat.leb_gt (S s) s)) by lia. rewrite (proj2 (Nat.leb_le s s)) by lia. rewrite (proj2 (Nat.ltb_lt s (s + S c))) by lia. cbn [andb].
      rewrite (proj2 (Nat.leb_le (s * width m) (s * width m + x))) by lia. rewrite (proj2 (Nat.ltb_lt (s * width m + x) (s * width m + width m))) by lia. cbn [andb].
      replace (s * width m + x - s * width m)%nat with x by lia. apply row_value; assumption.
    + assert (NI : ((s * width m <=? y * width m + x)%nat && (y * width m + x <? s * width m + width m)%nat) = false).
      { destruct (Nat.leb_spec (s * width m) (y * width m + x)), (Nat.ltb_spec (y * width m + x) (s * width m + width m)); try reflexivity. exfalso. apply Ny.
        assert (Hx' : (y * width m + x - s * width m < width m)%nat) by lia.
        destruct (index_unique (width m) x y (y * width m + x - s * width m) s Hx Hx' ltac:(lia)) as [_ E2]. exact E2. }
      rewrite NI.
      destruct (Nat.leb_spec (S s) y), (Nat.leb_spec s y), (Nat.ltb_spec y (S s + c)), (Nat.ltb_spec y (s + S c)); cbn [andb]; try lia; reflexivity.
Qed.
End Image.

(** ** Columns *)
Lemma copy_out_ok r w x : forall c s, (forall y, (s <= y < s + c)%nat -> (y * w + x < length r)%nat) ->
  exists t, copy_out r w x (seq s c) = Ok t /\ length t = c /\ forall k, (k < c)%nat -> nth k t 0 = nth ((s + k) * w + x) r 0.
Proof.
  induction c as [ | c IH]; intros s H; cbn [seq copy_out].
  - exists []. split; [ reflexivity | ]. split; [ reflexivity | ]. intros; lia.
  - rewrite read_ok by (apply H; lia). cbn [obind]. destruct (IH (S s)) as (t & E & L & N); [ intros y Hy; apply H; lia | ].
    rewrite E. cbn [obind]. eexists. split; [ reflexivity | ]. split; [ cbn [length]; rewrite L; reflexivity | ].
    intros [ | k] Hk; cbn [nth]; [ rewrite Nat.add_0_r; reflexivity | ]. rewrite N by lia. f_equal. lia.
Qed.
Lemma copy_in_ok t w x : (x < w)%nat -> forall c s px, (s + c <= length t)%nat -> (forall y, (s <= y < s + c)%nat -> (y * w + x < length px)%nat) ->
  exists px', copy_in t w x (seq s c) px = Ok px' /\ length px' = length px /\
    forall x' y, (x' < w)%nat -> nth (y * w + x') px' 0 = if (x' =? x)%nat && (s <=? y)%nat && (y <? s + c)%nat then nth y t 0 else nth (y * w + x') px 0.
Proof.
  intros Hx. induction c as [ | c IH]; intros s px Ht H; cbn [seq copy_in].
  - exists px. split; [ reflexivity | ]. split; [ reflexivity | ]. intros x' y _.
    destruct (Nat.eqb_spec x' x), (Nat.leb_spec s y), (Nat.ltb_spec y (s + 0)); cbn [andb]; [ lia | reflexivity .. ].
  - rewrite read_ok by lia. cbn [obind]. rewrite write_ok by (apply H; lia). cbn [obind].
    destruct (IH (S s) (set_at px (s * w + x) (nth s t 0))) as (px' & E & L & N); [ lia | intros y Hy; rewrite set_at_length; apply H; lia | ].
    exists px'. split; [ exact E | ]. split; [ rewrite L; apply set_at_length | ]. intros x' y Hx'. rewrite N by exact Hx'. rewrite set_at_nth by (apply H; lia).
    destruct (Nat.eqb_spec (y * w + x') (s * w + x)) as [Eq | Ne].
    + destruct (index_unique w x' y x s Hx' Hx Eq) as [-> ->].
      rewrite Nat.eqb_refl. destruct (Nat.leb_spec (S s) s), (Nat.ltb_spec s (S s + c)), (Nat.leb_spec s s), (Nat.ltb_spec s (s + S c)); cbn [andb]; try lia; reflexivity.
    + destruct (Nat.eqb_spec x' x) as [Ex | Ex]; cbn [andb]; [ | reflexivity ]. subst x'.
      destruct (Nat.leb_spec (S s) y), (Nat.ltb_spec y (S s + c)), (Nat.leb_spec s y), (Nat.ltb_spec y (s + S c)); cbn [andb]; try lia; try reflexivity.
      exfalso. apply Ne. f_equal. f_equal. lia.
Qed.
Lemma filter_columns_ok r w h f : (length f <= h)%nat -> (0 < h)%nat -> length r = (w * h)%nat ->
  forall c s tmp2 px, (s + c <= w)%nat -> length tmp2 = h -> length px = (w * h)%nat ->
  exists px', filter_columns r w h f (seq s c) tmp2 px = Ok px' /\ length px' = length px /\
    forall x y, (x < w)%nat -> (y < h)%nat ->
      nth (y * w + x) px' 0 = if (s <=? x)%nat && (x <? s + c)%nat then convolved h f (fun k => nth (k * w + x) r 0) y else nth (y * w + x) px 0.
Proof.
  intros Hf Hh Hr. induction c as [ | c IH]; intros s tmp2 px Hs Ht Hp; cbn [seq filter_columns].
  - exists px. split; [ reflexivity | ]. split; [ reflexivity | ]. intros x y _ _. destruct (Nat.leb_spec s x), (Nat.ltb_spec x (s + 0)); cbn [andb]; [ lia | reflexivity .. ].
  - destruct (copy_out_ok r w s h 0) as (t & E1 & L1 & N1); [ intros y Hy; rewrite Hr; nia | ]. rewrite E1. cbn [obind].
    destruct (convolve_ok t 0 h f tmp2 0 Hf ltac:(lia) ltac:(lia) Hh) as (t2 & E2 & L2 & N2). rewrite E2. cbn [obind].
    destruct (copy_in_ok t2 w s ltac:(lia) h 0 px ltac:(lia)) as (p1 & E3 & L3 & N3); [ intros y Hy; rewrite Hp; nia | ]. rewrite E3. cbn [obind].
    destruct (IH (S s) t2 p1 ltac:(lia) ltac:(lia) ltac:(lia)) as (px' & E & L & N). exists px'. split; [ exact E | ]. split; [ lia | ].
    intros x y Hx Hy. rewrite (N x y Hx Hy), (N3 x y Hx).
    destruct (Nat.eqb_spec x s) as [-> | Ne].
    + rewrite (proj2 (Nat.leb_gt (S s) s)) by lia. rewrite (proj2 (Nat.leb_le s s)) by lia. rewrite (proj2 (Nat.ltb_lt s (s + S c))) by lia. rewrite (proj2 (Nat.leb_le 0 y)) by lia. rewrite (proj2 (Nat.ltb_lt y (0 + h))) by lia. cbn [andb].
      rewrite N2. rewrite (proj2 (Nat.leb_le 0 y)) by lia. rewrite (proj2 (Nat.ltb_lt y (0 + h))) by lia. cbn [andb].
      unfold convolved. apply total_ext. intros j Hj. f_equal. rewrite Nat.sub_0_r.
      assert (length f / 2 <= length f)%nat by (apply Nat.div_le_upper_bound; lia). rewrite tap_zero by lia.
      rewrite N1 by (unfold clamped; lia). replace (Z.of_nat (y + length f / 2) - Z.of_nat j)%Z with (Z.of_nat y + Z.of_nat (length f / 2) - Z.of_nat j)%Z by lia. reflexivity.
    + cbn [andb]. destruct (Nat.leb_spec (S s) x), (Nat.leb_spec s x), (Nat.ltb_spec x (S s + c)), (Nat.ltb_spec x (s + S c)); cbn [andb]; try lia; reflexivity.
Qed.
Lemma convolved_ext n f g g' p : (0 < n)%nat -> (forall k, (k < n)%nat -> g k = g' k) -> convolved n f g p = convolved n f g' p.
Proof. intros H E. unfold convolved. apply total_ext. intros j _. rewrite E; [ reflexivity | unfold clamped; lia ]. Qed.

(** Both passes *)
Lemma filter_factored_ok m fh fv : complete m -> (length fh <= width m)%nat -> (length fv <= height m)%nat -> (0 < width m)%nat -> (0 < height m)%nat ->
  exists m', filter_factored m fh fv = Ok m' /\ width m' = width m /\ height m' = height m /\ complete m' /\
    forall x y, (x < width m)%nat -> (y < height m)%nat -> pixel m' x y = convolved (height m) fv (fun k => smeared m fh x k) y.
Proof.
  intros Hc Hh Hv Hw Hg. unfold filter_factored.
  destruct (filter_rows_ok m Hc fh Hh Hw (height m) 0 (pixels m) ltac:(lia) eq_refl) as (r & E1 & L1 & N1). rewrite E1. cbn [obind].
  destruct (filter_columns_ok r (width m) (height m) fv Hv Hg ltac:(rewrite L1; exact Hc) (width m) 0 (repeat 0 (height m)) (pixels m) ltac:(lia) (repeat_length _ _) Hc) as (px & E2 & L2 & N2).
  rewrite E2. cbn [obind]. eexists. split; [ reflexivity | ]. cbn [width height]. split; [ reflexivity | ]. split; [ reflexivity | ].
  split; [ unfold complete; cbn [pixels width height]; rewrite L2; exact Hc | ].
  intros x y Hx Hy. unfold pixel at 1. cbn [width pixels]. rewrite (N2 x y Hx Hy).
  rewrite (proj2 (Nat.leb_le 0 x)) by lia. rewrite (proj2 (Nat.ltb_lt x (0 + width m))) by lia. cbn [andb].
  apply convolved_ext; [ exact Hg | ]. intros k Hk. rewrite (N1 x k Hx Hk).
  rewrite (proj2 (Nat.leb_le 0 k)) by lia. rewrite (proj2 (Nat.ltb_lt k (0 + height m))) by lia. reflexivity.
Qed.
