(** * C92: smoothing and gradients of the tag detector *)
From Coq Require Import Reals List Arith ZArith Bool Lia Lra.
From Verif Require Import Base BsplModel BsplSpec BsplProofs KinModel KinProofs RotEuler LutModel GfModel GfSpec GfProofs.
Import ListNotations.
Local Open Scope R_scope.

(** ** The filter *)
Lemma total_nonneg n g : (forall k, (k < n)%nat -> 0 <= g k) -> 0 <= total n g.
Proof. induction n as [ | n IH]; intros H; cbn [total]; [ lra | ]. pose proof (H n ltac:(lia)). pose proof (IH ltac:(intros; apply H; lia)). lra. Qed.
Lemma total_positive n g : (0 < n)%nat -> (forall k, (k < n)%nat -> 0 < g k) -> 0 < total n g.
Proof. destruct n as [ | n]; [ lia | ]. intros _ H. cbn [total]. pose proof (H n ltac:(lia)). pose proof (total_nonneg n g ltac:(intros; left; apply H; lia)). lra. Qed.
Lemma total_reverse n g : total n g = total n (fun k => g (n - 1 - k)%nat).
Proof.
  induction n as [ | n IH]; [ reflexivity | ]. rewrite (total_first n (fun k => g (S n - 1 - k)%nat)). cbn [total]. rewrite IH, Rplus_comm.
  replace (S n - 1 - 0)%nat with n by lia. f_equal. apply total_ext. intros k Hk. f_equal. lia.
Qed.
Lemma nth_map_seq g n k : (k < n)%nat -> nth k (map g (seq 0 n)) 0 = g k.
Proof. intros H. rewrite (nth_indep _ 0 (g 0%nat)) by (rewrite map_length, seq_length; exact H). rewrite map_nth, seq_nth by exact H. reflexivity. Qed.
Lemma total_pick n i g : (i < n)%nat -> (forall k, (k < n)%nat -> k <> i -> g k = 0) -> total n g = g i.
Proof.
  induction n as [ | n IH]; intros Hi H; [ lia | ]. cbn [total]. destruct (Nat.eq_dec i n) as [-> | N].
  - rewrite (total_ext n g (fun _ => 0)) by (intros k Hk; apply H; lia). rewrite (total_ext n (fun _ => 0) (fun k => 0 * 0)) by (intros; ring). rewrite (total_scale n 0 (fun _ => 0)). ring.
  - rewrite IH by (try lia; intros; apply H; lia). rewrite (H n) by lia. ring.
Qed.
Theorem C92_filter : forall sigma n, (0 < n)%nat ->
  exists f, make_filter sigma n = Ok f /\ length f = n /\ averaging f /\
    (sigma <> 0 -> forall j, (j < n)%nat -> 0 < weight f j) /\
    (Nat.Odd n -> symmetric f) /\
    (forall j k, (j < n)%nat -> (k < n)%nat -> (Z.abs (Z.of_nat j - Z.of_nat (n / 2)) <= Z.abs (Z.of_nat k - Z.of_nat (n / 2)))%Z -> weight f k <= weight f j).
Proof.
  intros sigma n Hn. assert (Hh : (n / 2 < n)%nat) by (apply Nat.div_lt; lia). unfold make_filter.
  assert (HO : Nat.Odd n -> exists h, n = (2 * h + 1)%nat /\ (n / 2)%nat = h).
  { intros [h E]. exists h. split; [ exact E | ]. rewrite E, Nat.mul_comm, Nat.div_add_l by lia. cbn. lia. }
  destruct (Req_EM_T sigma 0) as [Z | NZ].
  - rewrite write_ok by (rewrite repeat_length; exact Hh). eexists. split; [ reflexivity | ]. rewrite set_at_length, repeat_length. split; [ reflexivity | ].
    assert (W : forall j, weight (set_at (repeat 0 n) (n / 2) 1) j = if (j =? n / 2)%nat then 1 else 0).
    { intros j. unfold weight. rewrite set_at_nth by (rewrite repeat_length; exact Hh). destruct (j =? n / 2)%nat; [ reflexivity | ]. apply nth_repeat. }
    split; [ | split; [ lra | split ] ].
    + split; [ intros j _; rewrite W; destruct (_ =? _)%nat; lra | ]. unfold mass. rewrite set_at_length, repeat_length. rewrite (total_pick n (n / 2)); [ rewrite W, Nat.eqb_refl; reflexivity | exact Hh | ].
      intros k _ Nk. rewrite W. rewrite (proj2 (Nat.eqb_neq _ _) Nk). reflexivity.
    + intros O. destruct (HO O) as (h & E1 & E2). exists h. rewrite set_at_length, repeat_length. split; [ exact E1 | ]. intros k Hk. rewrite !W, E2.
      destruct (Nat.eqb_spec (h - k) h), (Nat.eqb_spec (h + k) h); try lia; reflexivity.
    + intros j k Hj Hk L. rewrite !W. destruct (Nat.eqb_spec j (n / 2)), (Nat.eqb_spec k (n / 2)); try lra. lia.
  - set (g := fun i : nat => exp (- IZR (Z.of_nat i - Z.of_nat (n / 2)) * IZR (Z.of_nat i - Z.of_nat (n / 2)) * (1 / (2 * sigma * sigma)))).
    eexists. split; [ reflexivity | ]. rewrite map_length, seq_length. split; [ reflexivity | ].
    assert (P : 0 < bsum n g) by (apply (total_positive n g Hn); intros; apply exp_pos).
    assert (W : forall j, (j < n)%nat -> weight (map (fun i => g i / bsum n g) (seq 0 n)) j = / bsum n g * g j).
    { intros j Hj. unfold weight. rewrite (nth_map_seq (fun i => g i / bsum n g)) by exact Hj. unfold Rdiv. ring. }
    assert (IP : 0 < / bsum n g) by (apply Rinv_0_lt_compat; exact P).
    assert (V : 0 < 1 / (2 * sigma * sigma)). { apply Rdiv_lt_0_compat; [ lra | ]. pose proof (Rsqr_pos_lt sigma NZ) as Q. unfold Rsqr in Q. lra. }
    fold g. split; [ | split; [ | split ] ].
    + split; rewrite ?map_length, ?seq_length.
      * intros j Hj. rewrite W by exact Hj. left. apply Rmult_lt_0_compat; [ exact IP | apply exp_pos ].
      * unfold mass. rewrite map_length, seq_length. rewrite (total_ext n _ (fun j => / bsum n g * g j)) by (intros j Hj; apply W; exact Hj).
        rewrite total_scale. change (total n g) with (bsum n g). apply Rinv_l. lra.
    + intros _ j Hj. rewrite W by exact Hj. apply Rmult_lt_0_compat; [ exact IP | apply exp_pos ].
    + intros O. destruct (HO O) as (h & E1 & E2). exists h. rewrite map_length, seq_length. split; [ exact E1 | ]. intros k Hk. rewrite !W by lia. f_equal. unfold g. rewrite E2. f_equal.
      replace (Z.of_nat (h - k) - Z.of_nat h)%Z with (- Z.of_nat k)%Z by lia. replace (Z.of_nat (h + k) - Z.of_nat h)%Z with (Z.of_nat k) by lia. rewrite opp_IZR. ring.
    + intros j k Hj Hk L. rewrite !W by assumption. apply Rmult_le_compat_l; [ lra | ]. unfold g.
      set (a := (Z.of_nat j - Z.of_nat (n / 2))%Z) in *. set (b := (Z.of_nat k - Z.of_nat (n / 2))%Z) in *.
      assert (SQ : IZR a * IZR a <= IZR b * IZR b) by (rewrite <- !mult_IZR; apply IZR_le; nia).
      assert (LE : - IZR b * IZR b * (1 / (2 * sigma * sigma)) <= - IZR a * IZR a * (1 / (2 * sigma * sigma))) by nra.
      destruct LE as [LE | LE]; [ left; apply exp_increasing; exact LE | rewrite LE; right; reflexivity ].
Qed.
Print Assumptions C92_filter.
Lemma int_part_between r z : IZR z <= r < IZR z + 1 -> Int_part r = z.
Proof.
  intros [A B]. pose proof (base_Int_part r) as [C D]. assert (Int_part r < z + 1)%Z by (apply lt_IZR; rewrite plus_IZR; lra). assert (z < Int_part r + 1)%Z by (apply lt_IZR; rewrite plus_IZR; lra). lia.
Qed.
Theorem C92_filter_size : forall sigma, (3 <= filter_size sigma)%nat /\ Nat.Odd (filter_size sigma) /\ filter_size (8 / 10) = 3%nat /\
  3 * sigma < INR (filter_size sigma) + 1.
Proof.
  intros sigma.
  assert (T : forall s, (3 <= trunc (Rmax 3 (3 * s)))%Z /\ 3 * s < IZR (trunc (Rmax 3 (3 * s))) + 1).
  { intros s. unfold trunc. pose proof (Rmax_l 3 (3 * s)). pose proof (Rmax_r 3 (3 * s)). destruct (Rle_dec 0 (Rmax 3 (3 * s))) as [_ | N]; [ | lra ].
    pose proof (base_Int_part (Rmax 3 (3 * s))) as [C D]. split; [ | lra ]. assert (2 < Int_part (Rmax 3 (3 * s)))%Z; [ | lia ]. apply lt_IZR. lra. }
  assert (L : forall z, (0 <= z)%Z -> (z <= Z.lor z 1 <= z + 1)%Z /\ Z.odd (Z.lor z 1) = true).
  { intros z Hz. assert (O : Z.odd (Z.lor z 1) = true) by (rewrite <- Z.bit0_odd, Z.lor_spec; cbn; apply orb_true_r). split; [ | exact O ].
    assert (E : Z.lor z 1 = if Z.odd z then z else (z + 1)%Z); [ | rewrite E; destruct (Z.odd z); lia ].
    destruct (Z.odd z) eqn:Ez.
    - apply Z.bits_inj'. intros k Hk. rewrite Z.lor_spec. destruct (Z.eq_dec k 0) as [-> | Nk]; [ rewrite !Z.bit0_odd, Ez; reflexivity | ].
      replace (Z.testbit 1 k) with false; [ apply orb_false_r | ]. symmetry. apply (Z.bits_above_log2 1 k); [ lia | cbn; lia ].
    - rewrite Z.add_nocarry_lxor; [ symmetry; apply Z.lxor_lor | ]; apply Z.bits_inj'; intros k Hk; rewrite Z.land_spec, Z.bits_0; (destruct (Z.eq_dec k 0) as [-> | Nk]; [ rewrite !Z.bit0_odd, Ez; reflexivity | ]);
      (replace (Z.testbit 1 k) with false; [ apply andb_false_r | ]; symmetry; apply (Z.bits_above_log2 1 k); [ lia | cbn; lia ]). }
  unfold filter_size. destruct (T sigma) as [T1 T2]. destruct (L (trunc (Rmax 3 (3 * sigma))) ltac:(lia)) as [L1 L2].
  set (t := trunc (Rmax 3 (3 * sigma))) in *. split; [ lia | ]. split; [ | split ].
  - apply Nat.odd_spec. rewrite <- (Z2Nat.id (Z.lor t 1)) in L2 by lia. rewrite <- L2. symmetry.
    rewrite <- Nat.negb_even, <- Z.negb_even. f_equal. destruct (Nat.even (Z.to_nat (Z.lor t 1))) eqn:E.
    + apply Nat.even_spec in E. destruct E as [q E]. rewrite E. apply Z.even_spec. exists (Z.of_nat q). lia.
    + destruct (Z.even (Z.of_nat (Z.to_nat (Z.lor t 1)))) eqn:E2; [ | reflexivity ]. apply Z.even_spec in E2. destruct E2 as [q E2]. rewrite <- E. symmetry. apply Nat.even_spec. exists (Z.to_nat q). lia.
  - replace (Rmax 3 (3 * (8 / 10))) with 3 by (symmetry; apply Rmax_left; lra). unfold trunc. destruct (Rle_dec 0 3) as [_ | N]; [ | lra ].
    rewrite (int_part_between 3 3) by lra. reflexivity.
  - rewrite INR_IZR_INZ, Z2Nat.id by lia. apply Rlt_le_trans with (1 := T2). apply Rplus_le_compat_r. apply IZR_le. lia.
Qed.
Print Assumptions C92_filter_size.

(** ** Smoothing *)
(** Every pixel: columns are convolved; rows are convolved except near the left
    and right border, see [smeared]. *)
Theorem C92_smoothing : forall m fh fv, complete m -> (length fh <= width m)%nat -> (length fv <= height m)%nat -> (0 < width m)%nat -> (0 < height m)%nat ->
  exists m', filter_factored m fh fv = Ok m' /\ width m' = width m /\ height m' = height m /\ complete m' /\
    forall x y, (x < width m)%nat -> (y < height m)%nat -> pixel m' x y = convolved (height m) fv (fun k => smeared m fh x k) y.
Proof. exact filter_factored_ok. Qed.
Print Assumptions C92_smoothing.

(** Away from the left and right border it is the convolution with both filters. *)
Lemma smeared_inner m f x y : (length f - length f / 2 <= x < width m - length f / 2)%nat -> smeared m f x y = convolved (width m) f (fun i => pixel m i y) x.
Proof.
  intros H. unfold smeared. rewrite (proj2 (Nat.ltb_ge x (length f - length f / 2))) by lia. rewrite (proj2 (Nat.ltb_lt x (width m - length f / 2))) by lia.
  destruct (y =? 0)%nat; reflexivity.
Qed.
Theorem C92_inner : forall m fh fv m', complete m -> (length fh <= width m)%nat -> (length fv <= height m)%nat -> (0 < width m)%nat ->
  filter_factored m fh fv = Ok m' ->
  forall x y, (length fh - length fh / 2 <= x < width m - length fh / 2)%nat -> (y < height m)%nat ->
    pixel m' x y = convolved (height m) fv (fun k => convolved (width m) fh (fun i => pixel m i k) x) y.
Proof.
  intros m fh fv m' Hc Hh Hv Hw Run x y Hx Hy. destruct (filter_factored_ok m fh fv Hc Hh Hv Hw ltac:(lia)) as (m1 & E & _ & _ & _ & P).
  assert (m1 = m') by congruence. subst m1. rewrite P by lia. apply convolved_ext; [ lia | ]. intros k Hk. apply smeared_inner. exact Hx.
Qed.
Print Assumptions C92_inner.

(** Near the left and right border (from the third and second row on) it shows
    the outermost column only. *)
Lemma convolved_scale n f g c p : convolved n f (fun k => g k * c) p = convolved n f g p * c.
Proof. unfold convolved. rewrite <- (Rmult_comm c), <- total_scale. apply total_ext. intros j _. ring. Qed.
Lemma convolved_local n f g g' p : (forall k, (k < n)%nat -> (p + length f / 2 < k + length f)%nat -> g k = g' k) -> (p < n)%nat -> convolved n f g p = convolved n f g' p.
Proof.
  intros E Hp. unfold convolved. apply total_ext. intros j Hj. f_equal. apply E; unfold clamped; [ lia | ].
  assert (length f / 2 < length f)%nat by (apply Nat.div_lt; lia). lia.
Qed.
Theorem C92_border : forall m fh fv m', complete m -> (length fh <= width m)%nat -> (length fv <= height m)%nat -> (0 < width m)%nat ->
  filter_factored m fh fv = Ok m' ->
  forall x y, (x < width m)%nat -> (y < height m)%nat ->
    ((x < length fh - length fh / 2)%nat -> (length fv + 1 <= y + length fv / 2)%nat ->
       pixel m' x y = convolved (height m) fv (fun k => pixel m 0 k) y * mass fh) /\
    ((length fh - length fh / 2 <= x)%nat -> (width m - length fh / 2 <= x)%nat -> (length fv <= y + length fv / 2)%nat ->
       pixel m' x y = convolved (height m) fv (fun k => pixel m (width m - 1) k) y * mass fh).
Proof.
  intros m fh fv m' Hc Hh Hv Hw Run x y Hx Hy. destruct (filter_factored_ok m fh fv Hc Hh Hv Hw ltac:(lia)) as (m1 & E & _ & _ & _ & P).
  assert (m1 = m') by congruence. subst m1. rewrite P by lia. split.
  - intros Lx Ly. rewrite <- convolved_scale. apply convolved_local; [ | exact Hy ]. intros k Hk Wk. unfold smeared.
    rewrite (proj2 (Nat.eqb_neq k 0)) by lia. rewrite (proj2 (Nat.ltb_lt x (length fh - length fh / 2)) Lx). rewrite (proj2 (Nat.eqb_neq k 1)) by lia. reflexivity.
  - intros Lx Rx Ly. rewrite <- convolved_scale. apply convolved_local; [ | exact Hy ]. intros k Hk Wk. unfold smeared.
    rewrite (proj2 (Nat.eqb_neq k 0)) by lia. rewrite (proj2 (Nat.ltb_ge x (length fh - length fh / 2)) Lx). rewrite (proj2 (Nat.ltb_ge x (width m - length fh / 2)) Rx). reflexivity.
Qed.
Print Assumptions C92_border.

(** No pixel leaves the range of the image. *)
Lemma average_between n g c lo hi : (forall k, (k < n)%nat -> 0 <= c k) -> total n c = 1 -> (forall k, (k < n)%nat -> lo <= g k <= hi) -> lo <= total n (fun k => g k * c k) <= hi.
Proof.
  intros H1 H2 H3.
  assert (A : total n (fun k => lo * c k) <= total n (fun k => g k * c k) <= total n (fun k => hi * c k)).
  { clear H2. induction n as [ | n IH]; cbn [total]; [ lra | ]. destruct IH as [I1 I2]; [ intros; apply H1; lia | intros; apply H3; lia | ].
    pose proof (H1 n ltac:(lia)). pose proof (H3 n ltac:(lia)). nra. }
  rewrite !total_scale, H2 in A. lra.
Qed.
Lemma convolved_between n f g p lo hi : averaging f -> (0 < n)%nat -> (forall k, (k < n)%nat -> lo <= g k <= hi) -> lo <= convolved n f g p <= hi.
Proof. intros [A1 A2] Hn H. unfold convolved. apply average_between; [ exact A1 | exact A2 | ]. intros j _. apply H. unfold clamped. lia. Qed.
Lemma averaging_nonempty f : averaging f -> (0 < length f)%nat.
Proof. intros [_ M]. destruct f as [ | a f]; [ unfold mass in M; cbn [length total] in M; lra | cbn; lia ]. Qed.
Theorem C92_range : forall m fh fv m' lo hi, complete m -> (length fh <= width m)%nat -> (length fv <= height m)%nat ->
  averaging fh -> averaging fv -> filter_factored m fh fv = Ok m' ->
  (forall x y, (x < width m)%nat -> (y < height m)%nat -> lo <= pixel m x y <= hi) ->
  forall x y, (x < width m)%nat -> (y < height m)%nat -> lo <= pixel m' x y <= hi.
Proof.
  intros m fh fv m' lo hi Hc Hh Hv Ah Av Run H x y Hx Hy. destruct (filter_factored_ok m fh fv Hc Hh Hv ltac:(lia) ltac:(lia)) as (m1 & E & _ & _ & _ & P).
  assert (m1 = m') by congruence. subst m1. rewrite P by lia. apply convolved_between; [ exact Av | lia | ]. intros k Hk.
  pose proof (averaging_nonempty fh Ah) as Hn. assert (Hd : (length fh / 2 < length fh)%nat) by (apply Nat.div_lt; lia).
  unfold smeared. destruct (Nat.eqb_spec k 0) as [-> | N0]; [ apply convolved_between; [ exact Ah | lia | intros; apply H; lia ] | ].
  destruct (Nat.ltb_spec x (length fh - length fh / 2)) as [X | X].
  - destruct (Nat.eqb_spec k 1) as [-> | N1]; [ | rewrite (proj2 Ah), Rmult_1_r; apply H; lia ].
    apply average_between; [ exact (proj1 Ah) | exact (proj2 Ah) | ]. intros j Hj. destruct (Nat.leb_spec j (x + length fh / 2)); apply H; lia.
  - destruct (Nat.ltb_spec x (width m - length fh / 2)); [ apply convolved_between; [ exact Ah | lia | intros; apply H; lia ] | rewrite (proj2 Ah), Rmult_1_r; apply H; lia ].
Qed.
Print Assumptions C92_range.

(** ** Gradients *)
(** Central differences in polar form; zero on the outermost pixels. *)
Theorem C92_gradient : forall m x y, complete m -> (x < width m)%nat -> (y < height m)%nat ->
  exists mag theta, gradient m x y = Ok (mag, theta) /\
    ((0 < x < width m - 1)%nat -> (0 < y < height m - 1)%nat ->
       sqrt mag * cos theta = pixel m (x + 1) y - pixel m (x - 1) y /\ sqrt mag * sin theta = pixel m x (y + 1) - pixel m x (y - 1)) /\
    (x = 0%nat \/ y = 0%nat \/ x = (width m - 1)%nat \/ y = (height m - 1)%nat -> mag = 0 /\ theta = 0).
Proof.
  intros m x y Hc Hx Hy. unfold gradient, get.
  destruct (Nat.leb_spec 1 y), (Nat.ltb_spec y (height m - 1)), (Nat.leb_spec 1 x), (Nat.ltb_spec x (width m - 1)); cbn [andb];
    try (exists 0, 0; split; [ reflexivity | ]; split; [ intros; lia | intros _; split; reflexivity ]).
  assert (IN : forall a b, (a < width m)%nat -> (b < height m)%nat -> (b * width m + a < length (pixels m))%nat) by (intros a b Ha Hb; rewrite Hc; nia).
  rewrite !read_ok by (apply IN; lia). cbn [obind]. eexists. eexists. split; [ reflexivity | ]. split; [ | intros; lia ]. intros _ _.
  fold (pixel m (x + 1) y) (pixel m (x - 1) y) (pixel m x (y + 1)) (pixel m x (y - 1)).
  set (ix := pixel m (x + 1) y - pixel m (x - 1) y). set (iy := pixel m x (y + 1) - pixel m x (y - 1)).
  destruct (Req_EM_T (ix * ix + iy * iy) 0) as [Z | NZ].
  - assert (ix = 0) by nra. assert (iy = 0) by nra. rewrite Z, sqrt_0. split; lra.
  - assert (P : 0 < ix * ix + iy * iy) by (pose proof (Rle_0_sqr ix) as Q1; pose proof (Rle_0_sqr iy) as Q2; unfold Rsqr in Q1, Q2; lra).
    pose proof (atan2_coords ix iy P) as [C S]. rewrite C, S. assert (0 < sqrt (ix * ix + iy * iy)) by (apply sqrt_lt_R0; exact P). split; field; lra.
Qed.
Print Assumptions C92_gradient.

(** A ramp keeps its slope and direction. *)
Lemma symmetric_moment f p q : symmetric f -> mass f = 1 -> total (length f) (fun j => (p + q * IZR (Z.of_nat (length f / 2) - Z.of_nat j)) * weight f j) = p.
Proof.
  intros (h & L & S) M. assert (E : (length f / 2)%nat = h) by (rewrite L, Nat.mul_comm, Nat.div_add_l by lia; cbn; lia). rewrite E.
  assert (Z : total (length f) (fun j => IZR (Z.of_nat h - Z.of_nat j) * weight f j) = 0).
  { set (T := total (length f) (fun j => IZR (Z.of_nat h - Z.of_nat j) * weight f j)).
    assert (ET : T = -1 * T); [ | lra ]. unfold T at 1. rewrite total_reverse. unfold T. rewrite <- total_scale. apply total_ext. intros k Hk.
    replace (Z.of_nat h - Z.of_nat (length f - 1 - k))%Z with (- (Z.of_nat h - Z.of_nat k))%Z by lia. rewrite opp_IZR.
    assert (W : weight f (length f - 1 - k) = weight f k).
    { destruct (Nat.le_ge_cases k h) as [Q | Q].
      - replace (length f - 1 - k)%nat with (h + (h - k))%nat by lia. rewrite <- S by lia. f_equal. lia.
      - replace (length f - 1 - k)%nat with (h - (k - h))%nat by lia. rewrite S by lia. f_equal. lia. }
    rewrite W. ring. }
  rewrite (total_ext _ _ (fun j => (fun j => p * weight f j) j + (fun j => q * (IZR (Z.of_nat h - Z.of_nat j) * weight f j)) j)) by (intros; ring).
  assert (TP : forall n u v, total n (fun j => u j + v j) = total n u + total n v) by (induction n as [ | n IH]; intros u v; cbn [total]; [ ring | rewrite IH; ring ]).
  rewrite TP, !total_scale, Z. fold (mass f). rewrite M. ring.
Qed.
Lemma convolved_ramp n f p q x : symmetric f -> mass f = 1 -> (length f - length f / 2 <= x + 1)%nat -> (x < n - length f / 2)%nat ->
  convolved n f (fun k => p + q * INR k) x = p + q * INR x.
Proof.
  intros Sf M H1 H2. unfold convolved. rewrite <- (symmetric_moment f (p + q * INR x) q Sf M). apply total_ext. intros j Hj. f_equal. unfold clamped.
  assert (length f / 2 < length f)%nat by (apply Nat.div_lt; lia).
  replace (Z.max 0 (Z.min (Z.of_nat x + Z.of_nat (length f / 2) - Z.of_nat j) (Z.of_nat n - 1)))%Z with (Z.of_nat x + (Z.of_nat (length f / 2) - Z.of_nat j))%Z by lia.
  rewrite (INR_IZR_INZ (Z.to_nat _)), Z2Nat.id by lia. rewrite plus_IZR, <- INR_IZR_INZ. ring.
Qed.
Theorem C92_ramp : forall m f m' c gx gy, complete m -> (length f <= width m)%nat -> (length f <= height m)%nat ->
  symmetric f -> averaging f -> filter_factored m f f = Ok m' ->
  (forall x y, (x < width m)%nat -> (y < height m)%nat -> pixel m x y = c + gx * INR x + gy * INR y) ->
  forall x y, (length f - length f / 2 < x)%nat -> (x + 1 < width m - length f / 2)%nat -> (length f - length f / 2 <= y)%nat -> (y + 1 < height m - length f / 2)%nat ->
    exists mag theta, gradient m' x y = Ok (mag, theta) /\ sqrt mag * cos theta = 2 * gx /\ sqrt mag * sin theta = 2 * gy.
Proof.
  intros m f m' c gx gy Hc Hw Hh Sf Af Run H x y X1 X2 Y1 Y2.
  pose proof (averaging_nonempty f Af) as Hn. assert (Hd : (length f / 2 < length f)%nat) by (apply Nat.div_lt; lia).
  destruct (filter_factored_ok m f f Hc Hw Hh ltac:(lia) ltac:(lia)) as (m1 & E & W & Hm & C & _). assert (m1 = m') by congruence. subst m1.
  assert (P : forall a b, (length f - length f / 2 <= a < width m - length f / 2)%nat -> (length f - length f / 2 <= b + 1)%nat -> (b < height m - length f / 2)%nat -> pixel m' a b = c + gx * INR a + gy * INR b).
  { intros a b Ha Hb1 Hb2. rewrite (C92_inner m f f m' Hc Hw Hh ltac:(lia) Run) by lia.
    rewrite (convolved_ext (height m) f _ (fun k => (c + gx * INR a) + gy * INR k) b ltac:(lia)).
    - apply convolved_ramp; [ exact Sf | exact (proj2 Af) | lia | lia ].
    - intros k Hk. rewrite (convolved_ext (width m) f _ (fun i => (c + gy * INR k) + gx * INR i) a ltac:(lia)) by (intros i Hi; rewrite H by lia; ring).
      rewrite convolved_ramp; [ ring | exact Sf | exact (proj2 Af) | lia | lia ]. }
  destruct (C92_gradient m' x y C ltac:(lia) ltac:(lia)) as (mag & th & G & I & _). rewrite W, Hm in I. destruct (I ltac:(lia) ltac:(lia)) as [G1 G2].
  exists mag, th. split; [ exact G | ]. rewrite G1, G2, !P by lia. rewrite !plus_INR, !minus_INR by lia. cbn [INR]. split; ring.
Qed.
Print Assumptions C92_ramp.

(** ** Where it is not a convolution, and an image *)
Ltac calc := cbn; repeat (match goal with |- context [Pos.to_nat ?p] => let v := eval compute in (Pos.to_nat p) in change (Pos.to_nat p) with v end; cbn).
Definition f3 : list R := [/ 4; / 2; / 4].
Lemma f3_averaging : averaging f3.
Proof.
  split; [ intros j Hj; cbn in Hj; destruct j as [ | [ | [ | j]]]; [ | | | lia ]; unfold weight; cbn [nth f3]; lra | ].
  unfold mass, weight. cbn [length f3 total nth]. field.
Qed.
Lemma f3_symmetric : symmetric f3.
Proof. exists 1%nat. split; [ reflexivity | ]. intros k Hk. destruct k as [ | [ | k]]; [ reflexivity | reflexivity | lia ]. Qed.
(** Two columns from the left the code repeats the first column. *)
Theorem C92_convolution_refuted : exists m f m' x y, complete m /\ averaging f /\ symmetric f /\ (length f <= width m)%nat /\ (length f <= height m)%nat /\
  filter_factored m f f = Ok m' /\ (0 < x < width m - 1)%nat /\ (y < height m)%nat /\
  pixel m' x y = 0 /\ convolved (height m) f (fun k => convolved (width m) f (fun i => pixel m i k) x) y = 3 / 8.
Proof.
  set (m := Image 3 4 [0; 0; 0; 0; 0; 0; 0; 0; 0; 0; 1; 0]).
  assert (C : complete m) by reflexivity.
  destruct (filter_factored_ok m f3 f3 C ltac:(cbn; lia) ltac:(cbn; lia) ltac:(cbn; lia) ltac:(cbn; lia)) as (m' & E & _).
  exists m, f3, m', 1%nat, 3%nat. split; [ exact C | ]. split; [ exact f3_averaging | ]. split; [ exact f3_symmetric | ]. split; [ cbn; lia | ]. split; [ cbn; lia | ]. split; [ exact E | ].
  split; [ cbn; lia | ]. split; [ cbn; lia | ]. split.
  - rewrite (proj1 (C92_border m f3 f3 m' C ltac:(cbn; lia) ltac:(cbn; lia) ltac:(cbn; lia) E 1%nat 3%nat ltac:(cbn; lia) ltac:(cbn; lia)) ltac:(cbn; lia) ltac:(cbn; lia)).
    unfold convolved. calc. ring.
  - unfold convolved, weight. calc. field.
Qed.
Print Assumptions C92_convolution_refuted.
(** A pixel at the right end of the first row shows at the left end of the second. *)
Theorem C92_leak_refuted : exists m f m', complete m /\ averaging f /\ symmetric f /\ length f = 3%nat /\ (3 <= width m)%nat /\
  filter_factored m f f = Ok m' /\ (forall x y, (x < 2)%nat -> (y < height m)%nat -> pixel m x y = 0) /\ pixel m' 0 1 = / 8.
Proof.
  set (m := Image 3 3 [0; 0; 1; 0; 0; 0; 0; 0; 0]).
  assert (C : complete m) by reflexivity.
  destruct (filter_factored_ok m f3 f3 C ltac:(cbn; lia) ltac:(cbn; lia) ltac:(cbn; lia) ltac:(cbn; lia)) as (m' & E & _ & _ & _ & P).
  exists m, f3, m'. split; [ exact C | ]. split; [ exact f3_averaging | ]. split; [ exact f3_symmetric | ]. split; [ reflexivity | ]. split; [ cbn; lia | ]. split; [ exact E | ]. split.
  - intros x y Hx Hy. cbn in Hy. destruct x as [ | [ | x]]; [ | | lia ]; (destruct y as [ | [ | [ | y]]]; [ reflexivity .. | lia ]).
  - rewrite P by (cbn; lia). unfold convolved, smeared, convolved, mass, weight. calc. field.
Qed.
Print Assumptions C92_leak_refuted.
(** The detector's filter on a ramp of seven by eight pixels *)
Example C92_ex : let m := Image 7 8 (map (fun k => INR (k mod 7) + 2 * INR (k / 7)) (seq 0 56)) in
  complete m /\ (forall x y, (x < width m)%nat -> (y < height m)%nat -> pixel m x y = 0 + 1 * INR x + 2 * INR y) /\
  exists f m', make_filter (8 / 10) (filter_size (8 / 10)) = Ok f /\ length f = 3%nat /\ symmetric f /\ averaging f /\ filter_factored m f f = Ok m' /\ smooth (8 / 10) m = Ok m'.
Proof.
  intros m. assert (C : complete m) by (unfold m, complete; cbn [pixels width height]; rewrite map_length, seq_length; reflexivity).
  split; [ exact C | ]. split.
  - intros x y Hx Hy. cbn [m width height] in Hx, Hy. unfold pixel. cbn [m pixels width]. rewrite nth_map_seq by lia.
    replace ((y * 7 + x) mod 7)%nat with x by (rewrite Nat.add_comm, Nat.mod_add by lia; symmetry; apply Nat.mod_small; exact Hx).
    replace ((y * 7 + x) / 7)%nat with y by (rewrite Nat.div_add_l by lia; rewrite Nat.div_small by exact Hx; lia). ring.
  - destruct (C92_filter_size (8 / 10)) as (_ & _ & E & _). rewrite E.
    destruct (C92_filter (8 / 10) 3 ltac:(lia)) as (f & F & L & A & _ & S & _).
    destruct (filter_factored_ok m f f C ltac:(rewrite L; cbn; lia) ltac:(rewrite L; cbn; lia) ltac:(cbn; lia) ltac:(cbn; lia)) as (m' & R & _).
    exists f, m'. split; [ exact F | ]. split; [ exact L | ]. split; [ apply S; exists 1%nat; reflexivity | ]. split; [ exact A | ]. split; [ exact R | ].
    unfold smooth. rewrite E, F. cbn [obind]. exact R.
Qed.
