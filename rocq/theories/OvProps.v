(** * The overlap of the fields of view of two cameras *)
From Flocq Require Import Core.
From Coq Require Import Reals ZArith Bool List Lra Lia.
From Verif Require Import KinModel OvModel OvSpec OvProofs.
Import ListNotations.
Local Open Scope R_scope.

(** The two ratios are the shares of the pixels whose beam has a sampled point in view of
    the other camera, and lie between 0 and 1. *)
Theorem C103_ratio : forall c1 c2 view1 view2 T m1 m2 ds scale w1 h1 w2 h2,
  views c1 view1 -> views c2 view2 -> has_rays c1 -> has_rays c2 -> distances ds ->
  fits (width c1) scale w1 -> fits (height c1) scale h1 -> fits (width c2) scale w2 -> fits (height c2) scale h2 ->
  let r1 := IZR (count w1 h1 (covered c1 view2 (move_back (rot T) (trans T)) ds scale)) / IZR (w1 * h1) in
  let r2 := IZR (count w2 h2 (covered c2 view1 (move (rot T) (trans T)) ds scale)) / IZR (w2 * h2) in
  snd (overlap c1 c2 T m1 m2 ds scale) = (Some r1, Some r2) /\ 0 <= r1 <= 1 /\ 0 <= r2 <= 1.
Proof.
  intros c1 c2 view1 view2 T m1 m2 ds scale w1 h1 w2 h2 V1 V2 R1 R2 D W1 H1 W2 H2. cbv zeta.
  destruct (overlap_val c1 c2 view1 view2 T m1 m2 ds scale w1 h1 w2 h2 V1 V2 R1 R2 D W1 H1 W2 H2) as (i1 & i2 & E & _). rewrite E. cbn [snd].
  destruct W1 as [W1 _], H1 as [H1 _], W2 as [W2 _], H2 as [H2 _].
  destruct (ratio_in (count w1 h1 (covered c1 view2 (move_back (rot T) (trans T)) ds scale)) w1 h1 W1 H1) as [E1 B1]; [ apply count_bounds; lia | ].
  destruct (ratio_in (count w2 h2 (covered c2 view1 (move (rot T) (trans T)) ds scale)) w2 h2 W2 H2) as [E2 B2]; [ apply count_bounds; lia | ].
  rewrite E1, E2. split; [ reflexivity | ]. split; [ exact B1 | exact B2 ].
Qed.
Print Assumptions C103_ratio.

(** Masks given with the right size show these pixels, and the scale is recorded. *)
Theorem C103_mask : forall c1 c2 view1 view2 T m1 m2 ds scale w1 h1 w2 h2,
  views c1 view1 -> views c2 view2 -> has_rays c1 -> has_rays c2 -> distances ds ->
  fits (width c1) scale w1 -> fits (height c1) scale h1 -> fits (width c2) scale w2 -> fits (height c2) scale h2 ->
  sized m1 w1 h1 -> sized m2 w2 h2 ->
  let r := fst (overlap c1 c2 T m1 m2 ds scale) in
  shows (fst r) w1 h1 (covered c1 view2 (move_back (rot T) (trans T)) ds scale) /\
  shows (snd r) w2 h2 (covered c2 view1 (move (rot T) (trans T)) ds scale) /\ mscale (fst r) = scale /\ mscale (snd r) = scale.
Proof.
  intros c1 c2 view1 view2 T m1 m2 ds scale w1 h1 w2 h2 V1 V2 R1 R2 D W1 H1 W2 H2 S1 S2. cbv zeta.
  destruct (overlap_val c1 c2 view1 view2 T m1 m2 ds scale w1 h1 w2 h2 V1 V2 R1 R2 D W1 H1 W2 H2) as (i1 & i2 & E & I1 & I2). rewrite E. cbn [fst snd].
  unfold shows. rewrite (written_sized _ _ _ _ _ S1), (written_sized _ _ _ _ _ S2). cbn [rows cols px].
  split; [ split; [ reflexivity | split; [ reflexivity | exact I1 ] ] | ]. split; [ split; [ reflexivity | split; [ reflexivity | exact I2 ] ] | ]. split; reflexivity.
Qed.
Print Assumptions C103_mask.

(** Masks of another size, such as the empty ones a caller starts with, are left as they
    were whatever the cameras see; only their scale changes. *)
Theorem C103_mask_refuted : forall c1 c2 T m1 m2 ds scale w1 h1 w2 h2,
  fits (width c1) scale w1 -> fits (height c1) scale h1 -> fits (width c2) scale w2 -> fits (height c2) scale h2 ->
  ~ sized m1 w1 h1 -> ~ sized m2 w2 h2 ->
  fst (overlap c1 c2 T m1 m2 ds scale) = (Mask (buf m1) scale, Mask (buf m2) scale).
Proof.
  intros c1 c2 T m1 m2 ds scale w1 h1 w2 h2 W1 H1 W2 H2 S1 S2. unfold overlap. cbv zeta. cbn [fst].
  rewrite (scaled_fits _ _ _ W1), (scaled_fits _ _ _ H1), (scaled_fits _ _ _ W2), (scaled_fits _ _ _ H2).
  f_equal; [ rewrite <- (written_other m1 w1 h1 (fst (one_side c1 c2 (inverse T) ds scale w1 h1)) scale S1) | rewrite <- (written_other m2 w2 h2 (fst (one_side c2 c1 T ds scale w2 h2)) scale S2) ]; reflexivity.
Qed.
Print Assumptions C103_mask_refuted.

(** Calling it for the cameras in the other order with the inverse transformation gives
    the same masks and ratios in the other order; going there and back is no motion. *)
Theorem C103_symmetric : forall c1 c2 T m1 m2 ds scale, rotation (rot T) ->
  let swap := fun (A B : Type) (p : A * B) => (snd p, fst p) in
  overlap c2 c1 (inverse T) m2 m1 ds scale =
    (swap _ _ (fst (overlap c1 c2 T m1 m2 ds scale)), swap _ _ (snd (overlap c1 c2 T m1 m2 ds scale))) /\
  forall p, move_back (rot T) (trans T) (move (rot T) (trans T) p) = p.
Proof.
  intros c1 c2 T m1 m2 ds scale Q. cbv zeta. split.
  - unfold overlap. cbv zeta. rewrite (inverse_inverse T (proj2 Q)). reflexivity.
  - intros p. apply back_move. exact Q.
Qed.
Print Assumptions C103_symmetric.

(** ** An example: two cameras at the same place with one pixel, the second one sees
    depths between [near] and [near + 1] *)
Definition slice (near : R) (p : v3) : bool := if Rlt_dec near (x2 p) then if Rlt_dec (x2 p) (near + 1) then true else false else false.
Definition one_pixel (near : R) : camera :=
  Camera 1 1 (fun _ => Some (V4 0 0 1 0)) (fun p => slice near (V3 (q0 p / q3 p) (q1 p / q3 p) (q2 p / q3 p))).
Definition same_place : transf := Transf m3_I (V3 0 0 0).
Definition no_mask : mask := Mask (Image 0 0 (fun _ _ => 0%Z)) 1.
Definition a_mask : mask := Mask (Image 1 1 (fun _ _ => 7%Z)) 1.
Lemma one_pixel_views near : views (one_pixel near) (slice near).
Proof.
  intros p s S. cbn [one_pixel sees q0 q1 q2 q3]. replace (s * x0 p / s) with (x0 p) by (field; lra). replace (s * x1 p / s) with (x1 p) by (field; lra).
  replace (s * x2 p / s) with (x2 p) by (field; lra). destruct p as [a b c]. reflexivity.
Qed.
Lemma one_pixel_rays near : has_rays (one_pixel near).
Proof. intros k p E. cbn [one_pixel back] in E. assert (p = V4 0 0 1 0) as -> by congruence. cbn [q0 q1 q2 q3]. split; lra. Qed.
Lemma one_fits : fits 1 1 1.
Proof. unfold fits. split; [ lia | ]. cbn [IZR]. split; lra. Qed.
Lemma len1 : length3 (V3 0 0 1) = 1.
Proof. unfold length3. cbn [x0 x1 x2]. replace (0 ^ 2 + 0 ^ 2 + 1 ^ 2) with 1 by ring. apply sqrt_1. Qed.
Lemma one_covered near view x y d (motion : v3 -> v3) : (forall p, motion p = p) ->
  covered (one_pixel near) view motion [d] 1 x y = view (V3 0 0 (1 + IZR d)).
Proof.
  intros M. unfold covered. cbn [one_pixel back existsb]. rewrite M, orb_false_r. unfold ray3. cbn [q0 q1 q2]. rewrite len1. unfold on_beam. rewrite len1. cbn [x0 x1 x2].
  f_equal. f_equal; field.
Qed.
Lemma same_move p : move (rot same_place) (trans same_place) p = p /\ move_back (rot same_place) (trans same_place) p = p.
Proof.
  destruct p as [a b c]. unfold move, move_back, same_place, m3_I. cbn [rot trans x0 x1 x2 m00 m01 m02 m10 m11 m12 m20 m21 m22]. cbv zeta. split; f_equal; ring.
Qed.
Lemma slice_at near z : slice near (V3 0 0 z) = true <-> near < z < near + 1.
Proof.
  unfold slice. cbn [x2]. destruct (Rlt_dec near z) as [A | A]; [ destruct (Rlt_dec z (near + 1)) as [B | B] | ]; split; intros H; try reflexivity; try discriminate; lra.
Qed.
Lemma slice_false near z : ~ (near < z < near + 1) -> slice near (V3 0 0 z) = false.
Proof. intros N. destruct (slice near (V3 0 0 z)) eqn:E; [ | reflexivity ]. apply slice_at in E. contradiction. Qed.

(** The sample distances are not the distances of the points from the camera: a point at
    the only sample distance that both cameras see is not found. *)
Theorem C103_distance_refuted : exists c1 c2 view1 view2 T m ds r d,
  views c1 view1 /\ views c2 view2 /\ has_rays c1 /\ has_rays c2 /\ ds = [d] /\ back c1 (0, 0) = Some r /\
  view1 (on_beam (ray3 r) (IZR d)) = true /\ view2 (move_back (rot T) (trans T) (on_beam (ray3 r) (IZR d))) = true /\
  snd (overlap c1 c2 T m m ds 1) = (Some 0, Some 0).
Proof.
  exists (one_pixel (1 / 2)), (one_pixel (1 / 2)), (slice (1 / 2)), (slice (1 / 2)), same_place, no_mask, [1%Z], (V4 0 0 1 0), 1%Z.
  assert (B : on_beam (ray3 (V4 0 0 1 0)) 1 = V3 0 0 1).
  { unfold ray3. cbn [q0 q1 q2]. unfold on_beam. rewrite len1. cbn [x0 x1 x2]. f_equal; field. }
  assert (S1 : slice (1 / 2) (V3 0 0 1) = true) by (apply slice_at; split; lra).
  assert (S2 : slice (1 / 2) (V3 0 0 (1 + 1)) = false) by (apply slice_false; lra).
  split; [ apply one_pixel_views | ]. split; [ apply one_pixel_views | ]. split; [ apply one_pixel_rays | ]. split; [ apply one_pixel_rays | ].
  split; [ reflexivity | ]. split; [ reflexivity | ]. rewrite B. split; [ exact S1 | ]. split; [ rewrite (proj2 (same_move _)); exact S1 | ].
  destruct (C103_ratio (one_pixel (1 / 2)) (one_pixel (1 / 2)) (slice (1 / 2)) (slice (1 / 2)) same_place no_mask no_mask [1%Z] 1 1 1 1 1
    (one_pixel_views _) (one_pixel_views _) (one_pixel_rays _) (one_pixel_rays _)) as [E _];
    [ intros d [<- | []]; lia | exact one_fits | exact one_fits | exact one_fits | exact one_fits | ].
  cbv zeta in E. rewrite E.
  unfold count.
  change (all_pixels 1 1) with [(0%Z, 0%Z)]. cbn [filter fst snd].
  rewrite !one_covered by (intros p; apply same_move). rewrite S2. cbn [length Z.of_nat Z.mul Pos.mul]. f_equal; f_equal; lra.
Qed.
Print Assumptions C103_distance_refuted.

(** The hypotheses are met: a pair of cameras where the pixel is in view, with masks of
    the right size, and the same with empty masks. *)
Example C103_ex : views (one_pixel (3 / 2)) (slice (3 / 2)) /\ has_rays (one_pixel (3 / 2)) /\ distances [1%Z] /\ fits 1 1 1 /\ fits 3 (1 / 2) 1 /\
  sized a_mask 1 1 /\ ~ sized no_mask 1 1 /\ rotation (rot same_place) /\
  covered (one_pixel (3 / 2)) (slice (3 / 2)) (move (rot same_place) (trans same_place)) [1%Z] 1 0 0 = true /\
  covered (one_pixel (3 / 2)) (slice (3 / 2)) (move (rot same_place) (trans same_place)) [2%Z] 1 0 0 = false.
Proof.
  split; [ apply one_pixel_views | ]. split; [ apply one_pixel_rays | ]. split; [ intros d [<- | []]; lia | ]. split; [ exact one_fits | ].
  split; [ unfold fits; split; [ lia | split; lra ] | ]. split; [ split; reflexivity | ]. split; [ intros [A _]; cbn in A; discriminate | ].
  split.
  { unfold rotation, same_place, m3_mul, m3_I, m3_tr, v3_dot, m3_row0, m3_row1, m3_row2, m3_col0, m3_col1, m3_col2. cbn [rot x0 x1 x2 m00 m01 m02 m10 m11 m12 m20 m21 m22]. split; f_equal; ring. }
  split.
  - rewrite one_covered by (intros p; apply same_move). apply slice_at. split; lra.
  - rewrite one_covered by (intros p; apply same_move). apply slice_false. lra.
Qed.
