(** * Geometry of chained segments *)
From Coq Require Import Reals ZArith List Bool Lia Lra.
From Verif Require Import Base KinModel RotEuler LutModel LutProofs TdModel QsModel QsSpec.
Import ListNotations.
Local Open Scope R_scope.

Lemma mod2pi_spec v : exists k : Z, mod2pi v = v + 2 * PI * IZR k /\ - PI <= mod2pi v <= PI.
Proof.
  unfold mod2pi. cbv zeta. pose proof PI_RGT_0 as P. pose proof (Rabs_pos v) as A.
  set (q := Rabs v * (1 / (2 * PI)) + / 2).
  assert (Q0 : 0 <= Rabs v * (1 / (2 * PI))) by (apply Rmult_le_pos; [ exact A | left; apply Rdiv_lt_0_compat; lra ]).
  assert (Q : 0 <= q) by (unfold q; lra).
  pose proof (trunc_pos q Q) as (T1 & T2). set (n := trunc q) in *.
  assert (E : Rabs v = 2 * PI * (q - / 2)) by (unfold q; field; lra).
  assert (B : - PI <= Rabs v - IZR n * (2 * PI) <= PI) by (rewrite E; split; nra).
  destruct (Rlt_dec v 0) as [ N | N ].
  - exists n. rewrite Rabs_left in B |- * by exact N. split; lra.
  - exists (- n)%Z. rewrite Rabs_pos_eq in B |- * by lra. rewrite opp_IZR. split; lra.
Qed.
Lemma sin_2pi_Z x k : sin (x + 2 * PI * IZR k) = sin x.
Proof.
  destruct (Z.le_gt_cases 0 k) as [ H | H ].
  - rewrite <- (sin_period x (Z.to_nat k)). rewrite INR_IZR_INZ, Z2Nat.id by exact H. apply (f_equal sin). ring.
  - rewrite <- (sin_period (x + 2 * PI * IZR k) (Z.to_nat (- k))). rewrite INR_IZR_INZ, Z2Nat.id, opp_IZR by lia. apply (f_equal sin). ring.
Qed.
Lemma cos_2pi_Z x k : cos (x + 2 * PI * IZR k) = cos x.
Proof.
  destruct (Z.le_gt_cases 0 k) as [ H | H ].
  - rewrite <- (cos_period x (Z.to_nat k)). rewrite INR_IZR_INZ, Z2Nat.id by exact H. apply (f_equal cos). ring.
  - rewrite <- (cos_period (x + 2 * PI * IZR k) (Z.to_nat (- k))). rewrite INR_IZR_INZ, Z2Nat.id, opp_IZR by lia. apply (f_equal cos). ring.
Qed.
Lemma mod2pi_sin v : sin (mod2pi v) = sin v.
Proof. destruct (mod2pi_spec v) as (k & E & _). rewrite E. apply sin_2pi_Z. Qed.
Lemma mod2pi_cos v : cos (mod2pi v) = cos v.
Proof. destruct (mod2pi_spec v) as (k & E & _). rewrite E. apply cos_2pi_Z. Qed.
Lemma mod2pi_pos v : 0 < mod2pi v -> 0 <= sin v.
Proof. intros H. rewrite <- mod2pi_sin. destruct (mod2pi_spec v) as (_ & _ & B). apply sin_ge_0; lra. Qed.
Lemma mod2pi_nonpos v : mod2pi v <= 0 -> sin v <= 0.
Proof. intros H. rewrite <- mod2pi_sin. destruct (mod2pi_spec v) as (_ & _ & B). pose proof (sin_ge_0 (- mod2pi v) ltac:(lra) ltac:(lra)) as S. rewrite sin_neg in S. lra. Qed.
Lemma mod2pi_nonneg v : 0 <= mod2pi v -> 0 <= sin v.
Proof. intros H. rewrite <- mod2pi_sin. destruct (mod2pi_spec v) as (_ & _ & B). apply sin_ge_0; lra. Qed.

(** Distances *)
Lemma distance_norm a b : distance2D a b = norm (minus a b).
Proof. reflexivity. Qed.
Lemma norm_minus a b : norm (minus a b) = norm (minus b a).
Proof. unfold norm, dot, minus. cbn [fst snd]. apply (f_equal sqrt). ring. Qed.
Lemma dot_self u : 0 <= dot u u.
Proof. unfold dot. pose proof (Rle_0_sqr (fst u)) as A. pose proof (Rle_0_sqr (snd u)) as B. unfold Rsqr in A, B. lra. Qed.
Lemma norm_sqr u : norm u * norm u = dot u u.
Proof. apply sqrt_sqrt, dot_self. Qed.
Lemma norm_pos u : 0 < norm u -> 0 < dot u u.
Proof. intros H. rewrite <- norm_sqr. apply Rmult_lt_0_compat; exact H. Qed.

(** Crossing lines *)
Lemma intersection_spec s t : (Rabs (cross (course s) (course t)) < 1 / 10000000000 /\ intersection_with (line_of s) (line_of t) = (-1, 0)) \/
  crossing s t (intersection_with (line_of s) (line_of t)).
Proof.
  unfold intersection_with, crossing, on_line, cross, course, minus, line_of. cbn [fst snd].
  destruct s as [[a b] [c d] th l], t as [[e f] [g h] th' l']. cbn [s_p0 s_p1 fst snd].
  set (D := (c - a) * - (h - f) - - (g - e) * (d - b)).
  assert (DE : D = - ((c - a) * (h - f) - (d - b) * (g - e))) by (unfold D; ring).
  assert (DA : Rabs D = Rabs ((c - a) * (h - f) - (d - b) * (g - e))) by (rewrite DE; apply Rabs_Ropp).
  destruct (Rlt_dec (Rabs D) (1 / 10000000000)) as [ H | H ].
  - left. split; [ rewrite <- DA; exact H | reflexivity ].
  - right. cbn [fst snd]. split; [ rewrite <- DA; apply Rnot_lt_le; exact H | ].
    assert (NZ : D <> 0) by (intros Z; rewrite Z, Rabs_R0 in H; lra).
    split; [ ring | ]. unfold D in *. field. exact NZ.
Qed.
Lemma crossing_unique s t p q : crossing s t p -> crossing s t q -> p = q.
Proof.
  intros (N & A & B) (_ & C & D). unfold on_line, cross, course, minus in *. cbn [fst snd] in *.
  destruct s as [[a b] [c d] th l], t as [[e f] [g h] th' l'], p as [x y], q as [z w]. cbn [s_p0 s_p1 fst snd] in *.
  set (U := c - a) in *. set (V := d - b) in *. set (S := g - e) in *. set (T := h - f) in *.
  assert (NZ : U * T - V * S <> 0) by (intros Z; rewrite Z, Rabs_R0 in N; lra).
  assert (X : (U * T - V * S) * (x - z) = 0).
  { replace ((U * T - V * S) * (x - z)) with (S * ((U * (y - b) - V * (x - a)) - (U * (w - b) - V * (z - a))) - U * ((S * (y - f) - T * (x - e)) - (S * (w - f) - T * (z - e)))) by ring.
    rewrite A, B, C, D. ring. }
  assert (Y : (U * T - V * S) * (y - w) = 0).
  { replace ((U * T - V * S) * (y - w)) with (T * ((U * (y - b) - V * (x - a)) - (U * (w - b) - V * (z - a))) - V * ((S * (y - f) - T * (x - e)) - (S * (w - f) - T * (z - e)))) by ring.
    rewrite A, B, C, D. ring. }
  apply Rmult_integral in X, Y. destruct X as [ X | X ]; [ contradiction | ]. destruct Y as [ Y | Y ]; [ contradiction | ].
  f_equal; lra.
Qed.
Lemma meets s t p : fst p <> -1 -> (intersection_with (line_of s) (line_of t) = p <-> crossing s t p).
Proof.
  intros N. destruct (intersection_spec s t) as [ (A & E) | C ].
  - rewrite E. split; [ intros <-; cbn [fst] in N; lra | intros (F & _); lra ].
  - split; [ intros <-; exact C | intros D; exact (crossing_unique _ _ _ _ C D) ].
Qed.
Lemma crossing_sym s t p : crossing s t p -> crossing t s p.
Proof. intros (A & B & C). split; [ | split; assumption ]. replace (cross (course t) (course s)) with (- cross (course s) (course t)) by (unfold cross; ring). rewrite Rabs_Ropp. exact A. Qed.
Lemma crossing_nonzero s t p : crossing s t p -> cross (course s) (course t) <> 0.
Proof. intros (A & _) Z. rewrite Z, Rabs_R0 in A. lra. Qed.

(** Proper segments *)
Lemma cross_proper s t : proper s -> proper t -> cross (course s) (course t) = s_length s * s_length t * sin (s_theta t - s_theta s).
Proof. intros (_ & _ & A & B) (_ & _ & C & D). unfold cross. rewrite A, B, C, D, sin_minus. ring. Qed.

Lemma follows_spec s t : proper s -> proper t -> (follows s t = true <-> successor s t).
Proof.
  intros PS PT. pose proof (cross_proper s t PS PT) as CR. destruct PS as (L1 & _). destruct PT as (L2 & _).
  assert (LL : 0 < s_length s * s_length t) by (apply Rmult_lt_0_compat; lra).
  unfold follows. set (m := mod2pi (s_theta t - s_theta s)). set (p := intersection_with (line_of s) (line_of t)). cbv zeta.
  split.
  - destruct (Rlt_dec 0 m) as [ M | M ]; [ discriminate | ]. destruct (Req_EM_T (fst p) (-1)) as [ E | E ]; [ discriminate | ].
    destruct (Rlt_dec (s_length s) (Rmax (distance2D p (s_p1 s)) (distance2D p (s_p0 t)))) as [ F | F ]; [ discriminate | ]. intros _.
    assert (C : crossing s t p) by (apply (meets s t p E); reflexivity).
    split.
    + pose proof (crossing_nonzero _ _ _ C) as NZ. rewrite CR in NZ |- *. pose proof (mod2pi_nonpos (s_theta t - s_theta s) (Rnot_lt_le _ _ M)) as SN.
      assert (s_length s * s_length t * sin (s_theta t - s_theta s) <= 0) by nra. lra.
    + exists p. split; [ exact C | ]. split; [ exact E | ]. rewrite <- !distance_norm.
      apply Rnot_lt_le in F. pose proof (Rmax_l (distance2D p (s_p1 s)) (distance2D p (s_p0 t))). pose proof (Rmax_r (distance2D p (s_p1 s)) (distance2D p (s_p0 t))). split; lra.
  - intros (NEG & p' & C & N1 & D1 & D2). assert (E : p = p') by (apply meets; assumption). rewrite <- E in *.
    destruct (Rlt_dec 0 m) as [ M | M ].
    { exfalso. apply mod2pi_pos in M. rewrite CR in NEG. nra. }
    destruct (Req_EM_T (fst p) (-1)) as [ F | F ]; [ contradiction | ].
    destruct (Rlt_dec (s_length s) _) as [ G | G ]; [ | reflexivity ].
    exfalso. rewrite !distance_norm in G. pose proof (Rmax_lub _ _ _ D1 D2). lra.
Qed.

(** No two of the segments of a loop have the same angle. *)
Lemma successor_theta s t : proper s -> proper t -> successor s t -> sin (s_theta t - s_theta s) < 0.
Proof.
  intros PS PT (N & _). rewrite (cross_proper s t PS PT) in N. destruct PS as (L1 & _). destruct PT as (L2 & _).
  assert (LL : 0 < s_length s * s_length t) by (apply Rmult_lt_0_compat; lra). nra.
Qed.
Lemma successor_distinct s t : proper s -> proper t -> successor s t -> s_theta s <> s_theta t.
Proof. intros PS PT H E. pose proof (successor_theta s t PS PT H) as N. rewrite E, Rminus_diag_eq, sin_0 in N by reflexivity. lra. Qed.
Lemma successor_opposite s t u : proper s -> proper t -> proper u -> successor s t -> successor t u -> s_theta s <> s_theta u.
Proof.
  intros PS PT PU A B E. pose proof (successor_theta s t PS PT A) as X. pose proof (successor_theta t u PT PU B) as Y. rewrite <- E in Y.
  replace (s_theta s - s_theta t) with (- (s_theta t - s_theta s)) in Y by ring. rewrite sin_neg in Y. lra.
Qed.

(** The direction of a fitted line *)
Lemma make_segment_proper p0 p1 votes s : make_segment p0 p1 votes = Some s -> proper s /\ (s_p0 s = p0 /\ s_p1 s = p1 \/ s_p0 s = p1 /\ s_p1 s = p0).
Proof.
  unfold make_segment. destruct (Rlt_dec (distance2D p0 p1) 4) as [ L | L ]; [ discriminate | ]. apply Rnot_lt_le in L.
  set (dy := snd p1 - snd p0). set (dx := fst p1 - fst p0).
  assert (DD : distance2D p0 p1 = sqrt (dx * dx + dy * dy)) by (unfold distance2D, dx, dy; apply (f_equal sqrt); ring).
  assert (POS : 0 < dx * dx + dy * dy).
  { destruct (Rle_lt_dec (dx * dx + dy * dy) 0) as [ Z | Z ]; [ | exact Z ]. rewrite (sqrt_neg_0 _ Z) in DD. lra. }
  destruct (atan2_coords dx dy POS) as (CX & CY). rewrite <- DD in CX, CY. set (t := atan2 dy dx) in *. set (n := distance2D p0 p1) in *.
  destruct (votes_for t votes 0 0) as [ flip noflip ].
  assert (AUX : forall theta e, (e = 1 \/ e = -1) -> cos theta = e * cos t -> sin theta = e * sin t ->
     Some (if Rlt_dec 0 (dx * cos theta + dy * sin theta) then Segment p1 p0 theta n else Segment p0 p1 theta n) = Some s ->
     proper s /\ (s_p0 s = p0 /\ s_p1 s = p1 \/ s_p0 s = p1 /\ s_p1 s = p0)).
  { intros theta e HE C S EQ.
    assert (DOT : dx * cos theta + dy * sin theta = e * n).
    { rewrite C, S, <- CX, <- CY. pose proof (sin2_cos2 t) as Q. unfold Rsqr in Q. transitivity (e * n * (sin t * sin t + cos t * cos t)); [ ring | rewrite Q; ring ]. }
    rewrite DOT in EQ.
    assert (NN : norm (minus p1 p0) = n /\ norm (minus p0 p1) = n) by (rewrite norm_minus at 1; split; reflexivity). destruct NN as (NN1 & NN2).
    destruct HE as [ -> | -> ].
    - destruct (Rlt_dec 0 (1 * n)) as [ W | W ]; [ | lra ]. injection EQ as <-. unfold proper, course. cbn [s_p0 s_p1 s_theta s_length].
      split; [ | right; split; reflexivity ]. split; [ exact L | ]. split; [ exact NN2 | ]. rewrite C, S. unfold minus. cbn [fst snd].
      unfold dx in CX. unfold dy in CY. split; lra.
    - destruct (Rlt_dec 0 (-1 * n)) as [ W | W ]; [ lra | ]. injection EQ as <-. unfold proper, course. cbn [s_p0 s_p1 s_theta s_length].
      split; [ | left; split; reflexivity ]. split; [ exact L | ]. split; [ exact NN1 | ]. rewrite C, S. unfold minus. cbn [fst snd].
      unfold dx in CX. unfold dy in CY. split; lra. }
  destruct (Rlt_dec noflip flip) as [ F | F ].
  - apply (AUX (t + PI) (-1)); [ right; reflexivity | rewrite neg_cos; ring | rewrite neg_sin; ring ].
  - apply (AUX t 1); [ left; reflexivity | ring | ring ].
Qed.

(** Votes *)
Lemma weight_nonneg (keep : R -> Prop) dec votes : (forall v, In v votes -> 0 <= snd v) -> 0 <= weight keep dec votes.
Proof.
  induction votes as [ | v r IH ]; intros H; cbn [weight fold_right]; [ lra | ]. fold (weight keep dec r).
  pose proof (H v (or_introl eq_refl)). pose proof (IH (fun w Hw => H w (or_intror Hw))). destruct (dec (fst v)); lra.
Qed.
Lemma weight_mono (keep : R -> Prop) dec (keep' : R -> Prop) dec' votes : (forall v, In v votes -> 0 <= snd v) -> (forall t, keep t -> keep' t) -> weight keep dec votes <= weight keep' dec' votes.
Proof.
  intros H M. induction votes as [ | v r IH ]; cbn [weight fold_right]; [ lra | ]. fold (weight keep dec r). fold (weight keep' dec' r).
  pose proof (H v (or_introl eq_refl)). pose proof (IH (fun w Hw => H w (or_intror Hw))).
  destruct (dec (fst v)) as [ K | K ], (dec' (fst v)) as [ K' | K' ]; try lra. apply M in K. contradiction.
Qed.
Definition left_of theta : forall t, {mod2pi (t - theta) < 0} + {~ mod2pi (t - theta) < 0} := fun t => Rlt_dec (mod2pi (t - theta)) 0.
Definition not_left theta : forall t, {~ mod2pi (t - theta) < 0} + {~ ~ mod2pi (t - theta) < 0}.
Proof. intros t. destruct (left_of theta t) as [ H | H ]; [ right; tauto | left; exact H ]. Defined.
Lemma weight_cons (keep : R -> Prop) dec v votes : weight keep dec (v :: votes) = if dec (fst v) then snd v + weight keep dec votes else weight keep dec votes.
Proof. reflexivity. Qed.
Lemma votes_for_spec theta votes f nf :
  votes_for theta votes f nf = (f + weight _ (not_left theta) votes, nf + weight _ (left_of theta) votes).
Proof.
  revert f nf. induction votes as [ | [ t mag ] r IH ]; intros f nf; cbn [votes_for]; [ cbn [weight fold_right]; f_equal; ring | ].
  rewrite !weight_cons. cbn [fst snd]. destruct (not_left theta t) as [ A | A ], (left_of theta t) as [ B | B ]; try tauto;
    (destruct (Rlt_dec (mod2pi (t - theta)) 0) as [ H | H ]; [ | ]); try contradiction; rewrite IH; f_equal; ring.
Qed.
Lemma make_segment_votes p0 p1 votes s : make_segment p0 p1 votes = Some s -> (forall v, In v votes -> 0 <= snd v) ->
  weight (fun t => cross (course s) (cos t, sin t) < 0) (fun t => Rlt_dec _ _) votes <=
  weight (fun t => 0 <= cross (course s) (cos t, sin t)) (fun t => Rle_dec _ _) votes.
Proof.
  intros MK NN. destruct (make_segment_proper _ _ _ _ MK) as ((L & _ & PX & PY) & _).
  assert (CR : forall t, cross (course s) (cos t, sin t) = - s_length s * sin (t - s_theta s)).
  { intros t. unfold cross. cbn [fst snd]. rewrite PX, PY, sin_minus. ring. }
  revert MK. unfold make_segment. destruct (Rlt_dec (distance2D p0 p1) 4) as [ L' | L' ]; [ discriminate | ].
  set (dy := snd p1 - snd p0). set (dx := fst p1 - fst p0). set (t0 := atan2 dy dx). rewrite votes_for_spec, !Rplus_0_l.
  set (F := weight _ (not_left t0) votes). set (NF := weight _ (left_of t0) votes).
  destruct (Rlt_dec NF F) as [ C | C ]; intros MK.
  - assert (TH : s_theta s = t0 + PI) by (destruct (Rlt_dec 0 _); injection MK as <-; reflexivity).
    assert (SN : forall t, sin (t - s_theta s) = - sin (t - t0)).
    { intros t. rewrite TH. replace (t - (t0 + PI)) with (t - t0 - PI) by ring. rewrite sin_minus, cos_PI, sin_PI. ring. }
    apply Rle_trans with NF; [ | apply Rle_trans with F; [ lra | ] ].
    + apply weight_mono; [ exact NN | ]. intros t H. rewrite CR, SN in H. destruct (Rlt_le_dec (mod2pi (t - t0)) 0) as [ M | M ]; [ exact M | ]. apply mod2pi_nonneg in M. exfalso. nra.
    + apply weight_mono; [ exact NN | ]. intros t H. rewrite CR, SN. apply Rnot_lt_le, mod2pi_nonneg in H. nra.
  - assert (TH : s_theta s = t0) by (destruct (Rlt_dec 0 _); injection MK as <-; reflexivity). rewrite TH in CR.
    apply Rle_trans with F; [ | apply Rle_trans with NF; [ lra | ] ].
    + apply weight_mono; [ exact NN | ]. intros t H M. rewrite CR in H. assert (M' : mod2pi (t - t0) <= 0) by lra. apply mod2pi_nonpos in M'. nra.
    + apply weight_mono; [ exact NN | ]. intros t H. rewrite CR. assert (M' : mod2pi (t - t0) <= 0) by lra. apply mod2pi_nonpos in M'. nra.
Qed.

(** Turning *)
Lemma line_direction s p q : on_line s p -> on_line s q -> cross (course s) (minus q p) = 0.
Proof. unfold on_line. intros A B. replace (cross (course s) (minus q p)) with (cross (course s) (minus q (s_p0 s)) - cross (course s) (minus p (s_p0 s))) by (unfold cross, minus; cbn [fst snd]; ring). lra. Qed.
Lemma cross_directions B C u v : cross B u = 0 -> cross C v = 0 -> cross B C <> 0 -> 0 < dot u u -> 0 < dot v v -> cross u v <> 0.
Proof.
  intros X Y N U V Z. apply N. apply (Rmult_eq_reg_l (dot u u * dot v v)); [ | apply Rgt_not_eq, Rmult_lt_0_compat; assumption ].
  rewrite Rmult_0_r. destruct B as [b1 b2], C as [c1 c2], u as [u1 u2], v as [v1 v2]. unfold cross, dot in *. cbn [fst snd] in *.
  transitivity ((b1 * u1 + b2 * u2) * (c1 * v1 + c2 * v2) * (u1 * v2 - u2 * v1) + (b1 * u2 - b2 * u1) * (c1 * v1 + c2 * v2) * (u1 * v1 + u2 * v2) * -1 * -1
     - (b1 * u1 + b2 * u2) * (c1 * v2 - c2 * v1) * (u1 * v1 + u2 * v2) + (b1 * u2 - b2 * u1) * (c1 * v2 - c2 * v1) * (u1 * v2 - u2 * v1)); [ ring | rewrite X, Y, Z; ring ].
Qed.
Lemma turn_mod u v : 0 < norm u -> 0 < norm v -> cross u v <> 0 -> turn u v (mod2pi (atan2 (snd v) (fst v) - atan2 (snd u) (fst u))).
Proof.
  intros U V N. pose proof (norm_pos u U) as U2. pose proof (norm_pos v V) as V2.
  destruct (atan2_coords (fst u) (snd u) U2) as (A & B). destruct (atan2_coords (fst v) (snd v) V2) as (C & D).
  change (sqrt (fst u * fst u + snd u * snd u)) with (norm u) in A, B. change (sqrt (fst v * fst v + snd v * snd v)) with (norm v) in C, D.
  set (a := atan2 (snd u) (fst u)) in *. set (b := atan2 (snd v) (fst v)) in *.
  assert (S : norm u * norm v * sin (b - a) = cross u v).
  { unfold cross. rewrite sin_minus. transitivity ((norm u * cos a) * (norm v * sin b) - (norm u * sin a) * (norm v * cos b)); [ ring | rewrite A, B, C, D; ring ]. }
  assert (K : norm u * norm v * cos (b - a) = dot u v).
  { unfold dot. rewrite cos_minus. transitivity ((norm u * cos a) * (norm v * cos b) + (norm u * sin a) * (norm v * sin b)); [ ring | rewrite A, B, C, D; ring ]. }
  unfold turn. rewrite mod2pi_sin, mod2pi_cos. split; [ | split; assumption ].
  destruct (mod2pi_spec (b - a)) as (_ & _ & (LO & HI)).
  assert (SN : sin (mod2pi (b - a)) <> 0) by (intros Z; rewrite mod2pi_sin in Z; rewrite Z in S; lra).
  split.
  - destruct LO as [ LO | LO ]; [ exact LO | ]. exfalso. apply SN. rewrite <- LO, sin_neg, sin_PI. ring.
  - destruct HI as [ HI | HI ]; [ exact HI | ]. exfalso. apply SN. rewrite HI. apply sin_PI.
Qed.
Lemma turn_unique u v a b : 0 < norm u -> 0 < norm v -> turn u v a -> turn u v b -> a = b.
Proof.
  intros U V (RA & CA & SA) (RB & CB & SB). assert (P : 0 < norm u * norm v) by (apply Rmult_lt_0_compat; assumption).
  assert (C : cos a = cos b) by (apply (Rmult_eq_reg_l (norm u * norm v)); lra). assert (S : sin a = sin b) by (apply (Rmult_eq_reg_l (norm u * norm v)); lra).
  rewrite <- (atan2_polar 1 a), <- (atan2_polar 1 b) by lra. rewrite C, S. reflexivity.
Qed.
Lemma small_pi : 3 < PI < 34 / 10.
Proof.
  pose proof PI_RGT_0. pose proof PI_4. pose proof PI2_3_2 as A. pose proof PI_ineq as B.
  split; [ unfold PI2 in A; lra | ].
  pose proof (B 2%nat) as (_ & C). unfold PI_tg, tg_alt, Alt_PI in C. unfold sum_f_R0 in C.
  cbn [Nat.mul Nat.add INR pow] in C. unfold tg_alt, PI_tg in C. cbn [Nat.mul Nat.add INR pow] in C. lra.
Qed.
