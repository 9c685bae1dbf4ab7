(** * Lemmas about the transformation expression at an estimated time *)
From Coquelicot Require Import Coquelicot.
From Coq Require Import Reals List Arith ZArith Bool Lia Lra.
From Verif Require Import Base KinModel KinSpec KinProofs KinCurve RotModel RotSpec TfModel TfSpec TfProofs
  BsplModel BsplSpec BsplProofs BsdProofs BsplProps BsdProps BshModel BsfProps BsfProofs BshProofs BshProps
  BpModel BpSpec BpProofs BpProps SplModel SplSpec SplProofs SplProps ToModel ToSpec.
Import ListNotations.
Local Open Scope R_scope.

(** ** Which segments *)

Lemma located_mono b t t' s s' : wf b -> lo b <= t -> t <= t' -> t' <= hi b -> located b t s -> located b t' s' -> (s <= s')%nat.
Proof.
  intros W L T H LO LO'. destruct LO as (S1 & E). destruct LO' as (S1' & E').
  destruct (Rlt_dec (Rabs (hi b - t')) (/ 10000000000)) as [ N' | N' ].
  { pose proof (located_end b t' W ltac:(lra) N') as (_ & Z). rewrite Z in E'. assert (s' = (ncols b - 1)%nat) by congruence. lia. }
  assert (N : ~ near_end b t).
  { intros N. apply N'. unfold near_end in N. rewrite Rabs_right in N by lra. rewrite Rabs_right by lra. lra. }
  destruct (T_index_inner b t W L ltac:(lra) N) as (a & A1 & A2 & A3). assert (a = s) by congruence. subst a.
  destruct (T_index_inner b t' W ltac:(lra) H N') as (a & B1 & B2 & B3). assert (a = s') by congruence. subst a.
  destruct (le_lt_dec s s') as [ Q | Q ]; [ exact Q | ]. exfalso. destruct W as [O LE C B SO].
  assert (knot (knots b) (s' + 1) <= knot (knots b) s) by (apply SO; lia). lra.
Qed.

(** The segment of a time of a positive knot span. *)
Lemma located_span b t s : wf b -> last_start b + / 10000000000 <= hi b -> (order b - 1 <= s < ncols b)%nat ->
  knot (knots b) s <= t < knot (knots b) (s + 1) -> located b t s.
Proof.
  intros W LE S1 S2. assert (W' := W). destruct W' as [O LL C B SO].
  assert (HI : hi b = knot (knots b) (ncols b)) by reflexivity.
  assert (LA : last_start b = knot (knots b) (ncols b - 1)) by reflexivity.
  assert (L0 : lo b <= t) by (unfold lo; assert (knot (knots b) (order b - 1) <= knot (knots b) s) by (apply SO; lia); lra).
  assert (L1 : t <= hi b) by (rewrite HI; assert (knot (knots b) (s + 1) <= knot (knots b) (ncols b)) by (apply SO; lia); lra).
  destruct (Rlt_dec (Rabs (hi b - t)) (/ 10000000000)) as [ N | N ].
  - assert (s = (ncols b - 1)%nat); [ | subst; apply located_end; assumption ].
    destruct (Nat.eq_dec s (ncols b - 1)) as [ Q | Q ]; [ exact Q | ]. exfalso.
    assert (knot (knots b) (s + 1) <= knot (knots b) (ncols b - 1)) by (apply SO; lia).
    rewrite Rabs_right in N by lra. lra.
  - destruct (T_index_inner b t W L0 L1 N) as (a & A1 & A2 & A3). assert (a = s); [ | subst; split; assumption ].
    destruct (Nat.lt_trichotomy a s) as [ Lt | [ Eq | Gt ] ]; [ | exact Eq | ].
    + assert (knot (knots b) (a + 1) <= knot (knots b) s) by (apply SO; lia). lra.
    + assert (knot (knots b) (s + 1) <= knot (knots b) a) by (apply SO; lia). lra.
Qed.

(** Where the time is in its segment. *)
Lemma located_bounds b t s : wf b -> last_start b + / 10000000000 <= hi b -> lo b <= t <= hi b -> located b t s ->
  knot (knots b) s <= t /\ knot (knots b) s < knot (knots b) (s + 1) /\ (t < knot (knots b) (s + 1) \/ s = (ncols b - 1)%nat).
Proof.
  intros W LE I (S1 & E). assert (W' := W). destruct W' as [O LL C B SO].
  destruct (Rlt_dec (Rabs (hi b - t)) (/ 10000000000)) as [ N | N ].
  - pose proof (located_end b t W ltac:(lra) N) as (_ & Z). rewrite Z in E. assert (s = (ncols b - 1)%nat) by congruence. subst s.
    assert (HI : hi b = knot (knots b) (ncols b)) by reflexivity. assert (LA : last_start b = knot (knots b) (ncols b - 1)) by reflexivity.
    rewrite Rabs_right in N by lra. replace (ncols b - 1 + 1)%nat with (ncols b) by lia.
    split; [ lra | ]. split; [ lra | ]. right. reflexivity.
  - destruct (T_index_inner b t W ltac:(lra) ltac:(lra) N) as (a & A1 & A2 & A3). assert (a = s) by congruence. subst a.
    split; [ lra | ]. split; [ lra | ]. left. lra.
Qed.

Lemma last_seq f n d : (0 < n)%nat -> last (seq f n) d = (f + n - 1)%nat.
Proof.
  intros L. replace n with (S (n - 1)) by lia. rewrite seq_S, last_last. lia.
Qed.

(** What the constructor computes. *)
Lemma make_time_node_spec sv k l D C c t bl br : built k l D C c (cv sv) -> nondecreasing l -> long_end k l ->
  first_time k l <= t <= last_time k l -> 0 <= bl -> 0 <= br ->
  exists n sl sr, make_time_node sv t bl br = Ok n /\ local_idx n = seq (sl + 1 - k) (sr - sl + k) /\
    (k - 1 <= sl <= sr)%nat /\ (sr < C)%nat /\
    first_time k l <= buf_lo n <= Rmax (first_time k l) (t - bl) /\ buf_hi n <= last_time k l /\
    (t + br < buf_hi n \/ buf_hi n = last_time k l) /\
    (forall u s, buf_lo n <= u < buf_hi n -> located (cv sv) u s -> (sl <= s <= sr)%nat) /\
    (forall s, located (cv sv) (t - bl) s -> lo (cv sv) <= t - bl -> sl = s) /\
    (forall s, located (cv sv) (t + br) s -> t + br <= hi (cv sv) -> sr = s).
Proof.
  intros BU ND LE I BL BR. set (b := cv sv) in *.
  destruct (built_wf _ _ _ _ _ _ BU ND) as [W [O [K [DD [NC [CO [K2 [CC LL]]]]]]]].
  destruct (built_times _ _ _ _ _ _ BU ND) as [T1 [T2 T3]]. unfold long_end in LE.
  assert (LE' : last_start b + / 10000000000 <= hi b) by (rewrite T2, T3; lra).
  assert (HI : hi b = knot l C) by (unfold hi; rewrite K, NC; reflexivity).
  assert (LA : last_start b = knot l (C - 1)) by (unfold last_start; rewrite K, NC; reflexivity).
  assert (LO0 : lo b = knot l (k - 1)) by (unfold lo; rewrite K, O; reflexivity).
  assert (NS : num_segments b = (C + 1 - k)%nat) by (unfold num_segments, num_segments_of; rewrite O, K; lia).
  assert (TI : forall i, (i < C + 1 - k)%nat -> time_interval b i = Ok (knot l (k + i - 1), knot l (k + i))).
  { intros i Li. unfold time_interval. rewrite O, K, min_knots_eq by lia. destruct (Nat.ltb_spec (length l) (2 * k)); [ lia | ].
    rewrite NS. destruct (Nat.ltb_spec i (C + 1 - k)); [ | lia ]. rewrite !vat_knot by lia. reflexivity. }
  assert (SI : forall u s, located b u s -> segment_index b u = Ok (s + 1 - k)%nat).
  { intros u s (S1 & E). unfold segment_index. rewrite E. cbn [obind]. rewrite O in *. apply isub_ok. lia. }
  (* the right segment *)
  assert (RIGHT : exists sr, (k - 1 <= sr < C)%nat /\ knot l sr < knot l (sr + 1) /\ (t + br < knot l (sr + 1) \/ sr = (C - 1)%nat) /\
    (forall s, located b (t + br) s -> t + br <= hi b -> sr = s) /\
    (if rltb (hi b) (br + t) then isub (num_segments b) 1 else segment_index b (t + br)) = Ok (sr + 1 - k)%nat).
  { destruct (Rlt_dec (hi b) (br + t)) as [ Q | Q ].
    - exists (C - 1)%nat. rewrite rltb_true by exact Q. rewrite NS, isub_ok by lia. split; [ lia | ].
      replace (C - 1 + 1)%nat with C by lia. split; [ lra | ]. split; [ right; reflexivity | ]. split; [ intros; lra | f_equal; lia ].
    - rewrite rltb_false by lra. destruct (located_exists b (t + br) W) as (s & LO); [ rewrite T1, T2 in *; lra | ].
      pose proof (located_bounds b (t + br) s W LE' ltac:(rewrite T1, T2 in *; lra) LO) as (B1 & B2 & B3).
      assert (S1 := proj1 LO). rewrite O, NC in S1. rewrite K, NC in *. exists s.
      split; [ exact S1 | ]. split; [ exact B2 | ]. split; [ exact B3 | ]. split; [ intros s' LO' _; exact (located_unique _ _ _ _ LO LO') | exact (SI _ _ LO) ]. }
  destruct RIGHT as (sr & R1 & R2 & R3 & R4 & ER).
  (* the left segment *)
  assert (LEFT : exists sl, (k - 1 <= sl < C)%nat /\ knot l sl <= Rmax (first_time k l) (t - bl) /\
    (forall s, located b (t - bl) s -> lo b <= t - bl -> sl = s /\ knot l sl < knot l (sl + 1)) /\
    (if rltb (t - bl) (lo b) then Ok 0%nat else segment_index b (t - bl)) = Ok (sl + 1 - k)%nat).
  { destruct (Rlt_dec (t - bl) (lo b)) as [ Q | Q ].
    - exists (k - 1)%nat. rewrite rltb_true by exact Q. split; [ lia | ]. split; [ unfold first_time; apply Rmax_l | ].
      split; [ intros; lra | f_equal; lia ].
    - rewrite rltb_false by lra. destruct (located_exists b (t - bl) W) as (s & LO); [ rewrite T1, T2 in *; lra | ].
      pose proof (located_bounds b (t - bl) s W LE' ltac:(rewrite T1, T2 in *; lra) LO) as (B1 & B2 & _).
      assert (S1 := proj1 LO). rewrite O, NC in S1. rewrite K in *. exists s.
      split; [ exact S1 | ]. split; [ eapply Rle_trans; [ exact B1 | apply Rmax_r ] | ].
      split; [ intros s' LO' _; split; [ exact (located_unique _ _ _ _ LO LO') | exact B2 ] | exact (SI _ _ LO) ]. }
  destruct LEFT as (sl & L1 & L2 & L3 & EL).
  assert (ORD : forall i j, (i <= j)%nat -> (j <= C)%nat -> knot l i <= knot l j) by (intros i j X Y; apply ND; lia).
  (* the middles *)
  set (ml := (knot l sl + knot l (sl + 1)) / 2). set (mr := (knot l sr + knot l (sr + 1)) / 2).
  assert (LR : located b mr sr).
  { apply located_span; [ exact W | exact LE' | rewrite O, NC; lia | rewrite K; unfold mr; lra ]. }
  assert (MLI : lo b <= ml <= hi b).
  { pose proof (ORD (k - 1)%nat sl ltac:(lia) ltac:(lia)). pose proof (ORD sl (sl + 1)%nat ltac:(lia) ltac:(lia)).
    pose proof (ORD (sl + 1)%nat C ltac:(lia) ltac:(lia)). unfold ml. lra. }
  destruct (located_exists b ml W MLI) as (sm & LM).
  assert (SML : forall u s, knot l sl <= u <= hi b -> located b u s -> (sm <= s)%nat).
  { intros u s Iu LU. destruct (Rlt_dec (knot l sl) (knot l (sl + 1))) as [ Q | Q ].
    - assert (LS : located b ml sl) by (apply located_span; [ exact W | exact LE' | rewrite O, NC; lia | rewrite K; unfold ml; lra ]).
      rewrite (located_unique _ _ _ _ LM LS).
      assert (LS0 : located b (knot l sl) sl) by (apply located_span; [ exact W | exact LE' | rewrite O, NC; lia | rewrite K; lra ]).
      apply (located_mono b (knot l sl) u sl s W); try assumption; try lra. rewrite LO0. apply ORD; lia.
    - assert (ml = knot l sl) by (unfold ml; pose proof (ORD sl (sl + 1)%nat ltac:(lia) ltac:(lia)); lra).
      apply (located_mono b ml u sm s W); try assumption; lra. }
  assert (SMR : (sm <= sr)%nat).
  { apply (SML (knot l sr)).
    - split; [ | pose proof (ORD sr C ltac:(lia) ltac:(lia)); lra ].
      destruct R3 as [ R3 | R3 ]; [ | subst sr; apply ORD; lia ].
      destruct (le_lt_dec sl sr) as [ Q | Q ]; [ apply ORD; lia | ]. exfalso.
      pose proof (ORD (sr + 1)%nat sl ltac:(lia) ltac:(lia)).
      assert (Rmax (first_time k l) (t - bl) <= t) by (apply Rmax_lub; lra). lra.
    - apply located_span; [ exact W | exact LE' | rewrite O, NC; lia | rewrite K; lra ]. }
  assert (S2 := proj1 LM). rewrite O, NC in S2.
  exists (TNode (knot l sl) (knot l (sr + 1)) (seq (sm + 1 - k) (sr - sm + k))), sm, sr.
  split.
  { unfold make_time_node. fold b. rewrite t_max_ok by exact W. cbn [obind]. rewrite ER. cbn [obind].
    rewrite t_min_ok by exact W. cbn [obind]. rewrite EL. cbn [obind]. rewrite !TI by lia. cbn [obind].
    replace (k + (sl + 1 - k) - 1)%nat with sl by lia. replace (k + (sl + 1 - k))%nat with (sl + 1)%nat by lia.
    replace (k + (sr + 1 - k) - 1)%nat with sr by lia. replace (k + (sr + 1 - k))%nat with (sr + 1)%nat by lia.
    fold ml mr. rewrite (located_vv _ _ _ W LM), (located_vv _ _ _ W LR), O. cbn [obind].
    destruct k as [ | k ]; [ lia | ]. cbn [seq]. change (?a :: seq (S ?a) k) with (seq a (S k)). rewrite last_seq by lia.
    rewrite isub_ok by lia. cbn [obind]. do 3 f_equal. lia. }
  cbn [local_idx buf_lo buf_hi]. split; [ reflexivity | ]. split; [ lia | ]. split; [ lia | ].
  split. { split; [ unfold first_time; apply ORD; lia | exact L2 ]. }
  assert (LT : last_time k l = knot l C) by (rewrite <- HI; symmetry; exact T2).
  split; [ rewrite LT; apply ORD; lia | ].
  split. { destruct R3 as [ R3 | R3 ]; [ left; exact R3 | right; rewrite LT; f_equal; lia ]. }
  split; [ | split; [ | exact R4 ] ].
  2: { intros s LS GE. destruct (L3 s LS GE) as (-> & PS).
    assert (LS' : located b ml s) by (apply located_span; [ exact W | exact LE' | rewrite O, NC; lia | rewrite K; unfold ml; lra ]).
    exact (located_unique _ _ _ _ LM LS'). }
  intros u s Iu LU. pose proof (ORD (sr + 1)%nat C ltac:(lia) ltac:(lia)). pose proof (ORD (k - 1)%nat sl ltac:(lia) ltac:(lia)).
  split; [ apply (SML u s); [ lra | exact LU ] | ].
  pose proof (located_bounds b u s W LE' ltac:(lra) LU) as (B1 & _). rewrite K in B1.
  destruct (le_lt_dec s sr) as [ Q | Q ]; [ exact Q | ]. exfalso.
  assert (S3 := proj1 LU). rewrite O, NC in S3. pose proof (ORD (sr + 1)%nat s ltac:(lia) ltac:(lia)). lra.
Qed.

(** ** A curve and a time that move together *)

Lemma swap_indices (n N : nat) (J a : nat -> R) (ix : nat -> nat) : (forall m, (m < n)%nat -> (ix m < N)%nat) ->
  total n (fun m => J m * a (ix m)) = bsum N (fun q => a q * total n (fun m => J m * (if (ix m =? q)%nat then 1 else 0))).
Proof.
  induction n as [ | n IH ]; intros H; cbn [total].
  - symmetry. apply bsum_zero. intros q _. ring.
  - rewrite IH by (intros m L; apply H; lia).
    rewrite (bsum_ext N (fun q => a q * (total n (fun m => J m * (if (ix m =? q)%nat then 1 else 0)) + J n * (if (ix n =? q)%nat then 1 else 0)))
      (fun q => a q * total n (fun m => J m * (if (ix m =? q)%nat then 1 else 0)) + a q * (J n * (if (ix n =? q)%nat then 1 else 0)))) by (intros; ring).
    rewrite bsum_plus. f_equal. rewrite (bsum_single N (ix n)).
    + rewrite Nat.eqb_refl. ring.
    + apply H. lia.
    + intros q _ NE. destruct (Nat.eqb_spec (ix n) q); [ congruence | ring ].
Qed.

Definition val (b : bspline) (d : Z) (r : nat) (t : R) : R := match eval_D b t d with Ok v => v r | _ => 0 end.
Lemma val_is k l D C c b d r : built k l D C c b -> nondecreasing l -> long_end k l ->
  is_evalD b (first_time k l) (last_time k l) d r (val b (Z.of_nat d) r).
Proof.
  intros H ND LE t I. destruct (C65_total k l D C c b d H ND LE) as (F & HF). destruct (HF r t I) as (v & E & _).
  exists v. split; [ exact E | ]. unfold val. rewrite E. reflexivity.
Qed.
Lemma smooth_inside k l D C c b t : built k l D C c b -> nondecreasing l -> smooth_at k l C t -> first_time k l < t < last_time k l.
Proof.
  intros H ND [ (j & J & I) | (_ & _ & I) ]; [ | exact I ].
  destruct (built_wf _ _ _ _ _ _ H ND) as [W [O [K [DD [NC [CO [K2 [CC LL]]]]]]]].
  assert (X1 : knot l (k - 1) <= knot l j) by (apply ND; lia).
  assert (X2 : knot l (j + 1) <= knot l C) by (apply ND; lia).
  assert (X3 : last_time k l = knot l C) by (unfold last_time; f_equal; lia).
  unfold first_time. lra.
Qed.
Lemma val_derive k l D C c b r t : built k l D C c b -> nondecreasing l -> long_end k l -> smooth_at k l C t ->
  is_derive (val b 0 r) t (val b 1 r t).
Proof.
  intros H ND LE [ (j & J & I) | (INC & K3 & I) ].
  - exact (C65_derivative k l D C c b 0 r _ _ t j H ND LE (val_is _ _ _ _ _ _ 0 r H ND LE) (val_is _ _ _ _ _ _ 1 r H ND LE) J I).
  - apply (proj2 (C65_smooth k l D C c b 0 r _ t H INC LE (val_is _ _ _ _ _ _ 0 r H ND LE) ltac:(lia) I) _ (val_is _ _ _ _ _ _ 1 r H ND LE)). lia.
Qed.

Lemma curve_moves_both k l C c b t y yd bs tau td : built k l 6 C c b -> nondecreasing l -> long_end k l ->
  smooth_at k l C t -> moving b (6 * C) y yd bs -> moving_time tau t td ->
  exists v js idx v1 (V : R -> vec), eval_D_and_jacobian b t 0 = Ok (v, js, idx) /\ eval_D b t 0 = Ok v /\ eval_D b t 1 = Ok v1 /\
    local_coef_indices b t = Ok idx /\ locally 0 (fun s => first_time k l <= tau s <= last_time k l /\ eval (bs s) (tau s) = Ok (V s)) /\
    head3 (V 0) = head3 v /\ tail3 (V 0) = tail3 v /\
    v3_derive (fun s => head3 (V s)) 0 (v3_add (hd3 (times6 (k * 6) (column js) (picked yd idx))) (v3_scale td (head3 v1))) /\
    v3_derive (fun s => tail3 (V s)) 0 (v3_add (tl3 (times6 (k * 6) (column js) (picked yd idx))) (v3_scale td (tail3 v1))).
Proof.
  intros H ND LE SM (M1 & M2 & M3) (TA0 & TAD). pose proof (smooth_inside _ _ _ _ _ _ _ H ND SM) as IN.
  destruct (C65_jacobian k l 6 C c b 0 t H ND LE ltac:(lra) ltac:(lia) ltac:(lia)) as (v & js & idx & lc & E & EV & _ & EI & LI & BI & _ & _ & CH).
  destruct (C65_jacobian k l 6 C c b 1 t H ND LE ltac:(lra) ltac:(lia) ltac:(lia)) as (v1 & _ & _ & _ & _ & EV1 & _).
  set (cq := fun q i : nat => coef_vector b i + if (i =? q)%nat then 1 else 0).
  set (bq := fun q => match set_coef_vector b (6 * C) (cq q) with Ok x => x | _ => b end).
  assert (BQ : forall q, set_coef_vector b (6 * C) (cq q) = Ok (bq q)).
  { intros q. destruct (CH (cq q)) as (b' & v' & E1 & _). unfold bq. rewrite E1. reflexivity. }
  assert (HQ : forall q, built k l 6 C (fun r i => cq q (i * 6 + r)%nat) (bq q)) by (intros q; exact (built_with_coefs _ _ _ _ _ _ _ _ H (BQ q))).
  set (Wq := fun q r u => val (bq q) 0 r u - val b 0 r u).
  (* every value is affine in the coefficients *)
  assert (KEY : forall u, first_time k l <= u <= last_time k l -> forall J ix w, eval_D_and_jacobian b u 0 = Ok (w, J, ix) ->
    (forall i, In i ix -> (i < 6 * C)%nat) -> length ix = (k * 6)%nat -> forall a r, (r < 6)%nat ->
    total (k * 6) (fun m => J r m * a (nth m ix 0%nat)) = bsum (6 * C) (fun q => a q * Wq q r u)).
  { intros u Iu J ix w EJ BX LX a r Lr.
    rewrite (swap_indices (k * 6) (6 * C) (J r) a (fun m => nth m ix 0%nat)) by (intros m Lm; apply BX, nth_In; lia).
    apply bsum_ext. intros q _. f_equal.
    destruct (C65_jacobian k l 6 C c b 0 u H ND LE Iu ltac:(lia) ltac:(lia)) as (w' & J' & ix' & lc' & E' & EW' & _ & _ & _ & _ & _ & _ & CH').
    assert (w' = w) by congruence. assert (J' = J) by congruence. assert (ix' = ix) by congruence. subst w' J' ix'.
    destruct (CH' (cq q)) as (b' & v' & E1 & _ & E2 & X). assert (b' = bq q) by (rewrite BQ in E1; congruence). subst b'.
    unfold Wq, val. rewrite E2, EW', (X r Lr). apply total_ext. intros m _. unfold cq. ring. }
  assert (KEYV : forall s u, first_time k l <= u <= last_time k l -> exists w, eval (bs s) u = Ok w /\
    forall r, (r < 6)%nat -> w r = val b 0 r u + bsum (6 * C) (fun q => (y s q - coef_vector b q) * Wq q r u)).
  { intros s u Iu.
    destruct (C65_jacobian k l 6 C c b 0 u H ND LE Iu ltac:(lia) ltac:(lia)) as (w & J & ix & lc' & EJ & EW & _ & _ & LX & BX & _ & _ & CH').
    destruct (CH' (y s)) as (b' & v' & E1 & _ & E2 & X). assert (b' = bs s) by (rewrite M1 in E1; congruence). subst b'.
    exists v'. split; [ exact E2 | ]. intros r Lr.
    rewrite <- (KEY u Iu J ix w EJ BX LX (fun i => y s i - coef_vector b i) r Lr), <- (X r Lr). unfold val. rewrite EW. ring. }
  set (V := fun s : R => match eval (bs s) (tau s) with Ok w => w | _ => fun _ : nat => 0 end).
  assert (LOC : locally 0 (fun s => first_time k l <= tau s <= last_time k l)).
  { assert (CT : continuous tau 0) by (apply (ex_derive_continuous tau); exists td; exact TAD).
    assert (NB : locally (tau 0) (fun u => first_time k l <= u <= last_time k l)).
    { rewrite TA0. apply (locally_interval _ t (first_time k l) (last_time k l)); [ cbn; lra | cbn; lra | ]. intros u U1 U2. cbn in U1, U2. lra. }
    exact (CT _ NB). }
  assert (VK : locally 0 (fun s => forall r, (r < 6)%nat -> val b 0 r (tau s) + bsum (6 * C) (fun q => (y s q - coef_vector b q) * Wq q r (tau s)) = V s r)).
  { apply (filter_imp (fun s => first_time k l <= tau s <= last_time k l)); [ | exact LOC ].
    intros s Is r Lr. unfold V. destruct (KEYV s (tau s) Is) as (w & -> & X). rewrite (X r Lr). reflexivity. }
  assert (V0 : forall r, (r < 6)%nat -> V 0 r = v r).
  { intros r Lr. rewrite <- (locally_singleton _ _ VK r Lr). rewrite TA0, bsum_zero; [ unfold val; rewrite EV; ring | ].
    intros q Lq. rewrite (M2 q Lq). ring. }
  assert (DV : forall r, (r < 6)%nat -> is_derive (fun s => V s r) 0
      (total (k * 6) (fun m => js r m * picked yd idx m) + td * v1 r)).
  { intros r Lr. apply (is_derive_ext_loc (fun s => val b 0 r (tau s) + bsum (6 * C) (fun q => (y s q - coef_vector b q) * Wq q r (tau s)))).
    { eapply filter_imp; [ | exact VK ]. intros s X. exact (X r Lr). }
    unfold picked. rewrite (KEY t ltac:(lra) js idx v E BI LI yd r Lr). rewrite Rplus_comm.
    assert (DB : is_derive (val b 0 r) (tau 0) (v1 r)).
    { rewrite TA0. replace (v1 r) with (val b 1 r t) by (unfold val; rewrite EV1; reflexivity). exact (val_derive _ _ _ _ _ _ r t H ND LE SM). }
    apply (is_derive_plus (fun s => val b 0 r (tau s))).
    - exact (is_derive_comp (val b 0 r) tau 0 _ _ DB TAD).
    - apply (bsum_derive (6 * C) (fun q s => (y s q - coef_vector b q) * Wq q r (tau s))). intros q Lq.
      assert (DW : is_derive (Wq q r) (tau 0) (val (bq q) 1 r t - val b 1 r t)).
      { rewrite TA0. apply (is_derive_minus (val (bq q) 0 r) (val b 0 r)); [ exact (val_derive _ _ _ _ _ _ r t (HQ q) ND LE SM) | exact (val_derive _ _ _ _ _ _ r t H ND LE SM) ]. }
      pose proof (is_derive_comp (Wq q r) tau 0 _ _ DW TAD) as DC.
      pose proof (M3 q Lq) as DY.
      pose proof (is_derive_minus _ (fun _ => coef_vector b q) 0 _ _ DY (@is_derive_const _ R_NormedModule _ _)) as DY'.
      pose proof (is_derive_mult _ _ 0 _ _ DY' DC Rmult_comm) as X. eapply eq_rect; [ exact X | ].
      match goal with |- ?a = ?b => change (@eq R a b) end. cbv beta. rewrite TA0, (M2 q Lq).
      unfold minus, plus, opp, zero, mult, scal, mult. cbn. unfold mult. cbn. ring. }
  exists v, js, idx, v1, V. split; [ exact E | ]. split; [ exact EV | ]. split; [ exact EV1 | ]. split; [ exact EI | ].
  split. { apply (filter_imp (fun s => first_time k l <= tau s <= last_time k l)); [ | exact LOC ].
    intros s Is. split; [ exact Is | ]. unfold V. destruct (KEYV s (tau s) Is) as (w & -> & _). reflexivity. }
  unfold head3, tail3. rewrite !V0 by lia. split; [ reflexivity | ]. split; [ reflexivity | ].
  unfold v3_derive, times6, times3, column, head3, tail3, v3_add, v3_scale. cbn [hd3 tl3 x0 x1 x2].
  split; (split; [ | split ]); apply DV; lia.
Qed.

(** ** The loops *)

Definition ido (sv : splvar) (c : nat) : nat := match nth_error (vars sv) c with Some v => mid v | None => 0%nat end.
Definition zero_v6 : v6 := V6 v3_zero v3_zero.
Definition entry {A} (sv : splvar) (k lo : nat) (B : nat -> A) (z : A) (c : nat) : nat * (nat -> A) :=
  (ido sv c, if (lo <=? c)%nat && (c <=? lo + k - 1)%nat then fun j => B ((c - lo) * 6 + j)%nat else fun _ => z).

Lemma dv_ido sv c : (c < length (vars sv))%nat -> design_variable sv c = Ok (ido sv c).
Proof.
  intros L. unfold design_variable, ido. destruct (nth_error (vars sv) c) eqn:E; [ reflexivity | ]. apply nth_error_None in E. lia.
Qed.
Lemma variables_of_seq sv : forall N L, (L + N <= length (vars sv))%nat -> variables_of sv (seq L N) = Ok (map (ido sv) (seq L N)).
Proof.
  induction N as [ | N IH ]; intros L H; [ reflexivity | ]. cbn [seq variables_of map]. rewrite dv_ido by lia. cbn [obind].
  rewrite IH by lia. reflexivity.
Qed.
Lemma pick_seq sv : forall N L, (L + N <= length (vars sv))%nat -> pick (vars sv) (seq L N) = Ok (map (ido sv) (seq L N)).
Proof.
  induction N as [ | N IH ]; intros L H; [ reflexivity | ]. cbn [seq pick map]. unfold ido at 1.
  destruct (nth_error (vars sv) L) eqn:E; [ | apply nth_error_None in E; lia ]. rewrite IH by lia. reflexivity.
Qed.

Lemma plain_loop_ok sv k J lo : (1 <= k)%nat -> forall N L, (L + N <= length (vars sv))%nat ->
  plain_loop sv k J lo (lo + k - 1) L (seq L N) = Ok (map (entry sv k lo J zero_v6) (seq L N)).
Proof.
  intros K1. induction N as [ | N IH ]; intros L H; [ reflexivity | ]. cbn [seq plain_loop map]. rewrite dv_ido by lia. cbn [obind].
  unfold entry at 1. destruct ((lo <=? L)%nat && (L <=? lo + k - 1)%nat) eqn:AC.
  - apply andb_prop in AC. destruct AC as (A1 & A2). apply Nat.leb_le in A1, A2. rewrite isub_ok by exact A1. cbn [obind].
    destruct (Nat.leb_spec ((L - lo) * 6 + 6) (k * 6)); [ | lia ]. cbn [obind]. rewrite IH by lia. reflexivity.
  - cbn [obind]. rewrite IH by lia. reflexivity.
Qed.

Lemma plain_loop_bad sv k J lo : (1 <= k)%nat -> forall N L i, (L + N <= length (vars sv))%nat -> (i < L)%nat -> (L <= lo)%nat -> (lo < L + N)%nat ->
  plain_loop sv k J lo (lo + k - 1) i (seq L N) = UB.
Proof.
  intros K1. induction N as [ | N IH ]; intros L i H Li Lo Hi; [ lia | ]. cbn [seq plain_loop]. rewrite dv_ido by lia. cbn [obind].
  destruct (Nat.leb_spec lo L) as [ Q | Q ].
  - destruct (Nat.leb_spec L (lo + k - 1)); [ | lia ]. cbn [andb].
    assert (Z : isub i lo = UB) by (unfold isub; destruct (Nat.ltb_spec i lo); [ reflexivity | lia ]). rewrite Z. reflexivity.
  - cbn [andb obind]. rewrite IH by lia. reflexivity.
Qed.
Lemma chain_loop_ok sv k J A lo : (1 <= k)%nat -> forall N L j, (L + N <= length (vars sv))%nat -> j = Nat.min (L - lo) k ->
  chain_loop sv k J A lo (lo + k - 1) j (seq L N) = Ok (map (entry sv k lo (fun m => chain6 A (J m)) (chain6 A zero_v6)) (seq L N)).
Proof.
  intros K1. induction N as [ | N IH ]; intros L j H ->; [ reflexivity | ]. cbn [seq chain_loop map]. rewrite dv_ido by lia. cbn [obind].
  unfold entry at 1. destruct ((lo <=? L)%nat && (L <=? lo + k - 1)%nat) eqn:AC.
  - apply andb_prop in AC. destruct AC as (A1 & A2). apply Nat.leb_le in A1, A2. replace (Nat.min (L - lo) k) with (L - lo)%nat by lia.
    destruct (Nat.leb_spec ((L - lo) * 6 + 6) (k * 6)); [ | lia ]. rewrite IH by lia. reflexivity.
  - rewrite IH; [ reflexivity | lia | ]. apply andb_false_iff in AC. destruct AC as [ AC | AC ]; apply Nat.leb_gt in AC; lia.
Qed.

Lemma applied_app {A} w (f : A -> R) rate : forall a b, applied w f (a ++ b) rate = applied w f a rate + applied w f b rate.
Proof. induction a as [ | [id B] r IH ]; intros b; cbn [app applied]; [ ring | rewrite IH; ring ]. Qed.
Lemma total_zero n f : (forall i, (i < n)%nat -> f i = 0) -> total n f = 0.
Proof. intros H. rewrite <- bsum_total. apply bsum_zero. exact H. Qed.
Lemma applied_idle {A} sv k lo (B : nat -> A) z (f : A -> R) rate : f z = 0 -> forall idx,
  (forall c, In c idx -> (c < lo \/ lo + k - 1 < c)%nat) -> applied 6 f (map (entry sv k lo B z) idx) rate = 0.
Proof.
  intros FZ. induction idx as [ | c r IH ]; intros H; [ reflexivity | ]. cbn [map]. unfold entry at 1. cbn [applied].
  rewrite IH by (intros c' Hc; apply H; right; exact Hc). specialize (H c (or_introl eq_refl)).
  assert (AC : (lo <=? c)%nat && (c <=? lo + k - 1)%nat = false) by (apply andb_false_iff; rewrite !Nat.leb_gt; lia).
  rewrite AC. rewrite total_zero; [ ring | ]. intros i _. rewrite FZ. ring.
Qed.
Lemma entries_blocks {A} sv k lo (B : nat -> A) z : forall n a, (a + n <= k)%nat ->
  map (entry sv k lo B z) (seq (lo + a) n) =
  map (fun p => (snd p, fun j => B (fst p * 6 + j)%nat)) (combine (seq a n) (map (ido sv) (seq (lo + a) n))).
Proof.
  induction n as [ | n IH ]; intros a H; [ reflexivity | ]. cbn [seq map combine fst snd]. rewrite <- Nat.add_succ_r, IH by lia. f_equal.
  unfold entry. assert (AC : (lo <=? lo + a)%nat && (lo + a <=? lo + k - 1)%nat = true) by (apply andb_true_iff; rewrite !Nat.leb_le; lia).
  rewrite AC. replace (lo + a - lo)%nat with a by lia. reflexivity.
Qed.
(** The idle entries contribute nothing: what is left are the blocks of the
    expression at a fixed time. *)
Lemma applied_entries {A} sv k lo (B : nat -> A) z (f : A -> R) rate L N : f z = 0 -> (1 <= k)%nat -> (L <= lo)%nat -> (lo + k <= L + N)%nat ->
  applied 6 f (map (entry sv k lo B z) (seq L N)) rate = applied 6 f (blocks 6 B (map (ido sv) (seq lo k))) rate.
Proof.
  intros FZ K1 H1 H2. replace N with ((lo - L) + (k + (L + N - lo - k)))%nat by lia. rewrite !seq_app, !map_app, !applied_app.
  replace (L + (lo - L))%nat with lo by lia.
  rewrite (applied_idle sv k lo B z f rate FZ (seq L (lo - L))) by (intros c Hc; apply in_seq in Hc; lia).
  rewrite (applied_idle sv k lo B z f rate FZ (seq (lo + k) _)) by (intros c Hc; apply in_seq in Hc; lia).
  pose proof (entries_blocks sv k lo B z k 0 ltac:(lia)) as E. rewrite Nat.add_0_r in E. rewrite E.
  unfold blocks. rewrite map_length, seq_length. ring.
Qed.
