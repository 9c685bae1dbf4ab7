(** Proofs for C68: constructing and changing B-splines. *)
From Coquelicot Require Import Coquelicot.
From Coq Require Import Reals List Arith ZArith Bool Lia Lra.
From Verif Require Import Base BsplModel BsplSpec BsplProofs BsdProofs BsqProofs BshModel.
Import ListNotations.
Local Open Scope R_scope.

(** ** Constant coefficients *)
Lemma wgt_sum_derive b m s d t : knot (knots b) s < knot (knots b) (s + 1) ->
  is_derive (fun x => bsum (order b) (wgt b m s d x)) t (bsum (order b) (wgt b m s (S d) t)).
Proof.
  intros P. apply (bsum_derive (order b) (fun c x => wgt b m s d x c) (fun c => wgt b m s (S d) t c)).
  intros i _. apply wgt_derive. exact P.
Qed.

Lemma wgt_sum_const b m s d : wf b -> basis_M (knots b) (order b) s = Ok m -> knot (knots b) s < knot (knots b) (s + 1) ->
  forall t, bsum (order b) (wgt b m s d t) = if (d =? 0)%nat then 1 else 0.
Proof.
  intros W EM P. assert (H0 : forall t, bsum (order b) (wgt b m s 0 t) = 1) by (intros; apply wgt_sum; assumption).
  assert (STEP : forall d x, (forall t, bsum (order b) (wgt b m s d t) = x) -> forall t, bsum (order b) (wgt b m s (S d) t) = 0).
  { intros d' x H t. assert (D := wgt_sum_derive b m s d' t P).
    assert (D2 : is_derive (fun y => bsum (order b) (wgt b m s d' y)) t 0).
    { apply (is_derive_ext (fun _ => x)); [ intros y; symmetry; apply H | ]. auto_derive; [ tauto | reflexivity ]. }
    apply is_derive_unique in D. apply is_derive_unique in D2. congruence. }
  destruct d as [ | d ]; [ exact H0 | ]. change (S d =? 0)%nat with false. cbv iota.
  induction d as [ | d IH ]; [ apply (STEP 0%nat 1 H0) | apply (STEP (S d) 0 IH) ].
Qed.

Lemma constant_eval b t d v0 : wf b -> lo b <= t <= hi b ->
  (forall s, (order b - 1 <= s < ncols b)%nat -> knot (knots b) s < knot (knots b) (s + 1)) ->
  (forall r c, (c < ncols b)%nat -> coef b r c = v0 r) -> (0 <= d)%Z ->
  exists v, eval_D b t d = Ok v /\ forall r, v r = if (d =? 0)%Z then v0 r else 0.
Proof.
  intros W I P CO D. destruct (located_exists b t W I) as [s LO]. assert (S1 := proj1 LO).
  destruct (eval_D_ok b t s d W LO (P s S1) D) as [m [v [EM [EV V]]]]. exists v. split; [ exact EV | ].
  intros r. rewrite V. unfold piece.
  rewrite (bsum_ext _ _ (fun c => v0 r * wgt b m s (Z.to_nat d) t c)).
  - rewrite bsum_scal, (wgt_sum_const b m s (Z.to_nat d) W EM (P s S1) t).
    destruct (Z.eqb_spec d 0) as [-> | N]; [ cbn; ring | ]. destruct (Nat.eqb_spec (Z.to_nat d) 0); [ lia | ring ].
  - intros c Lc. rewrite CO by (destruct W; lia). reflexivity.
Qed.

(** ** LinSpaced *)
Lemma lin_spaced_length n a b : length (lin_spaced n a b) = n.
Proof. unfold lin_spaced. rewrite map_length, seq_length. reflexivity. Qed.

Lemma map_seq_knot (f : nat -> R) n i : (i < n)%nat -> knot (map f (seq 0 n)) i = f i.
Proof.
  intros L. unfold knot. rewrite (nth_indep _ 0 (f 0%nat)) by (rewrite map_length, seq_length; exact L).
  rewrite map_nth, seq_nth by exact L. reflexivity.
Qed.

Lemma lin_spaced_knot n a b i : (i < n)%nat -> knot (lin_spaced n a b) i = a + INR i * ((b - a) / (INR n - 1)).
Proof. intros L. unfold lin_spaced. rewrite map_seq_knot by exact L. reflexivity. Qed.

(** ** Local coefficients *)
Lemma mod_div_split D n m : (1 <= D)%nat -> (m < n * D)%nat -> (m / D < n)%nat /\ ((m / D) * D + m mod D = m)%nat /\ (m mod D < D)%nat.
Proof.
  intros K L. split; [ apply Nat.div_lt_upper_bound; lia | ]. split.
  - rewrite (Nat.div_mod m D) at 3 by lia. lia.
  - apply Nat.mod_upper_bound. lia.
Qed.

Lemma set_local_ok b t s c : wf b -> located b t s ->
  exists b', set_local_coefs b t (order b * dim b) c = Ok b' /\
    order b' = order b /\ knots b' = knots b /\ dim b' = dim b /\ ncols b' = ncols b /\ bases b' = bases b /\
    (forall r i, (s + 1 - order b <= i < s + 1)%nat -> coef b' r i = c ((i - (s + 1 - order b)) * dim b + r)%nat) /\
    (forall r i, (i < s + 1 - order b \/ s + 1 <= i)%nat -> coef b' r i = coef b r i).
Proof.
  intros W LO. assert (W' := W). destruct W' as [O LE C B SO]. destruct LO as [S1 ET].
  unfold set_local_coefs. rewrite Nat.eqb_refl, ET. cbn [obind]. rewrite isub_ok by lia. cbn [obind].
  destruct (Nat.leb_spec (s + 1 - order b + order b) (ncols b)); [ | lia ].
  eexists. split; [ reflexivity | ]. cbn [order knots dim ncols bases coef].
  split; [ reflexivity | ]. split; [ reflexivity | ]. split; [ reflexivity | ]. split; [ reflexivity | ]. split; [ reflexivity | ]. split.
  - intros r i L. destruct (Nat.leb_spec (s + 1 - order b) i); [ | lia ].
    destruct (Nat.ltb_spec i (s + 1 - order b + order b)); [ reflexivity | lia ].
  - intros r i L. destruct (Nat.leb_spec (s + 1 - order b) i); cbn [andb]; [ | reflexivity ].
    destruct (Nat.ltb_spec i (s + 1 - order b + order b)); [ lia | reflexivity ].
Qed.

(** ** removeCurveSegment *)
Lemma knot_cons a l i : knot (a :: l) (S i) = knot l i.
Proof. reflexivity. Qed.

Lemma nd_tail a l : nondecreasing (a :: l) -> nondecreasing l.
Proof. intros H i j L. rewrite <- (knot_cons a l i), <- (knot_cons a l j). apply H. cbn [length]. lia. Qed.

Lemma tabulate_ext n f g v w : (forall i, (i < n)%nat -> f i = g i) -> tabulate n f = Ok v -> tabulate n g = Ok w ->
  forall i, v i = w i.
Proof.
  revert v w. induction n as [ | n IH ]; intros v w H E F; cbn [tabulate] in E, F.
  - intros i. congruence.
  - destruct (tabulate n f) as [v0 | | | ] eqn:EF; cbn [obind] in E; try discriminate.
    destruct (tabulate n g) as [w0 | | | ] eqn:EG; cbn [obind] in F; try discriminate.
    rewrite <- (H n) in F by lia. destruct (f n); cbn [obind] in E, F; try discriminate.
    assert (X := IH v0 w0 (fun i L => H i (Nat.lt_lt_succ_r _ _ L)) eq_refl eq_refl).
    assert (v = fun i => if (i =? n)%nat then a else v0 i) by congruence.
    assert (w = fun i => if (i =? n)%nat then a else w0 i) by congruence. subst v w.
    intros i. cbv beta. destruct (i =? n)%nat; [ reflexivity | apply X ].
Qed.

Lemma M_step_ext k m m' d0 d0' d1 d1' : (forall r c, m r c = m' r c) -> (forall i, d0 i = d0' i) -> (forall i, d1 i = d1' i) ->
  forall r c, M_step k m d0 d1 r c = M_step k m' d0' d1' r c.
Proof.
  intros H1 H2 H3 r c. unfold M_step. f_equal; apply bsum_ext; intros i _; rewrite ?H1, ?H2, ?H3; reflexivity.
Qed.

Lemma basis_M_translate l dt x0 s s' : (forall i, (i < length l)%nat -> knot l i = x0 + INR i * dt) ->
  forall k m m', (1 <= k <= s + 1)%nat -> (k <= s' + 1)%nat -> (s + k <= length l)%nat -> (s' + k <= length l)%nat ->
  (s + 1 < length l)%nat -> (s' + 1 < length l)%nat ->
  basis_M l k s = Ok m -> basis_M l k s' = Ok m' -> forall r c, m r c = m' r c.
Proof.
  intros EV. induction k as [ | k IH ]; intros m m' K K' L L' S1 S1' E E'; [ lia | ].
  destruct k as [ | k ].
  - cbn [basis_M] in E, E'. intros r c. congruence.
  - destruct (basis_M_succ _ _ _ _ E) as [m0 [d0 [d1 [E0 [T0 [T1 ->]]]]]].
    destruct (basis_M_succ _ _ _ _ E') as [m0' [d0' [d1' [E0' [T0' [T1' ->]]]]]].
    assert (X := IH m0 m0' ltac:(lia) ltac:(lia) ltac:(lia) ltac:(lia) S1 S1' E0 E0').
    assert (DD : forall q idx, (q = s \/ q = s') -> (idx < S k)%nat -> (q + 2 + idx - S (S k) < length l)%nat /\
              (q + 2 + idx - S (S k) + S (S k) - 1 < length l)%nat /\ (q + 1 < length l)%nat /\ (S (S k) <= q + 2 + idx)%nat) by (intros; lia).
    assert (V0 : forall q idx, (q = s \/ q = s') -> (idx < S k)%nat ->
       (do j <- isub (q + 2 + idx) (S (S k)); d_0 l (S (S k)) q j)
       = Ok (if Rle_dec (INR (S k) * dt) 0 then 0 else (INR (S k) - INR (1 + idx)) * dt / (INR (S k) * dt))).
    { intros q idx Q Li. destruct (DD q idx Q Li) as [D1 [D2 [D3 D4]]]. rewrite isub_ok by exact D4. cbn [obind].
      unfold d_0. rewrite !vat_knot by lia. cbn [obind]. rewrite !EV by lia.
      replace (q + 2 + idx - S (S k) + S (S k) - 1)%nat with (q + 2 + idx - S (S k) + S k)%nat by lia.
      rewrite plus_INR.
      replace (x0 + (INR (q + 2 + idx - S (S k)) + INR (S k)) * dt - (x0 + INR (q + 2 + idx - S (S k)) * dt)) with (INR (S k) * dt) by ring.
      unfold rleb. destruct (Rle_dec (INR (S k) * dt) 0); [ reflexivity | ]. do 2 f_equal.
      replace (INR q) with (INR (q + 2 + idx - S (S k)) + INR (S k) - INR (1 + idx)).
      - ring.
      - rewrite <- plus_INR. rewrite <- minus_INR by lia. f_equal. lia. }
    assert (V1 : forall q idx, (q = s \/ q = s') -> (idx < S k)%nat ->
       (do j <- isub (q + 2 + idx) (S (S k)); d_1 l (S (S k)) q j)
       = Ok (if Rle_dec (INR (S k) * dt) 0 then 0 else dt / (INR (S k) * dt))).
    { intros q idx Q Li. destruct (DD q idx Q Li) as [D1 [D2 [D3 D4]]]. rewrite isub_ok by exact D4. cbn [obind].
      unfold d_1. rewrite !vat_knot by lia. cbn [obind]. rewrite !EV by lia.
      replace (q + 2 + idx - S (S k) + S (S k) - 1)%nat with (q + 2 + idx - S (S k) + S k)%nat by lia.
      rewrite !plus_INR.
      replace (x0 + (INR (q + 2 + idx - S (S k)) + INR (S k)) * dt - (x0 + INR (q + 2 + idx - S (S k)) * dt)) with (INR (S k) * dt) by ring.
      unfold rleb. destruct (Rle_dec (INR (S k) * dt) 0); [ reflexivity | ]. do 2 f_equal. cbn [INR]. ring. }
    apply M_step_ext; [ exact X | | ].
    + refine (tabulate_ext _ _ _ _ _ _ T0 T0'). intros i Li. cbv beta. rewrite !V0 by (first [ exact Li | tauto ]). reflexivity.
    + refine (tabulate_ext _ _ _ _ _ _ T1 T1'). intros i Li. cbv beta. rewrite !V1 by (first [ exact Li | tauto ]). reflexivity.
Qed.

(** What a spline evaluates to after removeCurveSegment: the first basis
    matrices are used for the shifted segments. *)
Lemma remove_T_index b a kn t : wf b -> knots b = a :: kn -> (2 * order b < length (knots b))%nat ->
  knot (knots b) (order b) <= t <= hi b ->
  exists s, located b t (s + 1) /\ (order b - 1 <= s)%nat /\
    compute_T_index (remove_segment b) t = Ok (knot (knots b) (s + 2) - knot (knots b) (s + 1), s).
Proof.
  intros W EK LL I. assert (W' := W). destruct W' as [O LE C B SO].
  assert (R : remove_segment b = BSp (order b) kn (dim b) (ncols b - 1) (fun r c => coef b r (c + 1)%nat) (bases b)).
  { unfold remove_segment. rewrite EK. destruct (Nat.ltb_spec 0 (ncols b)); [ reflexivity | lia ]. }
  assert (LK : length (knots b) = S (length kn)) by (rewrite EK; reflexivity).
  assert (KN : forall i, knot kn i = knot (knots b) (i + 1)) by (intros i; rewrite EK, Nat.add_1_r; reflexivity).
  assert (ND' : nondecreasing kn) by (apply (nd_tail a); rewrite <- EK; exact SO).
  destruct (set_knots_wf (BSp (order b) [] 0 0 (fun _ _ => 0) []) kn 0 (ncols b - 1) (fun _ _ => 0)) as [b1 [_ [W1 [O1 [K1 [_ [C1 _]]]]]]];
    cbn [order knots length]; [ exact O | exact ND' | lia | lia | lia | ]. cbn [order] in O1.
  assert (T : compute_T_index (remove_segment b) t = compute_T_index b1 t).
  { rewrite R. unfold compute_T_index, t_min, t_max. cbn [order knots]. rewrite O1, K1. reflexivity. }
  assert (H1 : hi b1 = hi b). { unfold hi. rewrite K1, C1, KN. f_equal. lia. }
  assert (L1 : lo b1 = knot (knots b) (order b)). { unfold lo. rewrite K1, O1, KN. f_equal. lia. }
  assert (I1 : lo b1 <= t <= hi b1) by (rewrite H1, L1; exact I).
  assert (LB : lo b <= knot (knots b) (order b)) by (unfold lo; apply SO; lia).
  destruct (Rlt_dec (Rabs (hi b1 - t)) (/ 10000000000)) as [N | N].
  - assert (LO1 := located_end b1 t W1 (proj1 I1) N). destruct LO1 as [S1 E1].
    assert (LOb : located b t (ncols b - 1)).
    { apply located_end; [ exact W | lra | unfold near_end; rewrite <- H1; exact N ]. }
    exists (ncols b - 2)%nat. split; [ replace (ncols b - 2 + 1)%nat with (ncols b - 1)%nat by lia; exact LOb | ].
    split; [ lia | ]. rewrite T, E1, K1, !KN, C1. do 2 f_equal; [ f_equal; f_equal; lia | lia ].
  - destruct (T_index_inner b1 t W1 (proj1 I1) (proj2 I1) N) as [s [S1 [S2 E1]]].
    rewrite K1, !KN in S2. rewrite O1, C1 in S1.
    destruct (T_index_inner b t W) as [s2 [T1 [T2 E2]]]; [ lra | lra | unfold near_end; rewrite <- H1; exact N | ].
    assert (Q : s2 = (s + 1)%nat).
    { destruct (Nat.lt_trichotomy s2 (s + 1)) as [Lt | [Eq | Gt]]; [ | exact Eq | ].
      - assert (knot (knots b) (s2 + 1) <= knot (knots b) (s + 1)) by (apply SO; lia). lra.
      - assert (knot (knots b) (s + 1 + 1) <= knot (knots b) s2) by (apply SO; lia). lra. }
    subst s2. exists s. split; [ split; [ exact T1 | exact E2 ] | ]. split; [ lia | ].
    rewrite T, E1, K1, !KN. do 2 f_equal; f_equal; f_equal; lia.
Qed.

Lemma remove_eval b a kn t d : wf b -> knots b = a :: kn -> (2 * order b < length (knots b))%nat ->
  knot (knots b) (order b) <= t <= hi b -> (0 <= d)%Z ->
  (forall s, (order b - 1 <= s < ncols b)%nat -> knot (knots b) s < knot (knots b) (s + 1)) ->
  exists s m v, located b t (s + 1) /\ (order b - 1 <= s)%nat /\
    basis_M (knots b) (order b) s = Ok m /\ eval_D (remove_segment b) t d = Ok v /\
    forall r, v r = piece b m (s + 1) (Z.to_nat d) r t.
Proof.
  intros W EK LL I D P. assert (W' := W). destruct W' as [O LE C B SO].
  destruct (remove_T_index b a kn t W EK LL I) as [s [LO [S0 ET]]].
  assert (S1 := proj1 LO). assert (PS := P (s + 1)%nat S1).
  destruct (bases_nth b W (s + 1 - order b)) as [m [EN EM]]; [ lia | ].
  replace (s + 1 - order b + order b - 1)%nat with s in EM by lia.
  assert (R : remove_segment b = BSp (order b) kn (dim b) (ncols b - 1) (fun r c => coef b r (c + 1)%nat) (bases b)).
  { unfold remove_segment. rewrite EK. destruct (Nat.ltb_spec 0 (ncols b)); [ reflexivity | lia ]. }
  assert (KN : forall i, knot kn i = knot (knots b) (i + 1)) by (intros i; rewrite EK, Nat.add_1_r; reflexivity).
  assert (LK : length (knots b) = S (length kn)) by (rewrite EK; reflexivity).
  exists s, m.
  assert (WT : exists w, weights (remove_segment b) t d = Ok ((s + 1 - order b)%nat, w) /\
            forall c, w c = wgt b m (s + 1) (Z.to_nat d) t c).
  { unfold weights. destruct (Z.ltb_spec d 0); [ lia | ]. unfold compute_U_index. rewrite ET. cbn [obind].
    replace (s + 1 + 1)%nat with (s + 2)%nat in PS by lia.
    rewrite rleb_false by lra. rewrite R. cbn [knots order bases]. rewrite vat_knot by lia. cbn [obind].
    unfold compute_U. cbn [knots order]. rewrite !vat_knot by lia. cbn [obind]. rewrite isub_ok by lia. cbn [obind].
    rewrite EN. eexists. split; [ reflexivity | ]. intros c. cbv beta. unfold wgt, upar. apply bsum_ext. intros r Lr.
    rewrite !KN. replace (s + 1 + 1)%nat with (s + 2)%nat by lia. rewrite rltb_true by lra. reflexivity. }
  destruct WT as [w [EW WV]].
  unfold eval_D. rewrite EW. cbn [obind]. unfold coef_block. rewrite R. cbn [order ncols coef].
  destruct (Nat.leb_spec (s + 1 - order b + order b) (ncols b - 1)); [ | lia ]. cbn [obind].
  eexists. split; [ exact LO | ]. split; [ exact S0 | ]. split; [ exact EM | ]. split; [ reflexivity | ].
  intros r. cbv beta. unfold piece. apply bsum_ext. intros c Lc. rewrite WV. f_equal. f_equal. lia.
Qed.

(** ** addCurveSegment *)
Lemma pc_ext kn kn' s k : forall j t, (forall i, (s + 2 <= i + k)%nat -> (i + 1 <= s + k)%nat -> kn i = kn' i) ->
  pc kn s k j t = pc kn' s k j t.
Proof.
  induction k as [ | k IH ]; intros j t H; [ reflexivity | ]. destruct k as [ | k ]; [ reflexivity | ].
  rewrite !pc_succ.
  assert (E : forall i, pc kn s (S k) i t = pc kn' s (S k) i t) by (intros i; apply IH; intros; apply H; lia).
  rewrite !E. f_equal.
  - destruct (le_lt_dec j s) as [A | A]; [ | rewrite pc_support by lia; ring ].
    destruct (le_lt_dec (j + S k) s) as [Bq | Bq]; [ rewrite pc_support by lia; ring | ].
    rewrite !H by lia. reflexivity.
  - destruct (le_lt_dec (j + 1) s) as [A | A]; [ | rewrite pc_support by lia; ring ].
    destruct (le_lt_dec (j + 1 + S k) s) as [Bq | Bq]; [ rewrite pc_support by lia; ring | ].
    rewrite !H by lia. reflexivity.
Qed.

Lemma ratio_zero b : ratio 0 b = 0.
Proof. unfold ratio. destruct (Req_EM_T b 0); [ reflexivity | unfold Rdiv; ring ]. Qed.

Lemma pc_last_zero kn s k : (2 <= k)%nat -> pc kn s k s (kn s) = 0.
Proof.
  intros K. destruct k as [ | [ | k ]]; try lia. rewrite pc_succ.
  rewrite Rminus_eq_0, ratio_zero, (pc_support kn s (S k) (s + 1)) by lia. ring.
Qed.

Lemma pc_last_pos l s : nondecreasing l -> knot l s < knot l (s + 1) -> forall k, (1 <= k)%nat -> (s + k <= length l)%nat ->
  (s + 1 < length l)%nat -> 0 < pc (knot l) s k s (knot l (s + 1)).
Proof.
  intros ND P. induction k as [ | k IH ]; intros K L L1; [ lia | ]. destruct k as [ | k ].
  - cbn [pc]. rewrite Nat.eqb_refl. lra.
  - rewrite pc_succ, (pc_support (knot l) s (S k) (s + 1)) by lia.
    assert (Q := IH ltac:(lia) ltac:(lia) L1).
    assert (G : knot l (s + 1) <= knot l (s + S k)) by (apply ND; lia).
    rewrite ratio_pos by lra. rewrite Rmult_0_r, Rplus_0_r. apply Rmult_lt_0_compat; [ | exact Q ].
    apply Rdiv_lt_0_compat; lra.
Qed.

Lemma pc_prev_pos l s : nondecreasing l -> knot l s < knot l (s + 1) -> knot l (s + 1) < knot l (s + 2) ->
  forall k, (2 <= k)%nat -> (s + 1 + k <= length l)%nat -> (s + 2 < length l)%nat ->
  0 < pc (knot l) (s + 1) k s (knot l (s + 1)).
Proof.
  intros ND P P2. induction k as [ | k IH ]; intros K L L1; [ lia | ]. destruct k as [ | k ]; [ lia | ].
  rewrite pc_succ. destruct k as [ | k ].
  - cbn [pc]. rewrite Nat.eqb_refl. destruct (Nat.eqb_spec s (s + 1)); [ lia | ].
    rewrite (ratio_pos _ (knot l (s + 2) - knot l (s + 1))) by lra.
    replace ((knot l (s + 2) - knot l (s + 1)) / (knot l (s + 2) - knot l (s + 1))) with 1 by (field; lra). lra.
  - rewrite (pc_last_zero (knot l) (s + 1)) by lia.
    assert (Q := IH ltac:(lia) ltac:(lia) L1).
    assert (G : knot l (s + 1) <= knot l (s + S (S k))) by (apply ND; lia).
    rewrite ratio_pos by lra. rewrite Rmult_0_r, Rplus_0_r. apply Rmult_lt_0_compat; [ | exact Q ].
    apply Rdiv_lt_0_compat; lra.
Qed.

Lemma retool_length l n a b : length (retool l n a b) = length l.
Proof. unfold retool. rewrite map_length, seq_length. reflexivity. Qed.

Lemma retool_knot l n a b i : (i < length l)%nat ->
  knot (retool l n a b) i = if (i <? n)%nat then knot l i else a + INR (i - n) * b.
Proof. intros L. unfold retool. rewrite map_seq_knot by exact L. reflexivity. Qed.

Lemma retool_nd l C t : nondecreasing l -> (C + 1 < length l + 1)%nat -> knot l C < t ->
  nondecreasing (retool (l ++ [0]) (C + 1) t (t - knot l C)).
Proof.
  intros ND L P i j [I J]. rewrite retool_length, app_length in J. cbn [length] in J.
  rewrite !retool_knot by (rewrite app_length; cbn [length]; lia).
  assert (KA : forall q, (q < C + 1)%nat -> knot (l ++ [0]) q = knot l q) by (intros q Q; unfold knot; rewrite app_nth1 by lia; reflexivity).
  destruct (Nat.ltb_spec i (C + 1)); destruct (Nat.ltb_spec j (C + 1)); try lia.
  - rewrite !KA by lia. apply ND. lia.
  - rewrite KA by lia. assert (knot l i <= knot l C) by (apply ND; lia).
    assert (0 <= INR (j - (C + 1)) * (t - knot l C)) by (apply Rmult_le_pos; [ apply pos_INR | lra ]). lra.
  - assert (INR (i - (C + 1)) <= INR (j - (C + 1))) by (apply le_INR; lia).
    assert (INR (i - (C + 1)) * (t - knot l C) <= INR (j - (C + 1)) * (t - knot l C)) by (apply Rmult_le_compat_r; lra). lra.
Qed.

Lemma scaled_shift D w r a m : (1 <= D)%nat -> scaled_identities D w r (D * a + m)%nat = scaled_identities D (fun c => w (a + c)%nat) r m.
Proof.
  intros L. unfold scaled_identities. rewrite (Nat.mul_comm D a), Nat.add_comm, Nat.mod_add by lia.
  rewrite Nat.div_add by lia. rewrite (Nat.add_comm (m / D)). reflexivity.
Qed.

Lemma tail_row D w x a r : (r < D)%nat ->
  bsum (2 * D) (fun m => scaled_identities D w r (D * a + m)%nat * x m) = w a * x r + w (a + 1)%nat * x (D + r)%nat.
Proof.
  intros L. rewrite (bsum_ext _ _ (fun m => scaled_identities D (fun c => w (a + c)%nat) r m * x m))
    by (intros; rewrite scaled_shift by lia; reflexivity).
  rewrite scaled_identities_apply by exact L. cbn [bsum]. rewrite Nat.add_0_r.
  replace (1 * D + r)%nat with (D + r)%nat by lia. cbn [Nat.mul Nat.add]. ring.
Qed.

(** The located segment at the start of the last one. *)
Lemma located_last b t : wf b -> last_start b < hi b -> last_start b <= t <= hi b -> located b t (ncols b - 1).
Proof.
  intros W P I. assert (W' := W). destruct W' as [O LE C B SO].
  assert (LL : lo b <= last_start b) by (unfold lo, last_start; apply SO; lia).
  destruct (Rlt_dec (Rabs (hi b - t)) (/ 10000000000)) as [N | N].
  - apply located_end; [ exact W | lra | exact N ].
  - assert (t < hi b).
    { destruct (Rle_lt_or_eq_dec t (hi b) (proj2 I)) as [Q | Q]; [ exact Q | ]. subst t. exfalso. apply N.
      rewrite Rminus_eq_0, Rabs_R0. lra. }
    destruct (T_index_inner b t W) as [s [S1 [S2 E]]]; [ lra | lra | exact N | ].
    assert (Q : s = (ncols b - 1)%nat).
    { destruct (Nat.eq_dec s (ncols b - 1)) as [Eq | Ne]; [ exact Eq | ].
      assert (knot (knots b) (s + 1) <= last_start b) by (unfold last_start; apply SO; lia). lra. }
    subst s. split; [ exact S1 | exact E ].
Qed.

Section Add.
Variable solve : nat -> mat -> vec -> vec.
Hypothesis SOLVE : forall n M v,
  (forall x, (forall i, (i < n)%nat -> total n (fun j => M i j * x j) = 0) -> forall i, (i < n)%nat -> x i = 0) ->
  forall i, (i < n)%nat -> total n (fun j => M i j * solve n M v j) = v i.
Variable junk : vec.
Variable b : bspline.
Hypothesis W : wf b.
Hypothesis P : last_start b < hi b.
Variable t : R.
Hypothesis T : hi b < t.

Let C := ncols b.
Let l' := retool (knots b ++ [0]) (C + 1) t (t - hi b).

Lemma add_knot i : (i < length l')%nat -> knot l' i = if (i <? C + 1)%nat then knot (knots b) i else t + INR (i - (C + 1)) * (t - hi b).
Proof using W.
  intros L. unfold l' in *. rewrite retool_length in L. rewrite retool_knot by exact L.
  destruct (Nat.ltb_spec i (C + 1)); [ | reflexivity ]. unfold knot. rewrite app_nth1; [ reflexivity | ].
  destruct W. unfold C in *. lia.
Qed.

Lemma add_length : length l' = S (length (knots b)).
Proof using. unfold l'. rewrite retool_length, app_length. cbn [length]. lia. Qed.

Lemma add_segment_ok p1 : exists b' v, add_segment solve junk b t (dim b) p1 = Ok b' /\ eval b (hi b) = Ok v /\
  wf b' /\ order b' = order b /\ knots b' = l' /\ dim b' = dim b /\ ncols b' = (C + 1)%nat /\
  nondecreasing l' /\ hi b' = t /\ lo b' = lo b /\ last_start b' = hi b /\
  (forall r i, (i < C - 1)%nat -> coef b' r i = coef b r i) /\
  (exists v0, eval b' (hi b) = Ok v0 /\ forall r, (r < dim b)%nat -> v0 r = v r) /\
  (exists v1, eval b' t = Ok v1 /\ forall r, (r < dim b)%nat -> v1 r = p1 r) /\
  exists b0, set_knots_and_coefs b l' (dim b) (C + 1) (coef b') = Ok b0 /\ b0 = b'.
Proof using W P T SOLVE.
  assert (W' := W). destruct W' as [O LE CC B SO].
  assert (ND : nondecreasing l').
  { unfold l', hi. fold C. apply retool_nd; [ exact SO | unfold C; lia | exact T ]. }
  assert (LEN := add_length).
  assert (KHI : hi b = knot (knots b) C) by reflexivity.
  assert (KC : knot l' C = hi b).
  { rewrite add_knot by (unfold C in *; lia). destruct (Nat.ltb_spec C (C + 1)); [ reflexivity | lia ]. }
  assert (KC1 : knot l' (C + 1) = t).
  { rewrite add_knot by (unfold C in *; lia). destruct (Nat.ltb_spec (C + 1) (C + 1)); [ lia | ].
    rewrite Nat.sub_diag. cbn [INR]. ring. }
  assert (KCm : knot l' (C - 1) = last_start b).
  { rewrite add_knot by (unfold C in *; lia). destruct (Nat.ltb_spec (C - 1) (C + 1)); [ reflexivity | lia ]. }
  set (cm := fun r c => if (c <? C)%nat then coef b r c else junk r).
  destruct (set_knots_wf b l' (dim b) (C + 1) cm O ND) as [b1 [E1 [W1 [O1 [K1 [D1 [C1 F1]]]]]]]; [ lia | unfold C; lia | lia | ].
  assert (H1 : hi b1 = t) by (unfold hi; rewrite K1, C1; exact KC1).
  assert (LS1 : last_start b1 = hi b). { unfold last_start. rewrite K1, C1. replace (C + 1 - 1)%nat with C by lia. exact KC. }
  assert (LL : lo b <= last_start b) by (unfold lo, last_start; apply SO; lia).
  assert (LC0 : located b1 (hi b) C).
  { replace C with (ncols b1 - 1)%nat by (rewrite C1; lia). apply located_last; [ exact W1 | lra | lra ]. }
  assert (LC1 : located b1 t C).
  { replace C with (ncols b1 - 1)%nat by (rewrite C1; lia). apply located_last; [ exact W1 | lra | lra ]. }
  assert (PS1 : knot (knots b1) C < knot (knots b1) (C + 1)) by (rewrite K1, KC, KC1; exact T).
  destruct (weights_ok b1 (hi b) C 0 W1 LC0 PS1) as [m [EM EW0]]; [ lia | ].
  destruct (weights_ok b1 t C 0 W1 LC1 PS1) as [m' [EM' EW1]]; [ lia | ].
  assert (m' = m) by congruence. subst m'. change (Z.to_nat 0) with 0%nat in EW0, EW1.
  set (w0 := wgt b1 m C 0 (hi b)) in *. set (w1 := wgt b1 m C 0 t) in *.
  assert (WV : forall x c, (c < order b)%nat -> wgt b1 m C 0 x c = pc (knot l') C (order b) (C + 1 + c - order b) x).
  { intros x c Lc. rewrite wgt_0_pc; rewrite ?O1, ?K1, ?C1; try assumption; try (unfold C in *; lia); try (rewrite K1 in PS1; exact PS1).
    - reflexivity.
    - rewrite <- O1, <- K1. exact EM. }
  assert (A00 : 0 < w0 (order b - 2)%nat).
  { unfold w0. rewrite WV by lia. replace (C + 1 + (order b - 2) - order b)%nat with (C - 1)%nat by lia.
    replace (pc (knot l') C) with (pc (knot l') (C - 1 + 1)) by (f_equal; unfold C; lia).
    rewrite <- KC. replace (knot l' C) with (knot l' (C - 1 + 1)) by (f_equal; unfold C; lia).
    apply pc_prev_pos; [ exact ND | | | exact O | unfold C in *; lia | unfold C in *; lia ].
    - replace (C - 1 + 1)%nat with C by (unfold C; lia). rewrite KC, KCm. exact P.
    - replace (C - 1 + 1)%nat with C by (unfold C; lia). replace (C - 1 + 2)%nat with (C + 1)%nat by (unfold C; lia). rewrite KC, KC1. exact T. }
  assert (A01 : w0 (order b - 1)%nat = 0).
  { unfold w0. rewrite WV by lia. replace (C + 1 + (order b - 1) - order b)%nat with C by lia. rewrite <- KC. apply pc_last_zero. exact O. }
  assert (A11 : 0 < w1 (order b - 1)%nat).
  { unfold w1. rewrite WV by lia. replace (C + 1 + (order b - 1) - order b)%nat with C by lia. rewrite <- KC1.
    apply pc_last_pos; [ exact ND | rewrite KC, KC1; exact T | lia | unfold C in *; lia | unfold C in *; lia ]. }
  assert (LB : located b (hi b) (ncols b - 1)) by (apply located_last; [ exact W | exact P | lra ]).
  assert (PB : knot (knots b) (ncols b - 1) < knot (knots b) (ncols b - 1 + 1)).
  { replace (ncols b - 1 + 1)%nat with (ncols b) by lia. exact P. }
  destruct (eval_D_ok b (hi b) _ 0 W LB PB ltac:(lia)) as [mb [v [_ [EV _]]]].
  assert (LF : located b (last_start b) (ncols b - 1)) by (apply located_last; [ exact W | exact P | lra ]).
  set (fixed := fun q : nat => cm (q mod dim b)%nat (C + 1 - order b + q / dim b)%nat).
  set (A := tail_system (dim b) (order b) (scaled_identities (dim b) w0) (scaled_identities (dim b) w1)).
  set (rhs := tail_rhs (dim b) (order b) (scaled_identities (dim b) w0) (scaled_identities (dim b) w1) v p1 fixed).
  set (cs := solve (2 * dim b) A rhs).
  set (cf := fun r c => if (c =? C - 1)%nat then cs r else if (c =? C - 1 + 1)%nat then cs (dim b + r)%nat else cm r c).
  set (b' := BSp (order b) l' (dim b) (C + 1) cf (bases b1)).
  assert (EADD : add_segment solve junk b t (dim b) p1 = Ok b').
  { unfold add_segment. rewrite t_max_ok by exact W. cbn [obind]. rewrite rltb_true by exact T. rewrite Nat.eqb_refl.
    assert (NS : num_segments b = (C + 1 - order b)%nat) by (unfold num_segments, num_segments_of, C; lia).
    rewrite NS, isub_ok by (unfold C; lia). cbn [obind].
    assert (TI : time_interval b (C + 1 - order b - 1) = Ok (last_start b, hi b)).
    { unfold time_interval. rewrite min_knots_eq by lia. destruct (Nat.ltb_spec (length (knots b)) (2 * order b)); [ lia | ].
      rewrite NS. destruct (Nat.ltb_spec (C + 1 - order b - 1) (C + 1 - order b)); [ | unfold C in *; lia ].
      rewrite !vat_knot by (unfold C; lia). cbn [obind]. unfold last_start, hi. do 3 f_equal; unfold C; lia. }
    rewrite TI. cbn [obind]. unfold eval. rewrite EV. cbn [obind]. rewrite (proj2 LF). cbn [obind].
    replace (ncols b - 1 + 1)%nat with (ncols b) by lia. rewrite vat_knot by lia. cbn [obind].
    replace (ncols b - 1 + 2)%nat with (C + 1)%nat by (unfold C; lia).
    change (retool (knots b ++ [0]) (C + 1) t (t - knot (knots b) (ncols b))) with l'.
    change (set_knots_and_coefs b l' (dim b) (ncols b + 1) (fun r c => if (c <? ncols b)%nat then coef b r c else junk r))
      with (set_knots_and_coefs b l' (dim b) (C + 1) cm).
    rewrite E1. cbn [obind].
    assert (TI1 : time_interval b1 (C + 1 - order b) = Ok (hi b, t)).
    { unfold time_interval. rewrite K1, O1. rewrite min_knots_eq by lia. destruct (Nat.ltb_spec (length l') (2 * order b)); [ unfold C in *; lia | ].
      unfold num_segments, num_segments_of. rewrite K1, O1.
      destruct (Nat.ltb_spec (C + 1 - order b) (length l' + 1 - 2 * order b)); [ | unfold C in *; lia ].
      replace (order b + (C + 1 - order b) - 1)%nat with C by (unfold C; lia).
      replace (order b + (C + 1 - order b))%nat with (C + 1)%nat by (unfold C; lia).
      rewrite !vat_knot by (unfold C in *; lia). cbn [obind]. rewrite KC, KC1. reflexivity. }
    rewrite TI1. cbn [obind].
    assert (LV : local_coef_vector b1 (hi b) = Ok fixed).
    { unfold local_coef_vector, local_coef_matrix. rewrite (proj2 LC0). cbn [obind]. rewrite O1, isub_ok by (unfold C; lia). cbn [obind].
      unfold coef_block. rewrite O1, C1. destruct (Nat.leb_spec (C + 1 - order b + order b) (C + 1)); [ | unfold C in *; lia ].
      cbn [obind]. rewrite D1, F1. reflexivity. }
    rewrite LV. cbn [obind]. unfold Phi. rewrite EW0, EW1. cbn [obind]. rewrite C1, D1, O1, K1, F1.
    rewrite isub_ok by (unfold C; lia). cbn [obind].
    replace (C + 1 - 2)%nat with (C - 1)%nat by lia. reflexivity. }
  assert (SYS : forall r x, (r < dim b)%nat ->
     total (2 * dim b) (fun j => A r j * x j) = w0 (order b - 2)%nat * x r /\
     total (2 * dim b) (fun j => A (dim b + r)%nat j * x j) = w1 (order b - 2)%nat * x r + w1 (order b - 1)%nat * x (dim b + r)%nat).
  { intros r x Lr. split.
    - rewrite <- bsum_total. rewrite (bsum_ext _ _ (fun q => scaled_identities (dim b) w0 r (dim b * (order b - 2) + q)%nat * x q)).
      + rewrite tail_row by exact Lr. replace (order b - 2 + 1)%nat with (order b - 1)%nat by lia. rewrite A01. ring.
      + intros q _. unfold A, tail_system. destruct (Nat.ltb_spec r (dim b)); [ reflexivity | lia ].
    - rewrite <- bsum_total. rewrite (bsum_ext _ _ (fun q => scaled_identities (dim b) w1 r (dim b * (order b - 2) + q)%nat * x q)).
      + rewrite tail_row by exact Lr. replace (order b - 2 + 1)%nat with (order b - 1)%nat by lia. reflexivity.
      + intros q _. unfold A, tail_system. destruct (Nat.ltb_spec (dim b + r) (dim b)); [ lia | ].
        replace (dim b + r - dim b)%nat with r by lia. reflexivity. }
  assert (SOL : forall i, (i < 2 * dim b)%nat -> total (2 * dim b) (fun j => A i j * cs j) = rhs i).
  { apply SOLVE. intros x X.
    assert (X0 : forall r, (r < dim b)%nat -> x r = 0).
    { intros r Lr. assert (Q := X r ltac:(lia)). rewrite (proj1 (SYS r x Lr)) in Q. apply Rmult_integral in Q. destruct Q; [ lra | assumption ]. }
    assert (X1 : forall r, (r < dim b)%nat -> x (dim b + r)%nat = 0).
    { intros r Lr. assert (Q := X (dim b + r)%nat ltac:(lia)). rewrite (proj2 (SYS r x Lr)), X0 in Q by exact Lr.
      assert (Q2 : w1 (order b - 1)%nat * x (dim b + r)%nat = 0) by lra. apply Rmult_integral in Q2. destruct Q2; [ lra | assumption ]. }
    intros i Li. destruct (le_lt_dec (dim b) i) as [G | G]; [ | apply X0; exact G ].
    replace i with (dim b + (i - dim b))%nat by lia. apply X1. lia. }
  assert (FX : forall w r, (r < dim b)%nat ->
     bsum (dim b * (order b - 2)) (fun q => scaled_identities (dim b) w r q * fixed q)
     = bsum (order b - 2) (fun c => w c * cm r (C + 1 - order b + c)%nat)).
  { intros w r Lr. rewrite (Nat.mul_comm (dim b)), scaled_identities_apply by exact Lr. apply bsum_ext. intros c _.
    unfold fixed. destruct (div_mod_block (dim b) r c Lr) as [-> ->]. reflexivity. }
  assert (SP : forall f, bsum (order b) f = bsum (order b - 2) f + f (order b - 2)%nat + f (order b - 1)%nat).
  { intros f. replace (bsum (order b)) with (bsum (S (S (order b - 2)))) by (f_equal; lia). cbn [bsum].
    replace (S (order b - 2)) with (order b - 1)%nat by lia. reflexivity. }
  assert (EVB : forall x w, weights b1 x 0 = Ok ((C + 1 - order b)%nat, w) ->
     eval b' x = Ok (fun r => bsum (order b) (fun c => cf r (C + 1 - order b + c)%nat * w c))).
  { intros x w EX. unfold eval, eval_D.
    assert (EWB : weights b' x 0 = weights b1 x 0).
    { unfold weights, compute_U_index, compute_T_index, compute_U, t_min, t_max, b'. cbn [order knots bases]. rewrite O1, K1. reflexivity. }
    rewrite EWB, EX. cbn [obind]. unfold coef_block, b'. cbn [order ncols coef].
    destruct (Nat.leb_spec (C + 1 - order b + order b) (C + 1)); [ | unfold C in *; lia ]. reflexivity. }
  rewrite O1 in EW0, EW1.
  assert (CF : forall r w, bsum (order b) (fun c => cf r (C + 1 - order b + c)%nat * w c)
     = bsum (order b - 2) (fun c => w c * cm r (C + 1 - order b + c)%nat) + (w (order b - 2)%nat * cs r + w (order b - 1)%nat * cs (dim b + r)%nat)).
  { intros r w. rewrite SP.
    replace (C + 1 - order b + (order b - 2))%nat with (C - 1)%nat by (unfold C; lia).
    replace (C + 1 - order b + (order b - 1))%nat with (C - 1 + 1)%nat by (unfold C; lia).
    assert (Z1 : cf r (C - 1)%nat = cs r) by (unfold cf; rewrite Nat.eqb_refl; reflexivity).
    assert (Z2 : cf r (C - 1 + 1)%nat = cs (dim b + r)%nat).
    { unfold cf. destruct (Nat.eqb_spec (C - 1 + 1) (C - 1)); [ lia | ]. rewrite Nat.eqb_refl. reflexivity. }
    rewrite Z1, Z2. rewrite (bsum_ext (order b - 2) (fun c => cf r (C + 1 - order b + c)%nat * w c) (fun c => w c * cm r (C + 1 - order b + c)%nat)); [ ring | ].
    intros c Lc. unfold cf. destruct (Nat.eqb_spec (C + 1 - order b + c) (C - 1)); [ unfold C in *; lia | ].
    destruct (Nat.eqb_spec (C + 1 - order b + c) (C - 1 + 1)); [ unfold C in *; lia | ring ]. }
  assert (SET : set_knots_and_coefs b l' (dim b) (C + 1) cf = Ok b').
  { unfold set_knots_and_coefs in E1 |- *. destruct (verify_knots (order b) (knots b) l'); cbn [obind] in E1 |- *; try discriminate.
    destruct (num_coefs_required (order b) (num_segments_of (order b) (length l')) =? C + 1)%nat; [ | discriminate ].
    destruct (init_bases l' (order b)) as [bs | | | ]; cbn [obind] in E1 |- *; try discriminate. unfold b'. do 2 f_equal.
    assert (Q : Ok b1 = Ok (BSp (order b) l' (dim b) (C + 1) cm bs)) by congruence.
    assert (Q2 : b1 = BSp (order b) l' (dim b) (C + 1) cm bs) by congruence. rewrite Q2. reflexivity. }
  exists b', v. split; [ exact EADD | ]. split; [ exact EV | ].
  destruct (set_knots_wf b l' (dim b) (C + 1) cf O ND) as [b2 [E2 [W2 [O2 [K2 [D2 [C2 F2]]]]]]]; [ lia | unfold C; lia | lia | ].
  assert (b2 = b') by congruence. subst b2.
  split; [ exact W2 | ]. split; [ exact O2 | ]. split; [ exact K2 | ]. split; [ exact D2 | ]. split; [ exact C2 | ]. split; [ exact ND | ].
  split; [ unfold hi; rewrite K2, C2; exact KC1 | ].
  split. { unfold lo. rewrite K2, O2. rewrite add_knot by lia. destruct (Nat.ltb_spec (order b - 1) (C + 1)); [ reflexivity | unfold C in *; lia ]. }
  split. { unfold last_start. rewrite K2, C2. replace (C + 1 - 1)%nat with C by lia. exact KC. }
  split. { intros r i Li. unfold b'. cbn [coef]. unfold cf. destruct (Nat.eqb_spec i (C - 1)); [ lia | ].
    destruct (Nat.eqb_spec i (C - 1 + 1)); [ lia | ]. unfold cm. destruct (Nat.ltb_spec i C); [ reflexivity | lia ]. }
  split. { eexists. split; [ apply (EVB (hi b) w0 EW0) | ]. intros r Lr. cbv beta. rewrite CF.
    assert (Q := SOL r ltac:(lia)). rewrite (proj1 (SYS r cs Lr)) in Q. unfold rhs, tail_rhs in Q.
    destruct (Nat.ltb_spec r (dim b)); [ | lia ]. rewrite FX in Q by exact Lr. rewrite A01. lra. }
  split. { eexists. split; [ apply (EVB t w1 EW1) | ]. intros r Lr. cbv beta. rewrite CF.
    assert (Q := SOL (dim b + r)%nat ltac:(lia)). rewrite (proj2 (SYS r cs Lr)) in Q. unfold rhs, tail_rhs in Q.
    destruct (Nat.ltb_spec (dim b + r) (dim b)); [ lia | ]. replace (dim b + r - dim b)%nat with r in Q by lia. rewrite FX in Q by exact Lr. lra. }
  exists b'. split; [ exact SET | reflexivity ].
Qed.
End Add.
