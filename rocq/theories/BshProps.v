(** * C68: building a constant curve, changing local coefficients, extending
    and shortening a curve *)
From Coquelicot Require Import Coquelicot.
From Coq Require Import Reals List Arith ZArith Bool Lia Lra.
From Verif Require Import Base BsplModel BsplSpec BsplProofs BsplProps BsdProofs BsdProps BsqProofs BsfProofs BsfProps BshModel BshProofs.
Import ListNotations.
Local Open Scope R_scope.

Lemma evenly_step k nseg t0 t1 l i : evenly k nseg t0 t1 l -> (i + 1 < length l)%nat ->
  knot l (i + 1) - knot l i = (t1 - t0) / INR nseg.
Proof. intros [L E] H. rewrite !E by lia. rewrite plus_INR. cbn [INR]. ring. Qed.

Lemma evenly_nd k nseg t0 t1 l : (1 <= nseg)%nat -> t0 < t1 -> evenly k nseg t0 t1 l -> nondecreasing l.
Proof.
  intros N T [L E] i j H. rewrite !E by lia.
  assert (Q : 0 < (t1 - t0) / INR nseg) by (apply Rdiv_lt_0_compat; [ lra | apply lt_0_INR; lia ]).
  assert (INR i <= INR j) by (apply le_INR; lia). apply Rplus_le_compat_l. apply Rmult_le_compat_r; lra.
Qed.

Lemma evenly_ends k nseg t0 t1 l : (2 <= k)%nat -> (1 <= nseg)%nat -> evenly k nseg t0 t1 l ->
  first_time k l = t0 /\ last_time k l = t1.
Proof.
  intros K N [L E]. assert (NZ : INR nseg <> 0) by (apply not_0_INR; lia). unfold first_time, last_time. split.
  - rewrite E by lia. rewrite Rminus_eq_0. ring.
  - rewrite E by lia. replace (length l - k)%nat with (nseg + (k - 1))%nat by lia. rewrite plus_INR. field. exact NZ.
Qed.

(** A constant curve: the interval is the requested one, the value is the
    constant everywhere on it, and all derivatives vanish. *)
Theorem C68_constant : forall b0 k tmin tmax nseg D c, order b0 = k -> (2 <= k)%nat ->
  (length (knots b0) <= nseg + 2 * k - 1)%nat -> tmin < tmax -> (1 <= nseg)%nat -> (1 <= D)%nat ->
  exists b l C, init_constant b0 tmin tmax nseg D c = Ok b /\ evenly k nseg tmin tmax l /\ built k l D C (fun r _ => c r) b /\
    t_min b = Ok tmin /\ t_max b = Ok tmax /\
    forall t d, tmin <= t <= tmax -> (0 <= d)%Z ->
      exists v, eval_D b t d = Ok v /\ forall r, v r = if (d =? 0)%Z then c r else 0.
Proof.
  intros b0 k tmin tmax nseg D c O K LK T N DD.
  set (K0 := num_knots_required k nseg).
  set (dt := (tmax - tmin) / INR nseg).
  set (l := lin_spaced K0 (tmin - (INR k - 1) * dt) (tmax + (INR k - 1) * dt)).
  assert (NP : 0 < INR nseg) by (apply lt_0_INR; lia).
  assert (KE : K0 = (nseg + 2 * k - 1)%nat) by (unfold K0, num_knots_required, num_coefs_required; lia).
  assert (LL : length l = (nseg + 2 * k - 1)%nat) by (unfold l; rewrite lin_spaced_length; exact KE).
  assert (KP : 2 <= INR k) by (change 2 with (INR 2); apply le_INR; exact K).
  assert (EV : evenly k nseg tmin tmax l).
  { split; [ exact LL | ]. intros i Li. unfold l. rewrite lin_spaced_knot by (rewrite KE, <- LL; exact Li).
    assert (KI : INR K0 - 1 = INR nseg + 2 * (INR k - 1)).
    { rewrite KE. replace (nseg + 2 * k - 1)%nat with (nseg + 2 * (k - 1) + 1)%nat by lia.
      rewrite !plus_INR, mult_INR, minus_INR by lia. cbn [INR]. ring. }
    rewrite KI, minus_INR by lia. cbn [INR]. unfold dt. field. split; lra. }
  assert (ND := evenly_nd k nseg tmin tmax l N T EV).
  destruct (set_knots_wf b0 l D (nseg + k - 1) (fun r _ => c r)) as [b [E [W [O1 [K1 [D1 [C1 F1]]]]]]];
    [ lia | exact ND | lia | lia | lia | ].
  exists b, l, (nseg + k - 1)%nat.
  assert (BU : built k l D (nseg + k - 1) (fun r _ => c r) b).
  { exists b0. split; [ exact O | ]. split; [ exact K | ]. split; [ lia | exact E ]. }
  destruct (evenly_ends k nseg tmin tmax l K N EV) as [FT LT].
  destruct (built_times _ _ _ _ _ _ BU ND) as [T1 [T2 T3]].
  split. { unfold init_constant. rewrite rltb_true by exact T. destruct (Nat.leb_spec 1 nseg); [ | lia ].
    destruct (Nat.leb_spec 1 D); [ | lia ]. cbn [andb]. rewrite O. fold K0. fold dt. fold l.
    replace (num_coefs_required k nseg) with (nseg + k - 1)%nat by (unfold num_coefs_required; lia). exact E. }
  split; [ exact EV | ]. split; [ exact BU | ].
  split; [ rewrite t_min_ok by exact W; rewrite T1, FT; reflexivity | ].
  split; [ rewrite t_max_ok by exact W; rewrite T2, LT; reflexivity | ].
  intros t d I DP. apply constant_eval; [ exact W | rewrite T1, T2, FT, LT; exact I | | intros; rewrite F1; reflexivity | exact DP ].
  intros s S1. rewrite K1. rewrite O1 in S1. assert (Q := evenly_step k nseg tmin tmax l s EV ltac:(lia)).
  assert (0 < (tmax - tmin) / INR nseg) by (apply Rdiv_lt_0_compat; lra). lra.
Qed.
Print Assumptions C68_constant.

(** It refuses an empty interval, zero segments and an empty constant. *)
Theorem C68_constant_rejects : forall b0 tmin tmax nseg D c,
  tmax <= tmin \/ nseg = 0%nat \/ D = 0%nat -> init_constant b0 tmin tmax nseg D c = Throw.
Proof.
  intros b0 tmin tmax nseg D c H. unfold init_constant.
  destruct H as [H | [-> | ->]].
  - rewrite rltb_false by exact H. reflexivity.
  - change (1 <=? 0)%nat with false. rewrite andb_false_r. reflexivity.
  - change (1 <=? 0)%nat with false. rewrite andb_false_r. reflexivity.
Qed.
Print Assumptions C68_constant_rejects.

(** setLocalCoefficientVector: the vector is read back by
    localCoefficientVector, exactly the coefficient columns reported by
    localVvCoefficientVectorIndices change, and a vector of another length or
    a time outside the interval is refused. *)
Theorem C68_local_coefs : forall k l D C c b t x, built k l D C c b -> nondecreasing l -> (1 <= D)%nat ->
  first_time k l <= t <= last_time k l ->
  exists b' c' idx y, set_local_coefs b t (k * D) x = Ok b' /\ built k l D C c' b' /\
    local_coef_vector b' t = Ok y /\ (forall m, (m < k * D)%nat -> y m = x m) /\
    local_vv_indices b t = Ok idx /\ (forall r j, ~ In j idx -> c' r j = c r j).
Proof.
  intros k l D C c b t x H ND DP I.
  destruct (built_wf _ _ _ _ _ _ H ND) as [W [O [K [DD [NC [CO [K2 [CC LL]]]]]]]].
  destruct (built_times _ _ _ _ _ _ H ND) as [T1 [T2 T3]].
  destruct (located_exists b t W) as [s LO]; [ rewrite T1, T2; exact I | ].
  destruct (set_local_ok b t s x W LO) as [b' [E [O' [K' [D' [C' [B' [IN OUT]]]]]]]].
  exists b', (coef b'), (seq (s + 1 - k) k). assert (S1 := proj1 LO).
  assert (TI : compute_T_index b' t = compute_T_index b t).
  { unfold compute_T_index, t_min, t_max. rewrite K', O'. reflexivity. }
  eexists. split; [ rewrite O, DD in E; exact E | ]. split.
  - destruct H as [b0 [Q1 [Q2 [Q3 Q4]]]]. exists b0. split; [ exact Q1 | ]. split; [ exact Q2 | ]. split; [ exact Q3 | ].
    unfold set_knots_and_coefs in Q4 |- *. destruct (verify_knots (order b0) (knots b0) l); cbn [obind] in Q4 |- *; try discriminate.
    destruct (num_coefs_required (order b0) (num_segments_of (order b0) (length l)) =? C)%nat; [ | discriminate ].
    destruct (init_bases l (order b0)) as [bs | | | ]; cbn [obind] in Q4 |- *; try discriminate.
    assert (QB : b = BSp (order b0) l D C c bs) by congruence.
    destruct b' as [o1 k1 d1 n1 c1 bs1]. cbn [order knots dim ncols bases coef] in *. rewrite QB in O', K', D', C', B'.
    cbn [order knots dim ncols bases] in O', K', D', C', B'. rewrite O', K', D', C', B'. reflexivity.
  - split.
    { unfold local_coef_vector, local_coef_matrix. rewrite TI, (proj2 LO). cbn [obind]. rewrite O', isub_ok by lia. cbn [obind].
      unfold coef_block. rewrite O', C'. destruct (Nat.leb_spec (s + 1 - order b + order b) (ncols b)); [ | lia ]. cbn [obind]. reflexivity. }
    split.
    { intros m Lm. cbv beta. rewrite D', DD. destruct (mod_div_split D k m DP Lm) as [M1 [M2 M3]].
      rewrite IN by lia. rewrite DD. f_equal. replace (s + 1 - order b + m / D - (s + 1 - order b))%nat with (m / D)%nat by lia. exact M2. }
    split.
    { unfold local_vv_indices. rewrite (proj2 LO). cbn [obind]. rewrite isub_ok by lia. cbn [obind]. rewrite O. reflexivity. }
    intros r j NJ. rewrite <- CO. apply OUT.
    destruct (le_lt_dec (s + 1) j); [ right; assumption | ]. left. destruct (le_lt_dec (s + 1 - order b) j); [ | assumption ].
    exfalso. apply NJ. apply in_seq. lia.
Qed.
Print Assumptions C68_local_coefs.

Theorem C68_local_rejects : forall k l D C c b t n x, built k l D C c b -> nondecreasing l ->
  n <> (k * D)%nat \/ t < first_time k l \/ last_time k l + / 10000000000 <= t -> set_local_coefs b t n x = Throw.
Proof.
  intros k l D C c b t n x H ND Q.
  destruct (built_wf _ _ _ _ _ _ H ND) as [W [O [K [DD _]]]].
  destruct (built_times _ _ _ _ _ _ H ND) as [T1 [T2 T3]].
  unfold set_local_coefs. rewrite O, DD. destruct (Nat.eqb_spec n (k * D)) as [E | E]; [ | reflexivity ].
  destruct Q as [Q | Q]; [ contradiction | ]. rewrite T_index_throw; [ reflexivity | exact W | ].
  rewrite T1, T2. destruct Q as [Q | Q]; [ left; exact Q | right ]. split; [ lra | ].
  unfold near_end. rewrite T2. rewrite Rabs_left; lra.
Qed.
Print Assumptions C68_local_rejects.

(** Extending the curve: the new curve ends at the new time with the new
    point, keeps the old end point, all earlier knots and all coefficients
    before the last. *)
Theorem C68_add : forall solve junk k l D C c b t p1, solver_ok solve ->
  built k l D C c b -> nondecreasing l -> last_knot k l < last_time k l -> last_time k l < t ->
  exists b' l' c' v v0 v1, add_segment solve junk b t D p1 = Ok b' /\
    built k l' D (C + 1) c' b' /\ nondecreasing l' /\ length l' = S (length l) /\
    (forall i, (i <= C)%nat -> knot l' i = knot l i) /\ (forall r i, (i + 1 < C)%nat -> c' r i = c r i) /\
    first_time k l' = first_time k l /\ last_time k l' = t /\ last_knot k l' = last_time k l /\
    eval b (last_time k l) = Ok v /\ eval b' (last_time k l) = Ok v0 /\ eval b' t = Ok v1 /\
    forall r, (r < D)%nat -> v0 r = v r /\ v1 r = p1 r.
Proof.
  intros solve junk k l D C c b t p1 SO H ND P T.
  destruct (built_wf _ _ _ _ _ _ H ND) as [W [O [K [DD [NC [CO [K2 [CC LL]]]]]]]].
  destruct (built_times _ _ _ _ _ _ H ND) as [T1 [T2 T3]].
  destruct (add_segment_ok solve SO junk b W ltac:(rewrite T2, T3; exact P) t ltac:(rewrite T2; exact T) p1)
    as [b' [v [E [EV [W' [O' [K' [D' [C' [ND' [HI [LO [LS [KEEP [[v0 [E0 V0]] [[v1 [E1 V1]] [b2 [ES EQ]]]]]]]]]]]]]]]]]].
  subst b2. rewrite DD in *. rewrite NC in C', KEEP.
  remember (retool (knots b ++ [0]) (ncols b + 1) t (t - hi b)) as l' eqn:EL.
  assert (LEN : length l' = S (length l)). { rewrite EL, retool_length, app_length, K. cbn [length]. lia. }
  assert (BU : built k l' D (C + 1) (coef b') b').
  { exists b. split; [ exact O | ]. split; [ exact K2 | ]. split; [ rewrite K; lia | ]. rewrite NC in ES. exact ES. }
  destruct (built_times _ _ _ _ _ _ BU ND') as [U1 [U2 U3]].
  exists b', l', (coef b'), v, v0, v1.
  split; [ exact E | ]. split; [ exact BU | ]. split; [ exact ND' | ]. split; [ exact LEN | ].
  split. { intros i Li. rewrite EL. rewrite add_knot; [ | exact W | rewrite <- EL, LEN; lia ].
    rewrite NC. destruct (Nat.ltb_spec i (C + 1)); [ rewrite K; reflexivity | lia ]. }
  split. { intros r i Li. rewrite KEEP by lia. rewrite CO. reflexivity. }
  split; [ rewrite <- U1, LO; exact T1 | ]. split; [ rewrite <- U2; exact HI | ].
  split; [ rewrite <- U3, LS; exact T2 | ].
  rewrite T2 in *. split; [ exact EV | ]. split; [ exact E0 | ]. split; [ exact E1 | ].
  intros r Lr. split; [ apply V0 | apply V1 ]; exact Lr.
Qed.
Print Assumptions C68_add.

(** A time not past the end, or a point of another dimension, is refused. *)
Theorem C68_add_rejects : forall solve junk k l D C c b t n p1, built k l D C c b -> nondecreasing l ->
  t <= last_time k l \/ n <> D -> add_segment solve junk b t n p1 = Throw.
Proof.
  intros solve junk k l D C c b t n p1 H ND Q.
  destruct (built_wf _ _ _ _ _ _ H ND) as [W [O [K [DD _]]]].
  destruct (built_times _ _ _ _ _ _ H ND) as [T1 [T2 T3]].
  unfold add_segment. rewrite t_max_ok by exact W. cbn [obind]. rewrite T2, DD. destruct Q as [Q | Q].
  - rewrite rltb_false by exact Q. reflexivity.
  - destruct (rltb (last_time k l) t); [ | reflexivity ]. destruct (Nat.eqb_spec n D); [ contradiction | reflexivity ].
Qed.
Print Assumptions C68_add_rejects.

(** The value in the segment of the time, in terms of the basis pieces. *)
Lemma eval_pc k l D C c b t s : built k l D C c b -> nondecreasing l -> (k - 1 <= s < C)%nat ->
  located b t s -> knot l s < knot l (s + 1) ->
  exists v, eval b t = Ok v /\ forall r, v r = bsum k (fun i => c r (s + 1 - k + i)%nat * pc (knot l) s k (s + 1 + i - k) t).
Proof.
  intros H ND S1 LO P. destruct (built_wf _ _ _ _ _ _ H ND) as [W [O [K [DD [NC [CO _]]]]]].
  destruct (eval_D_ok b t s 0 W LO) as [m [v [EM [EV V]]]]; [ rewrite K; exact P | lia | ].
  exists v. split; [ exact EV | ]. intros r. rewrite V. change (Z.to_nat 0) with 0%nat. unfold piece. rewrite O, CO.
  apply bsum_ext. intros i Li. f_equal. rewrite wgt_0_pc; [ rewrite K, O; reflexivity | exact W | rewrite O, NC; exact S1 | rewrite K; exact P | exact EM | lia ].
Qed.

Lemma located_in k l D C c b t s : built k l D C c b -> nondecreasing l -> clear_of_end k l t ->
  first_time k l <= t < last_time k l -> (k - 1 <= s < C)%nat -> knot l s <= t < knot l (s + 1) -> located b t s.
Proof.
  intros H ND Q I S1 S2. destruct (built_wf _ _ _ _ _ _ H ND) as [W [O [K [DD [NC [CO [K2 [CC LL]]]]]]]].
  destruct (built_times _ _ _ _ _ _ H ND) as [T1 [T2 T3]].
  destruct (located_seg b t W) as [s' [LO S2']]; [ rewrite T1, T2; exact I | unfold resolved; rewrite T2, T3; exact Q | ].
  rewrite K in S2'. assert (S1' := proj1 LO). rewrite O, NC in S1'.
  assert (s' = s); [ | subst; exact LO ].
  destruct (Nat.lt_trichotomy s' s) as [Lt | [Eq | Gt]]; [ | exact Eq | ].
  - assert (knot l (s' + 1) <= knot l s) by (apply ND; lia). lra.
  - assert (knot l (s + 1) <= knot l s') by (apply ND; lia). lra.
Qed.

(** The curve does not change before the knot that is k - 2 knots before the
    old end; for order 2 this is the whole old curve. *)
Theorem C68_add_keeps : forall solve junk k l D C c b t p1 t', solver_ok solve ->
  built k l D C c b -> nondecreasing l -> long_end k l -> last_time k l + / 10000000000 <= t ->
  first_time k l <= t' < knot l (C + 2 - k) ->
  exists b' v v', add_segment solve junk b t D p1 = Ok b' /\ eval b t' = Ok v /\ eval b' t' = Ok v' /\
    forall r, (r < D)%nat -> v' r = v r.
Proof.
  intros solve junk k l D C c b t p1 t' SO H ND LE T I. unfold long_end in LE.
  destruct (C68_add solve junk k l D C c b t p1 SO H ND ltac:(lra) ltac:(lra))
    as [b' [l' [c' [v [v0 [v1 [E [BU [ND' [LEN [KK [CK [F1 [F2 [F3 [EV [EV0 [EV1 VV]]]]]]]]]]]]]]]]]].
  destruct (built_wf _ _ _ _ _ _ H ND) as [W [O [K [DD [NC [CO [K2 [CC LL]]]]]]]].
  destruct (built_times _ _ _ _ _ _ H ND) as [T1 [T2 T3]].
  assert (LT : last_time k l = knot l C) by (unfold last_time; f_equal; lia).
  assert (KC : knot l (C + 2 - k) <= knot l C) by (apply ND; lia).
  destruct (located_seg b t' W) as [s [LO S2]].
  { rewrite T1, T2, LT. lra. }
  { unfold resolved. rewrite T2, T3. destruct (Rle_dec (last_knot k l) t'); [ right; assumption | left; lra ]. }
  assert (S1 := proj1 LO). rewrite K in S2. rewrite O, NC in S1.
  assert (SM : (s + k <= C + 1)%nat).
  { destruct (le_lt_dec (s + k) (C + 1)) as [A | A]; [ exact A | ].
    assert (knot l (C + 2 - k) <= knot l s) by (apply ND; lia). lra. }
  assert (LO' : located b' t' s).
  { apply (located_in k l' D (C + 1) c' b' t' s BU ND').
    - unfold clear_of_end. rewrite F2, F3. left. lra.
    - rewrite F1, F2. lra.
    - lia.
    - rewrite !KK by lia. exact S2. }
  destruct (eval_pc k l D C c b t' s H ND S1 LO ltac:(lra)) as [w [EW WV]].
  destruct (eval_pc k l' D (C + 1) c' b' t' s BU ND' ltac:(lia) LO' ltac:(rewrite !KK by lia; lra)) as [w' [EW' WV']].
  exists b', w, w'. split; [ exact E | ]. split; [ exact EW | ]. split; [ exact EW' | ]. intros r Lr. rewrite WV, WV'.
  assert (CE : forall i, (i <= s)%nat -> c' r i = c r i).
  { intros i Li. destruct (le_lt_dec C (i + 1)) as [A | A]; [ | apply CK; exact A ].
    assert (k = 2%nat) by lia. assert (i = (C - 1)%nat) by lia. clear O. subst i k. clear WV WV' EW EW' w w'.
    assert (PE : knot l (C - 1) < knot l (C - 1 + 1)).
    { replace (C - 1 + 1)%nat with C by lia. rewrite <- LT. unfold last_knot in LE. replace (length l - 2 - 1)%nat with (C - 1)%nat in LE by lia. lra. }
    assert (PE' : knot l' C < knot l' (C + 1)).
    { rewrite KK by lia. rewrite <- LT. replace (knot l' (C + 1)) with (last_time 2 l'); [ rewrite F2; lra | ].
      unfold last_time. f_equal. rewrite LEN. lia. }
    assert (QC : last_start b < hi b) by (rewrite T2, T3; lra).
    assert (A1 := located_last b (last_time 2 l) W QC ltac:(rewrite T2, T3; lra)). rewrite NC in A1.
    destruct (built_wf _ _ _ _ _ _ BU ND') as [W' [_ [_ [_ [NC' _]]]]].
    destruct (built_times _ _ _ _ _ _ BU ND') as [U1 [U2 U3]].
    assert (A2 := located_last b' (last_time 2 l) W' ltac:(rewrite U2, U3, F2, F3; lra) ltac:(rewrite U2, U3, F2, F3; lra)).
    rewrite NC' in A2. replace (C + 1 - 1)%nat with C in A2 by lia.
    destruct (eval_pc 2 l D C c b _ (C - 1) H ND ltac:(lia) A1 PE) as [w [EW WV]].
    destruct (eval_pc 2 l' D (C + 1) c' b' _ C BU ND' ltac:(lia) A2 PE') as [w' [EW' WV']].
    assert (w = v) by congruence. assert (w' = v0) by congruence. subst w w'.
    destruct (VV r Lr) as [VE _]. rewrite WV, WV' in VE.
    replace (C - 1 + 1)%nat with C in * by lia. cbn [bsum] in VE.
    replace (C + 1 - 2 + 0)%nat with (C - 1)%nat in VE by lia. replace (C + 1 - 2 + 1)%nat with C in VE by lia.
    replace (C + 1 + 0 - 2)%nat with (C - 1)%nat in VE by lia. replace (C + 1 + 1 - 2)%nat with C in VE by lia.
    replace (C - 2 + 1)%nat with (C - 1)%nat in VE by lia. replace (C + 0 - 2)%nat with (C - 2)%nat in VE by lia.
    replace (C + 1 - 2)%nat with (C - 1)%nat in VE by lia.
    assert (X1 : pc (knot l') C 2 C (last_time 2 l) = 0).
    { rewrite LT, <- (KK C) by lia. apply pc_last_zero. lia. }
    assert (X2 : pc (knot l') C 2 (C - 1) (last_time 2 l) = 1).
    { rewrite LT, <- (KK C) by lia. rewrite pc_succ. cbn [pc].
      destruct (Nat.eqb_spec (C - 1) C); [ lia | ]. destruct (Nat.eqb_spec (C - 1 + 1) C); [ | lia ].
      replace (C - 1 + 2)%nat with (C + 1)%nat by lia. replace (C - 1 + 1)%nat with C by lia. rewrite (ratio_pos _ (knot l' (C + 1) - knot l' C)) by lra. field. lra. }
    assert (X3 : pc (knot l) (C - 1) 2 (C - 2) (last_time 2 l) = 0).
    { rewrite LT. rewrite pc_succ. cbn [pc].
      destruct (Nat.eqb_spec (C - 2) (C - 1)); [ lia | ].
      replace (C - 2 + 2)%nat with C by lia. rewrite Rminus_eq_0, ratio_zero. ring. }
    assert (X4 : pc (knot l) (C - 1) 2 (C - 1) (last_time 2 l) = 1).
    { rewrite LT. rewrite pc_succ. cbn [pc].
      rewrite Nat.eqb_refl. destruct (Nat.eqb_spec (C - 1 + 1) (C - 1)); [ lia | ].
      replace (C - 1 + 1)%nat with C by lia. rewrite ratio_pos by lra. field. lra. }
    rewrite X1, X2, X3, X4 in VE. lra. }
  apply bsum_ext. intros i Li. rewrite CE by lia. f_equal. apply pc_ext. intros q Q1 Q2. apply KK. lia.
Qed.
Print Assumptions C68_add_keeps.

Ltac pcval := repeat rewrite pc_succ; cbn [pc Nat.eqb Nat.add]; unfold knot; cbn [nth];
  repeat rewrite ratio_pos by lra; lra.

(** Later than that the curve does change, against the comment that only the
    end is affected: a cubic with equally spaced knots, extended by a segment
    twice as long, takes another value in the middle of its last segment. *)
Definition knots8 : list R := [0; 1; 2; 3; 4; 5; 6; 7].
Definition bump : nat -> nat -> R := fun _ j => if (j =? 2)%nat then 1 else 0.
Lemma knots8_nd : nondecreasing knots8.
Proof.
  intros i j [A B]. cbn [length knots8] in B. unfold knot, knots8.
  do 8 (destruct i as [ | i ]; [ do 8 (destruct j as [ | j ]; [ try lia; cbn [nth]; lra | ]); lia | ]). lia.
Qed.

Theorem C68_add_changes_refuted : exists l c b t t', built 4 l 1 4 c b /\ nondecreasing l /\ long_end 4 l /\
  first_time 4 l < t' < last_time 4 l /\ last_time 4 l + 1 <= t /\
  forall solve junk p1, solver_ok solve -> exists b' v v', add_segment solve junk b t 1 p1 = Ok b' /\
    eval b t' = Ok v /\ eval b' t' = Ok v' /\ v 0%nat <> v' 0%nat.
Proof.
  assert (ND := knots8_nd).
  destruct (set_knots_wf new4 knots8 1 4 bump) as [b [E _]]; [ cbn; lia | exact ND | cbn; lia | cbn; lia | cbn; lia | ].
  assert (BU : built 4 knots8 1 4 bump b).
  { exists new4. split; [ reflexivity | ]. split; [ lia | ]. split; [ cbn; lia | exact E ]. }
  assert (FT : first_time 4 knots8 = 3) by reflexivity. assert (LT : last_time 4 knots8 = 4) by reflexivity.
  assert (LK : last_knot 4 knots8 = 3) by reflexivity.
  exists knots8, bump, b, 6, (7 / 2). split; [ exact BU | ]. split; [ exact ND | ].
  split; [ unfold long_end; rewrite LT, LK; lra | ]. split; [ rewrite FT, LT; lra | ]. split; [ rewrite LT; lra | ].
  intros solve junk p1 SO.
  destruct (C68_add solve junk 4 knots8 1 4 bump b 6 p1 SO BU ND ltac:(rewrite LT, LK; lra) ltac:(rewrite LT; lra))
    as [b' [l' [c' [v [v0 [v1 [EA [BU' [ND' [LEN [KK [CK [F1 [F2 [F3 [EV [EV0 [EV1 VV]]]]]]]]]]]]]]]]]].
  destruct (built_wf _ _ _ _ _ _ BU ND) as [W [O [K [DD [NC [CO [K2 [CC LL]]]]]]]].
  destruct (built_wf _ _ _ _ _ _ BU' ND') as [W' [O' [K' [DD' [NC' [CO' _]]]]]].
  destruct (built_times _ _ _ _ _ _ BU ND) as [T1 [T2 T3]]. destruct (built_times _ _ _ _ _ _ BU' ND') as [U1 [U2 U3]].
  assert (KL : l' = [0; 1; 2; 3; 4; 6; 8; 10; 12]).
  { assert (X := add_segment_ok solve SO junk b W ltac:(rewrite T2, T3, LT, LK; lra) 6 ltac:(rewrite T2, LT; lra) p1).
    destruct X as [b2 [v2 [EA2 [_ [_ [_ [KX _]]]]]]]. rewrite DD in EA2.
    assert (b2 = b') by congruence. subst b2. rewrite K' in KX. rewrite KX, K, NC, T2, LT. unfold retool, knots8.
    cbn [app length seq map Nat.add Nat.ltb Nat.leb nth Nat.sub INR].
    repeat (apply (f_equal2 cons); [ ring | ]). reflexivity. }
  assert (L1 : located b (7 / 2) 3).
  { apply (located_in 4 knots8 1 4 bump b (7 / 2) 3 BU ND).
    - unfold clear_of_end. rewrite LK. right. lra.
    - rewrite FT, LT. lra.
    - lia.
    - unfold knot, knots8. cbn [nth Nat.add]. lra. }
  assert (L2 : located b' (7 / 2) 3).
  { apply (located_in 4 l' 1 5 c' b' (7 / 2) 3 BU' ND').
    - unfold clear_of_end. rewrite F2. left. lra.
    - rewrite F1, F2, FT. lra.
    - lia.
    - rewrite KL. unfold knot. cbn [nth Nat.add]. lra. }
  assert (L3 := located_last b 4 W ltac:(rewrite T2, T3, LT, LK; lra) ltac:(rewrite T2, T3, LT, LK; lra)). rewrite NC in L3. cbn [Nat.sub] in L3.
  assert (L4 := located_last b' 4 W' ltac:(rewrite U2, U3, F2, F3, LT; lra) ltac:(rewrite U2, U3, F2, F3, LT; lra)). rewrite NC' in L4. cbn [Nat.sub Nat.add] in L4.
  destruct (eval_pc 4 knots8 1 4 bump b _ 3 BU ND ltac:(lia) L1) as [x1 [X1 Y1]]; [ unfold knot, knots8; cbn [nth Nat.add]; lra | ].
  destruct (eval_pc 4 l' 1 5 c' b' _ 3 BU' ND' ltac:(lia) L2) as [x2 [X2 Y2]]; [ rewrite KL; unfold knot; cbn [nth Nat.add]; lra | ].
  destruct (eval_pc 4 knots8 1 4 bump b _ 3 BU ND ltac:(lia) L3) as [x3 [X3 Y3]]; [ unfold knot, knots8; cbn [nth Nat.add]; lra | ].
  destruct (eval_pc 4 l' 1 5 c' b' _ 4 BU' ND' ltac:(lia) L4) as [x4 [X4 Y4]]; [ rewrite KL; unfold knot; cbn [nth Nat.add]; lra | ].
  rewrite LT in EV, EV0. assert (x3 = v) by congruence. assert (x4 = v0) by congruence. subst x3 x4.
  destruct (VV 0%nat ltac:(lia)) as [VE _]. rewrite Y3, Y4 in VE. clear VV Y3 Y4.
  exists b', x1, x2. split; [ exact EA | ]. split; [ exact X1 | ]. split; [ exact X2 | ]. rewrite Y1, Y2. clear Y1 Y2.
  assert (C0 := CK 0%nat 0%nat ltac:(lia)). assert (C1 := CK 0%nat 1%nat ltac:(lia)). assert (C2 := CK 0%nat 2%nat ltac:(lia)).
  unfold bump in C0, C1, C2. cbn [Nat.eqb] in C0, C1, C2.
  cbn [bsum Nat.add Nat.sub] in VE |- *. rewrite KL in *. rewrite C0, C1, C2. rewrite C1, C2 in VE. unfold bump in VE |- *. cbn [Nat.eqb] in VE |- *.
  assert (Z1 : pc (knot knots8) 3 4 2 (7 / 2) = 23 / 48) by (unfold knots8; pcval).
  assert (Z2 : pc (knot knots8) 3 4 2 4 = 2 / 3) by (unfold knots8; pcval).
  assert (Z3 : pc (knot [0; 1; 2; 3; 4; 6; 8; 10; 12]) 4 4 2 4 = 3 / 5) by pcval.
  assert (Z4 : pc (knot [0; 1; 2; 3; 4; 6; 8; 10; 12]) 4 4 3 4 = 1 / 15) by pcval.
  assert (Z5 : pc (knot [0; 1; 2; 3; 4; 6; 8; 10; 12]) 4 4 4 4 = 0) by pcval.
  assert (Z6 : pc (knot [0; 1; 2; 3; 4; 6; 8; 10; 12]) 3 4 2 (7 / 2) = 119 / 320) by pcval.
  assert (Z7 : pc (knot [0; 1; 2; 3; 4; 6; 8; 10; 12]) 3 4 3 (7 / 2) = 1 / 120) by pcval.
  rewrite Z2, Z3, Z4, Z5 in VE. rewrite Z1, Z6, Z7. lra.
Qed.
Print Assumptions C68_add_changes_refuted.

(** Removing the first segment of a curve with evenly spaced knots leaves the
    rest of the curve, with all its derivatives, as it was. *)
Theorem C68_remove_even : forall k l D C c b nseg t0 t1, built k l D C c b -> evenly k nseg t0 t1 l -> t0 < t1 -> (2 <= nseg)%nat ->
  let b' := remove_segment b in let dt := (t1 - t0) / INR nseg in
  knots b' = tl l /\ ncols b' = (C - 1)%nat /\ t_min b' = Ok (t0 + dt) /\ t_max b' = Ok t1 /\
  forall t d, t0 + dt <= t <= t1 -> (0 <= d)%Z ->
    exists v v', eval_D b t d = Ok v /\ eval_D b' t d = Ok v' /\ forall r, v' r = v r.
Proof.
  intros k l D C c b nseg t0 t1 H EV T N. cbv zeta.
  assert (ND := evenly_nd k nseg t0 t1 l ltac:(lia) T EV).
  destruct (built_wf _ _ _ _ _ _ H ND) as [W [O [K [DD [NC [CO [K2 [CC LL]]]]]]]].
  destruct (built_times _ _ _ _ _ _ H ND) as [T1 [T2 T3]].
  destruct (evenly_ends k nseg t0 t1 l K2 ltac:(lia) EV) as [FT LT].
  assert (QP : 0 < (t1 - t0) / INR nseg) by (apply Rdiv_lt_0_compat; [ lra | apply lt_0_INR; lia ]).
  assert (LEN : length l = (nseg + 2 * k - 1)%nat) by exact (proj1 EV).
  assert (KK : knot l k = t0 + (t1 - t0) / INR nseg).
  { assert (X := evenly_step k nseg t0 t1 l (k - 1) EV ltac:(lia)). replace (k - 1 + 1)%nat with k in X by lia.
    unfold first_time in FT. lra. }
  destruct l as [ | a kn ] eqn:EL; [ cbn [length] in LL; lia | ]. rewrite <- EL in *.
  assert (RM : remove_segment b = BSp k kn D (C - 1) (fun r i => c r (i + 1)%nat) (bases b)).
  { unfold remove_segment. rewrite K, EL, NC, O, DD, CO. destruct (Nat.ltb_spec 0 C); [ reflexivity | lia ]. }
  assert (LKN : length l = S (length kn)) by (rewrite EL; reflexivity).
  assert (KN : forall i, knot kn i = knot l (i + 1)) by (intros i; rewrite EL, Nat.add_1_r; reflexivity).
  split; [ rewrite RM; cbn [knots]; rewrite EL; reflexivity | ]. split; [ rewrite RM; reflexivity | ].
  split. { rewrite RM. unfold t_min. cbn [knots order]. rewrite min_knots_eq by lia.
    destruct (Nat.ltb_spec (length kn) (2 * k)); [ lia | ]. rewrite vat_knot by lia. rewrite KN, <- KK. do 2 f_equal. lia. }
  split. { rewrite RM. unfold t_max. cbn [knots order]. rewrite min_knots_eq by lia.
    destruct (Nat.ltb_spec (length kn) (2 * k)); [ lia | ]. rewrite vat_knot by lia. rewrite KN, <- LT. unfold last_time. do 2 f_equal. lia. }
  intros t d I DP.
  assert (PS : forall s, (order b - 1 <= s < ncols b)%nat -> knot (knots b) s < knot (knots b) (s + 1)).
  { intros s S1. rewrite K. rewrite O, NC in S1. assert (X := evenly_step k nseg t0 t1 l s EV ltac:(lia)). lra. }
  destruct (remove_eval b a kn t d W ltac:(rewrite K; exact EL) ltac:(rewrite O, K; lia) ltac:(rewrite O, K, KK, T2, LT; exact I) DP PS)
    as [s [m [v' [LO [S0 [EM [EV' VV']]]]]]].
  assert (S1 := proj1 LO). destruct (eval_D_ok b t (s + 1) d W LO (PS _ S1) DP) as [m2 [v [EM2 [EVV VV]]]].
  exists v, v'. split; [ exact EVV | ]. split; [ exact EV' | ]. intros r. rewrite VV, VV'.
  rewrite O, NC in *. rewrite K in *.
  assert (ME : forall i j, m i j = m2 i j).
  { apply (basis_M_translate l ((t1 - t0) / INR nseg) (t0 - INR (k - 1) * ((t1 - t0) / INR nseg)) s (s + 1)) with (k := k); try lia; try assumption.
    intros i Li. rewrite (proj2 EV) by exact Li. ring. }
  unfold piece, wgt. apply bsum_ext. intros i _. f_equal. apply bsum_ext. intros j _. rewrite ME. reflexivity.
Qed.
Print Assumptions C68_remove_even.

(** With other knots the values change: the basis matrices are not moved with
    the knots. *)
Definition knots7 : list R := [0; 1; 2; 3; 5; 7; 8].
Definition second_one : nat -> nat -> R := fun _ j => if (j =? 1)%nat then 1 else 0.
Lemma knots7_nd : nondecreasing knots7.
Proof.
  intros i j [A B]. cbn [length knots7] in B. unfold knot, knots7.
  do 7 (destruct i as [ | i ]; [ do 7 (destruct j as [ | j ]; [ try lia; cbn [nth]; lra | ]); lia | ]). lia.
Qed.

Theorem C68_remove_refuted : exists l c b t v v', built 3 l 1 4 c b /\ increasing l /\
  knot l 3 <= t <= last_time 3 l /\ t_min (remove_segment b) = Ok (knot l 3) /\
  eval b t = Ok v /\ eval (remove_segment b) t = Ok v' /\ v 0%nat <> v' 0%nat.
Proof.
  assert (ND := knots7_nd).
  destruct (set_knots_wf (BSp 3 [] 0 0 (fun _ _ => 0) []) knots7 1 4 second_one) as [b [E _]]; [ cbn; lia | exact ND | cbn; lia | cbn; lia | cbn; lia | ].
  assert (BU : built 3 knots7 1 4 second_one b).
  { exists (BSp 3 [] 0 0 (fun _ _ => 0) []). split; [ reflexivity | ]. split; [ lia | ]. split; [ cbn; lia | exact E ]. }
  destruct (built_wf _ _ _ _ _ _ BU ND) as [W [O [K [DD [NC [CO [K2 [CC LL]]]]]]]].
  destruct (built_times _ _ _ _ _ _ BU ND) as [T1 [T2 T3]].
  assert (FT : first_time 3 knots7 = 2) by reflexivity. assert (LT : last_time 3 knots7 = 5) by reflexivity.
  assert (LK : last_knot 3 knots7 = 3) by reflexivity.
  assert (LO : located b 3 3).
  { apply (located_in 3 knots7 1 4 second_one b 3 3 BU ND).
    - unfold clear_of_end. rewrite LK. right. lra.
    - rewrite FT, LT. lra.
    - lia.
    - unfold knot, knots7. cbn [nth Nat.add]. lra. }
  destruct (eval_pc 3 knots7 1 4 second_one b 3 3 BU ND ltac:(lia) LO) as [v [EV VV]]; [ unfold knot, knots7; cbn [nth Nat.add]; lra | ].
  destruct (remove_eval b 0 [1; 2; 3; 5; 7; 8] 3 0 W ltac:(rewrite K; reflexivity)) as [s [m [v' [LO' [S0 [EM [EV' VV']]]]]]].
  - rewrite O, K. cbn; lia.
  - rewrite O, K, T2, LT. unfold knot, knots7. cbn [nth]. lra.
  - lia.
  - intros s S1. rewrite O, NC in S1. rewrite K. assert (s = 2 \/ s = 3)%nat as [-> | ->] by lia; unfold knot, knots7; cbn [nth Nat.add]; lra.
  - assert (s + 1 = 3)%nat by (apply (located_unique b 3); assumption). assert (s = 2%nat) by lia. subst s.
    exists knots7, second_one, b, 3, v, v'. split; [ exact BU | ]. split.
    { intros i j [A B]. cbn [length knots7] in B. unfold knot, knots7.
      do 7 (destruct i as [ | i ]; [ do 7 (destruct j as [ | j ]; [ try lia; cbn [nth]; lra | ]); lia | ]). lia. }
    split; [ rewrite LT; unfold knot, knots7; cbn [nth]; lra | ]. split.
    { unfold remove_segment. rewrite K, NC, O. reflexivity. }
    split; [ exact EV | ]. split; [ exact EV' | ]. rewrite VV, VV'. change (Z.to_nat 0) with 0%nat.
    assert (BR : forall q, (q < 3)%nat -> wgt b m 3 0 3 q = pc (knot knots7) 2 3 q 2).
    { intros q Lq. rewrite wgt_0, O. unfold upar. rewrite K. rewrite O, K in EM.
      assert (X := basis_row knots7 2 2 ND ltac:(cbn; lia) ltac:(unfold knot, knots7; cbn [nth Nat.add]; lra) 3 m ltac:(lia) ltac:(cbn; lia) EM q Lq).
      replace (2 + 1 + q - 3)%nat with q in X by lia. rewrite <- X. f_equal. unfold knot, knots7. cbn [nth Nat.add]. field. }
    unfold piece. rewrite O, CO. cbn [Nat.add Nat.sub].
    cbn [bsum Nat.add Nat.sub]. rewrite !BR by lia. unfold second_one. cbn [Nat.eqb].
    assert (Z1 : pc (knot knots7) 3 3 1 3 = 2 / 3) by (unfold knots7; pcval).
    assert (Z2 : pc (knot knots7) 2 3 0 2 = 1 / 2) by (unfold knots7; pcval).
    rewrite Z1, Z2. lra.
Qed.
Print Assumptions C68_remove_refuted.

(** The hypotheses hold for the spline of the counterexample and one of the
    constant splines. *)
Example C68_ex : exists b l C, init_constant new4 0 2 4 1 (fun _ => 7) = Ok b /\ built 4 l 1 C (fun _ _ => 7) b /\ evenly 4 4 0 2 l /\
  exists v, eval b 1 = Ok v /\ v 0%nat = 7.
Proof.
  destruct (C68_constant new4 4 0 2 4 1 (fun _ => 7)) as [b [l [C [E [EV [BU [_ [_ H]]]]]]]];
    [ reflexivity | lia | cbn; lia | lra | lia | lia | ].
  exists b, l, C. split; [ exact E | ]. split; [ exact BU | ]. split; [ exact EV | ].
  destruct (H 1 0%Z ltac:(lra) ltac:(lia)) as [v [E1 V]]. exists v. split; [ exact E1 | ]. rewrite V. reflexivity.
Qed.
