(** * C64: evaluation of B-spline curves

    [built k l D C c b]: [b] is the spline left by setKnotsAndCoefficients of
    knots [l] and a D x C coefficient matrix [c] on a spline of order [k] that
    did not have more knots before (in particular on a new one). *)
From Coq Require Import Reals List Arith ZArith Bool Lia Lra.
From Verif Require Import Base BsplModel BsplSpec BsplProofs.
Import ListNotations.
Local Open Scope R_scope.

Definition built (k : nat) (l : list R) (D C : nat) (c : nat -> nat -> R) (b : bspline) : Prop :=
  exists b0, order b0 = k /\ (2 <= k)%nat /\ (length (knots b0) <= length l)%nat /\
    set_knots_and_coefs b0 l D C c = Ok b.

(** The first and last time of the curve, and the last knot before its end. *)
Definition first_time (k : nat) (l : list R) : R := knot l (k - 1).
Definition last_time (k : nat) (l : list R) : R := knot l (length l - k).
Definition last_knot (k : nat) (l : list R) : R := knot l (length l - k - 1).
(** computeTIndex moves times within 1e-10 of the end to the end. *)
Definition clear_of_end (k : nat) (l : list R) (t : R) : Prop :=
  t <= last_time k l - / 10000000000 \/ last_knot k l <= t.

Lemma built_wf k l D C c b : built k l D C c b -> nondecreasing l ->
  wf b /\ order b = k /\ knots b = l /\ dim b = D /\ ncols b = C /\ coef b = c /\
  (2 <= k)%nat /\ (C + k = length l)%nat /\ (2 * k <= length l)%nat.
Proof.
  intros [b0 [O [K [OLD E]]]] ND.
  assert (LEN : (2 * k <= length l)%nat).
  { unfold set_knots_and_coefs, verify_knots in E. rewrite O in E. rewrite min_knots_eq in E by lia.
    destruct (Nat.ltb_spec (length l) (2 * k)); [ discriminate | exact H ]. }
  assert (CC : (C + k = length l)%nat).
  { unfold set_knots_and_coefs in E. destruct (verify_knots _ _ _); cbn [obind] in E; try discriminate.
    rewrite O in E.
    destruct (Nat.eqb_spec (num_coefs_required k (num_segments_of k (length l))) C) as [F | F]; [ | discriminate ].
    unfold num_coefs_required, num_segments_of in F. lia. }
  rewrite <- O in LEN, CC, K.
  destruct (set_knots_wf b0 l D C c K ND LEN CC OLD) as [b' [E' [W [A1 [A2 [A3 [A4 A5]]]]]]].
  assert (b' = b) by congruence. subst b'.
  split; [ exact W | ]. split; [ congruence | ]. split; [ exact A2 | ]. split; [ exact A3 | ]. split; [ exact A4 | ].
  split; [ exact A5 | ]. split; [ lia | ]. split; lia.
Qed.

Lemma built_times k l D C c b : built k l D C c b -> nondecreasing l ->
  lo b = first_time k l /\ hi b = last_time k l /\ last_start b = last_knot k l.
Proof.
  intros H ND. destruct (built_wf _ _ _ _ _ _ H ND) as [W [O [K [_ [NC [_ [_ [CC LL]]]]]]]].
  unfold lo, hi, last_start, first_time, last_time, last_knot. rewrite O, K, NC.
  replace (length l - k)%nat with C by lia. split; [ reflexivity | ]. split; reflexivity.
Qed.

(** A nondecreasing knot sequence of sufficient length with the matching number
    of coefficients is accepted and stored unchanged; too few knots, or a
    number of coefficients other than knots minus order, are refused. *)
Theorem C64_set_knots : forall b0 l D C c, (2 <= order b0)%nat -> (length (knots b0) <= length l)%nat -> nondecreasing l ->
  ((2 * order b0 <= length l)%nat -> (C + order b0 = length l)%nat ->
     exists b, set_knots_and_coefs b0 l D C c = Ok b /\ order b = order b0 /\ knots b = l /\
       dim b = D /\ ncols b = C /\ coef b = c) /\
  ((length l < 2 * order b0)%nat -> set_knots_and_coefs b0 l D C c = Throw) /\
  ((2 * order b0 <= length l)%nat -> (C + order b0 <> length l)%nat -> set_knots_and_coefs b0 l D C c = Throw).
Proof.
  intros b0 l D C c O OLD ND. split; [ | split ].
  - intros L CC. destruct (set_knots_wf b0 l D C c O ND L CC OLD) as [b [E [_ H]]]. exists b. split; [ exact E | exact H ].
  - intros L. unfold set_knots_and_coefs, verify_knots. rewrite min_knots_eq by lia.
    destruct (Nat.ltb_spec (length l) (2 * order b0)); [ reflexivity | lia ].
  - intros L N. unfold set_knots_and_coefs, verify_knots. rewrite min_knots_eq by lia.
    destruct (Nat.ltb_spec (length l) (2 * order b0)); [ lia | ].
    rewrite verify_loop_ok by (first [ exact ND | lia ]). cbn [obind].
    destruct (Nat.eqb_spec (num_coefs_required (order b0) (num_segments_of (order b0) (length l))) C) as [E | E]; [ | reflexivity ].
    exfalso. apply N. unfold num_coefs_required, num_segments_of in E. lia.
Qed.
Print Assumptions C64_set_knots.

(** The value of the curve is the sum of all coefficients times the Cox - de
    Boor basis functions. *)
Theorem C64_value : forall k l D C c b t, built k l D C c b -> nondecreasing l ->
  first_time k l <= t < last_time k l -> clear_of_end k l t ->
  exists v, eval b t = Ok v /\ forall r, v r = curve false (knot l) k C (c r) t.
Proof.
  intros k l D C c b t H ND I Q.
  destruct (built_wf _ _ _ _ _ _ H ND) as [W [O [K [_ [NC [CO _]]]]]].
  destruct (built_times _ _ _ _ _ _ H ND) as [T1 [T2 T3]].
  destruct (located_seg b t W) as [s [LO S1]]; [ rewrite T1, T2; exact I | unfold resolved; rewrite T2, T3; exact Q | ].
  destruct (eval_D_ok b t s 0 W LO) as [m [v [EM [EV V]]]]; [ lra | lia | ].
  exists v. split; [ exact EV | ]. intros r. rewrite V. change (Z.to_nat 0) with 0%nat. destruct LO as [LO _].
  rewrite (piece_curve false b m s r t W LO EM S1). rewrite O, K, NC, CO. reflexivity.
Qed.
Print Assumptions C64_value.

(** At the end of the interval it is the value from the left. *)
Theorem C64_value_at_end : forall k l D C c b, built k l D C c b -> nondecreasing l ->
  last_knot k l < last_time k l ->
  exists v, eval b (last_time k l) = Ok v /\ forall r, v r = curve true (knot l) k C (c r) (last_time k l).
Proof.
  intros k l D C c b H ND P.
  destruct (built_wf _ _ _ _ _ _ H ND) as [W [O [K [_ [NC [CO [K2 [CC LL]]]]]]]].
  destruct (built_times _ _ _ _ _ _ H ND) as [T1 [T2 T3]].
  assert (L : lo b <= hi b) by (apply W; destruct W; lia).
  assert (N : near_end b (hi b)) by (unfold near_end; rewrite Rminus_eq_0, Rabs_R0; lra).
  assert (LO := located_end b (hi b) W L N).
  assert (S1 : knot (knots b) (ncols b - 1) < knot (knots b) (ncols b - 1 + 1)).
  { replace (ncols b - 1 + 1)%nat with (ncols b) by (destruct W; lia).
    fold (hi b) (last_start b). rewrite T2, T3. exact P. }
  destruct (eval_D_ok b (hi b) _ 0 W LO S1) as [m [v [EM [EV V]]]]; [ lia | ].
  exists v. rewrite <- T2. split; [ exact EV | ]. intros r. rewrite V. change (Z.to_nat 0) with 0%nat. destruct LO as [LO _].
  rewrite (piece_curve true b m _ r (hi b) W LO EM). { rewrite O, K, NC, CO. reflexivity. }
  cbn [in_seg]. split.
  - replace (ncols b - 1 + 1)%nat with (ncols b) in S1 by (destruct W; lia). exact S1.
  - replace (ncols b - 1 + 1)%nat with (ncols b) by (destruct W; lia). unfold hi. lra.
Qed.
Print Assumptions C64_value_at_end.

(** The curve stays in the convex hull of its coefficients, coordinate by
    coordinate; in particular equal coefficients give a constant curve. *)
Theorem C64_hull : forall k l D C c b t r a z, built k l D C c b -> nondecreasing l ->
  first_time k l <= t <= last_time k l -> clear_of_end k l t -> last_knot k l < last_time k l ->
  (forall j, (j < C)%nat -> a <= c r j <= z) ->
  exists v, eval b t = Ok v /\ a <= v r <= z.
Proof.
  intros k l D C c b t r a z H ND I Q P F.
  destruct (built_wf _ _ _ _ _ _ H ND) as [W [O [K [_ [NC [CO [K2 [CC LL]]]]]]]].
  destruct (built_times _ _ _ _ _ _ H ND) as [T1 [T2 T3]].
  destruct (located_closed b t W) as [s [LO [S1 [S2 _]]]];
    [ rewrite T1, T2; exact I | unfold resolved; rewrite T2, T3; exact Q | rewrite T2, T3; exact P | ].
  destruct (eval_D_ok b t s 0 W LO S1) as [m [v [EM [EV V]]]]; [ lia | ].
  exists v. split; [ exact EV | ]. rewrite V. change (Z.to_nat 0) with 0%nat. destruct LO as [LO _]. unfold piece.
  apply (weighted_between (order b) (wgt b m s 0 t)).
  - intros i Li. apply wgt_nonneg; assumption.
  - apply wgt_sum; assumption.
  - intros i Li. rewrite CO. apply F. lia.
Qed.
Print Assumptions C64_hull.

(** Only the coefficients reported by localVvCoefficientVectorIndices matter. *)
Theorem C64_local : forall k l D C c c' b b' t d idx v v', built k l D C c b -> built k l D C c' b' -> nondecreasing l ->
  first_time k l <= t <= last_time k l -> clear_of_end k l t -> last_knot k l < last_time k l ->
  local_vv_indices b t = Ok idx -> (forall r j, In j idx -> c' r j = c r j) ->
  eval_D b t d = Ok v -> eval_D b' t d = Ok v' ->
  length idx = k /\ (forall j, In j idx -> (j < C)%nat) /\ forall r, v r = v' r.
Proof.
  intros k l D C c c' b b' t d idx v v' H H' ND I Q P EI EQ E E'.
  destruct (built_wf _ _ _ _ _ _ H ND) as [W [O [K [_ [NC [CO [K2 [CC LL]]]]]]]].
  destruct (built_wf _ _ _ _ _ _ H' ND) as [W' [O' [K' [_ [NC' [CO' _]]]]]].
  destruct (built_times _ _ _ _ _ _ H ND) as [T1 [T2 T3]].
  destruct (located_closed b t W) as [s [LO [S1 [S2 _]]]];
    [ rewrite T1, T2; exact I | unfold resolved; rewrite T2, T3; exact Q | rewrite T2, T3; exact P | ].
  assert (EX : idx = seq (s + 1 - k) k).
  { unfold local_vv_indices in EI. assert (LO' := LO). destruct LO' as [LS LE]. rewrite LE in EI. cbn [obind] in EI.
    rewrite isub_ok in EI by lia. cbn [obind] in EI. rewrite O in EI. unfold index_range in EI. congruence. }
  subst idx. split; [ apply seq_length | ]. destruct LO as [LS LE]. split.
  - intros j J. apply in_seq in J. lia.
  - assert (A1 : lo b <= t <= hi b) by (rewrite T1, T2; exact I).
    assert (A2 : resolved b t) by (unfold resolved; rewrite T2, T3; exact Q).
    assert (A3 : last_start b < hi b) by (rewrite T2, T3; exact P).
    assert (A4 : bases b' = bases b).
    { destruct W as [_ _ _ B _]. destruct W' as [_ _ _ B' _]. rewrite O, K in B. rewrite O', K' in B'. congruence. }
    assert (A5 : order b' = order b) by congruence. assert (A6 : knots b' = knots b) by congruence.
    assert (A7 : ncols b' = ncols b) by congruence.
    apply (eval_local b b' t W W' A1 A2 A3 A5 A6 A4 A7 s (conj LS LE)) with (d := d); [ | exact E | exact E' ].
    intros r j J. rewrite CO, CO'. apply EQ. apply in_seq. lia.
Qed.
Print Assumptions C64_local.

(** Times before the curve, or 1e-10 or more after it, raise an exception. *)
Theorem C64_range : forall k l D C c b t d, built k l D C c b -> nondecreasing l -> (0 <= d)%Z ->
  t < first_time k l \/ last_time k l + / 10000000000 <= t -> eval_D b t d = Throw.
Proof.
  intros k l D C c b t d H ND PD I.
  destruct (built_wf _ _ _ _ _ _ H ND) as [W _].
  destruct (built_times _ _ _ _ _ _ H ND) as [T1 [T2 _]].
  unfold eval_D, weights. destruct (Z.ltb_spec d 0); [ lia | ]. unfold compute_U_index.
  rewrite T_index_throw; [ reflexivity | exact W | ]. rewrite T1. unfold near_end. rewrite T2.
  destruct I as [I | I]; [ left; exact I | right ].
  split; [ lra | ]. rewrite Rabs_left by lra. lra.
Qed.
Print Assumptions C64_range.

(** The local basis vector holds the basis functions of the local coefficients;
    the cumulative one holds their tail sums, starting with one. *)
Theorem C64_local_basis : forall k l D C c b t, built k l D C c b -> nondecreasing l ->
  first_time k l <= t < last_time k l -> clear_of_end k l t ->
  exists si v w, segment_index b t = Ok si /\ local_Bi b t = Ok v /\ local_cumulative_Bi b t = Ok w /\
    (si + k <= C)%nat /\
    (forall i, (i < k)%nat -> v i = cox false (knot l) k (si + i) t /\ 0 <= v i) /\
    total k v = 1 /\
    (forall i, (i < k)%nat -> w i = total (k - i) (fun j => v (i + j)%nat)).
Proof.
  intros k l D C c b t H ND I Q.
  destruct (built_wf _ _ _ _ _ _ H ND) as [W [O [K [_ [NC [CO [K2 [CC LL]]]]]]]].
  destruct (built_times _ _ _ _ _ _ H ND) as [T1 [T2 T3]].
  destruct (located_seg b t W) as [s [LO S1]]; [ rewrite T1, T2; exact I | unfold resolved; rewrite T2, T3; exact Q | ].
  assert (P : knot (knots b) s < knot (knots b) (s + 1)) by lra.
  destruct (local_Bi_ok b t s W LO P) as [m [v [EM [EB [ES V]]]]]. destruct LO as [LS LE].
  rewrite O in ES, V.
  assert (SUM : total k v = 1).
  { rewrite <- bsum_total, (bsum_ext _ _ _ V). rewrite <- O. apply wgt_sum; assumption. }
  exists (s + 1 - k)%nat, v.
  exists (fun i => if (i =? 0)%nat then 1 else if (i <? k)%nat then v i + sum_down v (i + 1) (k - (i + 1)) else 0).
  split; [ exact ES | ]. split; [ exact EB | ]. split.
  { unfold local_cumulative_Bi. rewrite EB, O. reflexivity. }
  split; [ lia | ]. split.
  { intros i Hi. rewrite V by exact Hi. split.
    - rewrite wgt_0_pc by (first [ assumption | lia ]). rewrite O, K.
      replace (s + 1 + i - k)%nat with (s + 1 - k + i)%nat by lia. symmetry.
      rewrite K in S1. apply (cox_local false l s k); [ exact ND | lia | lia | exact S1 ].
    - apply wgt_nonneg; first [ assumption | lia | lra ]. }
  split; [ exact SUM | ].
  intros i Hi. destruct (Nat.eqb_spec i 0) as [-> | N].
  - rewrite Nat.sub_0_r. symmetry. exact SUM.
  - destruct (Nat.ltb_spec i k); [ | lia ]. rewrite sum_down_tail, <- (bsum_total (k - i)).
    replace (k - i)%nat with (S (k - (i + 1))) by lia. rewrite bsum_first, Nat.add_0_r. f_equal.
    apply bsum_ext. intros j _. f_equal. lia.
Qed.
Print Assumptions C64_local_basis.

(** ** Concrete splines *)
Lemma nd_list (l : list R) : (forall i, (S i < length l)%nat -> knot l i <= knot l (S i)) -> nondecreasing l.
Proof.
  intros H i j [A B]. induction A as [ | j A IH ]; [ lra | ].
  apply Rle_trans with (knot l j); [ apply IH; lia | apply H; exact B ].
Qed.

Definition new2 : bspline := BSp 2 [] 0 0 (fun _ _ => 0) [].
Definition knots5 : list R := [0; 1; 2; 3; 4].
Definition ramp : nat -> nat -> R := fun _ j => INR j.

Lemma knots5_nd : nondecreasing knots5.
Proof.
  apply nd_list. intros i Hi. cbn [length knots5] in Hi.
  do 4 (destruct i as [ | i ]; [ unfold knot, knots5; cbn [nth]; lra | ]). lia.
Qed.

Example C64_ex_new : make_bspline 2 = Ok new2 /\ make_bspline 1 = Throw.
Proof. split; reflexivity. Qed.

Example C64_ex_built : exists b, built 2 knots5 1 3 ramp b /\ first_time 2 knots5 = 1 /\ last_time 2 knots5 = 3 /\
  last_knot 2 knots5 < last_time 2 knots5 /\ clear_of_end 2 knots5 (3 / 2).
Proof.
  destruct (C64_set_knots new2 knots5 1 3 ramp) as [H _];
    [ cbn [order new2]; lia | cbn [knots new2 length]; lia | exact knots5_nd | ].
  destruct H as [b [E _]]; [ cbn; lia | cbn; lia | ]. exists b. split.
  - exists new2. split; [ reflexivity | ]. split; [ lia | ]. split; [ cbn; lia | exact E ].
  - unfold clear_of_end, first_time, last_time, last_knot, knot, knots5. cbn [nth length Nat.sub].
    split; [ reflexivity | ]. split; [ reflexivity | ]. split; [ lra | ]. left. lra.
Qed.

Example C64_ex_value : forall b, built 2 knots5 1 3 ramp b -> exists v, eval b (3 / 2) = Ok v /\ v 0%nat = 1 / 2.
Proof.
  intros b H. destruct (C64_value 2 knots5 1 3 ramp b (3 / 2) H knots5_nd) as [v [E V]].
  - unfold first_time, last_time, knot, knots5. cbn [nth length Nat.sub]. lra.
  - unfold clear_of_end, last_time, last_knot, knot, knots5. cbn [nth length Nat.sub]. left. lra.
  - exists v. split; [ exact E | ]. rewrite V. unfold curve, ramp, knots5, knot.
    cbn [total cox nth Nat.add INR]. unfold ratio, indicator.
    repeat match goal with
    | |- context [Req_EM_T ?a ?b] => destruct (Req_EM_T a b); try lra
    | |- context [Rle_dec ?a ?b] => destruct (Rle_dec a b); try lra
    | |- context [Rlt_dec ?a ?b] => destruct (Rlt_dec a b); try lra
    end.
Qed.

(** ** What the code gets wrong *)

(** A decreasing knot sequence is accepted by a new spline: the check loops
    over the old knots, of which there are none. *)
Theorem C64_unsorted_knots_accepted_refuted : exists b0 l b,
  make_bspline 2 = Ok b0 /\ set_knots_and_coefs b0 l 1 2 ramp = Ok b /\ ~ nondecreasing l.
Proof.
  exists new2, [3; 2; 1; 0].
  destruct (init_bases_exists [3; 2; 1; 0] 2) as [bs E]; [ lia | ].
  exists (BSp 2 [3; 2; 1; 0] 1 2 ramp bs). split; [ reflexivity | ]. split.
  - unfold set_knots_and_coefs. cbn [verify_knots knots new2 order length min_knots num_knots_required
      num_coefs_required Nat.add Nat.sub Nat.ltb Nat.leb verify_loop obind].
    change (num_coefs_required 2 (num_segments_of 2 4) =? 2)%nat with true. cbv iota. rewrite E. reflexivity.
  - intros ND. assert (X := ND 0%nat 1%nat). cbn [length] in X. unfold knot in X. cbn [nth] in X.
    assert (3 <= 2) by (apply X; lia). lra.
Qed.
Print Assumptions C64_unsorted_knots_accepted_refuted.

(** Replacing the knots of a spline by fewer, valid, knots reads past the end
    of the new sequence. *)
Theorem C64_shorter_knots_refuted : exists b l, built 2 knots5 1 3 ramp b /\ nondecreasing l /\
  (2 * 2 <= length l)%nat /\ set_knots_and_coefs b l 1 2 ramp = UB.
Proof.
  destruct C64_ex_built as [b [H _]]. exists b, [0; 1; 2; 3]. split; [ exact H | ].
  assert (ND : nondecreasing [0; 1; 2; 3]).
  { apply nd_list. intros i Hi. cbn [length] in Hi.
    do 3 (destruct i as [ | i ]; [ unfold knot; cbn [nth]; lra | ]). lia. }
  split; [ exact ND | ]. split; [ cbn [length]; lia | ].
  destruct (built_wf _ _ _ _ _ _ H knots5_nd) as [_ [O [K _]]].
  unfold set_knots_and_coefs. rewrite O, K. unfold verify_knots.
  change (length [0; 1; 2; 3] <? min_knots 2)%nat with false. cbv iota. cbn [length knots5 Nat.sub verify_loop].
  unfold vat. cbn [nth_error Nat.sub obind].
  rewrite !rleb_true by lra. reflexivity.
Qed.
Print Assumptions C64_shorter_knots_refuted.

(** When the two last knots of the interval coincide the value at the end is
    zero, whatever the coefficients. *)
Definition knots5d : list R := [0; 1; 2; 2; 3].
Theorem C64_empty_last_segment_refuted : exists b v,
  built 2 knots5d 1 3 (fun _ _ => 5) b /\ nondecreasing knots5d /\
  eval b (last_time 2 knots5d) = Ok v /\ v 0%nat = 0.
Proof.
  assert (ND : nondecreasing knots5d).
  { apply nd_list. intros i Hi. cbn [length knots5d] in Hi.
    do 4 (destruct i as [ | i ]; [ unfold knot, knots5d; cbn [nth]; lra | ]). lia. }
  destruct (C64_set_knots new2 knots5d 1 3 (fun _ _ => 5)) as [H _];
    [ cbn [order new2]; lia | cbn [knots new2 length]; lia | exact ND | ].
  destruct H as [b [E _]]; [ cbn; lia | cbn; lia | ].
  assert (BB : built 2 knots5d 1 3 (fun _ _ => 5) b).
  { exists new2. split; [ reflexivity | ]. split; [ lia | ]. split; [ cbn; lia | exact E ]. }
  destruct (built_wf _ _ _ _ _ _ BB ND) as [W [O [K [_ [NC [CO _]]]]]].
  destruct (built_times _ _ _ _ _ _ BB ND) as [T1 [T2 T3]].
  destruct (bases_nth b W 1) as [m [E1 _]]; [ lia | ].
  exists b. eexists. split; [ exact BB | ]. split; [ exact ND | ].
  assert (L : lo b <= hi b) by (apply W; destruct W; lia).
  assert (N : near_end b (hi b)) by (unfold near_end; rewrite Rminus_eq_0, Rabs_R0; lra).
  assert (W0 : hi b - last_start b = 0).
  { rewrite T2, T3. unfold last_time, last_knot, knot, knots5d. cbn [nth length Nat.sub]. lra. }
  rewrite <- T2. split.
  - unfold eval, eval_D, weights. change (0 <? 0)%Z with false. cbv iota. unfold compute_U_index.
    rewrite (T_index_end b (hi b) W L N). cbn [obind]. rewrite W0, rleb_true by lra. cbn [obind].
    unfold compute_U. rewrite NC, K. unfold vat. cbn [Nat.sub Nat.add nth_error knots5d obind].
    rewrite rltb_false by lra. rewrite O. change (isub 3 2) with (Ok 1%nat). cbn [obind]. rewrite E1. cbn [obind].
    unfold coef_block. rewrite O, NC. change (1 + 2 <=? 3)%nat with true. cbv iota. cbn [obind]. reflexivity.
  - cbn beta. cbn [bsum]. change (Z.to_nat 0) with 0%nat. cbn [Nat.leb Nat.ltb andb]. rewrite !Rmult_0_l. ring.
Qed.
Print Assumptions C64_empty_last_segment_refuted.

(** getBiVector has one entry per time segment, not one per coefficient: the
    basis functions of the last order - 1 coefficients are cut off, and its
    entries do not sum to one. *)
Theorem C64_bi_vector_refuted : exists b t n v, built 2 knots5 1 3 ramp b /\ first_time 2 knots5 <= t < last_time 2 knots5 /\
  get_Bi b t = Ok (n, v) /\ (n < ncols b)%nat /\ total n v = 1 / 2.
Proof.
  destruct C64_ex_built as [b [H _]]. exists b, (5 / 2).
  destruct (built_wf _ _ _ _ _ _ H knots5_nd) as [W [O [K [_ [NC _]]]]].
  assert (I : first_time 2 knots5 <= 5 / 2 < last_time 2 knots5).
  { unfold first_time, last_time, knot, knots5. cbn [nth length Nat.sub]. lra. }
  assert (CE : clear_of_end 2 knots5 (5 / 2)).
  { unfold clear_of_end, last_time, last_knot, knot, knots5. cbn [nth length Nat.sub]. left. lra. }
  destruct (C64_local_basis 2 knots5 1 3 ramp b (5 / 2) H knots5_nd I CE) as [si [v [w [E1 [E2 [E3 [L [V [SV _]]]]]]]]].
  exists 2%nat, (bi_entry si v 2 0). split; [ exact H | ]. split; [ exact I | ]. split.
  { unfold get_Bi. rewrite E1. cbn [obind]. rewrite E2. cbn [obind]. unfold num_segments. rewrite O, K. reflexivity. }
  split; [ lia | ].
  assert (SI : si = 1%nat).
  { destruct (V 0%nat) as [V0 _]; [ lia | ]. destruct (V 1%nat) as [V1 _]; [ lia | ].
    cbn [total] in SV. rewrite V0, V1 in SV.
    destruct si as [ | [ | si ] ]; [ exfalso | reflexivity | lia ].
    revert SV. unfold knots5, knot. cbn [cox nth Nat.add]. unfold ratio, indicator.
    repeat match goal with
    | |- context [Req_EM_T ?a ?b] => destruct (Req_EM_T a b); try lra
    | |- context [Rle_dec ?a ?b] => destruct (Rle_dec a b); try lra
    | |- context [Rlt_dec ?a ?b] => destruct (Rlt_dec a b); try lra
    end. }
  subst si. destruct (V 0%nat) as [V0 _]; [ lia | ].
  cbn [total]. unfold bi_entry. change (0 <? 1)%nat with true. change (1 <? 1)%nat with false.
  change (2 <=? 1 - 1)%nat with false. cbv iota. change (1 - 1)%nat with 0%nat. rewrite V0.
  unfold knots5, knot. cbn [cox nth Nat.add]. unfold ratio, indicator.
  repeat match goal with
  | |- context [Req_EM_T ?a ?b] => destruct (Req_EM_T a b); try lra
  | |- context [Rle_dec ?a ?b] => destruct (Rle_dec a b); try lra
  | |- context [Rlt_dec ?a ?b] => destruct (Rlt_dec a b); try lra
  end.
Qed.
Print Assumptions C64_bi_vector_refuted.
