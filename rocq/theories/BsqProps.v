(** * C66: integrals of B-spline curves *)
From Coquelicot Require Import Coquelicot.
From Coq Require Import Reals List Arith ZArith Bool Lia Lra.
From Verif Require Import Base BsplModel BsplSpec BsplProofs BsdProofs BsplProps BsdProps BsqModel BsqProofs.
Import ListNotations.
Local Open Scope R_scope.

(** A limit of integration as evalIntegral uses it: the time itself, or the
    knot at most 1e-16 before it. *)
Definition snapped (l : list R) (t t' : R) : Prop :=
  t' = t \/ exists j, (j < length l)%nat /\ t' = knot l j /\ t' < t <= t' + / 10 ^ 16.

(** evalIntegral is the integral of the curve, in either direction. *)
Theorem C66_integral : forall k l D C c b t1 t2, built k l D C c b -> nondecreasing l -> long_end k l ->
  first_time k l <= t1 <= last_time k l -> first_time k l <= t2 <= last_time k l ->
  exists v t1' t2', eval_integral b t1 t2 = Ok v /\ snapped l t1 t1' /\ snapped l t2 t2' /\
    forall r f, is_evalD b (first_time k l) (last_time k l) 0 r f -> is_RInt f t1' t2' (v r).
Proof.
  intros k l D C c b t1 t2 H ND LE I1 I2.
  destruct (built_wf _ _ _ _ _ _ H ND) as [W [_ [K _]]]. destruct (built_times _ _ _ _ _ _ H ND) as [T1 [T2 T3]].
  unfold is_evalD. unfold long_end in LE. rewrite <- T1, <- T2 in *. rewrite <- T3 in LE. rewrite <- K.
  exact (eval_integral_ok b t1 t2 W LE I1 I2).
Qed.
Print Assumptions C66_integral.

(** The quadratic form [sum over i, j of W i j * f i * g j]. *)
Definition weighted (D : nat) (W : nat -> nat -> R) (f g : nat -> R -> R) (t : R) : R :=
  total D (fun i => total D (fun j => W i j * (f i t * g j t))).
(** x^T Q y *)
Definition form (n : nat) (Q : nat -> nat -> R) (x y : nat -> R) : R :=
  total n (fun r => x r * total n (fun c => Q r c * y c)).

(** [Q] represents the integral of the weighted product of the d-th
    derivatives of two curves that differ from [b] only in their coefficient
    vectors [x] and [y], taken over the entries named by [x'] and [y']. *)
Definition represents (b : bspline) (t0 t1 : R) (d : nat) (W : nat -> nat -> R) (a0 a1 : R)
    (n D N : nat) (o : nat) (Q : nat -> nat -> R) : Prop :=
  forall x y bx by' f g, set_coef_vector b N x = Ok bx -> set_coef_vector b N y = Ok by' ->
    (forall i, (i < D)%nat -> is_evalD bx t0 t1 d i (f i)) ->
    (forall i, (i < D)%nat -> is_evalD by' t0 t1 d i (g i)) ->
    is_RInt (weighted D W f g) a0 a1 (form n Q (fun i => x (o + i)%nat) (fun i => y (o + i)%nat)).

Lemma set_coef_inv b x bx : set_coef_vector b (dim b * ncols b) x = Ok bx -> bx = with_coefs b x.
Proof. unfold set_coef_vector. rewrite Nat.eqb_refl. intros E. unfold with_coefs. congruence. Qed.

Lemma symmetric_check_iff D W : symmetric_check D W = true <->
  (forall i j, (i < D)%nat -> (j < D)%nat -> Rabs (W i j - W j i) <= / 10 ^ 14).
Proof.
  unfold symmetric_check. rewrite forallb_forall. split.
  - intros H i j Li Lj. specialize (H j (proj2 (in_seq D 0 j) ltac:(lia))). rewrite forallb_forall in H.
    specialize (H i (proj2 (in_seq D 0 i) ltac:(lia))). unfold rleb in H.
    destruct (Rle_dec (Rabs (W i j - W j i)) (/ 10 ^ 14)); [ assumption | discriminate ].
  - intros H r Ir. apply in_seq in Ir. apply forallb_forall. intros c Ic. apply in_seq in Ic. apply rleb_true.
    apply H; lia.
Qed.

(** curveQuadraticIntegral returns the matrix of the integral over the whole
    curve, and throws for a weight matrix that is not symmetric. *)
Theorem C66_curve : forall k l D C c b W d, built k l D C c b -> nondecreasing l -> long_end k l ->
  ((forall i j, (i < D)%nat -> (j < D)%nat -> Rabs (W i j - W j i) <= / 10 ^ 14) ->
   exists Q, curve_Q b D D W (Z.of_nat d) = Ok Q /\
     represents b (first_time k l) (last_time k l) d W (first_time k l) (last_time k l) (D * C) D (D * C) 0 Q) /\
  ((exists i j, (i < D)%nat /\ (j < D)%nat /\ / 10 ^ 14 < Rabs (W i j - W j i)) -> curve_Q b D D W (Z.of_nat d) = Throw).
Proof.
  intros k l D C c b W d H ND LE.
  destruct (built_wf _ _ _ _ _ _ H ND) as [WF [O [K [DD [NC [_ [K2 [CC LL]]]]]]]]. destruct (built_times _ _ _ _ _ _ H ND) as [T1 [T2 T3]].
  unfold long_end in LE. unfold represents, is_evalD. rewrite <- T1, <- T2 in *. rewrite <- T3 in LE. rewrite <- DD, <- NC. split.
  - intros SY. apply symmetric_check_iff in SY.
    destruct (curve_Q_RInt b W (Z.of_nat d) WF LE SY) as [Q [E HQ]]. rewrite Nat2Z.id in HQ. exists Q. split; [ exact E | ].
    intros x y bx by' f g Ex Ey AF AG. apply set_coef_inv in Ex. apply set_coef_inv in Ey. subst bx by'.
    exact (HQ x y f g AF AG).
  - intros [i [j [Li [Lj A]]]].
    assert (SY : symmetric_check (dim b) W = false).
    { destruct (symmetric_check (dim b) W) eqn:S; [ | reflexivity ]. rewrite symmetric_check_iff in S.
      specialize (S i j Li Lj). lra. }
    destruct (segment_matrices b 0 WF) as [m [Dm [_ [ED [EV [EM _]]]]]]; [ lia | ].
    unfold curve_Q. rewrite Nat.eqb_refl. cbn [andb].
    assert (N := num_segments_wf b WF). destruct (num_segments b) as [ | n ]; [ lia | ]. cbn [sum_segments].
    unfold segment_Q at 1. rewrite bases_length by exact WF. destruct (Nat.ltb_spec 0 (ncols b + 1 - order b)); [ | lia ].
    rewrite Nat.eqb_refl. cbn [andb]. rewrite ED. cbn [obind]. rewrite EV. cbn [obind]. rewrite EM. cbn [obind].
    rewrite SY. reflexivity.
Qed.
Print Assumptions C66_curve.

(** The version for a diagonal weight matrix. *)
Theorem C66_curve_diag : forall k l D C c b w d, built k l D C c b -> nondecreasing l -> long_end k l ->
  exists Q, curve_Q_diag b D w (Z.of_nat d) = Ok Q /\
    represents b (first_time k l) (last_time k l) d (fun i j => if (i =? j)%nat then w i else 0)
      (first_time k l) (last_time k l) (D * C) D (D * C) 0 Q.
Proof.
  intros k l D C c b w d H ND LE.
  destruct (built_wf _ _ _ _ _ _ H ND) as [WF [O [K [DD [NC [_ [K2 [CC LL]]]]]]]]. destruct (built_times _ _ _ _ _ _ H ND) as [T1 [T2 T3]].
  unfold long_end in LE. unfold represents, is_evalD. rewrite <- T1, <- T2 in *. rewrite <- T3 in LE. rewrite <- DD, <- NC.
  destruct (curve_Q_diag_RInt b w (Z.of_nat d) WF LE) as [Q [E HQ]]. rewrite Nat2Z.id in HQ. exists Q. split; [ exact E | ].
  intros x y bx by' f g Ex Ey AF AG. apply set_coef_inv in Ex. apply set_coef_inv in Ey. subst bx by'.
  exact (HQ x y f g AF AG).
Qed.
Print Assumptions C66_curve_diag.

(** segmentQuadraticIntegral and its diagonal version: the integral over one
    knot segment, as a form in the k coefficient columns of that segment. *)
Theorem C66_segment : forall k l D C c b W w d seg, built k l D C c b -> nondecreasing l -> long_end k l ->
  (seg + k <= C)%nat -> (forall i j, (i < D)%nat -> (j < D)%nat -> Rabs (W i j - W j i) <= / 10 ^ 14) ->
  (exists Q, segment_Q b D D W seg (Z.of_nat d) = Ok Q /\
    represents b (first_time k l) (last_time k l) d W (knot l (seg + k - 1)) (knot l (seg + k)) (k * D) D (D * C) (seg * D) Q) /\
  (exists Q, segment_Q_diag b D w seg (Z.of_nat d) = Ok Q /\
    represents b (first_time k l) (last_time k l) d (fun i j => if (i =? j)%nat then w i else 0)
      (knot l (seg + k - 1)) (knot l (seg + k)) (k * D) D (D * C) (seg * D) Q).
Proof.
  intros k l D C c b W w d seg H ND LE SL SY.
  destruct (built_wf _ _ _ _ _ _ H ND) as [WF [O [K [DD [NC [_ [K2 [CC LL]]]]]]]]. destruct (built_times _ _ _ _ _ _ H ND) as [T1 [T2 T3]].
  apply symmetric_check_iff in SY. rewrite <- DD in SY.
  unfold long_end in LE. unfold represents, is_evalD. rewrite <- T1, <- T2 in *. rewrite <- T3 in LE. rewrite <- K, <- O in *.
  rewrite <- DD, <- NC in *. split.
  - destruct (segment_Q_RInt b W seg (Z.of_nat d) WF LE SL SY) as [Q [E HQ]]. rewrite Nat2Z.id in HQ. exists Q. split; [ exact E | ].
    intros x y bx by' f g Ex Ey AF AG. apply set_coef_inv in Ex. apply set_coef_inv in Ey. subst bx by'. exact (HQ x y f g AF AG).
  - destruct (segment_Q_diag_RInt b w seg (Z.of_nat d) WF LE SL) as [Q [E HQ]]. rewrite Nat2Z.id in HQ. exists Q. split; [ exact E | ].
    intros x y bx by' f g Ex Ey AF AG. apply set_coef_inv in Ex. apply set_coef_inv in Ey. subst bx by'. exact (HQ x y f g AF AG).
Qed.
Print Assumptions C66_segment.

(** The form is symmetric and non-negative for a diagonal of non-negative
    weights: the motion term of the fits is a penalty. *)
Theorem C66_penalty : forall k l D C c b w d Q, built k l D C c b -> nondecreasing l -> long_end k l ->
  curve_Q_diag b D w (Z.of_nat d) = Ok Q -> (forall i, (i < D)%nat -> 0 <= w i) ->
  forall x y, form (D * C) Q x y = form (D * C) Q y x /\ 0 <= form (D * C) Q x x.
Proof.
  intros k l D C c b w d Q H ND LE EQ PW x y.
  destruct (C66_curve_diag k l D C c b w d H ND LE) as [Q' [E HQ]]. assert (Q' = Q) by congruence. subst Q'. clear E.
  destruct (built_wf _ _ _ _ _ _ H ND) as [WF [O [K [DD [NC [_ [K2 [CC LL]]]]]]]]. destruct (built_times _ _ _ _ _ _ H ND) as [T1 [T2 T3]].
  assert (TOT : forall z, exists bz F, set_coef_vector b (D * C) z = Ok bz /\
    forall r, is_evalD bz (first_time k l) (last_time k l) d r (F r)).
  { intros z. exists (with_coefs b z). exists (fun r t => match eval_D (with_coefs b z) t (Z.of_nat d) with Ok v => v r | _ => 0 end).
    split; [ unfold set_coef_vector; rewrite DD, NC, Nat.eqb_refl; unfold with_coefs; rewrite DD, NC; reflexivity | ].
    assert (WZ := with_coefs_wf b z WF). intros r t I. unfold long_end in LE.
    destruct (located_closed (with_coefs b z) t WZ) as [s [LO [P _]]].
    - change (lo (with_coefs b z)) with (lo b). change (hi (with_coefs b z)) with (hi b). rewrite T1, T2. exact I.
    - unfold resolved. change (last_start (with_coefs b z)) with (last_start b). change (hi (with_coefs b z)) with (hi b).
      rewrite T2, T3. destruct (Rle_dec (last_knot k l) t); [ right; assumption | left; lra ].
    - change (last_start (with_coefs b z)) with (last_start b). change (hi (with_coefs b z)) with (hi b). rewrite T2, T3. lra.
    - destruct (eval_D_ok (with_coefs b z) t s (Z.of_nat d) WZ LO P) as [m [v [_ [E _]]]]; [ lia | ].
      exists v. rewrite E. split; reflexivity. }
  assert (TT : first_time k l <= last_time k l).
  { rewrite <- T1, <- T2. assert (W' := WF). destruct W' as [O' LE' C' _ SO]. apply SO. lia. }
  destruct (TOT x) as [bx [F [EX AX]]]. destruct (TOT y) as [by' [G [EY AY]]]. split.
  - assert (I1 := HQ x y bx by' F G EX EY (fun i _ => AX i) (fun i _ => AY i)).
    assert (I2 := HQ y x by' bx G F EY EX (fun i _ => AY i) (fun i _ => AX i)).
    apply (is_RInt_unique (V := R_CompleteNormedModule)) in I1. apply (is_RInt_unique (V := R_CompleteNormedModule)) in I2.
    etransitivity; [ symmetry; exact I1 | ]. etransitivity; [ | exact I2 ].
    apply RInt_ext. intros t _. unfold weighted. rewrite <- !bsum_total. apply bsum_ext. intros i Li.
    rewrite <- !(bsum_total D). apply bsum_ext. intros j Lj. destruct (Nat.eqb_spec i j); [ subst j; ring | ring ].
  - assert (I1 := HQ x x bx bx F F EX EX (fun i _ => AX i) (fun i _ => AX i)).
    apply (is_RInt_ge_0 _ _ _ _ TT I1). intros t _. unfold weighted. rewrite <- (bsum_total D). apply bsum_nonneg. intros i Li.
    rewrite <- (bsum_total D). apply bsum_nonneg. intros j Lj. destruct (Nat.eqb_spec i j); [ | lra ].
    subst j. apply Rmult_le_pos; [ apply PW; exact Li | apply Rle_0_sqr ].
Qed.
Print Assumptions C66_penalty.

(** ** Concrete case: the order 4 spline of C65, from inside its first segment
    to its end *)
Example C66_ex : exists b, built 4 knots9 1 5 ramp b /\ nondecreasing knots9 /\ long_end 4 knots9 /\
  first_time 4 knots9 <= 4 <= last_time 4 knots9 /\ first_time 4 knots9 <= 6 <= last_time 4 knots9 /\ (1 + 4 <= 5)%nat.
Proof.
  destruct C65_ex_spline as [b [H [INC [LE [T0 [T1 _]]]]]]. exists b.
  split; [ exact H | ]. split; [ exact (increasing_nd _ INC) | ]. split; [ exact LE | ].
  rewrite T0, T1. split; [ lra | ]. split; [ lra | lia ].
Qed.
