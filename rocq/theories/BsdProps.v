(** * C65: derivatives, smoothness and Jacobians of B-spline curves *)
From Coquelicot Require Import Coquelicot.
From Coq Require Import Reals List Arith ZArith Bool Lia Lra.
From Verif Require Import Base BsplModel BsplSpec BsplProofs BsdProofs BsplProps.
Import ListNotations.
Local Open Scope R_scope.

(** [f] is coordinate [r] of evalD(t, d) for all times of the interval. *)
Definition is_evalD (b : bspline) (t0 t1 : R) (d r : nat) (f : R -> R) : Prop :=
  forall t, t0 <= t <= t1 -> exists v, eval_D b t (Z.of_nat d) = Ok v /\ v r = f t.

(** The last knot segment is not shorter than the tolerance of computeTIndex. *)
Definition long_end (k : nat) (l : list R) : Prop := / 10000000000 <= last_time k l - last_knot k l.

(** Every derivative can be evaluated at every time of the interval. *)
Theorem C65_total : forall k l D C c b d, built k l D C c b -> nondecreasing l -> long_end k l ->
  exists F : nat -> R -> R, forall r, is_evalD b (first_time k l) (last_time k l) d r (F r).
Proof.
  intros k l D C c b d H ND LE.
  destruct (built_wf _ _ _ _ _ _ H ND) as [W _]. destruct (built_times _ _ _ _ _ _ H ND) as [T1 [T2 T3]].
  exists (fun r t => match eval_D b t (Z.of_nat d) with Ok v => v r | _ => 0 end).
  intros r t I. destruct (located_closed b t W) as [s [LO [P _]]].
  - rewrite T1, T2. exact I.
  - unfold resolved. rewrite T2, T3. unfold long_end in LE.
    destruct (Rle_dec (last_knot k l) t); [ right; assumption | left; lra ].
  - rewrite T2, T3. unfold long_end in LE. lra.
  - destruct (eval_D_ok b t s (Z.of_nat d) W LO P) as [m [v [_ [E _]]]]; [ lia | ].
    exists v. rewrite E. split; reflexivity.
Qed.
Print Assumptions C65_total.

(** Strictly between two neighbouring knots, evalD(., d+1) is the derivative of
    evalD(., d). *)
Theorem C65_derivative : forall k l D C c b d r f g t j, built k l D C c b -> nondecreasing l -> long_end k l ->
  is_evalD b (first_time k l) (last_time k l) d r f -> is_evalD b (first_time k l) (last_time k l) (S d) r g ->
  (k - 1 <= j < C)%nat -> knot l j < t < knot l (j + 1) -> is_derive f t (g t).
Proof.
  intros k l D C c b d r f g t j H ND LE F G J I.
  destruct (built_wf _ _ _ _ _ _ H ND) as [W [O [K [_ [NC _]]]]]. destruct (built_times _ _ _ _ _ _ H ND) as [T1 [T2 T3]].
  unfold is_evalD in F, G. rewrite <- T1, <- T2 in F, G. unfold long_end in LE. rewrite <- T2, <- T3 in LE.
  apply (derive_in_segment b d r f g t j W LE F G); [ rewrite O, NC; exact J | rewrite K; exact I ].
Qed.
Print Assumptions C65_derivative.

(** With distinct knots the curve is k-2 times continuously differentiable on
    the whole open interval, knots included, and evalD gives its derivatives. *)
Theorem C65_smooth : forall k l D C c b d r f t, built k l D C c b -> increasing l -> long_end k l ->
  is_evalD b (first_time k l) (last_time k l) d r f -> (d <= k - 2)%nat ->
  first_time k l < t < last_time k l ->
  continuous f t /\
  (forall g, is_evalD b (first_time k l) (last_time k l) (S d) r g -> (S d <= k - 2)%nat -> is_derive f t (g t)).
Proof.
  intros k l D C c b d r f t H INC LE F LD I. assert (ND := increasing_nd l INC).
  destruct (built_wf _ _ _ _ _ _ H ND) as [W [O [K [_ [NC [_ [K2 _]]]]]]].
  destruct (built_times _ _ _ _ _ _ H ND) as [T1 [T2 T3]].
  unfold is_evalD in *. rewrite <- T1, <- T2 in *. unfold long_end in LE. rewrite <- T2, <- T3 in LE.
  rewrite <- K in INC. split.
  - apply (smooth_continuous b W INC LE d r f t F); [ lia | exact I ].
  - intros g G LD'. apply (smooth_derive b W INC LE d r f g t F G); [ lia | exact I ].
Qed.
Print Assumptions C65_smooth.

(** Derivatives of order k and more are zero. *)
Theorem C65_high_order : forall k l D C c b d t v r, built k l D C c b -> nondecreasing l -> long_end k l ->
  first_time k l <= t <= last_time k l -> (Z.of_nat k <= d)%Z -> eval_D b t d = Ok v -> v r = 0.
Proof.
  intros k l D C c b d t v r H ND LE I KD E.
  destruct (built_wf _ _ _ _ _ _ H ND) as [W [O _]]. destruct (built_times _ _ _ _ _ _ H ND) as [T1 [T2 T3]].
  unfold long_end in LE. destruct (located_closed b t W) as [s [LO [P _]]].
  - rewrite T1, T2. exact I.
  - unfold resolved. rewrite T2, T3. destruct (Rle_dec (last_knot k l) t); [ right; assumption | left; lra ].
  - rewrite T2, T3. lra.
  - destruct (eval_D_ok b t s d W LO P) as [m [v' [_ [E' V]]]]; [ lia | ].
    assert (v' = v) by congruence. subst v'. rewrite V. unfold piece. apply bsum_zero. intros i _.
    rewrite wgt_high by lia. ring.
Qed.
Print Assumptions C65_high_order.

(** The Jacobian of evalDAndJacobian is exact: replacing the coefficient vector
    changes the value by the Jacobian times the change of the coefficients it
    names.  Phi is the same matrix, and the value is Phi times the local
    coefficient vector. *)
Theorem C65_jacobian : forall k l D C c b d t, built k l D C c b -> nondecreasing l -> long_end k l ->
  first_time k l <= t <= last_time k l -> (0 <= d)%Z -> (1 <= D)%nat ->
  exists v J idx lc, eval_D_and_jacobian b t d = Ok (v, J, idx) /\
    eval_D b t d = Ok v /\ Phi b t d = Ok J /\
    local_coef_indices b t = Ok idx /\ length idx = (k * D)%nat /\ (forall i, In i idx -> (i < D * C)%nat) /\
    local_coef_vector b t = Ok lc /\
    (forall r, (r < D)%nat -> v r = total (k * D) (fun m => J r m * lc m)) /\
    (forall c', exists b' v', set_coef_vector b (D * C) c' = Ok b' /\ (forall i, coef_vector b' i = c' i) /\
       eval_D b' t d = Ok v' /\
       forall r, (r < D)%nat -> v' r - v r =
         total (k * D) (fun m => J r m * (c' (nth m idx 0%nat) - coef_vector b (nth m idx 0%nat)))).
Proof.
  intros k l D C c b d t H ND LE I PD D1.
  destruct (built_wf _ _ _ _ _ _ H ND) as [W [O [K [DD [NC [CO [K2 [CC LL]]]]]]]].
  destruct (built_times _ _ _ _ _ _ H ND) as [T1 [T2 T3]].
  unfold long_end in LE. destruct (located_closed b t W) as [s [LO [P _]]].
  { rewrite T1, T2. exact I. }
  { unfold resolved. rewrite T2, T3. destruct (Rle_dec (last_knot k l) t); [ right; assumption | left; lra ]. }
  { rewrite T2, T3. lra. }
  destruct (weights_ok b t s d W LO P PD) as [m [EM EW]]. destruct LO as [S1 ET].
  set (w := wgt b m s (Z.to_nat d) t) in *. set (bi := (s + 1 - order b)%nat) in *.
  assert (CB : coef_block b bi = Ok (fun r c => coef b r (bi + c)%nat)).
  { unfold coef_block. destruct (Nat.leb_spec (bi + order b) (ncols b)); [ reflexivity | subst bi; lia ]. }
  exists (fun r => bsum k (fun c => coef b r (bi + c)%nat * w c)), (scaled_identities D w), (seq (bi * D) (k * D)).
  exists (fun m => coef b (m mod D)%nat (bi + m / D)%nat).
  split. { unfold eval_D_and_jacobian. rewrite EW. cbn [obind]. rewrite CB. cbn [obind]. rewrite O, DD. reflexivity. }
  split. { unfold eval_D. rewrite EW. cbn [obind]. rewrite CB. cbn [obind]. rewrite O. reflexivity. }
  split. { unfold Phi. rewrite EW. cbn [obind]. rewrite DD. reflexivity. }
  assert (IS : isub (s + 1) (order b) = Ok bi) by (apply isub_ok; lia).
  split. { unfold local_coef_indices. rewrite ET. cbn [obind]. rewrite IS. cbn [obind]. rewrite O, DD. reflexivity. }
  split; [ apply seq_length | ].
  split.
  { intros i Hi. apply in_seq in Hi. assert (bi + k <= C)%nat by (subst bi; lia). nia. }
  split. { unfold local_coef_vector, local_coef_matrix. rewrite ET. cbn [obind]. rewrite IS. cbn [obind].
           rewrite CB. cbn [obind]. rewrite DD. reflexivity. }
  assert (MD : forall c r, (r < D)%nat -> ((c * D + r) mod D = r)%nat /\ ((c * D + r) / D = c)%nat).
  { intros a r Lr. split.
    - rewrite Nat.add_comm, Nat.mod_add by lia. apply Nat.mod_small. exact Lr.
    - rewrite Nat.add_comm, Nat.div_add by lia. rewrite Nat.div_small by exact Lr. lia. }
  split.
  { intros r Lr. rewrite <- (bsum_total (k * D)). rewrite scaled_identities_apply by exact Lr.
    apply bsum_ext. intros a _. destruct (MD a r Lr) as [-> ->]. ring. }
  intros c'. exists (BSp (order b) (knots b) (dim b) (ncols b) (fun r i => c' (i * dim b + r)%nat) (bases b)).
  exists (fun r => bsum k (fun c => c' ((bi + c) * D + r)%nat * w c)).
  split. { unfold set_coef_vector. rewrite DD, NC, Nat.eqb_refl. reflexivity. }
  split. { intros i. unfold coef_vector. cbn [coef dim]. rewrite DD. f_equal. rewrite (Nat.div_mod i D) at 3 by lia. lia. }
  split.
  { unfold eval_D. assert (SW : weights (BSp (order b) (knots b) (dim b) (ncols b) (fun r i => c' (i * dim b + r)%nat) (bases b)) t d
      = weights b t d) by reflexivity.
    rewrite SW, EW. cbn [obind]. unfold coef_block. cbn [order ncols coef dim].
    destruct (Nat.leb_spec (bi + order b) (ncols b)); [ | subst bi; lia ]. cbn [obind]. rewrite O, DD. reflexivity. }
  intros r Lr. rewrite <- bsum_minus, <- (bsum_total (k * D)). rewrite scaled_identities_apply by exact Lr.
  apply bsum_ext. intros a La.
  assert (LI : (a * D + r < k * D)%nat) by nia.
  rewrite seq_nth by exact LI. unfold coef_vector. rewrite DD.
  replace (bi * D + (a * D + r))%nat with ((bi + a) * D + r)%nat by lia.
  destruct (MD (bi + a)%nat r Lr) as [-> ->]. ring.
Qed.
Print Assumptions C65_jacobian.

(** ** Concrete case: order 4, distinct knots, two segments *)
Definition new4 : bspline := BSp 4 [] 0 0 (fun _ _ => 0) [].
Definition knots9 : list R := [0; 1; 2; 3; 5; 6; 7; 8; 9].
Lemma knots9_inc : increasing knots9.
Proof.
  intros i j [A B]. cbn [length knots9] in B.
  do 9 (destruct j as [ | j ]; [ do 9 (destruct i as [ | i ]; [ first [ lia | unfold knot, knots9; cbn [nth]; lra ] | ]); lia | ]).
  lia.
Qed.

Example C65_ex_spline : exists b, built 4 knots9 1 5 ramp b /\ increasing knots9 /\ long_end 4 knots9 /\
  first_time 4 knots9 = 3 /\ last_time 4 knots9 = 6 /\ (2 <= 4 - 2)%nat /\ first_time 4 knots9 < knot knots9 4 < last_time 4 knots9.
Proof.
  destruct (C64_set_knots new4 knots9 1 5 ramp) as [H _];
    [ cbn [order new4]; lia | cbn [knots new4 length]; lia | exact (increasing_nd _ knots9_inc) | ].
  destruct H as [b [E _]]; [ cbn; lia | cbn; lia | ]. exists b. split.
  { exists new4. split; [ reflexivity | ]. split; [ lia | ]. split; [ cbn; lia | exact E ]. }
  split; [ exact knots9_inc | ].
  unfold long_end, first_time, last_time, last_knot, knot, knots9. cbn [nth length Nat.sub].
  split; [ lra | ]. split; [ reflexivity | ]. split; [ reflexivity | ]. split; [ lia | lra ].
Qed.
