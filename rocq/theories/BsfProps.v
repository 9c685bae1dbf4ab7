(** * C67: the spline fits minimise their cost *)
From Coquelicot Require Import Coquelicot.
From Coq Require Import Reals List Arith ZArith Bool Lia Lra.
From Verif Require Import Base BsplModel BsplSpec BsplProofs BsdProofs BsplProps BsdProps BsqModel BsqProofs BsqProps BsfProofs.
Import ListNotations.
Local Open Scope R_scope.

(** [J] is the cost of a curve: the squared distances to the points at their
    times plus [lambda] times the integral of the squared d-th derivative. *)
Definition fit_cost (b : bspline) (T0 T1 : R) (ts : list R) (D : nat) (pts : nat -> nat -> R) (lambda : R) (d : nat) (J : R) : Prop :=
  exists f g E,
    (forall r, (r < D)%nat -> is_evalD b T0 T1 0 r (f r)) /\ (forall r, (r < D)%nat -> is_evalD b T0 T1 d r (g r)) /\
    is_RInt (fun t => total D (fun r => lambda * (g r t * g r t))) T0 T1 E /\
    J = total (length ts) (fun i => total D (fun r => (f r (nth i ts 0) - pts r i) ^ 2)) + E.

(** No other coefficient vector has a smaller cost. *)
Definition minimises (b : bspline) (N : nat) T0 T1 ts D pts lambda d : Prop :=
  exists J, fit_cost b T0 T1 ts D pts lambda d J /\
    forall x bx Jx, set_coef_vector b N x = Ok bx -> fit_cost bx T0 T1 ts D pts lambda d Jx -> J <= Jx.

(** The data determine the coefficients: with all points zero only the zero
    coefficient vector has cost zero. *)
Definition well_posed (b : bspline) (N : nat) T0 T1 ts D lambda d : Prop :=
  forall x bx, set_coef_vector b N x = Ok bx -> fit_cost bx T0 T1 ts D (fun _ _ => 0) lambda d 0 ->
  forall i, (i < N)%nat -> x i = 0.

(** What is assumed of a linear solver: it solves systems whose matrix is not
    singular. *)
Definition solver_ok (solve : nat -> mat -> vec -> vec) : Prop :=
  forall n M v, (forall x, (forall i, (i < n)%nat -> total n (fun j => M i j * x j) = 0) -> forall i, (i < n)%nat -> x i = 0) ->
  forall i, (i < n)%nat -> total n (fun j => M i j * solve n M v j) = v i.

Definition penalty_order (k : nat) : nat := if (k =? 2)%nat then 1%nat else 2%nat.

Lemma built_with_coefs k l D C c b x bx : built k l D C c b -> set_coef_vector b (D * C) x = Ok bx ->
  built k l D C (fun r i => x (i * D + r)%nat) bx.
Proof.
  intros [b0 [O [K [L E]]]] S. exists b0. split; [ exact O | ]. split; [ exact K | ]. split; [ exact L | ].
  unfold set_knots_and_coefs in *. destruct (verify_knots (order b0) (knots b0) l); cbn [obind] in *; try discriminate.
  destruct (num_coefs_required (order b0) (num_segments_of (order b0) (length l)) =? C)%nat; [ | discriminate ].
  destruct (init_bases l (order b0)) as [l0 | | | ]; cbn [obind] in *; try discriminate.
  assert (EB : b = BSp (order b0) l D C c l0) by congruence. subst b. unfold set_coef_vector in S. cbn [dim ncols order knots bases] in S.
  rewrite Nat.eqb_refl in S. exact S.
Qed.

(** The cost is the algebraic cost of the assembled system. *)
Lemma cost_meaning k l D C c b ts pts lambda d A Q : built k l D C c b -> nondecreasing l -> long_end k l -> (1 <= D)%nat ->
  (forall t, In t ts -> first_time k l <= t <= last_time k l) ->
  position_rows b ts 0 (fun _ _ => 0) = Ok A -> curve_Q_diag b D (fun _ => lambda) (Z.of_nat d) = Ok Q ->
  forall x bx, set_coef_vector b (D * C) x = Ok bx ->
    (forall J, fit_cost bx (first_time k l) (last_time k l) ts D pts lambda d J ->
       J = cost (D * C) (length ts * D) A Q (fun i => pts (i mod D)%nat (i / D)%nat) x) /\
    fit_cost bx (first_time k l) (last_time k l) ts D pts lambda d
       (cost (D * C) (length ts * D) A Q (fun i => pts (i mod D)%nat (i / D)%nat) x).
Proof.
  intros H ND LE D1 IN EA EQ x bx EX.
  destruct (built_wf _ _ _ _ _ _ H ND) as [WF [O [K [DD [NC [_ [K2 [CC LL]]]]]]]]. destruct (built_times _ _ _ _ _ _ H ND) as [T1 [T2 T3]].
  assert (BX : bx = with_coefs b x) by (apply set_coef_inv; rewrite DD, NC; exact EX).
  assert (LE' : / 10000000000 <= hi b - last_start b) by (rewrite T2, T3; exact LE).
  destruct (position_rows_ok b WF LE' ltac:(lia) ts 0%nat (fun _ _ => 0)) as [A' [EA' [_ HA]]].
  { intros t I. rewrite T1, T2. apply IN. exact I. }
  { reflexivity. }
  assert (A' = A) by congruence. subst A'. clear EA'.
  destruct (C66_curve_diag k l D C c b (fun _ => lambda) d H ND LE) as [Q' [EQ' HQ]]. assert (Q' = Q) by congruence. subst Q'. clear EQ'.
  assert (HB := built_with_coefs _ _ _ _ _ _ _ _ H EX).
  assert (MEAN : forall f g, (forall r, (r < D)%nat -> is_evalD bx (first_time k l) (last_time k l) 0 r (f r)) ->
    (forall r, (r < D)%nat -> is_evalD bx (first_time k l) (last_time k l) d r (g r)) ->
    is_RInt (fun t => total D (fun r => lambda * (g r t * g r t))) (first_time k l) (last_time k l) (bil (D * C) Q x x) /\
    total (length ts) (fun i => total D (fun r => (f r (nth i ts 0) - pts r i) ^ 2)) =
      bsum (length ts * D) (fun j => (mapply (D * C) A x j - pts (j mod D)%nat (j / D)%nat) ^ 2)).
  { intros f g AF AG. split.
    - assert (X := HQ x x bx bx g g EX EX AG AG).
      apply (is_RInt_ext (weighted D (fun i j => if (i =? j)%nat then lambda else 0) g g)); [ | exact X ].
      intros t _. unfold weighted. rewrite <- !(bsum_total D). apply bsum_ext. intros i Li. rewrite <- (bsum_total D).
      rewrite (bsum_single D i); [ rewrite Nat.eqb_refl; reflexivity | exact Li | ].
      intros j _ N. destruct (Nat.eqb_spec i j); [ congruence | ring ].
    - rewrite bsum_blocks, <- (bsum_total (length ts)). apply bsum_ext. intros i Li. rewrite <- (bsum_total D). apply bsum_ext.
      intros r Lr. destruct (div_mod_block D r i Lr) as [-> ->]. do 2 f_equal.
      destruct (AF r Lr (nth i ts 0)) as [v [EV VR]]; [ apply IN; apply nth_In; exact Li | ]. rewrite <- VR. symmetry.
      rewrite BX in EV. assert (LRr : (r < dim b)%nat) by lia. change (Z.of_nat 0) with 0%Z in EV.
      assert (Y := HA i r x v Li LRr EV). rewrite DD, NC in Y. exact Y. }
  split.
  - intros J [f [g [E [AF [AG [IE EJ]]]]]]. destruct (MEAN f g AF AG) as [M1 M2]. rewrite EJ, M2. unfold cost. f_equal.
    apply (is_RInt_unique (V := R_CompleteNormedModule)) in IE. apply (is_RInt_unique (V := R_CompleteNormedModule)) in M1.
    etransitivity; [ symmetry; exact IE | exact M1 ].
  - destruct (C65_total k l D C _ bx 0 HB ND LE) as [f AF]. destruct (C65_total k l D C _ bx d HB ND LE) as [g AG].
    destruct (MEAN f g (fun r _ => AF r) (fun r _ => AG r)) as [M1 M2].
    exists f, g, (bil (D * C) Q x x). split; [ intros r _; apply AF | ]. split; [ intros r _; apply AG | ]. split; [ exact M1 | ].
    rewrite M2. reflexivity.
Qed.

Theorem C67_fit : forall solve k l D C c b ts pts lambda, solver_ok solve ->
  built k l D C c b -> nondecreasing l -> long_end k l -> (1 <= D)%nat -> 0 <= lambda ->
  (forall t, In t ts -> first_time k l <= t <= last_time k l) ->
  well_posed b (D * C) (first_time k l) (last_time k l) ts D lambda (penalty_order k) ->
  exists b', fit solve b ts pts lambda = Ok b' /\ (exists c', built k l D C c' b') /\
    minimises b' (D * C) (first_time k l) (last_time k l) ts D pts lambda (penalty_order k).
Proof.
  intros solve k l D C c b ts pts lambda SO H ND LE D1 PL IN WP.
  destruct (built_wf _ _ _ _ _ _ H ND) as [WF [O [K [DD [NC [_ [K2 [CC LL]]]]]]]]. destruct (built_times _ _ _ _ _ _ H ND) as [T1 [T2 T3]].
  assert (LE' : / 10000000000 <= hi b - last_start b) by (rewrite T2, T3; exact LE).
  destruct (position_rows_ok b WF LE' ltac:(lia) ts 0%nat (fun _ _ => 0)) as [A [EA _]].
  { intros t I. rewrite T1, T2. apply IN. exact I. }
  { reflexivity. }
  set (d := penalty_order k) in *.
  destruct (C66_curve_diag k l D C c b (fun _ => lambda) d H ND LE) as [Q [EQ _]].
  assert (PEN := C66_penalty k l D C c b (fun _ => lambda) d Q H ND LE EQ (fun _ _ => PL)).
  set (rhs := fun i => pts (i mod D)%nat (i / D)%nat).
  set (atb := fun i => bsum (length ts * D) (fun j => A j i * rhs j)).
  set (M := fun r c => mmul (length ts * D) (mtr A) A r c + Q r c).
  set (cs := solve (D * C)%nat M atb).
  assert (EB : set_coef_vector b (D * C) cs = Ok (with_coefs b cs)).
  { unfold set_coef_vector, with_coefs. rewrite DD, NC, Nat.eqb_refl. reflexivity. }
  assert (SOL : forall i, (i < D * C)%nat -> bsum (D * C) (fun j => M i j * cs j) = atb i).
  { apply SO. intros x Z. assert (Z' : forall i, (i < D * C)%nat -> bsum (D * C) (fun j => M i j * x j) = 0) by exact Z.
    destruct (normal_kernel (D * C) (length ts * D) A Q (fun x => proj2 (PEN x x)) x Z') as [N1 N2].
    assert (EX : set_coef_vector b (D * C) x = Ok (with_coefs b x)).
    { unfold set_coef_vector, with_coefs. rewrite DD, NC, Nat.eqb_refl. reflexivity. }
    destruct (cost_meaning k l D C c b ts (fun _ _ => 0) lambda d A Q H ND LE D1 IN EA EQ x _ EX) as [_ FC].
    assert (CZ : cost (D * C) (length ts * D) A Q (fun _ => 0) x = 0).
    { unfold cost. rewrite N2, Rplus_0_r. etransitivity; [ | exact N1 ]. apply bsum_ext. intros j _. rewrite Rminus_0_r. reflexivity. }
    apply (WP x _ EX). rewrite CZ in FC. exact FC. }
  exists (with_coefs b cs). split.
  { unfold fit. rewrite EA. cbn [obind]. rewrite DD, NC, O.
    replace (if (k =? 2)%nat then 1%Z else 2%Z) with (Z.of_nat d) by (unfold d, penalty_order; destruct (k =? 2)%nat; reflexivity).
    rewrite EQ. cbn [obind]. exact EB. }
  split. { exists (fun r i => cs (i * D + r)%nat). exact (built_with_coefs _ _ _ _ _ _ _ _ H EB). }
  destruct (cost_meaning k l D C c b ts pts lambda d A Q H ND LE D1 IN EA EQ cs _ EB) as [_ FC].
  exists (cost (D * C) (length ts * D) A Q rhs cs). split; [ exact FC | ].
  intros x bx Jx EX FX.
  assert (EX' : set_coef_vector b (D * C) x = Ok bx).
  { unfold set_coef_vector in *. cbn [dim ncols order knots bases with_coefs] in EX. rewrite DD, NC, Nat.eqb_refl in EX |- *. exact EX. }
  destruct (cost_meaning k l D C c b ts pts lambda d A Q H ND LE D1 IN EA EQ x _ EX') as [MX _].
  rewrite (MX Jx FX). apply normal_minimum.
  - intros u v. exact (proj1 (PEN u v)).
  - intros u. exact (proj2 (PEN u u)).
  - exact SOL.
Qed.
Print Assumptions C67_fit.

(** The uniform knots of initSpline3 and initSplineSparse: k-1 knots before the
    first and after the last time, nseg segments between them. *)
Definition evenly (k nseg : nat) (t0 t1 : R) (l : list R) : Prop :=
  length l = (nseg + 2 * k - 1)%nat /\
  forall i, (i < length l)%nat -> knot l i = t0 + (INR i - INR (k - 1)) * ((t1 - t0) / INR nseg).

Lemma uniform_evenly k nseg t0 t1 : (2 <= k)%nat -> (1 <= nseg)%nat ->
  evenly k nseg t0 t1 (uniform_knots k (num_knots_required k nseg) t0 ((t1 - t0) / INR nseg)).
Proof.
  intros K N. split.
  - rewrite uniform_length. unfold num_knots_required, num_coefs_required. lia.
  - intros i L. rewrite uniform_length in L. rewrite uniform_knot by exact L. rewrite minus_INR by lia. cbn [INR]. ring.
Qed.

Lemma evenly_facts k nseg t0 t1 l : (2 <= k)%nat -> (1 <= nseg)%nat -> evenly k nseg t0 t1 l -> / 10000000000 <= (t1 - t0) / INR nseg ->
  nondecreasing l /\ long_end k l /\ first_time k l = t0 /\ last_time k l = t1.
Proof.
  intros K N [L E] P. set (dt := (t1 - t0) / INR nseg) in *.
  assert (NZ : INR nseg <> 0) by (apply not_0_INR; lia).
  split.
  { intros i j [L1 L2]. rewrite !E by lia. assert (INR i <= INR j) by (apply le_INR; lia).
    assert ((INR i - INR (k - 1)) * dt <= (INR j - INR (k - 1)) * dt) by (apply Rmult_le_compat_r; lra). lra. }
  assert (FT : first_time k l = t0). { unfold first_time. rewrite E by lia. ring. }
  assert (LT : last_time k l = t1).
  { unfold last_time. rewrite E by lia. replace (length l - k)%nat with (nseg + (k - 1))%nat by lia. rewrite plus_INR.
    unfold dt. field. exact NZ. }
  split; [ | split; assumption ].
  unfold long_end. rewrite LT. unfold last_knot. rewrite E by lia.
  replace (length l - k - 1)%nat with ((nseg - 1) + (k - 1))%nat by lia. rewrite plus_INR, (minus_INR nseg 1) by lia. cbn [INR].
  replace (t1 - (t0 + (INR nseg - 1 + INR (k - 1) - INR (k - 1)) * dt)) with dt; [ exact P | ]. unfold dt. field. exact NZ.
Qed.

Lemma set_uniform b0 k D nseg l : order b0 = k -> (2 <= k)%nat -> (1 <= nseg)%nat -> length l = (nseg + 2 * k - 1)%nat ->
  (length (knots b0) <= length l)%nat -> nondecreasing l ->
  exists b1, set_knots_and_coefs b0 l D (nseg + k - 1) (fun _ _ => 0) = Ok b1 /\ built k l D (nseg + k - 1) (fun _ _ => 0) b1.
Proof.
  intros O K N L LK ND. destruct (set_knots_wf b0 l D (nseg + k - 1) (fun _ _ => 0)) as [b1 [E _]]; [ lia | exact ND | lia | lia | exact LK | ].
  exists b1. split; [ exact E | ]. exists b0. split; [ exact O | ]. split; [ exact K | ]. split; [ exact LK | exact E ].
Qed.

(** initSpline3: the fitted curve runs from the first to the last time and
    minimises the cost.  initSplineSparse is the same with its own solver. *)
Theorem C67_init_spline3 : forall solve b0 k ts D pts nseg lambda l, solver_ok solve ->
  order b0 = k -> (2 <= k)%nat -> (length (knots b0) <= nseg + 2 * k - 1)%nat ->
  (2 <= length ts)%nat -> (1 <= nseg)%nat -> (1 <= D)%nat -> 0 <= lambda ->
  nondecreasing ts -> / 10000000000 <= (last ts 0 - hd 0 ts) / INR nseg ->
  evenly k nseg (hd 0 ts) (last ts 0) l ->
  (forall b1, set_knots_and_coefs b0 l D (nseg + k - 1) (fun _ _ => 0) = Ok b1 ->
     well_posed b1 (D * (nseg + k - 1)) (hd 0 ts) (last ts 0) ts D lambda (penalty_order k)) ->
  exists b', init_spline3 solve b0 ts D (length ts) pts nseg lambda = Ok b' /\
    (exists c', built k l D (nseg + k - 1) c' b') /\ t_min b' = Ok (hd 0 ts) /\ t_max b' = Ok (last ts 0) /\
    minimises b' (D * (nseg + k - 1)) (hd 0 ts) (last ts 0) ts D pts lambda (penalty_order k).
Proof.
  intros solve b0 k ts D pts nseg lambda l SO O K LK LT N D1 PL NT PD EV WP.
  destruct (evenly_facts k nseg _ _ l K N EV PD) as [ND [LE [FT LTm]]].
  destruct EV as [LL EL]. destruct (set_uniform b0 k D nseg l O K N LL ltac:(lia) ND) as [b1 [E1 B1]].
  assert (UL : uniform_knots k (num_knots_required k nseg) (hd 0 ts) ((last ts 0 - hd 0 ts) / INR nseg) = l).
  { destruct (uniform_evenly k nseg (hd 0 ts) (last ts 0) K N) as [UL UE].
    apply (nth_ext _ _ 0 0); [ lia | ]. intros i Li. change (knot (uniform_knots k (num_knots_required k nseg) (hd 0 ts) ((last ts 0 - hd 0 ts) / INR nseg)) i = knot l i).
    rewrite UE by exact Li. rewrite EL by lia. reflexivity. }
  assert (NC : nondecreasing_check ts = true).
  { clear - NT. induction ts as [ | a ts IH ]; [ reflexivity | ]. destruct ts as [ | b ts ]; [ reflexivity | ].
    cbn [nondecreasing_check]. apply andb_true_intro. split.
    - apply rleb_true. exact (NT 0%nat 1%nat ltac:(cbn [length]; lia)).
    - apply IH. intros i j L. exact (NT (S i) (S j) ltac:(cbn [length] in *; lia)). }
  destruct (C67_fit solve k l D (nseg + k - 1) (fun _ _ => 0) b1 ts pts lambda SO B1 ND LE D1 PL) as [b' [EF [[c' Bc] MI]]].
  { intros t I. rewrite FT, LTm. apply nd_check_spec; assumption. }
  { rewrite FT, LTm. exact (WP b1 E1). }
  rewrite FT, LTm in MI. exists b'. split.
  { unfold init_spline3. rewrite Nat.eqb_refl, NC. destruct (Nat.leb_spec 2 (length ts)); [ | lia ].
    destruct (Nat.leb_spec 1 nseg); [ | lia ]. cbn [andb]. rewrite O, UL.
    change (num_coefs_required k nseg) with (nseg + k - 1)%nat. rewrite E1. cbn [obind]. exact EF. }
  split; [ exists c'; exact Bc | ].
  destruct (built_wf _ _ _ _ _ _ Bc ND) as [WF _]. destruct (built_times _ _ _ _ _ _ Bc ND) as [T1 [T2 _]].
  split; [ rewrite t_min_ok by exact WF; rewrite T1, FT; reflexivity | ].
  split; [ rewrite t_max_ok by exact WF; rewrite T2, LTm; reflexivity | exact MI ].
Qed.
Print Assumptions C67_init_spline3.

(** The solver of the sparse fits meets the assumption if Cholmod, where it
    reports success, and LDLT do. *)
Theorem C67_sparse_solver : forall chol ldlt, solver_ok ldlt ->
  (forall n M v c, chol n M v = Some c ->
     (forall x, (forall i, (i < n)%nat -> total n (fun j => M i j * x j) = 0) -> forall i, (i < n)%nat -> x i = 0) ->
     forall i, (i < n)%nat -> total n (fun j => M i j * c j) = v i) ->
  solver_ok (sparse_solver chol ldlt) /\
  forall b0 ts D np pts nseg lambda,
    init_spline_sparse chol ldlt b0 ts D np pts nseg lambda = init_spline3 (sparse_solver chol ldlt) b0 ts D np pts nseg lambda.
Proof.
  intros chol ldlt HL HC. split; [ | reflexivity ]. intros n M v NS i Li. unfold sparse_solver.
  destruct (chol n M v) as [c | ] eqn:E; [ exact (HC n M v c E NS i Li) | exact (HL n M v NS i Li) ].
Qed.
Print Assumptions C67_sparse_solver.

(** initSplineSparseKnots: the same on the knots given. *)
Theorem C67_sparse_knots : forall chol ldlt b0 k ts D pts l lambda, solver_ok (sparse_solver chol ldlt) ->
  order b0 = k -> (2 <= k)%nat -> (length (knots b0) <= length l)%nat -> (2 * k <= length l)%nat ->
  (2 <= length ts)%nat -> (1 <= D)%nat -> 0 <= lambda -> nondecreasing ts -> nondecreasing l -> long_end k l ->
  (forall t, In t ts -> first_time k l <= t <= last_time k l) ->
  (forall b1, set_knots_and_coefs b0 l D (length l - k) (fun _ _ => 0) = Ok b1 ->
     well_posed b1 (D * (length l - k)) (first_time k l) (last_time k l) ts D lambda (penalty_order k)) ->
  exists b', init_spline_sparse_knots chol ldlt b0 ts D (length ts) pts l lambda = Ok b' /\
    (exists c', built k l D (length l - k) c' b') /\
    minimises b' (D * (length l - k)) (first_time k l) (last_time k l) ts D pts lambda (penalty_order k).
Proof.
  intros chol ldlt b0 k ts D pts l lambda SO O K LK LL LT D1 PL NT ND LE IN WP.
  destruct (set_knots_wf b0 l D (length l - k) (fun _ _ => 0)) as [b1 [E1 _]]; [ lia | exact ND | lia | lia | exact LK | ].
  assert (B1 : built k l D (length l - k) (fun _ _ => 0) b1).
  { exists b0. split; [ exact O | ]. split; [ exact K | ]. split; [ exact LK | exact E1 ]. }
  assert (NC : nondecreasing_check ts = true).
  { clear - NT. induction ts as [ | a ts IH ]; [ reflexivity | ]. destruct ts as [ | b ts ]; [ reflexivity | ].
    cbn [nondecreasing_check]. apply andb_true_intro. split.
    - apply rleb_true. exact (NT 0%nat 1%nat ltac:(cbn [length]; lia)).
    - apply IH. intros i j L. exact (NT (S i) (S j) ltac:(cbn [length] in *; lia)). }
  destruct (C67_fit (sparse_solver chol ldlt) k l D (length l - k) (fun _ _ => 0) b1 ts pts lambda SO B1 ND LE D1 PL IN (WP b1 E1)) as [b' [EF [[c' Bc] MI]]].
  exists b'. split; [ | split; [ exists c'; exact Bc | exact MI ] ].
  unfold init_spline_sparse_knots. rewrite Nat.eqb_refl, NC. destruct (Nat.leb_spec 2 (length ts)); [ | lia ]. cbn [andb].
  rewrite O. replace (num_coefs_required k (length l - 2 * (k - 1) - 1)) with (length l - k)%nat by (unfold num_coefs_required; lia).
  rewrite E1. cbn [obind]. exact EF.
Qed.
Print Assumptions C67_sparse_knots.

(** Inputs that are rejected without touching the spline. *)
Theorem C67_rejects : forall solve b0 ts D np pts nseg lambda,
  length ts <> np \/ (length ts < 2)%nat \/ nseg = 0%nat \/ ~ nondecreasing ts ->
  init_spline3 solve b0 ts D np pts nseg lambda = Throw.
Proof.
  intros solve b0 ts D np pts nseg lambda H. unfold init_spline3.
  destruct (Nat.eqb_spec (length ts) np) as [E | E]; [ | reflexivity ].
  destruct (Nat.leb_spec 2 (length ts)) as [L | L]; [ | reflexivity ].
  destruct (Nat.leb_spec 1 nseg) as [N | N]; [ | reflexivity ]. cbn [andb].
  destruct (nondecreasing_check ts) eqn:C; [ | reflexivity ]. exfalso.
  destruct H as [H | [H | [H | H]]]; [ contradiction | lia | lia | ]. apply H. clear - C.
  induction ts as [ | a ts IH ]; intros i j [L1 L2]; [ cbn [length] in L2; lia | ].
  destruct ts as [ | b ts ].
  { cbn [length] in L2. assert (i = 0%nat) by lia. assert (j = 0%nat) by lia. subst i j. lra. }
  assert (C' := C). cbn [nondecreasing_check] in C'. apply andb_prop in C'. destruct C' as [C1 C2].
  assert (AB : a <= b) by (unfold rleb in C1; destruct (Rle_dec a b); [ assumption | discriminate ]).
  specialize (IH C2). destruct j as [ | j ].
  - assert (i = 0%nat) by lia. subst i. lra.
  - destruct i as [ | i ].
    + apply Rle_trans with b; [ exact AB | ]. exact (IH 0%nat j ltac:(cbn [length] in *; lia)).
    + exact (IH i j ltac:(cbn [length] in *; lia)).
Qed.
Print Assumptions C67_rejects.

(** ** Concrete case: a straight line through two points *)
Definition line_knots : list R := [-1; 0; 1; 2].
Lemma line_evenly : evenly 2 1 0 1 line_knots.
Proof.
  split; [ reflexivity | ]. intros i L. cbn [length line_knots] in L.
  do 4 (destruct i as [ | i ]; [ unfold knot, line_knots; cbn [nth INR Nat.sub]; lra | ]). lia.
Qed.

Lemma line_well_posed : forall b1, set_knots_and_coefs new2 line_knots 1 2 (fun _ _ => 0) = Ok b1 ->
  well_posed b1 2 0 1 [0; 1] 1 1 (penalty_order 2).
Proof.
  intros b1 E x bx EX [f [g [En [AF [AG [IE EJ]]]]]].
  destruct (evenly_facts 2 1 0 1 line_knots ltac:(lia) ltac:(lia) line_evenly) as [ND [LE [FT LT]]]; [ cbn [INR]; lra | ].
  assert (B1 : built 2 line_knots 1 2 (fun _ _ => 0) b1).
  { exists new2. split; [ reflexivity | ]. split; [ lia | ]. split; [ cbn; lia | exact E ]. }
  assert (BX := built_with_coefs 2 line_knots 1 2 _ b1 x bx B1 EX).
  assert (EP : 0 <= En).
  { apply (is_RInt_ge_0 _ _ _ _ Rle_0_1 IE). intros t _. cbn [total]. assert (X := Rle_0_sqr (g 0%nat t)). unfold Rsqr in X. lra. }
  cbn [length total nth] in EJ.
  assert (P0 := pow2_ge_0 (f 0%nat 0 - 0)). assert (P1 := pow2_ge_0 (f 0%nat 1 - 0)).
  assert (F0 : f 0%nat 0 = 0). { assert (Z : (f 0%nat 0 - 0) ^ 2 = 0) by lra. apply Rsqr_0_uniq. unfold Rsqr. lra. }
  assert (F1 : f 0%nat 1 = 0). { assert (Z : (f 0%nat 1 - 0) ^ 2 = 0) by lra. apply Rsqr_0_uniq. unfold Rsqr. lra. }
  destruct (AF 0%nat ltac:(lia) 0 ltac:(lra)) as [v0 [E0 V0]]. destruct (AF 0%nat ltac:(lia) 1 ltac:(lra)) as [v1 [E1 V1]].
  destruct (C64_value 2 line_knots 1 2 _ bx 0 BX ND) as [w0 [G0 W0]].
  { rewrite FT, LT. lra. }
  { left. rewrite LT. lra. }
  destruct (C64_value_at_end 2 line_knots 1 2 _ bx BX ND) as [w1 [G1 W1]].
  { unfold last_knot, last_time, line_knots, knot. cbn [nth length Nat.sub]. lra. }
  rewrite LT in G1, W1. unfold eval in G0, G1. change (Z.of_nat 0) with 0%Z in E0, E1.
  assert (w0 = v0) by congruence. assert (w1 = v1) by congruence. subst w0 w1.
  assert (A0 : x 0%nat = 0).
  { rewrite <- F0, <- V0, (W0 0%nat). unfold curve, line_knots, knot. cbn [total cox nth Nat.add Nat.mul]. unfold ratio, indicator.
    repeat match goal with
    | |- context [Req_EM_T ?a ?b] => destruct (Req_EM_T a b); try lra
    | |- context [Rle_dec ?a ?b] => destruct (Rle_dec a b); try lra
    | |- context [Rlt_dec ?a ?b] => destruct (Rlt_dec a b); try lra
    end. }
  assert (A1 : x 1%nat = 0).
  { rewrite <- F1, <- V1, (W1 0%nat). unfold curve, line_knots, knot. cbn [total cox nth Nat.add Nat.mul]. unfold ratio, indicator.
    repeat match goal with
    | |- context [Req_EM_T ?a ?b] => destruct (Req_EM_T a b); try lra
    | |- context [Rle_dec ?a ?b] => destruct (Rle_dec a b); try lra
    | |- context [Rlt_dec ?a ?b] => destruct (Rlt_dec a b); try lra
    end. }
  intros i Li. destruct i as [ | i ]; [ exact A0 | ]. destruct i as [ | i ]; [ exact A1 | lia ].
Qed.

Example C67_ex : forall solve pts, solver_ok solve ->
  exists b', init_spline3 solve new2 [0; 1] 1 2 pts 1 1 = Ok b' /\ minimises b' 2 0 1 [0; 1] 1 pts 1 1.
Proof.
  intros solve pts SO.
  destruct (C67_init_spline3 solve new2 2 [0; 1] 1 pts 1 1 line_knots SO) as [b' [E [_ [_ [_ M]]]]].
  - reflexivity.
  - lia.
  - cbn; lia.
  - cbn; lia.
  - lia.
  - lia.
  - lra.
  - intros i j [A B]. cbn [length] in B. destruct i as [ | [ | i ]]; destruct j as [ | [ | j ]]; try lia; unfold knot; cbn [nth]; lra.
  - cbn [last hd INR]. lra.
  - exact line_evenly.
  - exact line_well_posed.
  - exists b'. split; [ exact E | exact M ].
Qed.
