(** * C88: motion error terms added segment by segment *)
From Coquelicot Require Import Coquelicot.
From Coq Require Import Reals List Arith ZArith Bool Lia Lra.
From Verif Require Import Base BsplModel BsplSpec BsplProofs BsdProofs BsplProps BsdProps BsqModel BsqProofs BsqProps MeCurve MeLine.
From Verif Require Import SplModel SplSpec SplProofs MgModel MfModel MfSpec MfProofs.
Import ListNotations.
Local Open Scope R_scope.

(** The decomposition is right for the matrices of the curve. *)
Definition svd_right (svd : nat -> mat -> mat * vec) (k D C : nat) (b : bspline) (W : mat) (d : nat) : Prop :=
  forall s M, (s + k <= C)%nat -> segment_Q b D D W s (Z.of_nat d) = Ok M ->
    decomposes (k * D) M (fst (svd (k * D)%nat M)) (snd (svd (k * D)%nat M)).

(** The matrix of segmentIntegral is a square root of the matrix of the
    integral over the segment: for any coefficients, the squared length of the
    product is the integral. *)
Theorem C88_root : forall svd k l D C c b W d s, built k l D C c b -> nondecreasing l -> long_end k l -> (1 <= D)%nat -> psd D W ->
  svd_right svd k D C b W d -> (s + k <= C)%nat ->
  exists R', segment_integral svd b D D W s (Z.of_nat d) = Ok R' /\
    forall x bx f, set_coef_vector b (D * C) x = Ok bx ->
      (forall i, (i < D)%nat -> is_evalD bx (first_time k l) (last_time k l) d i (f i)) ->
      is_RInt (weighted D W f f) (knot l (s + k - 1)) (knot l (s + k))
        (total (k * D) (fun i => total (k * D) (fun j => R' i j * x (s * D + j)%nat) * total (k * D) (fun j => R' i j * x (s * D + j)%nat))).
Proof.
  intros svd k l D C c b W d s H ND LE PD PW SR L.
  destruct (built_wf _ _ _ _ _ _ H ND) as [WF [O [K [DD [NC [_ [K2 [CC LL]]]]]]]].
  destruct (segment_psd k l D C c b W d s H ND LE PD PW L) as (M & E & PM & HR).
  unfold segment_integral. rewrite E. cbn [obind]. rewrite O, DD. assert (DC := SR s M L E).
  destruct (svd (k * D)%nat M) as [U sg]. cbn [fst snd] in DC. eexists. split; [ reflexivity | ].
  intros x bx f EX A. assert (I := HR x bx f EX A).
  rewrite <- (square_form (k * D) (fun i j => U j i * sqrt (sg i)) M) in I; [ exact I | ].
  intros i j Li Lj. exact (svd_root (k * D) M U sg PM DC i j Li Lj).
Qed.
Print Assumptions C88_root.

Lemma made svd sv k l D C c W d : aligned sv -> built k l D C c (cv sv) -> nondecreasing l -> long_end k l -> (1 <= D)%nat -> psd D W ->
  (Z.of_nat d < 2 ^ 31)%Z -> svd_right svd k D C (cv sv) W d ->
  exists ts, add_motion_terms svd sv D D W (Z.of_nat d) = Ok ts /\ length ts = (C + 1 - k)%nat /\
  forall sv', aligned sv' -> same_vars sv sv' ->
    let x := fun a => previous sv' (a / D)%nat (a mod D)%nat - 2 * coef (cv sv) (a mod D)%nat (a / D)%nat in
    exists e, terms_cost sv' ts = Ok e /\
      forall y by' f, ((forall a, (a < D * C)%nat -> y a = x a) \/ (forall a, (a < D * C)%nat -> y a = - x a)) ->
        set_coef_vector (cv sv) (D * C) y = Ok by' ->
        (forall i, (i < D)%nat -> is_evalD by' (first_time k l) (last_time k l) d i (f i)) ->
        is_RInt (weighted D W f f) (first_time k l) (last_time k l) e.
Proof.
  intros A H ND LE PD PW LD SR.
  destruct (built_wf _ _ _ _ _ _ H ND) as [WF [O [K [DD [NC [_ [K2 [CC LL]]]]]]]].
  assert (NS : num_segments (cv sv) = (C + 1 - k)%nat) by (rewrite (num_segments_wf _ WF), O, NC; lia).
  assert (CH : forall s, exists M, (s + k <= C)%nat -> segment_Q (cv sv) D D W s (Z.of_nat d) = Ok M /\ psd (k * D) M /\
    forall x bx f, set_coef_vector (cv sv) (D * C) x = Ok bx ->
      (forall i, (i < D)%nat -> is_evalD bx (first_time k l) (last_time k l) d i (f i)) ->
      is_RInt (weighted D W f f) (knot l (s + k - 1)) (knot l (s + k)) (bil (k * D) M (fun i => x (s * D + i)%nat) (fun i => x (s * D + i)%nat))).
  { intros s. destruct (Nat.le_gt_cases (s + k) C) as [L | L].
    - destruct (segment_psd k l D C c (cv sv) W d s H ND LE PD PW L) as (M & X). exists M. intros _. exact X.
    - exists (fun _ _ => 0). intros. lia. }
  set (Ms := fun s => match segment_Q (cv sv) D D W s (Z.of_nat d) with Ok M => M | _ => fun _ _ => 0 end).
  assert (CM : forall s, (s + k <= C)%nat -> segment_Q (cv sv) D D W s (Z.of_nat d) = Ok (Ms s) /\ psd (k * D) (Ms s) /\
    forall x bx f, set_coef_vector (cv sv) (D * C) x = Ok bx ->
      (forall i, (i < D)%nat -> is_evalD bx (first_time k l) (last_time k l) d i (f i)) ->
      is_RInt (weighted D W f f) (knot l (s + k - 1)) (knot l (s + k)) (bil (k * D) (Ms s) (fun i => x (s * D + i)%nat) (fun i => x (s * D + i)%nat))).
  { intros s L. destruct (CH s) as (M & X). destruct (X L) as (E & P & R'). unfold Ms. rewrite E. split; [ reflexivity | ]. split; [ exact P | exact R' ]. }
  exists (map (fun s => term_of svd sv (Ms s) s) (seq 0 (num_segments (cv sv)))). split; [ | split ].
  - unfold add_motion_terms. apply collect_ok. intros s Hs. apply in_seq in Hs. rewrite NS in Hs.
    assert (X := motion_term_ok svd sv W (Z.of_nat d) (Ms s) s A WF ltac:(rewrite NS; lia) ltac:(lia)). rewrite DD in X. apply X.
    apply CM. lia.
  - rewrite map_length, seq_length. exact NS.
  - intros sv' A' SV x.
    set (e := fun s => bil (k * D) (Ms s) (fun i => x (s * D + i)%nat) (fun i => x (s * D + i)%nat)).
    exists (bsum (num_segments (cv sv)) (fun s => e (0 + s)%nat)). split.
    + apply terms_cost_sum. intros s Hs. rewrite NS in Hs. destruct (CM s ltac:(lia)) as (ES & PM & _).
      assert (X := term_cost_ok svd sv sv' (Ms s) s A A' SV). rewrite O, DD, NC in X. cbv zeta in X. apply X; try lia; try assumption.
      apply (SR s); [ lia | exact ES ].
    + intros y by' f YX EY AF. rewrite NS.
      assert (EQ : forall s, (s + k <= C)%nat -> e s = bil (k * D) (Ms s) (fun i => y (s * D + i)%nat) (fun i => y (s * D + i)%nat)).
      { intros s L. unfold e. assert (LT : forall i, (i < k * D)%nat -> (s * D + i < D * C)%nat) by (intros i Li; nia). destruct YX as [YX | YX].
        - apply bil_ext; [ reflexivity | | ]; intros i Li; rewrite YX by (apply LT; exact Li); reflexivity.
        - transitivity (bil (k * D) (Ms s) (fun i => - x (s * D + i)%nat) (fun i => - x (s * D + i)%nat)).
          + unfold bil. apply bsum_ext. intros i _. transitivity (- x (s * D + i)%nat * (-1 * bsum (k * D) (fun j => Ms s i j * x (s * D + j)%nat))); [ ring | ].
            f_equal. rewrite <- bsum_scal. apply bsum_ext. intros j _. ring.
          + apply bil_ext; [ reflexivity | | ]; intros i Li; rewrite YX by (apply LT; exact Li); reflexivity. }
      assert (X := chasles (weighted D W f f) (fun i => knot l i) e (C + 1 - k) (k - 1)).
      unfold first_time, last_time. replace (length l - k)%nat with (k - 1 + (C + 1 - k))%nat by lia.
      apply X. intros i Li. rewrite (EQ i) by lia. destruct (CM i ltac:(lia)) as (_ & _ & HR).
      replace (k - 1 + i)%nat with (i + k - 1)%nat by lia. replace (i + k - 1 + 1)%nat with (i + k)%nat by lia. exact (HR y by' f EY AF).
Qed.

Lemma create_previous b i r : (i < ncols b)%nat -> previous (create b) i r = coef b r i.
Proof.
  intros L. unfold previous, create. cbn [vars]. rewrite nth_error_map.
  assert (E : nth_error (seq 0 (ncols b)) i = Some i).
  { rewrite (nth_error_nth' _ 0%nat) by (rewrite seq_length; exact L). rewrite seq_nth by exact L. reflexivity. }
  rewrite E. reflexivity.
Qed.

(** For new variables of a curve one term per segment is made, and the squared
    errors of the terms add up to the integral of the weighted square of the
    derivative over the whole curve. *)
Theorem C88_created : forall svd k l D C c b W d f, built k l D C c b -> nondecreasing l -> long_end k l -> (1 <= D)%nat -> psd D W ->
  (Z.of_nat d < 2 ^ 31)%Z -> svd_right svd k D C b W d ->
  (forall i, (i < D)%nat -> is_evalD b (first_time k l) (last_time k l) d i (f i)) ->
  exists ts e, add_motion_terms svd (create b) D D W (Z.of_nat d) = Ok ts /\ length ts = (C + 1 - k)%nat /\
    terms_cost (create b) ts = Ok e /\ is_RInt (weighted D W f f) (first_time k l) (last_time k l) e.
Proof.
  intros svd k l D C c b W d f H ND LE PD PW LD SR AF.
  destruct (built_wf _ _ _ _ _ _ H ND) as [WF [O [K [DD [NC [_ [K2 [CC LL]]]]]]]].
  destruct (made svd (create b) k l D C c W d (create_aligned b) H ND LE PD PW LD SR) as (ts & E & LT & X).
  destruct (X (create b) (create_aligned b)) as (e & EE & R').
  { split; [ reflexivity | ]. split; [ reflexivity | ]. split; reflexivity. }
  exists ts, e. split; [ exact E | ]. split; [ exact LT | ]. split; [ exact EE | ].
  set (y := fun a => coef b (a mod D)%nat (a / D)%nat).
  assert (PA : forall a, (a < D * C)%nat -> previous (create b) (a / D)%nat (a mod D)%nat = y a).
  { intros a La. apply create_previous. rewrite NC. apply Nat.div_lt_upper_bound; lia. }
  apply (R' y (with_coefs b y) f).
  - right. intros a La. cbn [cv create]. rewrite (PA a La). unfold y. ring.
  - unfold set_coef_vector, with_coefs. cbn [cv create]. rewrite DD, NC, Nat.eqb_refl. reflexivity.
  - intros i Li t I. destruct (AF i Li t I) as (v & EV & V).
    destruct (located_closed b t WF) as [s [LO [P _]]].
    { rewrite (proj1 (built_times _ _ _ _ _ _ H ND)), (proj1 (proj2 (built_times _ _ _ _ _ _ H ND))). exact I. }
    { unfold resolved. destruct (built_times _ _ _ _ _ _ H ND) as [T1 [T2 T3]]. unfold long_end in LE. rewrite T2, T3.
      destruct (Rle_dec (last_knot k l) t); [ right; assumption | left; lra ]. }
    { destruct (built_times _ _ _ _ _ _ H ND) as [T1 [T2 T3]]. unfold long_end in LE. rewrite T2, T3. lra. }
    destruct (eval_D_ok b t s (Z.of_nat d) WF LO P) as [m [v1 [EM [E1 V1]]]]; [ lia | ].
    destruct (eval_D_ok (with_coefs b y) t s (Z.of_nat d) (with_coefs_wf b y WF) LO P) as [m2 [v2 [EM2 [E2 V2]]]]; [ lia | ].
    exists v2. split; [ exact E2 | ]. assert (v1 = v) by congruence. subst v1. rewrite <- V, V2, V1.
    assert (m2 = m) by (change (basis_M (knots (with_coefs b y))) with (basis_M (knots b)) in EM2; cbn [with_coefs order knots] in EM2; congruence). subst m2.
    unfold piece. cbn [with_coefs order]. apply bsum_ext. intros q Lq. f_equal. unfold with_coefs, y. cbn [coef].
    rewrite DD. f_equal; [ rewrite Nat.add_comm, Nat.mod_add by lia; apply Nat.mod_small; exact Li | ].
    rewrite Nat.div_add_l by lia. rewrite (Nat.div_small i D) by exact Li. lia.
Qed.
Print Assumptions C88_created.

(** Later, the terms made in a state [sv] add up to the integral for another
    curve: that with the values the variables had before their last change,
    minus twice the values they had when the terms were made. *)
Theorem C88_later : forall svd k l D C c sv W d ops sv', reachable sv -> built k l D C c (cv sv) -> nondecreasing l -> long_end k l -> (1 <= D)%nat ->
  psd D W -> (Z.of_nat d < 2 ^ 31)%Z -> svd_right svd k D C (cv sv) W d -> Forall value_op ops -> run sv ops = Ok sv' ->
  exists ts e, add_motion_terms svd sv D D W (Z.of_nat d) = Ok ts /\ terms_cost sv' ts = Ok e /\
    forall x bx f, (forall a, (a < D * C)%nat -> x a = previous sv' (a / D)%nat (a mod D)%nat - 2 * c (a mod D)%nat (a / D)%nat) ->
      set_coef_vector (cv sv) (D * C) x = Ok bx ->
      (forall i, (i < D)%nat -> is_evalD bx (first_time k l) (last_time k l) d i (f i)) ->
      is_RInt (weighted D W f f) (first_time k l) (last_time k l) e.
Proof.
  intros svd k l D C c sv W d ops sv' RE H ND LE PD PW LD SR FO ER.
  destruct (built_wf _ _ _ _ _ _ H ND) as [WF [O [K [DD [NC [CO [K2 [CC LL]]]]]]]].
  assert (A := reachable_aligned sv RE). destruct (made svd sv k l D C c W d A H ND LE PD PW LD SR) as (ts & E & _ & X).
  destruct (X sv' (run_aligned ops sv sv' A ER) (run_same ops sv sv' FO ER)) as (e & EE & R').
  exists ts, e. split; [ exact E | ]. split; [ exact EE | ]. intros x bx f HX EX AF.
  rewrite CO in R'. apply (R' x bx f); [ left; exact HX | exact EX | exact AF ].
Qed.
Print Assumptions C88_later.

(** ** A straight line of slope one, from 1 to 2 *)
Definition up : nat -> nat -> R := fun _ i => INR i.
Definition flat_W : mat := fun _ _ => 1.
Definition line_svd (n : nat) (M : mat) : mat * vec :=
  (fun i k => match i, k with 1%nat, 0%nat => - / sqrt 2 | _, _ => / sqrt 2 end, fun k => match k with 0%nat => 2 | _ => 0 end).
Lemma with_coefs_built c b x : built 2 knots_line 1 2 c b -> built 2 knots_line 1 2 (fun r i => x (i * 1 + r)%nat) (with_coefs b x).
Proof.
  intros (b0 & B1 & B2 & B3 & B4). exists b0. split; [ exact B1 | ]. split; [ exact B2 | ]. split; [ exact B3 | ].
  revert B4. unfold set_knots_and_coefs. destruct (verify_knots _ _); cbn [obind]; try discriminate. destruct (num_coefs_required _ _ =? 2)%nat; [ | discriminate ].
  destruct (init_bases _ _) as [ bs | | | ]; cbn [obind]; try discriminate.
  intros B4. assert (X : b = BSp (order b0) knots_line 1 2 c bs) by congruence. rewrite X. reflexivity.
Qed.
Lemma line_integral c b f : built 2 knots_line 1 2 c b -> is_evalD b 1 2 1 0 (f 0%nat) ->
  is_RInt (weighted 1 flat_W f f) 1 2 ((c 0%nat 1%nat - c 0%nat 0%nat) * (c 0%nat 1%nat - c 0%nat 0%nat)).
Proof.
  intros H F. apply (is_RInt_ext (V := R_NormedModule) (fun _ => (c 0%nat 1%nat - c 0%nat 0%nat) * (c 0%nat 1%nat - c 0%nat 0%nat))).
  - intros t It. rewrite Rmin_left, Rmax_right in It by lra. unfold weighted, flat_W. cbn [total].
    rewrite (line_slope _ _ (f 0%nat) H F t It). match goal with |- ?a = ?b => change (@eq R a b) end. ring.
  - evar_last; [ apply (is_RInt_const (V := R_NormedModule)) | ]. unfold scal. cbn. unfold mult. cbn. ring.
Qed.
Lemma flat_psd : psd 1 flat_W.
Proof. split; [ reflexivity | ]. intros x. cbn [total]. unfold flat_W. assert (X := Rle_0_sqr (x 0%nat)). unfold Rsqr in X. lra. Qed.
Lemma line_M c b M : built 2 knots_line 1 2 c b -> segment_Q b 1 1 flat_W 0 (Z.of_nat 1) = Ok M ->
  M 0%nat 0%nat = 1 /\ M 0%nat 1%nat = -1 /\ M 1%nat 0%nat = -1 /\ M 1%nat 1%nat = 1.
Proof.
  intros H E. destruct knots_line_times as (T1 & T2 & T3 & LE).
  destruct (segment_psd 2 knots_line 1 2 c b flat_W 1 0 H knots_line_nd LE ltac:(lia) flat_psd ltac:(lia)) as (M' & E' & [SY _] & HR).
  assert (M' = M) by congruence. subst M'. rewrite T1, T2 in HR.
  assert (P : forall x, bil 2 M x x = (x 1%nat - x 0%nat) * (x 1%nat - x 0%nat)).
  { intros x. destruct (total_derivs 2 knots_line 1 2 c b 1 x H knots_line_nd LE) as (F & SC & A). rewrite T1, T2 in A.
    assert (I1 := HR x _ F SC (fun i _ => A i)). change (knot knots_line (0 + 2 - 1)) with 1 in I1. change (knot knots_line (0 + 2)) with 2 in I1.
    assert (I2 := line_integral _ _ F (with_coefs_built c b x H) (A 0%nat)). cbn [Nat.mul Nat.add] in I1, I2.
    apply (is_RInt_unique (V := R_CompleteNormedModule)) in I1, I2. etransitivity; [ symmetry; exact I1 | exact I2 ]. }
  assert (S : M 0%nat 1%nat = M 1%nat 0%nat) by (apply SY; cbn; lia).
  assert (P1 := P (fun i => match i with 0%nat => 1 | _ => 0 end)). assert (P2 := P (fun i => match i with 0%nat => 0 | _ => 1 end)).
  assert (P3 := P (fun _ => 1)). unfold bil, bsum in P1, P2, P3. split; [ lra | ]. split; [ lra | ]. split; lra.
Qed.
Lemma line_decomposed c b : built 2 knots_line 1 2 c b -> svd_right line_svd 2 1 2 b flat_W 1.
Proof.
  intros H s M L E. assert (s = 0%nat) by lia. subst s. destruct (line_M c b M H E) as (M0 & M1 & M2 & M3).
  assert (RT : / sqrt 2 * / sqrt 2 = 1 / 2).
  { rewrite <- Rinv_mult. rewrite sqrt_sqrt by lra. lra. }
  change (2 * 1)%nat with 2%nat. unfold line_svd. cbn [fst snd].
  assert (OR : orthonormal 2 (fun i k => match i, k with 1%nat, 0%nat => - / sqrt 2 | _, _ => / sqrt 2 end)).
  { intros i j Li Lj. destruct i as [ | [ | i ] ]; [ | | lia ]; (destruct j as [ | [ | j ] ]; [ | | lia ]); cbn [total Nat.eqb]; nra. }
  split; [ exact OR | ]. split.
  - intros i Li. destruct i; lra.
  - exists (fun i k => match i, k with 1%nat, 0%nat => - / sqrt 2 | _, _ => / sqrt 2 end). split; [ exact OR | ].
    intros i j Li Lj. destruct i as [ | [ | i ] ]; [ | | lia ]; (destruct j as [ | [ | j ] ]; [ | | lia ]); cbn [total]; rewrite ?M0, ?M1, ?M2, ?M3; nra.
Qed.

(** The hypotheses of the theorems are met by this line; the error is that of
    its slope. *)
Example C88_ex : exists b ts, built 2 knots_line 1 2 up b /\ nondecreasing knots_line /\ long_end 2 knots_line /\ psd 1 flat_W /\
  svd_right line_svd 2 1 2 b flat_W 1 /\ add_motion_terms line_svd (create b) 1 1 flat_W (Z.of_nat 1) = Ok ts /\ terms_cost (create b) ts = Ok 1.
Proof.
  destruct (line_built up) as (b & H). destruct knots_line_times as (T1 & T2 & T3 & LE). assert (SR := line_decomposed up b H).
  destruct (C65_total 2 knots_line 1 2 up b 1 H knots_line_nd LE) as (F & HF).
  destruct (C88_created line_svd 2 knots_line 1 2 up b flat_W 1 F H knots_line_nd LE ltac:(lia) flat_psd ltac:(reflexivity) SR (fun i _ => HF i)) as (ts & e & E & _ & EC & I1).
  exists b, ts. split; [ exact H | ]. split; [ exact knots_line_nd | ]. split; [ exact LE | ]. split; [ exact flat_psd | ]. split; [ exact SR | ]. split; [ exact E | ].
  rewrite EC. f_equal. rewrite T1, T2 in *. assert (I2 := line_integral up b F H (HF 0%nat)).
  apply (is_RInt_unique (V := R_CompleteNormedModule)) in I1, I2. unfold up in I2. cbn [INR] in I2.
  transitivity (RInt (weighted 1 flat_W F F) 1 2); [ symmetry; exact I1 | ]. etransitivity; [ exact I2 | ]. ring.
Qed.

(** The terms of a curve in use do not follow it.  After one update of the end
    of the line the errors are what they were, though the slope has doubled;
    after another, which changes nothing, they are zero. *)
Theorem C88_moved_refuted : exists b ts sv1 sv2, built 2 knots_line 1 2 up b /\ psd 1 flat_W /\ svd_right line_svd 2 1 2 b flat_W 1 /\
  add_motion_terms line_svd (create b) 1 1 flat_W (Z.of_nat 1) = Ok ts /\
  run (create b) [Update 1 (fun _ => 1)] = Ok sv1 /\ run sv1 [Update 1 (fun _ => 0)] = Ok sv2 /\
  (forall sv f, In sv [sv1; sv2] -> is_evalD (cv sv) 1 2 1 0 (f 0%nat) -> is_RInt (weighted 1 flat_W f f) 1 2 4) /\
  terms_cost sv1 ts = Ok 1 /\ terms_cost sv2 ts = Ok 0.
Proof.
  destruct (line_built up) as (b & H). destruct knots_line_times as (T1 & T2 & T3 & LE). assert (SR := line_decomposed up b H).
  destruct (built_wf _ _ _ _ _ _ H knots_line_nd) as [WF [O [K [DD [NC [CO _]]]]]].
  assert (RC : reachable (create b)) by (exists b, []; reflexivity).
  assert (OB : object (create b) 1 = Ok (Mapped 1 1 (col b 1))) by (unfold object, create; cbn [vars]; rewrite NC; reflexivity).
  set (sv1 := Spl (put_col b 1 (fun r => col b 1 r + 1)) (with_prev (create b) 1 (col b 1)) (ncols b)).
  assert (U1 : run (create b) [Update 1 (fun _ => 1)] = Ok sv1).
  { cbn [run step]. unfold update. rewrite OB. cbn [obind]. reflexivity. }
  assert (V1 : vars sv1 = [Mapped 0 0 (col b 0); Mapped 1 1 (col b 1)]) by (unfold sv1, with_prev, create; cbn [vars]; rewrite NC; reflexivity).
  assert (OB1 : object sv1 1 = Ok (Mapped 1 1 (col b 1))) by (unfold object; rewrite V1; reflexivity).
  set (x1 := col (cv sv1) 1). set (sv2 := Spl (put_col (cv sv1) 1 (fun r => x1 r + 0)) (with_prev sv1 1 x1) (ncols b)).
  assert (U2 : run sv1 [Update 1 (fun _ => 0)] = Ok sv2).
  { cbn [run step]. unfold update. rewrite OB1. cbn [obind]. reflexivity. }
  assert (V2 : vars sv2 = [Mapped 0 0 (col b 0); Mapped 1 1 x1]) by (unfold sv2, with_prev; cbn [vars]; rewrite V1; reflexivity).
  destruct (C88_later line_svd 2 knots_line 1 2 up (create b) flat_W 1 [Update 1 (fun _ => 1)] sv1 RC H knots_line_nd LE ltac:(lia) flat_psd ltac:(reflexivity) SR)
    as (ts & e1 & ET & E1 & I1); [ constructor; [ exact Logic.I | constructor ] | exact U1 | ].
  destruct (C88_later line_svd 2 knots_line 1 2 up (create b) flat_W 1 [Update 1 (fun _ => 1); Update 1 (fun _ => 0)] sv2 RC H knots_line_nd LE ltac:(lia) flat_psd ltac:(reflexivity) SR)
    as (ts' & e2 & ET' & E2 & I2); [ constructor; [ exact Logic.I | constructor; [ exact Logic.I | constructor ] ] | | ].
  { change (run (create b) [Update 1 (fun _ => 1); Update 1 (fun _ => 0)]) with (do s <- step (create b) (Update 1 (fun _ => 1)); run s [Update 1 (fun _ => 0)]).
    change (run (create b) [Update 1 (fun _ => 1)]) with (do s <- step (create b) (Update 1 (fun _ => 1)); Ok s) in U1.
    destruct (step (create b) (Update 1 (fun _ => 1))) as [ s | | | ]; cbn [obind] in *; try discriminate. assert (s = sv1) by congruence. subst s. exact U2. }
  assert (ts' = ts) by congruence. subst ts'.
  assert (VAL : forall x e, (forall bx f, set_coef_vector b 2 x = Ok bx -> (forall i, (i < 1)%nat -> is_evalD bx 1 2 1 i (f i)) ->
      is_RInt (weighted 1 flat_W f f) 1 2 e) -> e = (x 1%nat - x 0%nat) * (x 1%nat - x 0%nat)).
  { intros x e HI. destruct (total_derivs 2 knots_line 1 2 up b 1 x H knots_line_nd LE) as (F & SC & A). rewrite T1, T2 in A.
    assert (J1 := HI _ F SC (fun i _ => A i)). assert (J2 := line_integral _ _ F (with_coefs_built up b x H) (A 0%nat)). cbn [Nat.mul Nat.add] in J2.
    apply (is_RInt_unique (V := R_CompleteNormedModule)) in J1, J2. etransitivity; [ symmetry; exact J1 | exact J2 ]. }
  rewrite T1, T2 in I1, I2. cbn [cv create] in I1, I2. change (1 * 2)%nat with 2%nat in I1, I2.
  exists b, ts, sv1, sv2. split; [ exact H | ]. split; [ exact flat_psd | ]. split; [ exact SR | ]. split; [ exact ET | ]. split; [ exact U1 | ]. split; [ exact U2 | ].
  assert (X1 : x1 0%nat = 2) by (unfold x1, sv1, col; cbn [cv put_col coef Nat.eqb]; unfold col; rewrite CO; unfold up; cbn [INR]; ring).
  split.
  { intros sv f IN F.
    assert (BU : exists c', built 2 knots_line 1 2 c' (cv sv) /\ c' 0%nat 1%nat - c' 0%nat 0%nat = 2).
    { assert (BP : forall c b' v, built 2 knots_line 1 2 c b' -> built 2 knots_line 1 2 (fun r i => if (i =? 1)%nat then v r else c r i) (put_col b' 1 v)).
      { intros c b' v (b0 & B1 & B2 & B3 & B4). exists b0. split; [ exact B1 | ]. split; [ exact B2 | ]. split; [ exact B3 | ].
        revert B4. unfold set_knots_and_coefs. destruct (verify_knots _ _); cbn [obind]; try discriminate. destruct (num_coefs_required _ _ =? 2)%nat; [ | discriminate ].
        destruct (init_bases _ _) as [ bs | | | ]; cbn [obind]; try discriminate.
        intros B4. assert (X : b' = BSp (order b0) knots_line 1 2 c bs) by congruence. rewrite X. reflexivity. }
      assert (H1 := BP up b (fun r => col b 1 r + 1) H). assert (H2 := BP _ _ (fun r => x1 r + 0) H1).
      destruct IN as [ <- | [ <- | [] ] ].
      - eexists. split; [ exact H1 | ]. cbn [Nat.eqb]. unfold col. rewrite CO. unfold up. cbn [INR]. ring.
      - eexists. split; [ exact H2 | ]. cbn [Nat.eqb]. rewrite X1. unfold up. cbn [INR]. ring. }
    destruct BU as (c' & BU & S). assert (I := line_integral c' (cv sv) f BU F). rewrite S in I. replace 4 with (2 * 2) by ring. exact I. }
  split.
  - rewrite E1. f_equal. rewrite (VAL (fun a => previous sv1 a 0 - 2 * up 0 a) e1).
    + unfold previous. rewrite V1. cbn [nth_error mprev]. unfold col. rewrite CO. unfold up. cbn [INR]. ring.
    + intros bx f EX A. apply (I1 (fun a => previous sv1 a 0 - 2 * up 0 a) bx f); [ | exact EX | exact A ].
      intros a La. rewrite Nat.div_1_r. reflexivity.
  - rewrite E2. f_equal. rewrite (VAL (fun a => previous sv2 a 0 - 2 * up 0 a) e2).
    + unfold previous. rewrite V2. cbn [nth_error mprev]. rewrite X1. unfold col. rewrite CO. unfold up. cbn [INR]. ring.
    + intros bx f EX A. apply (I2 (fun a => previous sv2 a 0 - 2 * up 0 a) bx f); [ | exact EX | exact A ].
      intros a La. rewrite Nat.div_1_r. reflexivity.
Qed.
Print Assumptions C88_moved_refuted.
