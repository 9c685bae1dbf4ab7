(** * The motion error of a straight line: facts about curves for C87 *)
From Coquelicot Require Import Coquelicot.
From Coq Require Import Reals List Arith ZArith Bool Lia Lra.
From Verif Require Import Base BsplModel BsplSpec BsplProofs BsdProofs BsplProps BsdProps BsqModel BsqProofs BsqProps.
Import ListNotations.
Local Open Scope R_scope.

(** One segment from 1 to 2 of a curve of order 2 with coefficients [c]. *)
Definition knots_line : list R := [0; 1; 2; 3].
Lemma knots_line_nd : nondecreasing knots_line.
Proof.
  apply nd_list. intros i Hi. cbn [length knots_line] in Hi.
  do 3 (destruct i as [ | i ]; [ unfold knot, knots_line; cbn [nth]; lra | ]). lia.
Qed.
Lemma knots_line_times : first_time 2 knots_line = 1 /\ last_time 2 knots_line = 2 /\ last_knot 2 knots_line = 1 /\ long_end 2 knots_line.
Proof.
  unfold long_end, first_time, last_time, last_knot, knot, knots_line. cbn [nth length Nat.sub].
  split; [ reflexivity | ]. split; [ reflexivity | ]. split; [ reflexivity | lra ].
Qed.
Lemma line_built c : exists b, built 2 knots_line 1 2 c b.
Proof.
  destruct (C64_set_knots new2 knots_line 1 2 c) as [H _];
    [ cbn [order new2]; lia | cbn [knots new2 length]; lia | exact knots_line_nd | ].
  destruct H as [b [E _]]; [ cbn; lia | cbn; lia | ]. exists b.
  exists new2. split; [ reflexivity | ]. split; [ lia | ]. split; [ cbn; lia | exact E ].
Qed.
Lemma line_slope c b f : built 2 knots_line 1 2 c b -> is_evalD b 1 2 1 0 f -> forall t, 1 < t < 2 -> f t = c 0%nat 1%nat - c 0%nat 0%nat.
Proof.
  intros H F1 t I. destruct knots_line_times as (T1 & T2 & T3 & LE).
  destruct (C65_total 2 knots_line 1 2 c b 0 H knots_line_nd LE) as (F & HF).
  assert (VAL : forall z, 1 < z < 2 -> F 0%nat z = c 0%nat 0%nat * (2 - z) + c 0%nat 1%nat * (z - 1)).
  { intros z Iz. destruct (C64_value 2 knots_line 1 2 c b z H knots_line_nd) as (v & EV & V).
    { rewrite T1, T2. lra. }
    { right. rewrite T3. lra. }
    destruct (HF 0%nat z ltac:(rewrite T1, T2; lra)) as (w & EW & <-). change (eval_D b z (Z.of_nat 0)) with (eval b z) in EW.
    assert (w = v) by congruence. subst w. rewrite V.
    unfold curve, knots_line, knot. cbn [total cox nth Nat.add]. unfold ratio, indicator.
    repeat match goal with
    | |- context [Req_EM_T ?a ?b] => destruct (Req_EM_T a b); try lra
    | |- context [Rle_dec ?a ?b] => destruct (Rle_dec a b); try lra
    | |- context [Rlt_dec ?a ?b] => destruct (Rlt_dec a b); try lra
    end. }
  assert (D : is_derive (F 0%nat) t (f t)).
  { apply (C65_derivative 2 knots_line 1 2 c b 0 0 (F 0%nat) f t 1 H knots_line_nd LE).
    - apply HF.
    - rewrite T1, T2. exact F1.
    - lia.
    - unfold knot, knots_line. cbn [nth Nat.add]. exact I. }
  assert (D' : is_derive (F 0%nat) t (c 0%nat 1%nat - c 0%nat 0%nat)).
  { apply (is_derive_ext_loc (fun z => c 0%nat 0%nat * (2 - z) + c 0%nat 1%nat * (z - 1))).
    - assert (P : 0 < Rmin (t - 1) (2 - t)) by (apply Rmin_glb_lt; lra).
      exists (mkposreal _ P). intros z Bz. symmetry. apply VAL.
      unfold ball in Bz. cbn in Bz. unfold AbsRing_ball, abs, minus, plus, opp in Bz. cbn in Bz.
      pose proof (Rmin_l (t - 1) (2 - t)). pose proof (Rmin_r (t - 1) (2 - t)). apply Rabs_def2 in Bz. lra.
    - generalize (c 0%nat 0%nat) (c 0%nat 1%nat). intros a e. auto_derive; [ exact Logic.I | ].
      match goal with |- ?x = ?y => change (@eq R x y) end. ring. }
  apply is_derive_unique in D, D'. congruence.
Qed.

(** The integral of the squared slope. *)
Lemma line_penalty c b Q : built 2 knots_line 1 2 c b -> curve_Q b 1 1 (fun _ _ => 1) 1 = Ok Q ->
  forall x, bil 2 Q x x = (x 1%nat - x 0%nat) * (x 1%nat - x 0%nat).
Proof.
  intros H E x. destruct knots_line_times as (T1 & T2 & T3 & LE).
  destruct (built_wf _ _ _ _ _ _ H knots_line_nd) as [WF [O [K [DD [NC [_ [K2 [CC LL]]]]]]]].
  destruct (C66_curve 2 knots_line 1 2 c b (fun _ _ => 1) 1 H knots_line_nd LE) as [HS _].
  destruct HS as (Q' & E' & R'). { intros i j _ _. rewrite Rminus_eq_0, Rabs_R0. lra. }
  change (Z.of_nat 1) with 1%Z in E'. assert (Q' = Q) by congruence. subst Q'. rewrite T1, T2 in R'. change (1 * 2)%nat with 2%nat in R'.
  assert (SB : set_coef_vector b 2 x = Ok (with_coefs b x)).
  { unfold set_coef_vector, with_coefs. rewrite DD, NC. reflexivity. }
  assert (HX : built 2 knots_line 1 2 (fun r i => x (i * 1 + r)%nat) (with_coefs b x)).
  { destruct H as (b0 & B1 & B2 & B3 & B4). exists b0. split; [ exact B1 | ]. split; [ exact B2 | ]. split; [ exact B3 | ].
    revert B4. unfold set_knots_and_coefs. destruct (verify_knots _ _); cbn [obind]; try discriminate. destruct (num_coefs_required _ _ =? 2)%nat; [ | discriminate ].
    destruct (init_bases _ _) as [ bs | | | ]; cbn [obind]; try discriminate.
    intros B4. assert (X : b = BSp (order b0) knots_line 1 2 c bs) by congruence. rewrite X. reflexivity. }
  destruct (C65_total 2 knots_line 1 2 _ _ 1 HX knots_line_nd LE) as (F & HF). rewrite T1, T2 in HF.
  assert (I1 := R' x x _ _ F F SB SB (fun i _ => HF i) (fun i _ => HF i)).
  assert (I2 : is_RInt (weighted 1 (fun _ _ => 1) F F) 1 2 ((x 1%nat - x 0%nat) * (x 1%nat - x 0%nat))).
  { apply (is_RInt_ext (V := R_NormedModule) (fun _ => (x 1%nat - x 0%nat) * (x 1%nat - x 0%nat))).
    - intros t It. rewrite Rmin_left, Rmax_right in It by lra. unfold weighted. cbn [total].
      rewrite (line_slope _ _ (F 0%nat) HX (HF 0%nat) t It). cbn [Nat.add Nat.mul]. match goal with |- ?a = ?b => change (@eq R a b) end. ring.
    - evar_last; [ apply (is_RInt_const (V := R_NormedModule)) | ]. unfold scal. cbn. unfold mult. cbn. ring. }
  apply (is_RInt_unique (V := R_CompleteNormedModule)) in I1, I2. etransitivity; [ | exact I2 ]. etransitivity; [ | symmetry; exact I1 ].
  reflexivity.
Qed.

(** ** Error values as integrals, with the order of the derivative made explicit *)
Lemma curve_error k l D C c b W d : built k l D C c b -> nondecreasing l -> long_end k l ->
  (forall i j, (i < D)%nat -> (j < D)%nat -> Rabs (W i j - W j i) <= / 10 ^ 14) ->
  exists Q, curve_Q b D D W (Z.of_nat d) = Ok Q /\
    forall x bx f, set_coef_vector b (D * C) x = Ok bx ->
      (forall i, (i < D)%nat -> is_evalD bx (first_time k l) (last_time k l) d i (f i)) ->
      is_RInt (weighted D W f f) (first_time k l) (last_time k l) (bil (D * C) Q x x).
Proof.
  intros H ND LE S. destruct (C66_curve k l D C c b W d H ND LE) as [HS _]. destruct (HS S) as (Q & E & R').
  exists Q. split; [ exact E | ]. intros x bx f EX A. assert (I := R' x x bx bx f f EX EX A A).
  replace (bil (D * C) Q x x) with (form (D * C) Q (fun i => x (0 + i)%nat) (fun i => x (0 + i)%nat)); [ exact I | ].
  reflexivity.
Qed.
Lemma curve_asymmetric k l D C c b W d : built k l D C c b -> nondecreasing l -> long_end k l ->
  (exists i j, (i < D)%nat /\ (j < D)%nat /\ / 10 ^ 14 < Rabs (W i j - W j i)) -> segment_Q b D D W 0 (Z.of_nat d) = Throw.
Proof.
  intros H ND LE (i & j & Li & Lj & A).
  destruct (built_wf _ _ _ _ _ _ H ND) as [WF [O [K [DD [NC [_ [K2 [CC LL]]]]]]]]. rewrite <- DD in *.
  assert (SY : symmetric_check (dim b) W = false).
  { destruct (symmetric_check (dim b) W) eqn:S; [ | reflexivity ]. rewrite symmetric_check_iff in S.
    specialize (S i j Li Lj). lra. }
  destruct (segment_matrices b 0 WF) as [m [Dm [_ [ED [EV [EM _]]]]]]; [ lia | ].
  unfold segment_Q. rewrite bases_length by exact WF. destruct (Nat.ltb_spec 0 (ncols b + 1 - order b)); [ | lia ].
  rewrite Nat.eqb_refl. cbn [andb]. rewrite ED. cbn [obind]. rewrite EV. cbn [obind]. rewrite EM. cbn [obind].
  rewrite SY. reflexivity.
Qed.
