(** * The motion of a pose curve *)
From Coquelicot Require Import Coquelicot.
From Coq Require Import Reals List Arith ZArith Lia Psatz.
From Verif Require Import Base KinModel KinSpec KinProofs KinCurve RotModel RotSpec TfModel TfSpec TfProofs
  BsplModel BsplSpec BsplProofs BsdProofs BsplProps BsdProps BpModel BpSpec BpProofs BpProps ExprModel ExprProofs ImuSpec ImuProofs.
Local Open Scope R_scope.

Lemma between (u v t : R) : u < t < v -> locally t (fun s => u < s < v).
Proof.
  intros I. assert (P : 0 < Rmin (t - u) (v - t)) by (apply Rmin_glb_lt; lra).
  exists (mkposreal _ P). intros z Bz.
  unfold ball in Bz. cbn in Bz. unfold AbsRing_ball, abs, minus, plus, opp in Bz. cbn in Bz.
  pose proof (Rmin_l (t - u) (v - t)). pose proof (Rmin_r (t - u) (v - t)).
  apply Rabs_def2 in Bz. lra.
Qed.

Lemma curve_motion : forall K dom k l C c b t j, parametrises K dom ->
  built k l 6 C c b -> nondecreasing l -> long_end k l -> (k - 1 <= j < C)%nat -> knot l j < t < knot l (j + 1) ->
  (forall s, knot l j < s < knot l (j + 1) -> rotation_ok dom b s) ->
  exists (P : R -> v3) (Q : R -> m3) (W : R -> v3) a dw,
    (forall s, knot l j < s < knot l (j + 1) ->
       position b s = Ok (P s) /\ orientation K b s = Ok (Q s) /\ angular_velocity_body K b s = Ok (W s)) /\
    SO3 (Q t) /\ linear_acceleration b t = Ok a /\ v3_derive W t dw /\ body_motion P Q t a (W t) dw.
Proof.
  intros K dom k l C c b t j PK H ND LE J I RO.
  destruct (C65_total k l 6 C c b 0 H ND LE) as (F0 & H0). destruct (C65_total k l 6 C c b 1 H ND LE) as (F1 & H1).
  destruct (C65_total k l 6 C c b 2 H ND LE) as (F2 & H2).
  assert (D0 : forall r s, knot l j < s < knot l (j + 1) -> is_derive (F0 r) s (F1 r s)).
  { intros r s Is. exact (C65_derivative k l 6 C c b 0 r _ _ s j H ND LE (H0 r) (H1 r) J Is). }
  assert (D1 : forall r s, knot l j < s < knot l (j + 1) -> is_derive (F1 r) s (F2 r s)).
  { intros r s Is. exact (C65_derivative k l 6 C c b 1 r _ _ s j H ND LE (H1 r) (H2 r) J Is). }
  assert (VAL : forall d (F : nat -> R -> R), (forall r, is_evalD b (first_time k l) (last_time k l) d r (F r)) ->
    forall s, first_time k l <= s <= last_time k l -> exists v, eval_D b s (Z.of_nat d) = Ok v /\
      head3 v = head3 (fun r => F r s) /\ tail3 v = tail3 (fun r => F r s)).
  { intros d F HF s Is. destruct (HF 0%nat s Is) as (v & E & _). exists v. split; [ exact E | ].
    assert (X : forall r, v r = F r s). { intros r. destruct (HF r s Is) as (v' & E' & <-). congruence. }
    unfold head3, tail3. rewrite !X. split; reflexivity. }
  assert (IT : forall s, knot l j < s < knot l (j + 1) -> first_time k l <= s <= last_time k l).
  { intros s Is. destruct (built_wf _ _ _ _ _ _ H ND) as [W [_ [_ [_ [_ [_ [K2 [CC LL]]]]]]]].
    assert (X1 : knot l (k - 1) <= knot l j) by (apply ND; lia).
    assert (X2 : knot l (j + 1) <= knot l C) by (apply ND; lia).
    assert (X3 : last_time k l = knot l C) by (unfold last_time; f_equal; lia).
    unfold first_time. lra. }
  pose (p := fun s => tail3 (fun r => F0 r s)). pose (v := fun s => tail3 (fun r => F1 r s)).
  assert (DP : forall s, knot l j < s < knot l (j + 1) -> v3_derive p s (v s)).
  { intros s Is. unfold p, v, v3_derive, tail3. cbn [x0 x1 x2]. split; [ | split ]; apply D0, Is. }
  assert (DV : v3_derive v t (tail3 (fun r => F2 r t))).
  { unfold v, v3_derive, tail3. cbn [x0 x1 x2]. split; [ | split ]; apply D1, I. }
  assert (DO : forall s, knot l j < s < knot l (j + 1) -> dom (p s)).
  { intros s Is. destruct (VAL _ _ H0 s (IT s Is)) as (v0 & E0 & A0 & B0). pose proof (RO s Is v0 E0) as X.
    change (V3 (v0 3%nat) (v0 4%nat) (v0 5%nat)) with (tail3 v0) in X. rewrite B0 in X. exact X. }
  pose (Q := fun s => kC K (p s)).
  pose (W := fun s => m3_vec (m3_mul (m3_neg (m3_tr (kC K (p s)))) (kS K (p s))) (v s)).
  assert (TU : forall s, knot l j < s < knot l (j + 1) -> turns Q s (W s)).
  { intros s Is. destruct (rotation_moves K dom PK p s _ (DP s Is) (DO s Is)) as (Cd & _ & HC & AC & _).
    unfold angular_velocity in AC. unfold turns. eapply m3_derive_eq; [ exact HC | ]. rewrite AC.
    pose proof (proj1 PK (p s)) as SO. change (SO3 (Q s)) in SO.
    set (w := m3_vec (m3_neg (kS K (p s))) (v s)).
    assert (EW : W s = m3_vec (m3_tr (Q s)) w).
    { unfold W, w, Q. generalize (kC K (p s)) (kS K (p s)) (v s). clear. unfold m3_neg. kring. }
    rewrite EW, (SO3_cross (Q s) _ SO), <- m3_vec_mul, (proj1 SO), m3_vec_I. unfold w, Q.
    generalize (kC K (p s)) (kS K (p s)) (v s). clear. unfold m3_neg. kring. }
  assert (DW : exists dw, v3_derive W t dw).
  { destruct PK as (SO & RV & WS & VJ & EJ). destruct (EJ (p t) (v t) (DO t I)) as (JJ & HJ).
    pose proof (VJ p v t _ _ JJ (DP t I) DV (DO t I) HJ) as X.
    pose proof (m3_vec_derive _ _ t _ _ (m3_derive_neg _ t _ (m3_derive_tr _ t _ (TU t I))) X) as Y.
    eexists. eapply v3_derive_ext_loc; [ | exact Y ]. exists (mkposreal 1 Rlt_0_1). intros s _.
    unfold W, Q. cbv beta. rewrite WS. generalize (kC K (p s)) (kS K (p s)) (v s). clear. unfold m3_neg. kring. }
  destruct DW as (dw & DW).
  exists (fun s => head3 (fun r => F0 r s)), Q, W, (head3 (fun r => F2 r t)), dw.
  split; [ | split; [ apply (proj1 PK) | split; [ | split; [ exact DW | split ] ] ] ].
  - intros s Is. destruct (VAL _ _ H0 s (IT s Is)) as (u0 & G0 & L0 & N0). destruct (VAL _ _ H1 s (IT s Is)) as (u1 & G1 & L1 & N1).
    cbn [Z.of_nat Pos.of_succ_nat] in G0, G1.
    unfold position, orientation, angular_velocity_body, angular_rate_body, eval. rewrite G0, G1. cbn [obind]. rewrite L0, N0, N1.
    split; [ reflexivity | split; reflexivity ].
  - destruct (VAL _ _ H2 t (IT t I)) as (u2 & G2 & L2 & N2). cbn [Z.of_nat Pos.of_succ_nat Pos.succ] in G2.
    unfold linear_acceleration. rewrite G2. cbn [obind]. rewrite L2. reflexivity.
  - exists (fun s => head3 (fun r => F1 r s)). split.
    + eapply filter_imp; [ | exact (between _ _ t I) ]. intros s Is. unfold v3_derive, head3. cbn [x0 x1 x2].
      split; [ | split ]; apply D0, Is.
    + unfold v3_derive, head3. cbn [x0 x1 x2]. split; [ | split ]; apply D1, I.
  - exists W. split; [ reflexivity | split; [ | exact DW ] ].
    eapply filter_imp; [ | exact (between _ _ t I) ]. exact TU.
Qed.
