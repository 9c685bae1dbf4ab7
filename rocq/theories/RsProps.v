(** * C82: times and covariances of rolling shutter cameras *)
From Coquelicot Require Import Coquelicot.
From Coq Require Import Reals List Lra Lia Arith ZArith Bool.
From Verif Require Import Base TimeModel TimeSpec TimeProofs TimeProps KinModel KinSpec KinCurve KinProofs RotModel RotSpec TfModel TfSpec TfProofs TfProps
  DistModel DistSpec DistProofs PinModel CamSpec BsplModel BsplSpec BsplProofs BsdProofs BsplProps BsdProps BshModel BsfProps BpModel BpSpec BpProofs BpProps
  ToProofs RpeModel RpeSpec RpeProofs RpeTerm RsModel RsSpec RsProofs.
Import ListNotations.
Local Open Scope R_scope.

(** ** Times *)

(** The time of a keypoint is the image stamp plus the row times the line delay,
    cut to a whole nanosecond towards the stamp; with a global shutter it is
    the stamp. *)
Theorem C82_time stamp delay y : canonical_time stamp -> (tsec stamp < 2 ^ 31)%Z -> Rabs (delay * u1 y) < 2147483647 ->
  0 <= exposure stamp delay y < 2147483648 ->
  (exists x, keypoint_time stamp (Rolling delay) y = Ok x /\
     (0 <= delay * u1 y -> x <= exposure stamp delay y < x + 1 / 10 ^ 9) /\
     (delay * u1 y < 0 -> x - 1 / 10 ^ 9 < exposure stamp delay y <= x)) /\
  keypoint_time stamp Global y = Ok (exposure stamp 0 y).
Proof.
  intros CT ST B E. split; [ exact (keypoint_time_spec stamp delay y CT ST B E) | ].
  assert (Z : exposure stamp 0 y = IZR (ns_time stamp) / 10 ^ 9) by (unfold exposure; ring).
  assert (NS : (0 <= ns_time stamp < 2147483648 * 10 ^ 9)%Z) by (unfold canonical_time in CT; unfold ns_time; lia).
  assert (T9 : 10 ^ 9 = 1000000000) by ring.
  assert (RS : 0 <= IZR (ns_time stamp) < 2147483648000000000) by (split; [ apply IZR_le | apply IZR_lt ]; lia).
  destruct (fromSec_spec 0 ltac:(rewrite Rabs_R0; lra)) as (u & EU & FU & P & _). specialize (P ltac:(lra)).
  assert (U0 : ns_dur u = 0%Z) by (assert ((ns_dur u < 1)%Z) by (apply lt_IZR; simpl; lra); assert ((-1 < ns_dur u)%Z) by (apply lt_IZR; simpl; lra); lia).
  unfold keypoint_time. cbn [temporal_offset]. rewrite EU. cbn [obind].
  assert (FT : fits_time stamp) by (unfold canonical_time in CT; unfold fits_time; lia).
  assert (Q := C01_time_plus_duration_exact_or_throws stamp u FT FU). rewrite U0 in Q.
  destruct (time_add stamp u) as [ x | | | ]; try contradiction; [ | exfalso; lia ]. destruct Q as (Q & _). cbn [obind].
  rewrite toSec_ns, Q, Z. do 2 f_equal. apply f_equal. lia.
Qed.

(** The Jacobian reported for the line delay is the change of that time with the
    delay, up to the two roundings. *)
Theorem C82_time_jacobian active stamp delay step y e J : canonical_time stamp -> (tsec stamp < 2 ^ 31)%Z ->
  Rabs (delay * u1 y) < 2147483647 -> Rabs ((delay + step) * u1 y) < 2147483647 ->
  0 <= exposure stamp delay y < 2147483648 -> 0 <= exposure stamp (delay + step) y < 2147483648 ->
  make_keypoint_time active (Rolling delay) stamp y = Ok e -> time_jacobian e 1 = Some J ->
  exists a b, time_value (Rolling delay) e = Ok a /\ time_value (shutter_update (Rolling delay) step) e = Ok b /\
    Rabs (b - a - J * step) < 2 / 10 ^ 9.
Proof.
  intros CT ST B B' E E' M JJ. destruct active; cbn [make_keypoint_time] in M.
  - assert (e = TNode stamp y) by congruence. subst e. cbn [time_jacobian] in JJ. assert (EJ : J = 1 * u1 y) by congruence. subst J.
    cbn [time_value shutter_update].
    destruct (keypoint_time_spec stamp delay y CT ST B E) as (a & Ea & P1 & N1).
    destruct (keypoint_time_spec stamp (delay + step) y CT ST B' E') as (b & Eb & P2 & N2).
    exists a, b. split; [ exact Ea | split; [ exact Eb | ] ].
    assert (D : exposure stamp (delay + step) y - exposure stamp delay y = 1 * u1 y * step) by (unfold exposure; ring).
    replace (10 ^ 9) with 1000000000 in * by ring.
    assert (Q1 : Rabs (exposure stamp delay y - a) < 1 / 1000000000).
    { apply Rabs_def1; destruct (Rle_dec 0 (delay * u1 y)) as [ H | H ]; [ specialize (P1 H); lra | specialize (N1 ltac:(lra)); lra | specialize (P1 H); lra | specialize (N1 ltac:(lra)); lra ]. }
    assert (Q2 : Rabs (exposure stamp (delay + step) y - b) < 1 / 1000000000).
    { apply Rabs_def1; destruct (Rle_dec 0 ((delay + step) * u1 y)) as [ H | H ]; [ specialize (P2 H); lra | specialize (N2 ltac:(lra)); lra | specialize (P2 H); lra | specialize (N2 ltac:(lra)); lra ]. }
    apply Rabs_def2 in Q1, Q2. apply Rabs_def1; lra.
  - destruct (keypoint_time stamp (Rolling delay) y); cbn [obind] in M; try discriminate. assert (EE : TNumber a = e) by congruence. subst e. discriminate.
Qed.

(** A time made while the shutter is not estimated keeps the old delay for ever. *)
Theorem C82_snapshot_refuted : exists stamp delay step y e a b,
  make_keypoint_time false (Rolling delay) stamp y = Ok e /\ time_value (shutter_update (Rolling delay) step) e = Ok a /\
  keypoint_time stamp (shutter_update (Rolling delay) step) y = Ok b /\ b - a > 9.
Proof.
  set (st := Tm 5 0). set (y := V2 0 1).
  assert (CT : canonical_time st) by (unfold canonical_time, st; cbn; lia).
  assert (ST : (tsec st < 2 ^ 31)%Z) by (cbn; lia).
  assert (NS : IZR (ns_time st) / 10 ^ 9 = 5) by (unfold ns_time, st; cbn [tsec tnsec]; rewrite plus_IZR, mult_IZR; change (IZR (10 ^ 9)) with 1000000000; field).
  destruct (keypoint_time_spec st 0 y CT ST) as (a & Ea & P & _).
  { cbn [y u1]. rewrite Rmult_0_l, Rabs_R0. lra. } { unfold exposure. rewrite NS. cbn [y u1]. lra. }
  destruct (keypoint_time_spec st (0 + 10) y CT ST) as (b & Eb & P' & _).
  { cbn [y u1]. apply Rabs_def1; lra. } { unfold exposure. rewrite NS. cbn [y u1]. lra. }
  exists st, 0, 10, y, (TNumber a), a, b. split; [ cbn [make_keypoint_time]; rewrite Ea; reflexivity | ].
  split; [ reflexivity | ]. split; [ exact Eb | ].
  unfold exposure in P, P'. rewrite NS in P, P'. cbn [y u1] in P, P'. specialize (P ltac:(lra)). specialize (P' ltac:(lra)). 
  assert (0 < 1 / 10 ^ 9 < 1) by (replace (10 ^ 9) with 1000000000 by ring; lra). lra.
Qed.

(** ** The adapted covariance *)

(** What is computed and what it should be: the velocity [w] of the observed
    point is used in the axes of the target instead of those of the camera. *)
Theorem C82_covariance_map K dom k l C c b t cam delay y0 p : parametrises K dom ->
  built k l 6 C c b -> nondecreasing l -> long_end k l -> ToSpec.smooth_at k l C t -> rotation_ok dom b t -> regular cam p ->
  exists (T : R -> m4) Q J w,
    (forall u, first_time k l <= u <= last_time k l -> transformation K b u = Ok (T u)) /\ orientation K b t = Ok Q /\
    imageJ (c_width cam) (c_height cam) (c_model cam) (c_intr cam) (c_dist cam) p = Val J /\
    v4_derive (fun u => m4_vec (T u) p) t w /\
    covariance_map cam delay K b t p = Ok (Val (columns (v2_scale delay (m23_vec J (V3 (q0 w) (q1 w) (q2 w)))))) /\
    residual_jacobian cam delay K b t y0 (m4_vec (T t) p)
      (columns (v2_scale delay (m23_vec J (m3_vec (m3_tr Q) (V3 (q0 w) (q1 w) (q2 w)))))).
Proof.
  intros PK BU ND LE SM RO REG. assert (IN := inside k l C c b t BU ND SM).
  destruct (residual_spec K dom PK k l C c b t BU ND LE SM RO cam delay y0 p REG) as (J & EJ & A & B).
  exists (pose K b), (kC K (par b t)), J. eexists. split; [ intros u I; exact (proj1 (pose_at K dom PK k l C c b BU ND LE u I)) | ].
  split.
  { destruct (evaluated k l C c b BU ND LE 0 t ltac:(lra)) as (v & E & V). change (Z.of_nat 0) with 0%Z in *.
    unfold orientation, eval. rewrite E. cbn [obind]. unfold BpModel.tail3, par. rewrite !V. reflexivity. }
  split; [ exact EJ | ]. split; [ exact (point_rate K dom PK k l C c b t BU ND LE SM RO p) | ]. split; [ exact A | exact B ].
Qed.

(** So it is right when the camera's axes are those of the target. *)
Theorem C82_covariance_aligned K dom k l C c b t cam delay y0 p T : parametrises K dom ->
  built k l 6 C c b -> nondecreasing l -> long_end k l -> ToSpec.smooth_at k l C t -> rotation_ok dom b t -> regular cam p ->
  orientation K b t = Ok m3_I -> transformation K b t = Ok T ->
  exists A, covariance_map cam delay K b t p = Ok (Val A) /\ residual_jacobian cam delay K b t y0 (m4_vec T p) A.
Proof.
  intros PK BU ND LE SM RO REG EQ ET. assert (IN := inside k l C c b t BU ND SM).
  destruct (C82_covariance_map K dom k l C c b t cam delay y0 p PK BU ND LE SM RO REG) as (M & Q & J & w & HT & HQ & _ & _ & A & B).
  assert (EM : M t = T) by (specialize (HT t ltac:(lra)); congruence). assert (EI : Q = m3_I) by congruence. subst Q. rewrite EM in B.
  eexists. split; [ exact A | ]. replace (m3_vec (m3_tr m3_I) (V3 (q0 w) (q1 w) (q2 w))) with (V3 (q0 w) (q1 w) (q2 w)) in B; [ exact B | ].
  unfold m3_I. kring.
Qed.

(** The new weight: a residual that is the image of a measurement error under
    the map weighs as much as that error did. *)
Theorem C82_weight cam delay K b t y invR p A h : m2_det invR <> 0 -> m2_det A <> 0 ->
  covariance_map cam delay K b t p = Ok (Val A) -> camera_image cam p = Val h ->
  exists e cost, adapted_error cam delay (Some (K, b)) t y invR p = Ok (Val (e, cost)) /\
    e = V2 (u0 y - u0 h) (u1 y - u1 h) /\ forall x, m2_vec A x = e -> cost = v2_dot x (m2_vec invR x).
Proof.
  intros NR NA EA EH. destruct (weight_spec A invR NR NA) as (W & EW & HW).
  exists (v2_sub y h), (v2_dot (v2_sub y h) (m2_vec W (v2_sub y h))). split.
  - unfold adapted_error. rewrite EA. cbn [obind rbind]. rewrite EW. cbn [rbind]. rewrite EH. reflexivity.
  - split; [ reflexivity | ]. intros x E. rewrite <- E. apply HW.
Qed.

(** ** What does not hold *)

(** A curve that moves with the velocity (vx, vy, 0) without turning, the camera
    being turned by half a turn about its optical axis. *)
Definition sliding (yaw vx vy : R) : nat -> nat -> R := fun r j =>
  match r with 0%nat => INR j * vx | 1%nat => INR j * vy | 3%nat => yaw | _ => 0 end.
Lemma sliding_built c : exists b, built 2 knots4 6 2 c b.
Proof.
  destruct (C64_set_knots new2 knots4 6 2 c) as [H _];
    [ cbn [order new2]; lia | cbn [knots new2 length]; lia | exact knots4_nd | ].
  destruct H as [b [E _]]; [ cbn; lia | cbn; lia | ]. exists b.
  exists new2. split; [ reflexivity | ]. split; [ lia | ]. split; [ cbn; lia | exact E ].
Qed.
Lemma knots4_smooth s : 1 < s < 2 -> ToSpec.smooth_at 2 knots4 2 s.
Proof. intros I. left. exists 1%nat. split; [ lia | ]. unfold knot, knots4. cbn [nth Nat.add]. exact I. Qed.
Lemma linear_value c b r s : built 2 knots4 6 2 c b -> 1 < s < 2 ->
  val b 0 r s = c r 0%nat * (2 - s) + c r 1%nat * (s - 1) /\ val b 1 r s = c r 1%nat - c r 0%nat.
Proof.
  intros H I. destruct knots4_times as (T1 & T2 & T3 & LE).
  assert (VAL : forall z, 1 < z < 2 -> val b 0 r z = c r 0%nat * (2 - z) + c r 1%nat * (z - 1)).
  { intros z Iz. destruct (C64_value 2 knots4 6 2 c b z H knots4_nd) as (v & EV & V).
    { rewrite T1, T2. lra. }
    { right. rewrite T3. lra. }
    unfold val. change (eval_D b z 0) with (eval b z). rewrite EV, V.
    unfold curve, knots4, knot. cbn [total cox nth Nat.add]. unfold ratio, indicator.
    repeat match goal with
    | |- context [Req_EM_T ?a ?b] => destruct (Req_EM_T a b); try lra
    | |- context [Rle_dec ?a ?b] => destruct (Rle_dec a b); try lra
    | |- context [Rlt_dec ?a ?b] => destruct (Rlt_dec a b); try lra
    end. }
  split; [ exact (VAL s I) | ].
  assert (D := val_derive 2 knots4 6 2 c b r s H knots4_nd LE (knots4_smooth s I)).
  assert (D' : is_derive (val b 0 r) s (c r 1%nat - c r 0%nat)).
  { apply (is_derive_ext_loc (fun z => c r 0%nat * (2 - z) + c r 1%nat * (z - 1))).
    - assert (P : 0 < Rmin (s - 1) (2 - s)) by (apply Rmin_glb_lt; lra).
      exists (mkposreal _ P). intros z Bz. symmetry. apply VAL.
      unfold ball in Bz. cbn in Bz. unfold AbsRing_ball, abs, minus, plus, opp in Bz. cbn in Bz.
      pose proof (Rmin_l (s - 1) (2 - s)). pose proof (Rmin_r (s - 1) (2 - s)). apply Rabs_def2 in Bz. lra.
    - generalize (c r 0%nat) (c r 1%nat). intros a e. auto_derive; [ exact Logic.I | ].
      match goal with |- ?x = ?y => change (@eq R x y) end. ring. }
  apply is_derive_unique in D, D'. congruence.
Qed.

Definition plain : camera := Camera (Pinhole NoLens) 10 10 [1; 1; 5; 5] [] true true.
Definition ahead : v4 := V4 0 0 1 1.
Lemma plain_regular : regular plain ahead.
Proof.
  split; [ reflexivity | split; [ reflexivity | ] ]. cbn [plain ahead c_model c_intr c_dist q0 q1 q2 q3 smooth_at x2 lens_regular].
  split; [ lra | split; [ intros _; split; [ lra | exact Logic.I ] | lra ] ].
Qed.
Lemma plain_J : imageJ 10 10 (Pinhole NoLens) [1; 1; 5; 5] [] ahead = Val (M23 1 0 0 0 1 0).
Proof.
  unfold imageJ, pin_hprojectJ, pin_projectJ, ahead, PinModel.head3. cbn [q0 q1 q2 q3 x0 x1 x2 lens_of nodist distortJ].
  destruct (Rlt_dec 1 0); [ lra | ]. destruct (Req_EM_T 1 0); [ lra | ]. cbn [fst snd rbind]. f_equal.
  unfold pin_set, sensor, make_intr. cbn [fu fv nth n00 n01 n10 n11 m2_I]. f_equal; field.
Qed.
Lemma sliding_motion yaw vx vy b : built 2 knots4 6 2 (sliding yaw vx vy) b ->
  m46_vec (boxMinus (m4_vec (pose k_ypr b (3 / 2)) ahead)) (m6_vec (jt k_ypr b (3 / 2)) (rate b (3 / 2))) = V4 vx vy 0 0 /\
  par b (3 / 2) = V3 yaw 0 0.
Proof.
  intros H. assert (V := fun r => linear_value _ b r (3 / 2) H ltac:(lra)).
  assert (X : rate b (3 / 2) = V6 (V3 vx vy 0) (V3 0 0 0)).
  { unfold rate. rewrite (proj2 (V 0%nat)), (proj2 (V 1%nat)), (proj2 (V 2%nat)), (proj2 (V 3%nat)), (proj2 (V 4%nat)), (proj2 (V 5%nat)).
    unfold sliding. cbn [INR]. f_equal; f_equal; ring. }
  split.
  - rewrite X. unfold jt, pose. rewrite rt_vec. generalize (kS k_ypr (par b (3 / 2))) (pos b (3 / 2)). intros S x.
    assert (E : m6_vec (M6 m3_I (m3_mul (m3_neg (crossMx x)) S) m3_zero S) (V6 (V3 vx vy 0) (V3 0 0 0)) = V6 (V3 vx vy 0) (V3 0 0 0)).
    { destruct x as [ xa xb xc ]. unfold m3_neg. tring. }
    rewrite E. cbv zeta. unfold ahead. cbn [q0 q1 q2 q3].
    generalize (v3_add (m3_vec (kC k_ypr (par b (3 / 2))) (V3 0 0 1)) (v3_scale 1 x)). intros [ ya yb yc ]. tring.
  - unfold par. rewrite (proj1 (V 3%nat)), (proj1 (V 4%nat)), (proj1 (V 5%nat)). unfold sliding. f_equal; field.
Qed.
Lemma rderive_unique f d e : v2_rderive f 0 d -> v2_rderive f 0 e -> d = e.
Proof.
  intros (g & L & A & B) (g' & L' & A' & B').
  assert (N : locally 0 (fun s => g s = g' s)) by (eapply filter_imp; [ | exact (filter_and _ _ L L') ]; cbv beta; intros s (P & Q); congruence).
  assert (E0 : u0 d = u0 e).
  { assert (X : is_derive (fun s => u0 (g' s)) 0 (u0 d)) by (apply (is_derive_ext_loc (fun s => u0 (g s))); [ eapply filter_imp; [ | exact N ]; cbv beta; intros s ->; reflexivity | exact A ]).
    apply is_derive_unique in X, A'. congruence. }
  assert (E1 : u1 d = u1 e).
  { assert (X : is_derive (fun s => u1 (g' s)) 0 (u1 d)) by (apply (is_derive_ext_loc (fun s => u1 (g s))); [ eapply filter_imp; [ | exact N ]; cbv beta; intros s ->; reflexivity | exact B ]).
    apply is_derive_unique in X, B'. congruence. }
  destruct d as [ da db ], e as [ ea eb ]. cbn [u0 u1] in *. congruence.
Qed.

(** For a camera turned by half a turn the map has the wrong sign. *)
Theorem C82_covariance_refuted : exists b t y0 T,
  built 2 knots4 6 2 (sliding PI 1 0) b /\ first_time 2 knots4 < t < last_time 2 knots4 /\ regular plain ahead /\
  transformation k_ypr b t = Ok T /\ covariance_map plain 1 k_ypr b t ahead = Ok (Val (M2 1 1 0 1)) /\
  residual_jacobian plain 1 k_ypr b t y0 (m4_vec T ahead) (M2 1 (-1) 0 1) /\
  ~ residual_jacobian plain 1 k_ypr b t y0 (m4_vec T ahead) (M2 1 1 0 1).
Proof.
  destruct (sliding_built (sliding PI 1 0)) as (b & H). destruct knots4_times as (T1 & T2 & T3 & LE).
  assert (RO : rotation_ok (fun _ => True) b (3 / 2)) by (intros ? ?; exact Logic.I).
  assert (PK := proj1 (proj2 C69_kinds)). destruct (sliding_motion PI 1 0 b H) as (EW & EP).
  destruct (residual_spec k_ypr _ PK 2 knots4 2 _ b (3 / 2) H knots4_nd LE (knots4_smooth (3 / 2) ltac:(lra)) RO plain 1 (V2 0 0) ahead plain_regular)
    as (J & EJ & A & B).
  assert (J = M23 1 0 0 0 1 0) by (cbn [plain c_width c_height c_model c_intr c_dist] in EJ; rewrite plain_J in EJ; congruence). subst J.
  rewrite EW in A, B. rewrite EP in B.
  assert (EB : columns (v2_scale 1 (m23_vec (M23 1 0 0 0 1 0) (m3_vec (m3_tr (kC k_ypr (V3 PI 0 0))) (PinModel.head3 (V4 1 0 0 0))))) = M2 1 (-1) 0 1).
  { change (kC k_ypr) with ypr_C. unfold ypr_C. cbn [x0 x1 x2]. cbv zeta. rewrite cos_PI, sin_PI, cos_0, sin_0.
    unfold columns, v2_scale, m23_vec, PinModel.head3. kunf. cbn [u0 u1 j00 j01 j02 j10 j11 j12]. f_equal; ring. }
  rewrite EB in B.
  exists b, (3 / 2), (V2 0 0), (pose k_ypr b (3 / 2)). split; [ exact H | ]. split; [ rewrite T1, T2; lra | ]. split; [ exact plain_regular | ].
  split; [ apply (pose_at k_ypr _ PK 2 knots4 2 _ b H knots4_nd LE); rewrite T1, T2; lra | ].
  split; [ rewrite A; do 2 f_equal; unfold columns, v2_scale, m23_vec, PinModel.head3; cbn [q0 q1 q2 x0 x1 x2 u0 u1 j00 j01 j02 j10 j11 j12]; f_equal; ring | ].
  split; [ exact B | ]. intros N. assert (Q := rderive_unique _ _ _ (B (V2 0 1)) (N (V2 0 1))). apply (f_equal u0) in Q. cbn in Q. lra.
Qed.

(** When the image stands still against the running row, no weight can be computed. *)
Theorem C82_singular_refuted : exists b t, built 2 knots4 6 2 (sliding 0 0 (-1)) b /\ first_time 2 knots4 < t < last_time 2 knots4 /\
  regular plain ahead /\ forall y invR, adapted_error plain 1 (Some (k_ypr, b)) t y invR ahead = Ok NotFinite.
Proof.
  destruct (sliding_built (sliding 0 0 (-1))) as (b & H). destruct knots4_times as (T1 & T2 & T3 & LE).
  assert (RO : rotation_ok (fun _ => True) b (3 / 2)) by (intros ? ?; exact Logic.I).
  assert (PK := proj1 (proj2 C69_kinds)). destruct (sliding_motion 0 0 (-1) b H) as (EW & EP).
  destruct (residual_spec k_ypr _ PK 2 knots4 2 _ b (3 / 2) H knots4_nd LE (knots4_smooth (3 / 2) ltac:(lra)) RO plain 1 (V2 0 0) ahead plain_regular)
    as (J & EJ & A & _).
  assert (J = M23 1 0 0 0 1 0) by (cbn [plain c_width c_height c_model c_intr c_dist] in EJ; rewrite plain_J in EJ; congruence). subst J.
  rewrite EW in A. exists b, (3 / 2). split; [ exact H | ]. split; [ rewrite T1, T2; lra | ]. split; [ exact plain_regular | ].
  intros y invR. unfold adapted_error. rewrite A. cbn [obind rbind]. rewrite weight_singular; [ reflexivity | ].
  unfold columns, v2_scale, m23_vec, PinModel.head3, m2_det. cbn [q0 q1 q2 x0 x1 x2 u0 u1 j00 j01 j02 j10 j11 j12 n00 n01 n10 n11]. ring.
Qed.

(** Without a curve the covariance of the keypoint is not used at all. *)
Theorem C82_no_curve_refuted : exists y, forall t delay invR,
  adapted_error plain delay None t y invR ahead = Ok (Val (V2 1 0, 1)).
Proof.
  exists (V2 6 5). intros t delay invR. unfold adapted_error, camera_image, image, pin_hproject, pin_project.
  cbn [plain c_width c_height c_model c_intr c_dist ahead q0 q1 q2 q3 PinModel.head3 x0 x1 x2 lens_of nodist distort].
  destruct (Rlt_dec 1 0); [ lra | ]. destruct (Req_EM_T 1 0); [ lra | ]. cbn [fst rbind].
  assert (E : v2_sub (V2 6 5) (to_pixel (pin_set (sensor 10 10) [1; 1; 5; 5]) (V2 (0 * (1 / 1)) (0 * (1 / 1)))) = V2 1 0).
  { unfold to_pixel, pin_set, sensor, make_intr, v2_sub. cbn [fu fv cu cv nth u0 u1]. f_equal; field. }
  cbv zeta. rewrite E. do 3 f_equal. unfold v2_dot, m2_vec, m2_I. cbn. ring.
Qed.

(** ** The hypotheses are met *)
Example C82_ex_time : canonical_time (Tm 1300000000 999999999) /\ 0 <= exposure (Tm 1300000000 999999999) (1 / 20000) (V2 320 479) < 2147483648.
Proof.
  split; [ unfold canonical_time; cbn; lia | ]. unfold exposure, ns_time. cbn [tsec tnsec u1]. rewrite plus_IZR, mult_IZR. change (IZR (10 ^ 9)) with 1000000000.
  replace (10 ^ 9) with 1000000000 by ring. lra.
Qed.
Example C82_ex_aligned : exists b, built 2 knots4 6 2 (sliding 0 2 1) b /\ ToSpec.smooth_at 2 knots4 2 (3 / 2) /\
  orientation k_ypr b (3 / 2) = Ok m3_I /\ regular plain ahead.
Proof.
  destruct (sliding_built (sliding 0 2 1)) as (b & H). exists b. split; [ exact H | ]. split; [ apply knots4_smooth; lra | ].
  split; [ | exact plain_regular ]. destruct knots4_times as (T1 & T2 & T3 & LE).
  destruct (evaluated 2 knots4 2 _ b H knots4_nd LE 0 (3 / 2) ltac:(rewrite T1, T2; lra)) as (v & E & V). change (Z.of_nat 0) with 0%Z in *.
  unfold orientation, eval. rewrite E. cbn [obind]. unfold BpModel.tail3. rewrite !V.
  change (V3 (val b 0 3 (3 / 2)) (val b 0 4 (3 / 2)) (val b 0 5 (3 / 2))) with (par b (3 / 2)).
  rewrite (proj2 (sliding_motion 0 2 1 b H)). change (kC k_ypr) with ypr_C. unfold ypr_C. cbn [x0 x1 x2]. cbv zeta. rewrite cos_0, sin_0.
  unfold m3_I. f_equal. f_equal; ring.
Qed.
Example C82_ex_weight : m2_det (M2 4 1 1 2) <> 0 /\ m2_det (M2 1 (1 / 10) 0 (9 / 10)) <> 0.
Proof. unfold m2_det. cbn. split; lra. Qed.

Print Assumptions C82_time.
Print Assumptions C82_time_jacobian.
Print Assumptions C82_snapshot_refuted.
Print Assumptions C82_covariance_map.
Print Assumptions C82_covariance_aligned.
Print Assumptions C82_weight.
Print Assumptions C82_covariance_refuted.
Print Assumptions C82_singular_refuted.
Print Assumptions C82_no_curve_refuted.
