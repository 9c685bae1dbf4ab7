(** * Proofs about the rolling shutter *)
From Coquelicot Require Import Coquelicot.
From Coq Require Import Reals List Lra Lia Arith ZArith Bool.
From Verif Require Import Base TimeModel TimeSpec TimeProofs TimeProps KinModel KinSpec KinCurve KinProofs RotModel RotSpec TfModel TfSpec TfProofs TfProps
  DistModel DistSpec DistProofs PinModel CamSpec BsplModel BsplSpec BsplProofs BsdProofs BsplProps BsdProps BpModel BpSpec BpProofs BpProps
  ToProofs RpeModel RpeSpec RpeProofs RpeTerm RsModel RsSpec.
Import ListNotations.
Local Open Scope R_scope.

(** ** Times *)
Lemma int_part x : IZR (Int_part x) <= x < IZR (Int_part x) + 1.
Proof. destruct (base_Int_part x). lra. Qed.
Lemma ret_i32_eq z : (-2147483648 <= z < 2147483648)%Z -> ret_i32 z = Ok z.
Proof. intros H. apply ret_i32_ok. unfold in_i32, INT_MIN, INT_MAX. lia. Qed.

Lemma int_range x a c : IZR a <= x -> x < IZR c -> (a <= Int_part x < c)%Z.
Proof.
  intros A B. assert (F := int_part x). assert (L : (a < Int_part x + 1)%Z) by (apply lt_IZR; rewrite plus_IZR; lra).
  assert (U : (Int_part x < c)%Z) by (apply lt_IZR; lra). lia.
Qed.

Lemma fromSec_spec d : Rabs d < 2147483647 -> exists u, duration_fromSec d = Ok u /\ fits_dur u /\
  (0 <= d -> IZR (ns_dur u) <= d * 10 ^ 9 < IZR (ns_dur u) + 1) /\
  (d < 0 -> IZR (ns_dur u) - 1 < d * 10 ^ 9 <= IZR (ns_dur u)).
Proof.
  intros B. apply Rabs_def2 in B. unfold duration_fromSec, floor_i32, to_i32.
  assert (F := int_part d). destruct (Rle_dec 0 d) as [ P | N ].
  - assert (L : (-2147483648 <= Int_part d < 2147483648)%Z) by (apply int_range; lra).
    rewrite (ret_i32_eq _ L). cbn [obind]. set (x := (d - IZR (Int_part d)) * 1000000000).
    assert (X : 0 <= x < 1000000000) by (unfold x; lra). destruct (Rle_dec 0 x) as [ _ | Q ]; [ | lra ].
    assert (G := int_part x). assert (L' : (0 <= Int_part x < 1000000000)%Z) by (apply int_range; lra).
    rewrite ret_i32_eq by lia. cbn [obind]. eexists. split; [ reflexivity | ]. split.
    + unfold fits_dur. cbn [dsec dnsec]. lia.
    + unfold ns_dur. cbn [dsec dnsec]. rewrite plus_IZR, mult_IZR. change (IZR (10 ^ 9)) with 1000000000. replace (10 ^ 9) with 1000000000 by ring.
      split; [ | lra ]. intros _. unfold x in *. lra.
  - assert (L : (-2147483648 <= Int_part d < 2147483647)%Z) by (apply int_range; lra).
    rewrite (ret_i32_eq (Int_part d)) by lia. cbn [obind]. rewrite ret_i32_eq by lia. cbn [obind].
    set (x := (d - IZR (Int_part d + 1)) * 1000000000). assert (EX : x = (d - (IZR (Int_part d) + 1)) * 1000000000) by (unfold x; rewrite plus_IZR; reflexivity).
    clearbody x. assert (X : -1000000000 <= x < 0) by lra. destruct (Rle_dec 0 x) as [ Q | _ ]; [ lra | ].
    assert (G := int_part (- x)). assert (L' : (0 <= Int_part (- x) < 1000000001)%Z) by (apply int_range; lra).
    rewrite ret_i32_eq by lia. cbn [obind]. eexists. split; [ reflexivity | ]. split.
    + unfold fits_dur. cbn [dsec dnsec]. lia.
    + unfold ns_dur. cbn [dsec dnsec]. rewrite plus_IZR, mult_IZR, plus_IZR, opp_IZR. change (IZR (10 ^ 9)) with 1000000000. replace (10 ^ 9) with 1000000000 by ring.
      split; [ lra | ]. intros _. lra.
Qed.
Lemma toSec_ns t : time_toSec t = IZR (ns_time t) / 10 ^ 9.
Proof. unfold time_toSec, ns_time. rewrite plus_IZR, mult_IZR. change (IZR (10 ^ 9)) with 1000000000. replace (10 ^ 9) with 1000000000 by ring. field. Qed.

Lemma keypoint_time_spec stamp delay y : canonical_time stamp -> (tsec stamp < 2 ^ 31)%Z -> Rabs (delay * u1 y) < 2147483647 ->
  0 <= exposure stamp delay y < 2147483648 ->
  exists x, keypoint_time stamp (Rolling delay) y = Ok x /\
    (0 <= delay * u1 y -> x <= exposure stamp delay y < x + 1 / 10 ^ 9) /\
    (delay * u1 y < 0 -> x - 1 / 10 ^ 9 < exposure stamp delay y <= x).
Proof.
  intros CT ST B E. destruct (fromSec_spec _ B) as (u & EU & FU & P & N).
  unfold keypoint_time. cbn [temporal_offset]. rewrite EU. cbn [obind].
  assert (FT : fits_time stamp) by (unfold canonical_time in CT; unfold fits_time; lia).
  assert (Q := C01_time_plus_duration_exact_or_throws stamp u FT FU).
  assert (T9 : 10 ^ 9 = 1000000000) by ring. unfold exposure in E. rewrite T9 in *.
  assert (T31 : (2 ^ 31 * 10 ^ 9 = 2147483648000000000)%Z) by reflexivity. rewrite T31 in Q.
  assert (NS : (0 <= ns_time stamp < 2147483648000000000)%Z) by (unfold canonical_time in CT; unfold ns_time; lia).
  assert (RS : 0 <= IZR (ns_time stamp) < 2147483648000000000) by (split; [ apply IZR_le | apply IZR_lt ]; lia).
  assert (S : 0 <= IZR (ns_time stamp + ns_dur u) < 2147483648000000000).
  { rewrite plus_IZR. destruct (Rle_dec 0 (delay * u1 y)) as [ G | G ].
    - specialize (P G). assert (H0 : (-1 < ns_dur u)%Z) by (apply lt_IZR; simpl; lra). apply Z.lt_le_pred in H0.
      assert (H1 : (0 <= ns_dur u)%Z) by lia. apply IZR_le in H1. split; lra.
    - assert (G' : delay * u1 y < 0) by lra. specialize (N G'). assert (H0 : (ns_dur u < 1)%Z) by (apply lt_IZR; simpl; lra).
      assert (H1 : (ns_dur u <= 0)%Z) by lia. apply IZR_le in H1. split; lra. }
  destruct (time_add stamp u) as [ t | | | ]; try contradiction.
  - destruct Q as (Q & _ & _). cbn [obind]. eexists. split; [ reflexivity | ]. rewrite toSec_ns, Q, plus_IZR, T9. unfold exposure. rewrite T9.
    split; intros G; [ specialize (P G) | specialize (N G) ]; lra.
  - exfalso. destruct S as [ S1 S2 ]. apply le_IZR in S1. apply lt_IZR in S2. lia.
Qed.

(** ** The adapted covariance *)
Section Curve.
Variables (K : rotk) (dom : v3 -> Prop).
Hypothesis PK : parametrises K dom.
Variables (k : nat) (l : list R) (C : nat) (c : nat -> nat -> R) (b : bspline) (t : R).
Hypothesis BU : built k l 6 C c b.
Hypothesis ND : nondecreasing l.
Hypothesis LE : long_end k l.
Hypothesis SM : ToSpec.smooth_at k l C t.
Hypothesis RO : rotation_ok dom b t.

Definition pos (s : R) : v3 := V3 (val b 0 0 s) (val b 0 1 s) (val b 0 2 s).
Definition par (s : R) : v3 := V3 (val b 0 3 s) (val b 0 4 s) (val b 0 5 s).
Definition pose (s : R) : m4 := TfModel.rt (kC K (par s)) (pos s).
Definition rate : v6 := V6 (V3 (val b 1 0 t) (val b 1 1 t) (val b 1 2 t)) (V3 (val b 1 3 t) (val b 1 4 t) (val b 1 5 t)).

Lemma inside : first_time k l < t < last_time k l.
Proof using BU ND SM. exact (smooth_inside k l 6 C c b t BU ND SM). Qed.
Lemma evaluated d s : first_time k l <= s <= last_time k l -> exists v, eval_D b s (Z.of_nat d) = Ok v /\ forall r, v r = val b (Z.of_nat d) r s.
Proof using BU ND LE.
  intros I. destruct (val_is k l 6 C c b d 0 BU ND LE s I) as (v & E & _). exists v. split; [ exact E | ].
  intros r. unfold val. rewrite E. reflexivity.
Qed.
Lemma pose_at s : first_time k l <= s <= last_time k l ->
  transformation K b s = Ok (pose s) /\ inverse_transformation K b s = Ok (inverseTransform (pose s)) /\ SE3 (pose s).
Proof using BU ND LE PK.
  intros I. destruct (evaluated 0 s I) as (v & E & V). change (Z.of_nat 0) with 0%Z in *.
  assert (X : curve_to_T K v = pose s) by (unfold curve_to_T, pose, pos, par, BpModel.head3, BpModel.tail3; rewrite !V; reflexivity).
  split; [ | split ].
  - unfold transformation, eval. rewrite E. cbn [obind]. rewrite X. reflexivity.
  - unfold inverse_transformation, eval. rewrite E. cbn [obind]. rewrite X. unfold invert, inverseTransform. do 2 f_equal.
    generalize (m3_tr (topLeft (pose s))) (topRight (pose s)). unfold m3_neg. kring.
  - exists (kC K (par s)), (pos s). apply rigid_rt. split; [ apply PK | reflexivity ].
Qed.
Definition jt : m6 := M6 m3_I (m3_mul (m3_neg (crossMx (pos t))) (kS K (par t))) m3_zero (kS K (par t)).
Lemma pose_rate : perturbed pose t (m6_vec jt rate).
Proof using All.
  assert (D : forall r, is_derive (val b 0 r) t (val b 1 r t)) by (intros r; exact (val_derive k l 6 C c b r t BU ND LE SM)).
  apply (pose_moves K dom PK).
  - unfold v3_derive, pos. cbn [x0 x1 x2]. split; [ apply D | split; apply D ].
  - unfold v3_derive, par. cbn [x0 x1 x2]. split; [ apply D | split; apply D ].
  - assert (I := inside). destruct (evaluated 0 t ltac:(lra)) as (v & E & V). change (Z.of_nat 0) with 0%Z in *.
    unfold par. rewrite <- !V. apply RO. unfold eval. exact E.
Qed.
Lemma motion_spec p : motion_of K b t p = Ok (m46_vec (boxMinus (m4_vec (pose t) p)) (m6_vec jt rate)).
Proof using BU ND LE SM.
  assert (I := inside). destruct (evaluated 0 t ltac:(lra)) as (v & E & V). destruct (evaluated 1 t ltac:(lra)) as (v' & E' & V').
  change (Z.of_nat 0) with 0%Z in *. change (Z.of_nat 1) with 1%Z in *.
  unfold motion_of. rewrite E, E'. cbn [obind curve_to_T_J]. unfold BpModel.head3, BpModel.tail3. rewrite !V, !V'. reflexivity.
Qed.

Lemma inverse_rate p : v4_derive (fun s => m4_vec (inverseTransform (pose s)) p) t
  (m46_vec (snd (inverseTransformJ (pose t) p)) (m6_vec jt rate)).
Proof using All.
  assert (I := inside). destruct (pose_at t ltac:(lra)) as (_ & _ & S).
  exact (proj1 (proj2 C57_jacobians) pose t _ p S pose_rate).
Qed.
Lemma point_rate p : v4_derive (fun s => m4_vec (pose s) p) t (m46_vec (boxMinus (m4_vec (pose t) p)) (m6_vec jt rate)).
Proof using All. exact (proj1 C57_jacobians pose t _ p pose_rate). Qed.
Lemma along (f : R -> v4) w a : v4_derive f t w -> v4_derive (fun s => f (t + s * a)) 0 (V4 (a * q0 w) (a * q1 w) (a * q2 w) (a * q3 w)).
Proof using.
  assert (X : forall (g : R -> R) d, is_derive g t d -> is_derive (fun s => g (t + s * a)) 0 (a * d)).
  { intros g d H. apply (is_derive_comp (V := R_NormedModule) g (fun s => t + s * a) 0 d a).
    - replace (t + 0 * a) with t by ring. exact H.
    - auto_derive; [ exact Logic.I | ]. match goal with |- ?a = ?b => change (@eq R a b) end. ring. }
  intros (A & B & D & E). split; [ | split; [ | split ] ]; cbn [q0 q1 q2 q3]; apply (X (fun s => _ (f s))); assumption.
Qed.
Lemma inverse_twist R0 x0' p d : m46_vec (snd (inverseTransformJ (TfModel.rt R0 x0') p)) d =
  let h := v3_neg (m3_vec (m3_tr R0) (PinModel.head3 (m46_vec (boxMinus p) d))) in V4 (x0 h) (x1 h) (x2 h) 0.
Proof using. unfold inverseTransformJ, inverseTransform. rewrite topLeft_rt, topRight_rt, topLeft_rt. unfold PinModel.head3. tring. Qed.

(** Which way the image of the landmark moves, and what covarianceMap makes of it. *)
Lemma line_minus (g : R -> R) y d w : is_derive g 0 w -> is_derive (fun s => y + s * d - g s) 0 (d - w).
Proof using.
  intros H. assert (E : ex_derive g 0) by (eexists; exact H). auto_derive; [ exact E | ].
  replace (Derive (fun x => g x) 0) with w by (symmetry; exact (is_derive_unique _ _ _ H)).
  match goal with |- ?a = ?b => change (@eq R a b) end. ring.
Qed.
Lemma residual_spec cam delay y0 p : regular cam p ->
  exists J, imageJ (c_width cam) (c_height cam) (c_model cam) (c_intr cam) (c_dist cam) p = Val J /\
    let w := m46_vec (boxMinus (m4_vec (pose t) p)) (m6_vec jt rate) in
    covariance_map cam delay K b t p = Ok (Val (columns (v2_scale delay (m23_vec J (PinModel.head3 w))))) /\
    residual_jacobian cam delay K b t y0 (m4_vec (pose t) p)
      (columns (v2_scale delay (m23_vec J (m3_vec (m3_tr (kC K (par t))) (PinModel.head3 w))))).
Proof using All.
  intros REG. assert (I := inside). destruct (pose_at t ltac:(lra)) as (_ & _ & SE).
  destruct (regular_facing _ _ REG) as (_ & LD & NZ & SMO).
  destruct (camera_at (c_width cam) (c_height cam) _ _ _ _ LD NZ SMO) as (_ & (J & EJ & HJ) & _).
  exists J. split; [ exact EJ | ]. cbv zeta. split.
  { unfold covariance_map. rewrite motion_spec. cbn [obind]. rewrite EJ. reflexivity. }
  intros dy. set (q := m4_vec (pose t) p).
  set (f := fun s => m4_vec (inverseTransform (pose s)) q). set (a := delay * u1 dy).
  assert (F0 : f (t + 0 * a) = p).
  { replace (t + 0 * a) with t by ring. unfold f, q. destruct SE as (R0 & x0' & RG). destruct (inverse_rigid _ _ _ RG) as (_ & E & _).
    rewrite <- m4_vec_mul, E. destruct p as [ pa pb pc pd ]. kring. }
  assert (D := along f _ a (inverse_rate q)).
  assert (Q := HJ _ _ F0 D). destruct Q as (g & L & DG).
  exists (fun s => v2_sub (v2_add y0 (v2_scale s dy)) (g s)). split.
  - assert (NEAR : locally 0 (fun s => first_time k l <= t + s * a <= last_time k l)).
    { assert (CT : continuous (fun s => t + s * a) 0).
      { apply (ex_derive_continuous (V := R_NormedModule)). auto_derive. exact Logic.I. }
      assert (P : locally (t + 0 * a) (fun u => first_time k l <= u <= last_time k l)).
      { replace (t + 0 * a) with t by ring. assert (PO : 0 < Rmin (t - first_time k l) (last_time k l - t)) by (apply Rmin_glb_lt; lra).
        exists (mkposreal _ PO). intros z Bz. unfold ball in Bz. cbn in Bz. unfold AbsRing_ball, abs, minus, plus, opp in Bz. cbn in Bz.
        pose proof (Rmin_l (t - first_time k l) (last_time k l - t)). pose proof (Rmin_r (t - first_time k l) (last_time k l - t)).
        apply Rabs_def2 in Bz. lra. }
      exact (CT _ P). }
    eapply filter_imp; [ | exact (filter_and _ _ L NEAR) ]. intros s (G & IN).
    unfold residual. replace (t + delay * (u1 (v2_add y0 (v2_scale s dy)) - u1 y0)) with (t + s * a)
      by (unfold a, v2_add, v2_scale; cbn [u1]; ring).
    rewrite (proj1 (proj2 (pose_at _ IN))). fold (f (t + s * a)). unfold camera_image. rewrite G. reflexivity.
  - unfold pose in DG. rewrite inverse_twist in DG. cbv zeta in DG. fold (pose t) in DG. fold q.
    clear D. generalize dependent (m46_vec (boxMinus q) (m6_vec jt rate)). intros w DG.
    destruct DG as (A & B). split; unfold v2_sub, v2_add, v2_scale; cbn [u0 u1].
    + evar_last; [ exact (line_minus (fun s => u0 (g s)) (u0 y0) (u0 dy) _ A) | ].
      unfold a. generalize (m3_vec (m3_tr (kC K (par t))) (PinModel.head3 w)). clear. intros [ha hb hc].
      destruct J as [ ja jb jc jd je jf ], dy as [ da db ]. unfold columns, m2_vec, m23_vec, v2_scale, PinModel.head3, v3_neg, v3_scale.
      cbn [u0 u1 n00 n01 n10 n11 j00 j01 j02 j10 j11 j12 x0 x1 x2 q0 q1 q2]. ring.
    + evar_last; [ exact (line_minus (fun s => u1 (g s)) (u1 y0) (u1 dy) _ B) | ].
      unfold a. generalize (m3_vec (m3_tr (kC K (par t))) (PinModel.head3 w)). clear. intros [ha hb hc].
      destruct J as [ ja jb jc jd je jf ], dy as [ da db ]. unfold columns, m2_vec, m23_vec, v2_scale, PinModel.head3, v3_neg, v3_scale.
      cbn [u0 u1 n00 n01 n10 n11 j00 j01 j02 j10 j11 j12 x0 x1 x2 q0 q1 q2]. ring.
Qed.
End Curve.

(** ** The new weight *)
Lemma det_mul A B : m2_det (m2_mul A B) = m2_det A * m2_det B.
Proof. dunf. ring. Qed.
Lemma det_tr A : m2_det (m2_tr A) = m2_det A.
Proof. dunf. ring. Qed.
Lemma inverse_det A B : m2_inverse A = Val B -> m2_det B <> 0.
Proof.
  intros E. destruct (inverse_val A B E) as (N & (X & _)). intros Z. assert (Y : m2_det (m2_mul A B) = 0) by (rewrite det_mul, Z; ring).
  rewrite X in Y. unfold m2_det, m2_I in Y. cbn in Y. lra.
Qed.
Lemma dot_tr A x z : v2_dot (m2_vec A x) z = v2_dot x (m2_vec (m2_tr A) z).
Proof. dunf. ring. Qed.
Lemma weight_spec A invR : m2_det invR <> 0 -> m2_det A <> 0 ->
  exists W, adapted_invR A invR = Val W /\ forall x, v2_dot (m2_vec A x) (m2_vec W (m2_vec A x)) = v2_dot x (m2_vec invR x).
Proof.
  intros NR NA. destruct (inverse_ok invR NR) as (C & EC). destruct (inverse_val _ _ EC) as (_ & (C1 & C2)).
  assert (NC := inverse_det _ _ EC).
  assert (ND : m2_det (m2_mul (m2_mul A C) (m2_tr A)) <> 0) by (rewrite !det_mul, det_tr; repeat apply Rmult_integral_contrapositive_currified; assumption).
  destruct (inverse_ok _ ND) as (W & EW). destruct (inverse_val _ _ EW) as (_ & (W1 & _)).
  destruct (inverse_ok A NA) as (B & EB). destruct (inverse_val _ _ EB) as (_ & (_ & B2)).
  exists W. unfold adapted_invR. rewrite EC. cbn [rbind]. split; [ exact EW | ]. intros x.
  set (z := m2_vec W (m2_vec A x)). rewrite dot_tr. f_equal.
  assert (Q : m2_vec A (m2_vec C (m2_vec (m2_tr A) z)) = m2_vec A x).
  { rewrite <- (m2_vec_mul A C), <- (m2_vec_mul (m2_mul A C)). unfold z. rewrite <- (m2_vec_mul _ W), W1, m2_vec_I. reflexivity. }
  apply (f_equal (m2_vec B)) in Q. rewrite <- !(m2_vec_mul B A), B2, !m2_vec_I in Q.
  rewrite <- Q. rewrite <- m2_vec_mul, C1, m2_vec_I. reflexivity.
Qed.
Lemma weight_singular A invR : m2_det A = 0 -> adapted_invR A invR = NotFinite.
Proof.
  intros Z. unfold adapted_invR. destruct (m2_inverse invR) as [ C | | | ] eqn:E; cbn [rbind].
  - apply inverse_none. rewrite !det_mul, Z. ring.
  - reflexivity.
  - unfold m2_inverse in E. destruct (Req_EM_T _ _); discriminate.
  - unfold m2_inverse in E. destruct (Req_EM_T _ _); discriminate.
Qed.
