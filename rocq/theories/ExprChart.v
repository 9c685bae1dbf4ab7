(** * The rotation parameters are charts *)
From Coquelicot Require Import Coquelicot.
From Coq Require Import Reals List Arith Lia Psatz Nsatz.
From Verif Require Import KinModel KinSpec KinProofs KinExp KinCurve KinAxis KinJac RotModel RotSpec RotEuler RotVec RotVecJ
  TfModel TfSpec TfProofs TfCurve BpModel BpProofs ExprModel ExprSpec ExprProofs.
Local Open Scope R_scope.

(** ** The general argument *)
Lemma m3_derive_unique f t a b : m3_derive f t a -> m3_derive f t b -> a = b.
Proof.
  intros ((A & B & C) & (D & E & F) & (G & H & I)) ((A' & B' & C') & (D' & E' & F') & (G' & H' & I')).
  destruct a as [ a0 a1 a2 a3 a4 a5 a6 a7 a8 ], b as [ b0 b1 b2 b3 b4 b5 b6 b7 b8 ]. cbn [m00 m01 m02 m10 m11 m12 m20 m21 m22] in *.
  assert (U : forall (g : R -> R) (x y : R), is_derive g t x -> is_derive g t y -> x = y).
  { intros g x y X Y. rewrite <- (is_derive_unique _ _ _ X). exact (is_derive_unique _ _ _ Y). }
  f_equal; eapply U; eassumption.
Qed.
Lemma cross_cancel C a b : SO3 C ->
  m3_mul (m3_scale (-1) (crossMx a)) C = m3_mul (m3_scale (-1) (crossMx b)) C -> a = b.
Proof.
  intros [H _] E. assert (F : m3_scale (-1) (crossMx a) = m3_scale (-1) (crossMx b)).
  { transitivity (m3_mul (m3_mul (m3_scale (-1) (crossMx a)) C) (m3_tr C)).
    - transitivity (m3_mul (m3_scale (-1) (crossMx a)) (m3_mul C (m3_tr C))); [ rewrite H | ]; kring.
    - rewrite E. transitivity (m3_mul (m3_scale (-1) (crossMx b)) (m3_mul C (m3_tr C))); [ | rewrite H ]; kring. }
  pose proof (f_equal m21 F) as F0. pose proof (f_equal m02 F) as F1. pose proof (f_equal m10 F) as F2.
  destruct a as [ a0 a1 a2 ], b as [ b0 b1 b2 ]. revert F0 F1 F2. kunf. intros. f_equal; lra.
Qed.

(** A curve of rotations through [C] with angular velocity [w]. *)
Definition spin (C : m3) (w : v3) (s : R) : m3 := m3_mul (ypr_C (v3_scale s (V3 (- x2 w) (- x1 w) (- x0 w)))) C.
Lemma spin_SO3 C w s : SO3 C -> SO3 (spin C w s).
Proof. intros H. apply SO3_mul; [ apply ypr_SO3 | exact H ]. Qed.
Lemma spin_0 C w : spin C w 0 = C.
Proof.
  unfold spin. replace (v3_scale 0 (V3 (- x2 w) (- x1 w) (- x0 w))) with (V3 0 0 0) by (kunf; f_equal; ring).
  rewrite ypr_zero. kring.
Qed.
Lemma spin_turns C w : m3_derive (spin C w) 0 (m3_mul (m3_scale (-1) (crossMx w)) C).
Proof.
  set (u := V3 (- x2 w) (- x1 w) (- x0 w)).
  assert (H : v3_derive (fun s => v3_scale s u) 0 u).
  { assert (L : forall b, is_derive (fun s => s * b) 0 b) by (intros b; auto_derive; [ tauto | ring ]).
    unfold v3_derive, v3_scale. cbn [x0 x1 x2]. split; [ | split ]; apply L. }
  destruct (ypr_rates _ 0 _ H I) as (D & D1 & D2).
  assert (Z : v3_scale 0 u = V3 0 0 0) by (unfold u; kunf; f_equal; ring).
  rewrite Z, ypr_zero in D2.
  assert (W : m3_vec (ypr_S (V3 0 0 0)) u = w).
  { unfold u, ypr_S, ypr_buildS. cbn [x0 x1 x2]. rewrite sin_0, cos_0. destruct w as [ a b c ]. kunf. f_equal; ring. }
  rewrite W in D2. red in D2.
  eapply m3_derive_eq; [ exact (m3_mul_derive _ (fun _ => C) 0 _ _ D1 (m3_derive_const C 0)) | ]. cbv beta.
  rewrite D2, Z, ypr_zero. unfold m3_zero. destruct w as [ a b c ], C as [ c0 c1 c2 c3 c4 c5 c6 c7 c8 ]. kunf. f_equal; ring.
Qed.

Lemma chart_by (K : rotk) (C : m3) (L : m3 -> v3) (dom : v3 -> Prop) :
  rates_to_velocity (kC K) (kS K) dom -> dom (kP K C) -> SO3 C -> m3_det (kS K (kP K C)) <> 0 ->
  (forall c D, c 0 = C -> m3_derive c 0 D -> v3_derive (fun s => kP K (c s)) 0 (L D)) ->
  (forall c D, c 0 = C -> m3_derive c 0 D -> (forall s, SO3 (c s)) -> locally 0 (fun s => kC K (kP K (c s)) = c s)) ->
  chart K C.
Proof.
  intros HR HD HS HN HL HC. split; [ exact HN | ]. intros c w E T. unfold turning in T. rewrite E in T.
  exists (L (m3_mul (m3_scale (-1) (crossMx w)) C)). split; [ apply HL; assumption | ].
  pose proof (HL _ _ (spin_0 C w) (spin_turns C w)) as P.
  assert (HD' : dom (kP K (spin C w 0))) by (rewrite spin_0; exact HD).
  destruct (HR _ 0 _ P HD') as (D & D1 & D2). red in D2. rewrite spin_0 in D2.
  pose proof (HC _ _ (spin_0 C w) (spin_turns C w) (fun s => spin_SO3 C w s HS)) as HLoc.
  pose proof (m3_derive_ext_loc _ _ _ _ HLoc D1) as D1'. pose proof (m3_derive_unique _ _ _ _ D1' (spin_turns C w)) as U.
  assert (K0 : kC K (kP K C) = C).
  { pose proof (locally_singleton _ _ HLoc) as Q. cbv beta in Q. rewrite spin_0 in Q. exact Q. }
  rewrite K0 in D2. apply (cross_cancel C); [ exact HS | ]. transitivity D; [ symmetry; exact D2 | exact U ].
Qed.

(** ** Angles of the plane *)
Lemma atan2_upper y x : 0 < y -> atan2 y x = PI / 2 - atan (x / y).
Proof.
  intros H. pose proof (atan_bound (x / y)) as B. pose proof PI_RGT_0 as P.
  set (a := PI / 2 - atan (x / y)). assert (R : - PI < a <= PI) by (unfold a; lra).
  set (r := sqrt (1 + (x / y) * (x / y))).
  assert (Hr : 0 < r) by (apply sqrt_lt_R0; nra).
  assert (S : sin a = / r).
  { unfold a. rewrite sin_minus, sin_PI2, cos_PI2, cos_atan. unfold Rsqr. fold r. field; lra. }
  assert (Cc : cos a = x / y / r).
  { unfold a. rewrite cos_minus, sin_PI2, cos_PI2, sin_atan. unfold Rsqr. fold r. field; repeat split; lra. }
  rewrite <- (atan2_polar (y * r) a) by (try apply Rmult_lt_0_compat; assumption). rewrite S, Cc.
  f_equal; field; repeat split; lra.
Qed.
Lemma atan2_lower y x : y < 0 -> atan2 y x = - (PI / 2) - atan (x / y).
Proof.
  intros H. pose proof (atan_bound (x / y)) as B. pose proof PI_RGT_0 as P.
  set (a := - (PI / 2) - atan (x / y)). assert (R : - PI < a <= PI) by (unfold a; lra).
  set (r := sqrt (1 + (x / y) * (x / y))).
  assert (Hr : 0 < r) by (apply sqrt_lt_R0; nra).
  assert (S : sin a = - / r).
  { unfold a. rewrite sin_minus, sin_neg, cos_neg, sin_PI2, cos_PI2, cos_atan. unfold Rsqr. fold r. field; lra. }
  assert (Cc : cos a = - (x / y / r)).
  { unfold a. rewrite cos_minus, sin_neg, cos_neg, sin_PI2, cos_PI2, sin_atan. unfold Rsqr. fold r. field; repeat split; lra. }
  rewrite <- (atan2_polar (- y * r) a) by (try apply Rmult_lt_0_compat; lra). rewrite S, Cc.
  f_equal; field; repeat split; lra.
Qed.
Lemma atan2_right y x : 0 < x -> atan2 y x = atan (y / x).
Proof. intros H. unfold atan2. destruct (Rlt_dec 0 x); [ reflexivity | lra ]. Qed.
Lemma atan_quot (f g : R -> R) t f' g' : is_derive f t f' -> is_derive g t g' -> g t <> 0 ->
  is_derive (fun s => atan (f s / g s)) t ((f' * g t - f t * g') / (g t * g t + f t * f t)).
Proof.
  intros F G N. pose proof (is_derive_div _ _ t _ _ F G N) as Q.
  pose proof (is_derive_comp atan (fun s => f s / g s) t _ _ (is_derive_atan (f t / g t)) Q) as H.
  eapply eq_rect; [ exact H | ]. unfold scal; simpl; unfold mult; simpl.
  assert (0 < g t * g t) by nra.
  unfold Rsqr. match goal with |- ?a = ?b => change (@eq R a b) end. field. repeat split; nra.
Qed.
Lemma const_minus_derive (c : R) (g : R -> R) t g' : is_derive g t g' -> is_derive (fun s => c - g s) t (- g').
Proof. intros H. derive_ex H. auto_derive; [ tauto | ]. match goal with |- ?a = ?b => change (@eq R a b) end. replace (Derive (fun x => g x) t) with g' by (symmetry; exact (is_derive_unique _ _ _ H)). ring. Qed.
Lemma atan2_derive (y x : R -> R) t y' x' : is_derive y t y' -> is_derive x t x' -> off_cut (y t) (x t) ->
  is_derive (fun s => atan2 (y s) (x s)) t ((y' * x t - y t * x') / (x t * x t + y t * y t)).
Proof.
  intros Y X H. pose proof (derive_continuous _ _ _ Y) as CY. pose proof (derive_continuous _ _ _ X) as CX.
  assert (C : 0 < y t \/ y t < 0 \/ 0 < x t) by (destruct H as [H | H]; [ destruct (Rtotal_order (y t) 0) as [ | [ | ] ]; lra | lra ]).
  destruct C as [C | [C | C] ].
  - apply (is_derive_ext_loc (fun s => PI / 2 - atan (x s / y s))).
    + eapply filter_imp; [ | exact (locally_gt y t 0 CY C) ]. cbv beta. intros s Hs. symmetry. apply atan2_upper. exact Hs.
    + pose proof (atan_quot x y t _ _ X Y ltac:(lra)) as Q.
      pose proof (const_minus_derive (PI / 2) _ _ _ Q) as M.
      eapply eq_rect; [ exact M | ]. match goal with |- ?a = ?b => change (@eq R a b) end. field. repeat split; nra.
  - apply (is_derive_ext_loc (fun s => - (PI / 2) - atan (x s / y s))).
    + eapply filter_imp; [ | exact (locally_lt y t 0 CY C) ]. cbv beta. intros s Hs. symmetry. apply atan2_lower. exact Hs.
    + pose proof (atan_quot x y t _ _ X Y ltac:(lra)) as Q.
      pose proof (const_minus_derive (- (PI / 2)) _ _ _ Q) as M.
      eapply eq_rect; [ exact M | ]. match goal with |- ?a = ?b => change (@eq R a b) end. field. repeat split; nra.
  - apply (is_derive_ext_loc (fun s => atan (y s / x s))).
    + eapply filter_imp; [ | exact (locally_gt x t 0 CX C) ]. cbv beta. intros s Hs. symmetry. apply atan2_right. exact Hs.
    + exact (atan_quot y x t _ _ Y X ltac:(lra)).
Qed.
Lemma asin_derive e : -1 < e < 1 -> is_derive asin e (/ sqrt (1 - e * e)).
Proof.
  intros H. pose proof (const_minus_derive (PI / 2) _ _ _ (acos_derive e H)) as D.
  rewrite Ropp_involutive in D. revert D. apply is_derive_ext_loc.
  assert (L1 : locally e (fun x => -1 < x)) by (apply (open_gt (-1)); lra).
  assert (L2 : locally e (fun x => x < 1)) by (apply (open_lt 1); lra).
  eapply filter_imp; [ | exact (filter_and _ _ L1 L2) ]. cbv beta. intros x Hx. symmetry. apply asin_acos. lra.
Qed.
Lemma asin_comp (f : R -> R) t f' : is_derive f t f' -> -1 < f t < 1 ->
  is_derive (fun s => asin (f s)) t (f' / sqrt (1 - f t * f t)).
Proof.
  intros F H. pose proof (is_derive_comp asin f t _ _ (asin_derive _ H) F) as D.
  eapply eq_rect; [ exact D | ]. unfold scal; simpl; unfold mult; simpl.
  match goal with |- ?a = ?b => change (@eq R a b) end. unfold Rdiv. ring.
Qed.
Lemma acos_comp (f : R -> R) t f' : is_derive f t f' -> -1 < f t < 1 ->
  is_derive (fun s => acos (f s)) t (- f' / sqrt (1 - f t * f t)).
Proof.
  intros F H. pose proof (is_derive_comp acos f t _ _ (acos_derive _ H) F) as D.
  eapply eq_rect; [ exact D | ]. unfold scal; simpl; unfold mult; simpl.
  match goal with |- ?a = ?b => change (@eq R a b) end. unfold Rdiv. ring.
Qed.
Lemma opp_derive (f : R -> R) t f' : is_derive f t f' -> is_derive (fun s => - f s) t (- f').
Proof. intros H. exact (is_derive_opp (V := R_NormedModule) f t f' H). Qed.
Lemma inside (f : R -> R) t f' : is_derive f t f' -> -1 < f t < 1 -> locally t (fun s => -1 < f s < 1).
Proof.
  intros F H. pose proof (derive_continuous _ _ _ F) as C.
  exact (filter_and _ _ (locally_gt f t (-1) C (proj1 H)) (locally_lt f t 1 C (proj2 H))).
Qed.

(** ** Euler angles *)
Lemma cos_asin_pos e : -1 < e < 1 -> 0 < cos (asin e).
Proof. intros H. destruct (mid_cos e H) as [A B]. rewrite A. exact B. Qed.

Theorem ypr_chart C : SO3 C -> -1 < m20 C < 1 -> off_cut (m10 C) (m00 C) -> off_cut (m21 C) (m22 C) -> chart k_ypr C.
Proof.
  intros H B U V.
  apply (chart_by k_ypr C (fun D =>
    V3 ((m10 D * m00 C - m10 C * m00 D) / (m00 C * m00 C + m10 C * m10 C))
       (- m20 D / sqrt (1 - - m20 C * - m20 C))
       ((m21 D * m22 C - m21 C * m22 D) / (m22 C * m22 C + m21 C * m21 C))) (fun _ => True)).
  - exact ypr_rates.
  - exact I.
  - exact H.
  - cbn [kS kP k_ypr]. unfold ypr_S, ypr_buildS, ypr_params. cbn [x0 x1 x2].
    pose proof (cos_asin_pos (- m20 C) ltac:(lra)) as P. set (a := atan2 (m10 C) (m00 C)).
    pose proof (sin2_cos2 a) as T. unfold Rsqr in T. revert P. generalize (asin (- m20 C)). clearbody a. intros b P. kunf.
    intros E. assert (Z : cos b * (sin a * sin a + cos a * cos a) = 0) by lra. rewrite T in Z. lra.
  - intros c D E ((A00 & A01 & A02) & (A10 & A11 & A12) & (A20 & A21 & A22)).
    rewrite <- E in *. cbn [kP k_ypr]. unfold ypr_params, v3_derive. cbn [x0 x1 x2]. split; [ | split ].
    + exact (atan2_derive _ _ 0 _ _ A10 A00 U).
    + exact (asin_comp _ 0 _ (opp_derive _ 0 _ A20) ltac:(lra)).
    + exact (atan2_derive _ _ 0 _ _ A21 A22 V).
  - intros c D E (_ & _ & (A20 & _)) HS. rewrite <- E in B.
    eapply filter_imp; [ | exact (inside _ 0 _ A20 B) ]. cbv beta. intros s Hs.
    exact (proj1 (ypr_of_params (c s) (HS s) Hs)).
Qed.
Theorem zyx_chart C : SO3 C -> -1 < m20 C < 1 -> off_cut (m10 C) (m00 C) -> off_cut (m21 C) (m22 C) -> chart k_zyx C.
Proof.
  intros H B U V.
  apply (chart_by k_zyx C (fun D =>
    V3 (- ((m10 D * m00 C - m10 C * m00 D) / (m00 C * m00 C + m10 C * m10 C)))
       (m20 D / sqrt (1 - m20 C * m20 C))
       (- ((m21 D * m22 C - m21 C * m22 D) / (m22 C * m22 C + m21 C * m21 C)))) (fun _ => True)).
  - exact zyx_rates.
  - exact I.
  - exact H.
  - cbn [kS kP k_zyx]. unfold zyx_S, zyx_buildS, zyx_params. cbn [x0 x1 x2].
    pose proof (cos_asin_pos (m20 C) ltac:(lra)) as P. rewrite Ropp_involutive, (cos_neg (asin _)). set (a := atan2 (m10 C) (m00 C)).
    pose proof (sin2_cos2 a) as T. unfold Rsqr in T. revert P. generalize (asin (m20 C)). clearbody a. intros b P. kunf.
    intros E. assert (Z : cos b * (sin a * sin a + cos a * cos a) = 0) by lra. rewrite T in Z. lra.
  - intros c D E ((A00 & A01 & A02) & (A10 & A11 & A12) & (A20 & A21 & A22)).
    rewrite <- E in *. cbn [kP k_zyx]. unfold zyx_params, v3_derive. cbn [x0 x1 x2]. split; [ | split ].
    + exact (opp_derive _ 0 _ (atan2_derive _ _ 0 _ _ A10 A00 U)).
    + exact (asin_comp _ 0 _ A20 ltac:(lra)).
    + exact (opp_derive _ 0 _ (atan2_derive _ _ 0 _ _ A21 A22 V)).
  - intros c D E (_ & _ & (A20 & _)) HS. rewrite <- E in B.
    eapply filter_imp; [ | exact (inside _ 0 _ A20 B) ]. cbv beta. intros s Hs.
    exact (zyx_of_params (c s) (HS s) Hs).
Qed.
Theorem zxy_chart C : SO3 C -> -1 < m21 C < 1 -> off_cut (- m01 C) (m11 C) -> off_cut (- m20 C) (m22 C) -> chart k_zxy C.
Proof.
  intros H B U V.
  apply (chart_by k_zxy C (fun D =>
    V3 ((- m01 D * m11 C - - m01 C * m11 D) / (m11 C * m11 C + - m01 C * - m01 C))
       (m21 D / sqrt (1 - m21 C * m21 C))
       ((- m20 D * m22 C - - m20 C * m22 D) / (m22 C * m22 C + - m20 C * - m20 C))) (fun _ => True)).
  - exact zxy_rates.
  - exact I.
  - exact H.
  - cbn [kS kP k_zxy]. unfold zxy_S, zxy_params. cbn [x0 x1 x2].
    pose proof (cos_asin_pos (m21 C) ltac:(lra)) as P. set (a := atan2 (- m01 C) (m11 C)).
    pose proof (sin2_cos2 a) as T. unfold Rsqr in T. revert P. generalize (asin (m21 C)). clearbody a. intros b P. kunf.
    intros E. assert (Z : cos b * (sin a * sin a + cos a * cos a) = 0) by lra. rewrite T in Z. lra.
  - intros c D E ((A00 & A01 & A02) & (A10 & A11 & A12) & (A20 & A21 & A22)).
    rewrite <- E in *. cbn [kP k_zxy]. unfold zxy_params, v3_derive. cbn [x0 x1 x2]. split; [ | split ].
    + exact (atan2_derive _ _ 0 _ _ (opp_derive _ 0 _ A01) A11 U).
    + exact (asin_comp _ 0 _ A21 ltac:(lra)).
    + exact (atan2_derive _ _ 0 _ _ (opp_derive _ 0 _ A20) A22 V).
  - intros c D E (_ & _ & (_ & A21 & _)) HS. rewrite <- E in B.
    eapply filter_imp; [ | exact (inside _ 0 _ A21 B) ]. cbv beta. intros s Hs.
    exact (zxy_of_params (c s) (HS s) Hs).
Qed.

(** ** Rodrigues parameters and rotation vectors *)
Definition half_trace (C : m3) : R := (m00 C + m11 C + m22 C - 1) * (1 / 2).
Lemma skew_inside C : SO3 C -> 0 < v3_norm (skew_part C) -> -1 < half_trace C < 1.
Proof.
  intros H N. destruct (r2quat_spec C H) as (U & E & P). set (q := r2quat C) in *. clearbody q.
  destruct (R2_quat q U P) as (_ & K & _). rewrite E in K. rewrite K, v3_norm_scale in N.
  pose proof (v3_norm_pos (qeps q)) as NP. pose proof (unit_split q U) as S.
  assert (T : half_trace C = 2 * q3 q * q3 q - 1).
  { rewrite <- E. unfold unit4 in U. clear -U. destruct q as [ a b c d ]. unfold half_trace. kunf. kunf in U. lra. }
  rewrite T. assert (Q : q3 q <> 0).
  { intros Z. rewrite Z in N. rewrite Rmult_0_r, Rabs_R0 in N. lra. }
  assert (M : v3_norm (qeps q) <> 0) by (intros Z; rewrite Z in N; lra). nra.
Qed.
Lemma half_trace_derive c t D : m3_derive c t D -> is_derive (fun s => half_trace (c s)) t ((m00 D + m11 D + m22 D) * (1 / 2)).
Proof.
  intros ((A00 & _) & (_ & A11 & _) & (_ & _ & A22)). unfold half_trace.
  pose proof (is_derive_plus (V := R_NormedModule) _ _ t _ _ (is_derive_plus (V := R_NormedModule) _ _ t _ _ A00 A11) A22) as S.
  pose proof (is_derive_scal _ t (1 / 2) _ S) as Q.
  apply (is_derive_ext (fun s => (1 / 2) * (m00 (c s) + m11 (c s) + m22 (c s)) + - (1 / 2))).
  - intros s. match goal with |- ?a = ?b => change (@eq R a b) end. field.
  - pose proof (is_derive_plus (V := R_NormedModule) _ _ t _ _ Q (is_derive_const (V := R_NormedModule) (- (1 / 2)) t)) as P.
    eapply eq_rect; [ exact P | ]. change (1 / 2 * (m00 D + m11 D + m22 D) + 0 = (m00 D + m11 D + m22 D) * (1 / 2)). ring.
Qed.
Lemma skew_derive c t D : m3_derive c t D -> v3_derive (fun s => skew_part (c s)) t (skew_part D).
Proof.
  intros ((A00 & A01 & A02) & (A10 & A11 & A12) & (A20 & A21 & A22)). unfold skew_part, v3_derive. cbn [x0 x1 x2].
  split; [ | split ]; apply (is_derive_minus (V := R_NormedModule)); assumption.
Qed.
(** [- f angle / |skew|] times the skew part, where [f] has slope [f']. *)
Lemma vector_derive (f : R -> R) f' c t D : m3_derive c t D -> -1 < half_trace (c t) < 1 -> 0 < v3_norm (skew_part (c t)) ->
  is_derive f (acos (half_trace (c t))) f' ->
  v3_derive (fun s => v3_scale (- f (acos (half_trace (c s))) / v3_norm (skew_part (c s))) (skew_part (c s))) t
    (let C := c t in let a' := - ((m00 D + m11 D + m22 D) * (1 / 2)) / sqrt (1 - half_trace C * half_trace C) in
     let n := v3_norm (skew_part C) in
     v3_add (v3_scale ((- (a' * f') * n - - f (acos (half_trace C)) * (v3_dot (skew_part C) (skew_part D) / n)) / n ^ 2) (skew_part C))
            (v3_scale (- f (acos (half_trace C)) / n) (skew_part D))).
Proof.
  intros HD HI HN HF. cbv zeta.
  pose proof (acos_comp _ t _ (half_trace_derive c t D HD) HI) as A.
  pose proof (is_derive_comp f _ t _ _ HF A) as FA. 
  pose proof (opp_derive _ t _ FA) as NF.
  pose proof (norm_derive _ t _ (skew_derive c t D HD) HN) as N.
  pose proof (is_derive_div _ _ t _ _ NF N ltac:(lra)) as Q.
  exact (v3_derive_scale _ _ t _ _ Q (skew_derive c t D HD)).
Qed.

(** The parameters [g] of the matrix [C], where [g] is [- f angle / |skew|] times the skew part near [C]. *)
Lemma vector_slope (f : R -> R) f' (g : m3 -> v3) (C : m3) :
  SO3 C -> 0 < v3_norm (skew_part C) -> is_derive f (acos (half_trace C)) f' ->
  (forall c D, c 0 = C -> m3_derive c 0 D ->
     locally 0 (fun s => v3_scale (- f (acos (half_trace (c s))) / v3_norm (skew_part (c s))) (skew_part (c s)) = g (c s))) ->
  exists L : m3 -> v3, forall c D, c 0 = C -> m3_derive c 0 D -> v3_derive (fun s => g (c s)) 0 (L D).
Proof.
  intros HS HN HF HG. pose proof (skew_inside C HS HN) as HI. eexists (fun D => _).
  intros c D E HD. eapply v3_derive_ext_loc; [ exact (HG c D E HD) | ].
  rewrite <- E in HN, HF, HI. pose proof (vector_derive f f' c 0 D HD HI HN HF) as V. rewrite E in V. exact V.
Qed.
Lemma angle_cont c t D : m3_derive c t D -> -1 < half_trace (c t) < 1 -> continuous (fun s => acos (half_trace (c s))) t.
Proof. intros HD HI. eapply derive_continuous. exact (acos_comp _ t _ (half_trace_derive c t D HD) HI). Qed.
Lemma skew_cont c t D : m3_derive c t D -> 0 < v3_norm (skew_part (c t)) -> continuous (fun s => v3_norm (skew_part (c s))) t.
Proof. intros HD HN. eapply derive_continuous. exact (norm_derive _ t _ (skew_derive c t D HD) HN). Qed.
Lemma rot_angle_half C : rot_angle C = acos (half_trace C).
Proof. unfold rot_angle, half_trace, m3_trace. f_equal. field. Qed.

Lemma big_near c D e : 0 < e -> SO3 (c 0) -> m3_derive c 0 D -> e < rot_angle (c 0) -> e < v3_norm (skew_part (c 0)) ->
  locally 0 (fun s => e < rot_angle (c s) /\ e < v3_norm (skew_part (c s)) /\ -1 < half_trace (c s) < 1).
Proof.
  intros He HS HD HA HN. assert (HI : -1 < half_trace (c 0) < 1) by (apply skew_inside; [ exact HS | lra ]).
  rewrite rot_angle_half in HA.
  pose proof (locally_gt _ 0 e (angle_cont c 0 D HD HI) HA) as L1.
  pose proof (locally_gt _ 0 e (skew_cont c 0 D HD ltac:(lra)) HN) as L2.
  pose proof (inside _ 0 _ (half_trace_derive c 0 D HD) HI) as L3.
  eapply filter_imp; [ | exact (filter_and _ _ L1 (filter_and _ _ L2 L3)) ]. cbv beta. intros s (A & B & C).
  rewrite rot_angle_half. split; [ exact A | split; [ exact B | exact C ] ].
Qed.
Lemma clamp x : -1 < x < 1 -> Rmax (-1) (Rmin x 1) = x.
Proof. intros H. rewrite Rmin_left, Rmax_right; lra. Qed.
Lemma rv_params_vector C : 1 / 10 ^ 14 < rot_angle C -> 1 / 10 ^ 14 < v3_norm (skew_part C) -> -1 < half_trace C < 1 ->
  rv_params C = v3_scale (- acos (half_trace C) / v3_norm (skew_part C)) (skew_part C).
Proof.
  intros A N I. rewrite rot_angle_half in A. unfold rv_params. cbv zeta. fold (half_trace C) (skew_part C). rewrite (clamp _ I).
  assert (P : 0 < 1 / 10 ^ 14) by lra.
  rewrite !Rabs_pos_eq by lra.
  destruct (ltb_spec (acos (half_trace C)) (1 / 10 ^ 14)) as [L | _]; [ lra | ].
  destruct (ltb_spec (v3_norm (skew_part C)) (1 / 10 ^ 14)) as [L | _]; [ lra | ]. reflexivity.
Qed.
Lemma er_params_vector C : 1 / 10 ^ 14 < rot_angle C -> 1 / 10 ^ 14 < v3_norm (skew_part C) ->
  er_params C = v3_scale (- tan (1 / 2 * acos (half_trace C)) / v3_norm (skew_part C)) (skew_part C).
Proof.
  intros A N. rewrite rot_angle_half in A. unfold er_params. cbv zeta. fold (half_trace C) (skew_part C).
  assert (P : 0 < 1 / 10 ^ 14) by lra.
  rewrite Rabs_pos_eq by lra.
  destruct (ltb_spec (acos (half_trace C)) (1 / 10 ^ 14)) as [L | _]; [ lra | ].
  destruct (ltb_spec (v3_norm (skew_part C)) (1 / 10 ^ 14)) as [L | _]; [ lra | ]. reflexivity.
Qed.

Lemma acos_inside x : -1 < x < 1 -> 0 < acos x < PI.
Proof.
  intros H. pose proof (acos_bound x) as B. pose proof (cos_acos x ltac:(lra)) as E.
  split.
  - destruct (Rtotal_order 0 (acos x)) as [Q | [Q | Q] ]; [ exact Q | | lra ]. rewrite <- Q, cos_0 in E. lra.
  - destruct (Rtotal_order (acos x) PI) as [Q | [Q | Q] ]; [ exact Q | | lra ]. rewrite Q, cos_PI in E. lra.
Qed.

Theorem rv_chart C : SO3 C -> 1 / 10 ^ 14 < rot_angle C -> 1 / 10 ^ 14 < v3_norm (skew_part C) -> chart k_rv C.
Proof.
  intros H A N. assert (P14 : 0 < 1 / 10 ^ 14) by lra.
  assert (HI : -1 < half_trace C < 1) by (apply skew_inside; [ exact H | lra ]).
  destruct (rv_of_params C H ltac:(lra) ltac:(lra)) as [RT NA].
  destruct (vector_slope (fun x => x) 1 rv_params C H ltac:(lra) (is_derive_id _)) as [L HL].
  { intros c D E HD. rewrite <- E in *. eapply filter_imp; [ | exact (big_near c D _ P14 H HD A N) ].
    cbv beta. intros s (A' & N' & I'). symmetry. apply rv_params_vector; assumption. }
  apply (chart_by k_rv C L (fun p => 1 / 10 ^ 14 < v3_norm p)).
  - exact rv_rates.
  - cbn [kP k_rv]. rewrite NA. exact A.
  - exact H.
  - cbn [kS kP k_rv]. assert (Cn : cos (v3_norm (rv_params C)) <> 1).
    { rewrite NA, rot_angle_half, cos_acos by lra. lra. }
    destruct (rv_invS_inverse (rv_params C) ltac:(rewrite NA; lra) Cn) as (Si & _ & E & _).
    intros Z. pose proof (f_equal m3_det E) as F. rewrite m3_det_mul, Z in F. revert F. kunf. lra.
  - exact HL.
  - intros c D E HD HS. rewrite <- E in *. eapply filter_imp; [ | exact (big_near c D _ P14 H HD A N) ].
    cbv beta. intros s (A' & N' & I'). exact (proj1 (rv_of_params (c s) (HS s) ltac:(lra) ltac:(lra))).
Qed.
Theorem er_chart C : SO3 C -> 1 / 10 ^ 14 < rot_angle C -> 1 / 10 ^ 14 < v3_norm (skew_part C) -> chart k_er C.
Proof.
  intros H A N. assert (P14 : 0 < 1 / 10 ^ 14) by lra.
  assert (HI : -1 < half_trace C < 1) by (apply skew_inside; [ exact H | lra ]).
  pose proof (acos_inside _ HI) as AI.
  assert (TD : exists k, is_derive (fun x => tan (1 / 2 * x)) (acos (half_trace C)) k).
  { eexists. apply (is_derive_comp tan (fun x => 1 / 2 * x)).
    - apply is_derive_tan. apply Rgt_not_eq. apply cos_gt_0; lra.
    - auto_derive; [ tauto | reflexivity ]. }
  destruct TD as [k TD].
  destruct (vector_slope _ k er_params C H ltac:(lra) TD) as [L HL].
  { intros c D E HD. rewrite <- E in *. eapply filter_imp; [ | exact (big_near c D _ P14 H HD A N) ].
    cbv beta. intros s (A' & N' & I'). symmetry. apply er_params_vector; assumption. }
  apply (chart_by k_er C L (fun _ => True)).
  - exact er_rates.
  - exact I.
  - exact H.
  - cbn [kS kP k_er]. generalize (er_params C). clear. intros [ a b c ] Z.
    revert Z. unfold er_S. kunf. intros Z.
    assert (Q : 0 < 1 + (a * a + b * b + c * c)) by nra.
    assert (K : 0 < 2 / (1 + (a * a + b * b + c * c))) by (apply Rdiv_lt_0_compat; lra).
    revert Z K. generalize (2 / (1 + (a * a + b * b + c * c))). intros k Z K.
    assert (E : k * k * k * (1 + (a * a + b * b + c * c)) = 0) by (ring_simplify; ring_simplify in Z; lra).
    assert (0 < k * k * k * (1 + (a * a + b * b + c * c))) by (repeat apply Rmult_lt_0_compat; assumption). lra.
  - exact HL.
  - intros c D E HD HS. rewrite <- E in *. eapply filter_imp; [ | exact (big_near c D _ P14 H HD A N) ].
    cbv beta. intros s (A' & N' & I'). exact (er_of_params (c s) (HS s) ltac:(lra) ltac:(lra)).
Qed.
