(** * Lemmas about pose curves *)
From Coquelicot Require Import Coquelicot.
From Coq Require Import Reals List Arith ZArith Bool Lia Lra.
From Verif Require Import Base KinModel KinSpec KinProofs KinCurve RotModel RotSpec RotVec RotProps
  TfModel TfSpec TfProofs TfCurve BsplModel BsplSpec BsplProofs BsdProofs BsplProps BsdProps BpModel BpSpec.
Import ListNotations.
Local Open Scope R_scope.

(** ** Columns *)
Lemma total_scale n c f : total n (fun i => c * f i) = c * total n f.
Proof. rewrite <- !(bsum_total n). apply bsum_scal. Qed.
Lemma total_plus n f g : total n (fun i => f i + g i) = total n f + total n g.
Proof. rewrite <- !(bsum_total n). apply bsum_plus. Qed.
Lemma total_ext n f g : (forall i, (i < n)%nat -> f i = g i) -> total n f = total n g.
Proof. intros H. rewrite <- !(bsum_total n). apply bsum_ext. exact H. Qed.

Lemma m3_times A n J u : m3_vec A (times3 n J u) = times3 n (fun m => m3_vec A (J m)) u.
Proof.
  unfold times3, m3_vec, v3_dot, m3_row0, m3_row1, m3_row2. cbn [x0 x1 x2].
  f_equal; rewrite <- !(total_scale n), <- !(total_plus n); apply total_ext; intros; ring.
Qed.
Lemma times3_add n J L u : v3_add (times3 n J u) (times3 n L u) = times3 n (fun m => v3_add (J m) (L m)) u.
Proof.
  unfold times3, v3_add. cbn [x0 x1 x2].
  f_equal; rewrite <- !(total_plus n); apply total_ext; intros; ring.
Qed.
Lemma m6_times A n J u : m6_vec A (times6 n J u) = times6 n (fun m => m6_vec A (J m)) u.
Proof.
  unfold times6, m6_vec. cbn [hd3 tl3]. rewrite !m3_times, !times3_add. reflexivity.
Qed.
Lemma m46_times A n J u : m46_vec A (times6 n J u) = times4 n (fun m => m46_vec A (J m)) u.
Proof.
  unfold times6, times4, times3. destruct A as [[a b c d] [e f g h]].
  unfold m46_vec, m43_vec, v4_add, v3_dot. cbn [hd3 tl3 x0 x1 x2 l43 r43' a0 a1 a2 a3 q0 q1 q2 q3].
  f_equal; rewrite <- !(total_scale n), <- !(total_plus n); apply total_ext; intros; ring.
Qed.

(** ** A curve value with moving coefficients *)
Lemma curve_moves k l C c b d t y yd bs :
  built k l 6 C c b -> nondecreasing l -> long_end k l -> first_time k l <= t <= last_time k l -> (0 <= d)%Z ->
  moving b (6 * C) y yd bs ->
  exists v J idx (V : R -> vec), eval_D_and_jacobian b t d = Ok (v, J, idx) /\ eval_D b t d = Ok v /\
    local_coef_indices b t = Ok idx /\ (forall s, eval_D (bs s) t d = Ok (V s)) /\
    head3 (V 0) = head3 v /\ tail3 (V 0) = tail3 v /\
    v3_derive (fun s => head3 (V s)) 0 (hd3 (times6 (k * 6) (column J) (picked yd idx))) /\
    v3_derive (fun s => tail3 (V s)) 0 (tl3 (times6 (k * 6) (column J) (picked yd idx))).
Proof.
  intros H ND LE I PD (M1 & M2 & M3).
  destruct (C65_jacobian k l 6 C c b d t H ND LE I PD ltac:(lia)) as (v & J & idx & lc & E & EV & _ & EI & LI & BI & _ & _ & CH).
  exists v, J, idx, (fun s => match eval_D (bs s) t d with Ok w => w | _ => fun _ => 0 end).
  assert (KEY : forall s, exists w, eval_D (bs s) t d = Ok w /\ forall r, (r < 6)%nat -> w r =
    v r + total (k * 6) (fun m => J r m * (y s (nth m idx 0%nat) - coef_vector b (nth m idx 0%nat)))).
  { intros s. destruct (CH (y s)) as (b' & v' & E1 & _ & E2 & X). rewrite M1 in E1.
    assert (b' = bs s) by congruence. subst b'. exists v'. split; [ exact E2 | ].
    intros r Lr. rewrite <- (X r Lr). ring. }
  split; [ exact E | ]. split; [ exact EV | ]. split; [ exact EI | ].
  split. { intros s. destruct (KEY s) as (w & -> & _). reflexivity. }
  set (V := fun s : R => match eval_D (bs s) t d with Ok w => w | _ => fun _ : nat => 0 end).
  assert (VK : forall s r, (r < 6)%nat -> V s r =
    v r + total (k * 6) (fun m => J r m * (y s (nth m idx 0%nat) - coef_vector b (nth m idx 0%nat)))).
  { intros s r Lr. unfold V. destruct (KEY s) as (w & -> & X). apply X. exact Lr. }
  assert (IN : forall m, (m < k * 6)%nat -> (nth m idx 0%nat < 6 * C)%nat).
  { intros m Lm. apply BI. apply nth_In. rewrite LI. exact Lm. }
  assert (V0 : forall r, (r < 6)%nat -> V 0 r = v r).
  { intros r Lr. rewrite VK by exact Lr.
    replace (total (k * 6) _) with (total (k * 6) (fun m => 0 * 0)).
    - rewrite total_scale. ring.
    - apply total_ext. intros m Lm. rewrite M2 by (apply IN; exact Lm). ring. }
  assert (DV : forall r, (r < 6)%nat -> is_derive (fun s => V s r) 0 (total (k * 6) (fun m => J r m * picked yd idx m))).
  { intros r Lr. apply (is_derive_ext (fun s => v r + total (k * 6) (fun m => J r m * (y s (nth m idx 0%nat) - coef_vector b (nth m idx 0%nat))))).
    { intros s. symmetry. apply VK. exact Lr. }
    replace (total (k * 6) (fun m => J r m * picked yd idx m)) with (0 + total (k * 6) (fun m => J r m * picked yd idx m)) by ring.
    apply (is_derive_plus (fun _ => v r)); [ exact (@is_derive_const _ R_NormedModule _ _) | ].
    apply (bsum_derive (k * 6) (fun m s => J r m * (y s (nth m idx 0%nat) - coef_vector b (nth m idx 0%nat)))).
    intros m Lm. pose proof (M3 _ (IN m Lm)) as D. unfold picked.
    pose proof (is_derive_scal _ 0 (J r m) _ (is_derive_minus _ (fun _ => coef_vector b (nth m idx 0%nat)) 0 _ _ D (@is_derive_const _ R_NormedModule _ _))) as X.
    eapply eq_rect; [ exact X | ].
    match goal with |- ?a = ?b => change (@eq R a b) end. unfold minus, plus, opp, zero, mult. cbn. ring. }
  unfold head3, tail3. rewrite !V0 by lia. split; [ reflexivity | ]. split; [ reflexivity | ].
  unfold v3_derive, times6, times3, column, head3, tail3. cbn [hd3 tl3 x0 x1 x2].
  split; (split; [ | split ]); apply DV; lia.
Qed.

(** ** Moving rotations and poses *)
Lemma v3_derive_eq f t d d' : v3_derive f t d -> d = d' -> v3_derive f t d'.
Proof. intros H <-. exact H. Qed.
Lemma m3_derive_tr (C : R -> m3) t D : m3_derive C t D -> m3_derive (fun s => m3_tr (C s)) t (m3_tr D).
Proof.
  intros ((A & B & E) & (F & G & H) & (I & J & L)). unfold m3_derive, m3_tr.
  cbn [m00 m01 m02 m10 m11 m12 m20 m21 m22]. tauto.
Qed.
Lemma m3_derive_neg (C : R -> m3) t D : m3_derive C t D -> m3_derive (fun s => m3_neg (C s)) t (m3_neg D).
Proof.
  assert (N : forall f d, is_derive f t d -> is_derive (fun s => -1 * f s) t (-1 * d)).
  { intros f d H. exact (is_derive_scal f t (-1) d H). }
  intros ((A & B & E) & (F & G & H) & (I & J & L)). unfold m3_derive, m3_neg, m3_scale.
  cbn [m00 m01 m02 m10 m11 m12 m20 m21 m22].
  split; [ | split ]; (split; [ | split ]); apply N; assumption.
Qed.
Lemma dot3p_derive (a b c e f g : R -> R) (t a' b' c' e' f' g' : R) :
  is_derive a t a' -> is_derive b t b' -> is_derive c t c' -> is_derive e t e' -> is_derive f t f' -> is_derive g t g' ->
  is_derive (fun s => a s * e s + b s * f s + c s * g s) t
    ((a' * e t + b' * f t + c' * g t) + (a t * e' + b t * f' + c t * g')).
Proof.
  intros A B C E F G.
  apply (is_derive_ext (fun s => - - (a s * e s + b s * f s + c s * g s))); [ intros s; apply Ropp_involutive | ].
  eapply eq_rect; [ exact (is_derive_opp _ t _ (dot3_derive _ _ _ _ _ _ t _ _ _ _ _ _ A B C E F G)) | ].
  match goal with |- ?a = ?b => change (@eq R a b) end. unfold opp. cbn. ring.
Qed.
Lemma m3_vec_derive (C : R -> m3) (v : R -> v3) t D d : m3_derive C t D -> v3_derive v t d ->
  v3_derive (fun s => m3_vec (C s) (v s)) t (v3_add (m3_vec D (v t)) (m3_vec (C t) d)).
Proof.
  intros ((A & B & E) & (F & G & H) & (I & J & L)) (X & Y & Z).
  unfold v3_derive, m3_vec, v3_add, v3_dot, m3_row0, m3_row1, m3_row2. cbn [x0 x1 x2].
  split; [ | split ].
  - exact (dot3p_derive _ _ _ _ _ _ t _ _ _ _ _ _ A B E X Y Z).
  - exact (dot3p_derive _ _ _ _ _ _ t _ _ _ _ _ _ F G H X Y Z).
  - exact (dot3p_derive _ _ _ _ _ _ t _ _ _ _ _ _ I J L X Y Z).
Qed.

Section Rotation.
Variables (K : rotk) (dom : v3 -> Prop).
Hypothesis PK : parametrises K dom.

Lemma pose_moves (x p : R -> v3) t dx dp : v3_derive x t dx -> v3_derive p t dp -> dom (p t) ->
  perturbed (fun s => rt (kC K (p s)) (x s)) t
    (m6_vec (M6 m3_I (m3_mul (m3_neg (crossMx (x t))) (kS K (p t))) m3_zero (kS K (p t))) (V6 dx dp)).
Proof using PK.
  destruct PK as (_ & RV & _). intros X P D.
  destruct (RV p t dp P D) as (Cd & HC & HA). unfold angular_velocity in HA.
  eexists. split; [ exact (rt_derive _ _ t _ _ HC X) | ]. rewrite HA. clear.
  intros q. generalize (kC K (p t)) (kS K (p t)) (x t). tring.
Qed.

Lemma rotation_moves (p : R -> v3) t dp : v3_derive p t dp -> dom (p t) ->
  exists Cd Ad, m3_derive (fun s => kC K (p s)) t Cd /\ angular_velocity (kC K (p t)) Cd (m3_vec (kS K (p t)) dp) /\
    m3_derive (fun s => m3_tr (kC K (p s))) t Ad /\
    angular_velocity (m3_tr (kC K (p t))) Ad (m3_vec (m3_mul (m3_neg (m3_tr (kC K (p t)))) (kS K (p t))) dp).
Proof using PK.
  destruct PK as (SO & RV & _). intros P D.
  destruct (RV p t dp P D) as (Cd & HC & HA). exists Cd, (m3_tr Cd).
  split; [ exact HC | ]. split; [ exact HA | ]. split; [ exact (m3_derive_tr _ _ _ HC) | ].
  unfold angular_velocity in *. rewrite HA. pose proof (SO (p t)) as S.
  rewrite m3_vec_mul. generalize (m3_vec (kS K (p t)) dp). intros w.
  assert (X : m3_mul (m3_tr (kC K (p t))) (crossMx w) =
    m3_mul (crossMx (m3_vec (m3_tr (kC K (p t))) w)) (m3_tr (kC K (p t)))) by (apply SO3_cross, SO3_tr, S).
  assert (Y : m3_tr (m3_mul (m3_scale (-1) (crossMx w)) (kC K (p t))) = m3_mul (m3_tr (kC K (p t))) (crossMx w)) by kring.
  rewrite Y, X. generalize (kC K (p t)). clear. unfold m3_neg. kring.
Qed.

(** The body-frame rate and its Jacobian. *)
Lemma body_moves (p v : R -> v3) t dp dv jo : v3_derive p t dp -> v3_derive v t dv -> dom (p t) ->
  kJ K (p t) (v t) = Some jo ->
  let c := m3_tr (kC K (p t)) in
  let w := m3_vec (m3_neg c) (kW K (p t) (v t)) in
  v3_derive (fun s => m3_vec (m3_neg (m3_tr (kC K (p s)))) (kW K (p s) (v s))) t
    (v3_add (m36_vec (m3_mul (m3_neg c) (fst jo), m3_mul (m3_neg c) (snd jo)) (V6 dp dv))
       (m3_vec (crossMx w) (m3_vec (m3_mul (m3_neg c) (kS K (p t))) dp))).
Proof using PK.
  intros P V D E c w. pose proof PK as (SO & RV & WS & VJ & _).
  destruct (rotation_moves p t dp P D) as (_ & Ad & _ & _ & HA & AV).
  pose proof (VJ p v t dp dv jo P V D E) as HW.
  pose proof (m3_vec_derive _ _ t _ _ (m3_derive_neg _ t _ HA) HW) as X. cbv beta in X.
  eapply v3_derive_eq; [ exact X | ]. unfold angular_velocity in AV. rewrite AV. clear X HW AV HA.
  unfold w, c. generalize (m3_tr (kC K (p t))) (kW K (p t) (v t)) (kS K (p t)). intros A u S.
  destruct jo as [J1 J2]. unfold m36_vec. cbn [fst snd hd3 tl3].
  rewrite m3_vec_mul. generalize (m3_vec S dp). intros q.
  destruct A, u, q, J1, J2, dp, dv. unfold m3_neg. kunf. f_equal; ring.
Qed.
End Rotation.
