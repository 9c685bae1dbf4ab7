(** * Homogeneous points: arithmetic, Jacobians and covariances *)

From Coquelicot Require Import Coquelicot.
From Coq Require Import Reals Psatz Nsatz.
From Verif Require Import KinModel KinSpec KinProofs KinExp KinCurve KinJac RotEuler TfModel TfSpec TfProofs TfCurve.
Local Open Scope R_scope.

Lemma euclid_spec p e : q3 p <> 0 -> (stands_for p e <-> hp_euclid p = e).
Proof.
  intros H. destruct p as [a b c w], e as [x y z]. unfold stands_for, hp_euclid. cbn [q0 q1 q2 q3 x0 x1 x2] in *. split.
  - intros (_ & -> & -> & ->). f_equal; field; exact H.
  - intros E. injection E. intros <- <- <-. split; [exact H | ]. split; [ | split]; field; exact H.
Qed.
Lemma add_spec p q a b : stands_for p a -> stands_for q b -> stands_for (hp_add p q) (v3_add a b).
Proof.
  destruct p, q, a, b. unfold stands_for. tunf. intros (P & -> & -> & ->) (Q & -> & -> & ->).
  split; [nra | split; [ | split]; ring].
Qed.
Lemma sub_spec p q a b : stands_for p a -> stands_for q b -> stands_for (hp_sub p q) (v3_sub a b).
Proof.
  destruct p, q, a, b. unfold stands_for. tunf. intros (P & -> & -> & ->) (Q & -> & -> & ->).
  split; [nra | split; [ | split]; ring].
Qed.
Lemma scale_spec s p a : stands_for p a -> stands_for (hp_scale s p) (v3_scale s a).
Proof.
  destruct p, a. unfold stands_for. tunf. intros (P & -> & -> & ->).
  split; [exact P | split; [ | split]; ring].
Qed.
Lemma tf_spec A p a : good A -> stands_for p a -> stands_for (tf_hpoint A p) (tf_point A a).
Proof.
  intros G. rewrite tf_hpoint_correct, tf_point_correct by exact G. unfold tf_T. rewrite rt_vec.
  generalize (quat2r (tq A)), (tt A). intros C t. destruct p as [p0 p1 p2 w], a as [x y z]. unfold stands_for.
  cbv zeta. cbn [q0 q1 q2 q3]. intros (P & E0 & E1 & E2). rewrite E0, E1, E2. split; [exact P | ].
  destruct C, t. tunf. split; [ | split]; ring.
Qed.

(** ** Jacobians *)

Lemma quotient_derive (f g : R -> R) (t f' g' : R) : is_derive f t f' -> is_derive g t g' -> g t <> 0 ->
  is_derive (fun s => 1 / g s * f s) t (1 / g t * f' + - (1 / g t * f t) * (1 / g t) * g').
Proof.
  intros F G N. derive_ex F. derive_ex G. auto_derive.
  - tauto.
  - derive_sub F. derive_sub G. field. exact N.
Qed.

Lemma fromHomogeneous_derive (p : R -> v4) t d : v4_derive p t d -> q3 (p t) <> 0 ->
  v3_derive (fun s => fst (fromHomogeneous (p s))) t (m34_vec (snd (fromHomogeneous (p t))) d).
Proof.
  intros (A & B & C & D) N.
  pose proof (quotient_derive _ _ t _ _ A D N) as X. pose proof (quotient_derive _ _ t _ _ B D N) as Y.
  pose proof (quotient_derive _ _ t _ _ C D N) as Z. cbv beta in X, Y, Z.
  unfold v3_derive. unfold fromHomogeneous. cbv zeta. cbn [fst snd v3_scale x0 x1 x2].
  split; [ | split].
  - eapply is_derive_ext; [ | match type of X with is_derive _ _ ?d => match goal with |- is_derive _ _ ?e => replace e with d end end; [exact X | ] ]; [intros s; reflexivity | ]. cbn [m34_vec b0 b1 b2 v4_dot q0 q1 q2 q3 x0 x1 x2]. kunf. ring.
  - eapply is_derive_ext; [ | match type of Y with is_derive _ _ ?d => match goal with |- is_derive _ _ ?e => replace e with d end end; [exact Y | ] ]; [intros s; reflexivity | ]. kunf. ring.
  - eapply is_derive_ext; [ | match type of Z with is_derive _ _ ?d => match goal with |- is_derive _ _ ?e => replace e with d end end; [exact Z | ] ]; [intros s; reflexivity | ]. kunf. ring.
Qed.
Lemma euclid_from p : hp_euclid p = fst (fromHomogeneous p).
Proof. destruct p. unfold hp_euclid, fromHomogeneous. tunf. generalize (1 / q3). intros. f_equal; ring. Qed.

Lemma oplus_derive p d : v4_derive (fun s => hp_oplus p (v3_scale s d)) 0 (m43_vec (hp_J4 p) d).
Proof.
  eapply v4_derive_eq; [exact (update_derive p d) | ].
  unfold hp_J4. kring.
Qed.
Lemma euclid_derive p d : q3 p <> 0 ->
  v3_derive (fun s => hp_euclid (hp_oplus p (v3_scale s d))) 0 (m3_vec (hp_J3 p) d).
Proof.
  intros N. pose proof (fromHomogeneous_derive _ 0 _ (oplus_derive p d)) as H. cbv beta in H.
  unfold hp_oplus in H at 1 3. rewrite update_zero in H. specialize (H N).
  apply (v3_derive_ext_loc (fun s => fst (fromHomogeneous (hp_oplus p (v3_scale s d))))).
  - apply filter_forall. intros s. symmetry. apply euclid_from.
  - replace (m3_vec (hp_J3 p) d) with (m34_vec (snd (fromHomogeneous p)) (m43_vec (hp_J4 p) d)).
    + exact H.
    + unfold hp_J3, hp_J4, hp_euclid, fromHomogeneous. generalize (1 / q3 p). intros. destruct p, d. cbn [fst snd]. kring.
Qed.

Lemma norm4_derive (a b c d : R -> R) (t a' b' c' d' : R) :
  is_derive a t a' -> is_derive b t b' -> is_derive c t c' -> is_derive d t d' ->
  let N := a t * a t + b t * b t + c t * c t + d t * d t in
  0 < N ->
  is_derive (fun s => sqrt (a s * a s + b s * b s + c s * c s + d s * d s)) t
    ((a t * a' + b t * b' + c t * c' + d t * d') / sqrt N).
Proof.
  intros A B C D N P. unfold N in *. derive_ex A. derive_ex B. derive_ex C. derive_ex D.
  auto_derive.
  - tauto.
  - derive_sub A. derive_sub B. derive_sub C. derive_sub D.
    field. intros E. pose proof (sqrt_lt_R0 _ P). lra.
Qed.

Lemma normalize_scalar (n x : R -> R) (t n' x' k : R) :
  is_derive n t (k / n t) -> is_derive x t x' -> n t <> 0 ->
  is_derive (fun s => 1 / n s * x s) t (1 / n t * x' - (1 / n t * (1 / n t) * (1 / n t)) * x t * k).
Proof.
  intros A B N. derive_ex A. derive_ex B. auto_derive.
  - tauto.
  - derive_sub A. derive_sub B. field. exact N.
Qed.

Lemma normalize_derive (p : R -> v4) t d : v4_derive p t d -> p t <> v4_zero ->
  v4_derive (fun s => fst (normalizeJ (p s))) t (m4_vec (snd (normalizeJ (p t))) d).
Proof.
  intros (A & B & C & D) NZ.
  assert (P : 0 < q0 (p t) * q0 (p t) + q1 (p t) * q1 (p t) + q2 (p t) * q2 (p t) + q3 (p t) * q3 (p t)).
  { destruct (p t) as [x y z w]. cbn [q0 q1 q2 q3].
    pose proof (Rle_0_sqr x) as X; pose proof (Rle_0_sqr y) as Y; pose proof (Rle_0_sqr z) as Z; pose proof (Rle_0_sqr w) as W.
    unfold Rsqr in *. destruct (Rle_lt_dec (x*x+y*y+z*z+w*w) 0) as [L | L]; [ | exact L].
    exfalso. apply NZ. unfold v4_zero.
    assert (x = 0) by nra. assert (y = 0) by nra. assert (z = 0) by nra. assert (w = 0) by nra. subst. reflexivity. }
  pose proof (norm4_derive _ _ _ _ t _ _ _ _ A B C D P) as N. cbv zeta beta in N.
  pose proof (sqrt_lt_R0 _ P) as SP.
  assert (SN : sqrt (q0 (p t) * q0 (p t) + q1 (p t) * q1 (p t) + q2 (p t) * q2 (p t) + q3 (p t) * q3 (p t)) <> 0) by lra.
  pose proof (normalize_scalar _ _ t 0 _ _ N A SN) as X. pose proof (normalize_scalar _ _ t 0 _ _ N B SN) as Y.
  pose proof (normalize_scalar _ _ t 0 _ _ N C SN) as Z. pose proof (normalize_scalar _ _ t 0 _ _ N D SN) as W.
  cbv beta in X, Y, Z, W. clear N SP SN P NZ A B C D.
  unfold v4_derive, normalizeJ. cbv zeta. cbn [fst snd v4_scale q0 q1 q2 q3].
  unfold v4_norm, v4_dot. 
  set (r := sqrt (q0 (p t) * q0 (p t) + q1 (p t) * q1 (p t) + q2 (p t) * q2 (p t) + q3 (p t) * q3 (p t))) in *.
  split; [ | split; [ | split]].
  - match goal with |- is_derive _ _ ?e => match type of X with is_derive _ _ ?d => replace e with d end end; [exact X | ].
    clear. clearbody r. generalize (1 / r). intros. destruct (p t), d. tunf. ring.
  - match goal with |- is_derive _ _ ?e => match type of Y with is_derive _ _ ?d => replace e with d end end; [exact Y | ].
    clear. clearbody r. generalize (1 / r). intros. destruct (p t), d. tunf. ring.
  - match goal with |- is_derive _ _ ?e => match type of Z with is_derive _ _ ?d => replace e with d end end; [exact Z | ].
    clear. clearbody r. generalize (1 / r). intros. destruct (p t), d. tunf. ring.
  - match goal with |- is_derive _ _ ?e => match type of W with is_derive _ _ ?d => replace e with d end end; [exact W | ].
    clear. clearbody r. generalize (1 / r). intros. destruct (p t), d. tunf. ring.
Qed.

Lemma mulsum_derive (a b c d : R -> R) (k t a' b' c' d' : R) :
  is_derive a t a' -> is_derive b t b' -> is_derive c t c' -> is_derive d t d' ->
  is_derive (fun s => a s * b s + k * (c s * d s)) t (a' * b t + a t * b' + k * (c' * d t + c t * d')).
Proof.
  intros A B C D. derive_ex A. derive_ex B. derive_ex C. derive_ex D. auto_derive.
  - tauto.
  - derive_sub A. derive_sub B. derive_sub C. derive_sub D. ring.
Qed.
Lemma mul_derive (a b : R -> R) (t a' b' : R) :
  is_derive a t a' -> is_derive b t b' -> is_derive (fun s => a s * b s) t (a' * b t + a t * b').
Proof.
  intros A B. derive_ex A. derive_ex B. auto_derive.
  - tauto.
  - derive_sub A. derive_sub B. ring.
Qed.

(** The derivative of the difference by its second argument. *)
Definition sub_right (a : v4) : m4 :=
  M4 (V4 (- q3 a) 0 0 (q0 a)) (V4 0 (- q3 a) 0 (q1 a)) (V4 0 0 (- q3 a) (q2 a)) (V4 0 0 0 (q3 a)).

Ltac finish_derive X := match type of X with is_derive ?f _ ?d => match goal with |- is_derive ?g _ ?e =>
   replace e with d; [eapply is_derive_ext; [ | exact X];
      intros; match goal with |- @eq _ ?l ?r => change (@eq R l r) end; cbv beta; ring | tunf; ring] end end.
Lemma add_derive (a b : R -> v4) t a' b' : v4_derive a t a' -> v4_derive b t b' ->
  v4_derive (fun s => hp_add (a s) (b s)) t (v4_add (m4_vec (hPlus (b t)) a') (m4_vec (hPlus (a t)) b')).
Proof.
  intros (A0 & A1 & A2 & A3) (B0 & B1 & B2 & B3).
  pose proof (mulsum_derive _ _ _ _ 1 t _ _ _ _ A0 B3 B0 A3) as X.
  pose proof (mulsum_derive _ _ _ _ 1 t _ _ _ _ A1 B3 B1 A3) as Y.
  pose proof (mulsum_derive _ _ _ _ 1 t _ _ _ _ A2 B3 B2 A3) as Z.
  pose proof (mul_derive _ _ t _ _ A3 B3) as W. cbv beta in *.
  unfold v4_derive, hp_add. cbn [q0 q1 q2 q3].
  split; [ | split; [ | split]]; [finish_derive X | finish_derive Y | finish_derive Z | finish_derive W].
Qed.
Lemma sub_derive (a b : R -> v4) t a' b' : v4_derive a t a' -> v4_derive b t b' ->
  v4_derive (fun s => hp_sub (a s) (b s)) t (v4_add (m4_vec (hMinus (b t)) a') (m4_vec (sub_right (a t)) b')).
Proof.
  intros (A0 & A1 & A2 & A3) (B0 & B1 & B2 & B3).
  pose proof (mulsum_derive _ _ _ _ (-1) t _ _ _ _ A0 B3 B0 A3) as X.
  pose proof (mulsum_derive _ _ _ _ (-1) t _ _ _ _ A1 B3 B1 A3) as Y.
  pose proof (mulsum_derive _ _ _ _ (-1) t _ _ _ _ A2 B3 B2 A3) as Z.
  pose proof (mul_derive _ _ t _ _ A3 B3) as W. cbv beta in *.
  unfold v4_derive, hp_sub, sub_right. cbn [q0 q1 q2 q3].
  split; [ | split; [ | split]]; [finish_derive X | finish_derive Y | finish_derive Z | finish_derive W].
Qed.

(** ** Covariances *)

Lemma sandwich43_propagates J U : propagates43 (m34_vec J) U (m34_mul43 (m34_mul4 J U) (m34_tr J)).
Proof.
  exists (m43_vec (m34_tr J)). split; intros; [kring | kring].
Qed.
Lemma sandwich34_propagates K U : propagates34 (m43_vec K) U (m43_mul34 (m43_mul3 K U) (m43_tr K)).
Proof.
  exists (m34_vec (m43_tr K)). split; intros; [kring | kring].
Qed.

(** The round trip of the minimal covariance. *)
Lemma mul43_vec A B v : m34_vec A (m43_vec B v) = m3_vec (m34_mul43 A B) v.
Proof. kring. Qed.
Lemma Uav_set p U : unit4 (up p) -> uhp_Uav (uhp_setUOplus p U) = U.
Proof.
  intros H. apply (proj1 (unit4_dot _)) in H. destruct p as [p V]. cbn [up] in H. unfold uhp_Uav, uhp_setUOplus. cbn [up uU4]. cbv zeta.
  assert (I : m34_mul43 (quatS p) (quatInvS p) = m3_I).
  { rewrite S_invS, H. kring. }
  apply m3_ext. intros v.
  assert (E : forall A K B w, m3_vec (m34_mul43 (m34_mul4 A (m43_mul34 (m43_mul3 K U) (m43_tr K))) B) w
     = m34_vec A (m43_vec K (m3_vec U (m34_vec (m43_tr K) (m43_vec B w))))).
  { intros. kring. }
  rewrite E, !mul43_vec, I, m3_vec_I. f_equal.
  assert (T : m34_mul43 (m43_tr (quatInvS p)) (m34_tr (quatS p)) = m3_tr (m34_mul43 (quatS p) (quatInvS p))) by (clear; kring).
  rewrite T, I. replace (m3_tr m3_I) with m3_I by kring. apply m3_vec_I.
Qed.

(** Differences and mixed sums are right for covariances without a part in
    the homogeneous coordinate. *)
Definition euclidean_cov (U : m4) : Prop :=
  q3 (r40 U) = 0 /\ q3 (r41 U) = 0 /\ q3 (r42 U) = 0 /\ r43 U = v4_zero.
Lemma hPlus_hMinus_euclidean b U : euclidean_cov U -> m4_sandwich (hPlus b) U = m4_sandwich (hMinus b) U.
Proof.
  destruct U as [[u00 u01 u02 u03] [u10 u11 u12 u13] [u20 u21 u22 u23] u3]. unfold euclidean_cov.
  cbn [q3 r40 r41 r42 r43]. intros (-> & -> & -> & ->). unfold m4_sandwich. destruct b. tunf.
  f_equal; f_equal; ring.
Qed.
Lemma hPlus_sub_right a U : euclidean_cov U -> m4_sandwich (hPlus a) U = m4_sandwich (sub_right a) U.
Proof.
  destruct U as [[u00 u01 u02 u03] [u10 u11 u12 u13] [u20 u21 u22 u23] u3]. unfold euclidean_cov.
  cbn [q3 r40 r41 r42 r43]. intros (-> & -> & -> & ->). unfold m4_sandwich, sub_right. destruct a. tunf.
  f_equal; f_equal; ring.
Qed.
Lemma sandwich_w1 b U : q3 b = 1 -> euclidean_cov U -> m4_sandwich (hPlus b) U = U.
Proof.
  destruct U as [[u00 u01 u02 u03] [u10 u11 u12 u13] [u20 u21 u22 u23] u3]. unfold euclidean_cov.
  cbn [q3 r40 r41 r42 r43]. intros H (-> & -> & -> & ->). unfold m4_sandwich. destruct b as [x y z w]. cbn [q3] in H. subst w. tunf.
  f_equal; f_equal; ring.
Qed.
