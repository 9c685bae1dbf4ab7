(** M-estimators. *)
From Coq Require Import ZArith List Bool Lia Reals Lra.
From Coquelicot Require Import Coquelicot.
From Verif Require Import Base Arith RArith MEstModel.
Import ListNotations.
Open Scope R_scope.

(** The weights in exact arithmetic. *)
Definition none (e : R) : R := none_weight RA e.
Definition geman (s e : R) : R := geman_weight RA s e.
Definition cauchy (s e : R) : R := cauchy_weight RA s e.
Definition huber (k e : R) : R := huber_weight RA k e.
Definition blake (w q e : R) : R := blake_weight RA exp (blake_epsilon RA exp w q) e.

(** A robust weight: for squared errors it is positive and never increases. *)
Definition robust (w : R -> R) : Prop :=
  (forall e, 0 <= e -> 0 < w e) /\ (forall a b, 0 <= a <= b -> w b <= w a).
(** Full weight for small errors, never more. *)
Definition at_most_one (w : R -> R) : Prop := forall e, 0 <= e -> w e <= 1.
(** The weighted squared error does not fall when the error grows. *)
Definition cost_monotone (w : R -> R) : Prop := forall a b, 0 <= a <= b -> w a * a <= w b * b.

Theorem C30_geman : forall s, 0 < s -> robust (geman s) /\
  geman s 0 = / s /\ (forall e, 0 <= e -> geman s e * e <= / 4).
Proof.
  intros s Hs. unfold geman, geman_weight. cbn [add div mul RA]. split; [split | split].
  - intros e He. apply Rdiv_lt_0_compat; [exact Hs | nra].
  - intros a b (Ha & Hab). unfold Rdiv. apply Rmult_le_compat_l; [lra | ].
    apply Rinv_le_contravar; nra.
  - rewrite Rplus_0_r. field. lra.
  - intros e He. apply (Rmult_le_reg_r ((s + e) * (s + e))); [nra | ].
    replace (s / ((s + e) * (s + e)) * e * ((s + e) * (s + e))) with (s * e) by (field; lra).
    assert (X := Rle_0_sqr (s - e)). unfold Rsqr in X. lra.
Qed.
Print Assumptions C30_geman.

(** The Geman-McClure weight can exceed one, and a larger error can cost less. *)
Theorem C30_geman_refuted : exists s s', 0 < s /\ 0 < s' /\ ~ at_most_one (geman s) /\
  ~ cost_monotone (geman s').
Proof.
  exists (/ 2), 1. split; [lra | ]. split; [lra | ].
  unfold geman, geman_weight, at_most_one, cost_monotone. cbn [add div mul RA]. split.
  - intro H. specialize (H 0 (Rle_refl 0)).
    replace (/ 2 / ((/ 2 + 0) * (/ 2 + 0))) with 2 in H by field. lra.
  - intro H. specialize (H 1 4 ltac:(lra)).
    replace (1 / ((1 + 1) * (1 + 1)) * 1) with (/ 4) in H by field.
    replace (1 / ((1 + 4) * (1 + 4)) * 4) with (4 / 25) in H by field. lra.
Qed.
Print Assumptions C30_geman_refuted.

Theorem C30_cauchy : forall s, 0 < s -> robust (cauchy s) /\
  at_most_one (cauchy s) /\ cauchy s 0 = 1 /\ cost_monotone (cauchy s) /\
  (forall e, 0 <= e -> cauchy s e * e < s).
Proof.
  intros s Hs.
  assert (E : forall e, 0 <= e -> cauchy s e = s / (s + e)).
  { intros e He. unfold cauchy, cauchy_weight. cbn [add div of_Z RA].
    field. conj; lra. }
  assert (P : forall e, 0 <= e -> 0 < / (s + e)) by (intros e He; apply Rinv_0_lt_compat; lra).
  split; [split | split; [ | split; [ | split]]].
  - intros e He. rewrite E by exact He. apply Rdiv_lt_0_compat; lra.
  - intros a b (Ha & Hab). rewrite !E by lra. unfold Rdiv. apply Rmult_le_compat_l; [lra | ].
    apply Rinv_le_contravar; lra.
  - intros e He. rewrite E by exact He. apply (Rmult_le_reg_r (s + e)); [lra | ].
    replace (s / (s + e) * (s + e)) with s by (field; lra). lra.
  - rewrite E by lra. rewrite Rplus_0_r. field. lra.
  - intros a b (Ha & Hab). rewrite !E by lra.
    apply (Rmult_le_reg_r ((s + a) * (s + b))); [nra | ].
    replace (s / (s + a) * a * ((s + a) * (s + b))) with (s * a * (s + b)) by (field; lra).
    replace (s / (s + b) * b * ((s + a) * (s + b))) with (s * b * (s + a)) by (field; lra). nra.
  - intros e He. rewrite E by exact He. apply (Rmult_lt_reg_r (s + e)); [lra | ].
    replace (s / (s + e) * e * (s + e)) with (s * e) by (field; lra). nra.
Qed.
Print Assumptions C30_cauchy.

(** Huber: full weight up to the threshold included, so there is no jump there. *)
Theorem C30_huber : forall k, 0 < k -> robust (huber k) /\ at_most_one (huber k) /\
  (forall e, 0 <= e <= k * k -> huber k e = 1) /\
  (forall e, k * k <= e -> huber k e * e = k * sqrt e) /\
  cost_monotone (huber k).
Proof.
  intros k Hk. unfold huber, huber_weight. cbn [lt mul div root of_Z RA].
  assert (S : forall e, k * k <= e -> k <= sqrt e).
  { intros e He. rewrite <- (sqrt_square k) by lra. apply sqrt_le_1; nra. }
  assert (P : forall e, k * k <= e -> k / sqrt e * e = k * sqrt e).
  { intros e He. specialize (S e He). assert (X : sqrt e * sqrt e = e) by (apply sqrt_sqrt; nra).
    rewrite <- X at 2. field. lra. }
  assert (L : forall e, k * k <= e -> k / sqrt e <= 1).
  { intros e He. specialize (S e He). apply (Rmult_le_reg_r (sqrt e)); [lra | ].
    replace (k / sqrt e * sqrt e) with k by (field; lra). lra. }
  assert (K : k * k <= k * k -> k / sqrt (k * k) = 1).
  { intros _. rewrite sqrt_square by lra. field. lra. }
  split; [split | split; [ | split; [ | split]]].
  - intros e He. destruct (rlt e (k * k)) eqn:C; [lra | ]. apply rlt_false in C.
    specialize (S e C). apply Rdiv_lt_0_compat; lra.
  - intros a b (Ha & Hab). destruct (rlt b (k * k)) eqn:Cb, (rlt a (k * k)) eqn:Ca;
      rewrite ?rlt_true, ?rlt_false in *; try lra.
    + now apply L.
    + unfold Rdiv. apply Rmult_le_compat_l; [lra | ]. specialize (S a Ca).
      apply Rinv_le_contravar; [lra | ]. apply sqrt_le_1; nra.
  - intros e He. destruct (rlt e (k * k)) eqn:C; [lra | ]. apply rlt_false in C. now apply L.
  - intros e (He & Hk2). destruct (rlt e (k * k)) eqn:C; [reflexivity | ]. apply rlt_false in C.
    assert (e = k * k) by lra. subst e. now apply K.
  - intros e He. destruct (rlt e (k * k)) eqn:C; [apply rlt_true in C; lra | ]. now apply P.
  - intros a b (Ha & Hab). destruct (rlt b (k * k)) eqn:Cb, (rlt a (k * k)) eqn:Ca;
      rewrite ?rlt_true, ?rlt_false in *; try lra.
    + rewrite P by exact Cb. specialize (S b Cb). nra.
    + rewrite !P by assumption. apply Rmult_le_compat_l; [lra | ]. apply sqrt_le_1; nra.
Qed.
Print Assumptions C30_huber.

(** Blake-Zisserman with cut-off weight strictly between 0 and 1: the weight at
    the cut-off [q] is the requested one. *)
Theorem C30_blake : forall w q, 0 < w < 1 ->
  robust (blake w q) /\ (forall e, blake w q e < 1) /\ blake w q q = w.
Proof.
  intros w q Hw.
  assert (Heps : 0 < (blake_epsilon RA exp w q : R)).
  { unfold blake_epsilon, neg. cbn [mul div sub of_Z RA].
    apply Rmult_lt_0_compat; [apply Rdiv_lt_0_compat; lra | apply exp_pos]. }
  unfold blake, blake_weight. set (eps := blake_epsilon RA exp w q : R) in *.
  cbn [mul div sub add of_Z RA]. unfold neg. cbn [sub of_Z RA].
  assert (M : forall x y, 0 < x -> x <= y -> x / (x + eps) <= y / (y + eps)).
  { intros x y Hx Hxy. apply (Rmult_le_reg_r ((x + eps) * (y + eps))); [nra | ].
    replace (x / (x + eps) * ((x + eps) * (y + eps))) with (x * (y + eps)) by (field; lra).
    replace (y / (y + eps) * ((x + eps) * (y + eps))) with (y * (x + eps)) by (field; lra). nra. }
  split; [split | split].
  - intros e _. assert (X := exp_pos (0 - e)). apply Rdiv_lt_0_compat; lra.
  - intros x y (Hx & Hxy). apply M; [apply exp_pos | ].
    destruct (Req_dec x y) as [-> | N]; [lra | ]. left. apply exp_increasing. lra.
  - intro e. assert (X := exp_pos (0 - e)). apply (Rmult_lt_reg_r (exp (0 - e) + eps)); [lra | ].
    replace (exp (0 - e) / (exp (0 - e) + eps) * (exp (0 - e) + eps)) with (exp (0 - e)) by (field; lra). lra.
  - unfold eps, blake_epsilon, neg. cbn [mul div sub of_Z RA].
    assert (X := exp_pos (0 - q)). field. split; [lra | ].
    replace (exp (0 - q) * w + (1 - w) * exp (0 - q)) with (exp (0 - q)) by ring. lra.
Qed.
Print Assumptions C30_blake.

(** A larger error can cost less under Blake-Zisserman. *)
Theorem C30_blake_refuted : exists w q, 0 < w < 1 /\
  ~ cost_monotone (blake w q).
Proof.
  exists (/ 2), 1. split; [lra | ]. intro H. specialize (H 1 10 ltac:(lra)).
  destruct (C30_blake (/ 2) 1 ltac:(lra)) as (_ & _ & E). rewrite E in H.
  unfold blake, blake_weight, blake_epsilon, neg in H. cbn [mul div sub add of_Z RA] in H.
  replace ((1 - / 2) / / 2) with 1 in H by field. rewrite Rmult_1_l in H.
  assert (X : exp (0 - 1) = exp (0 - 10) * exp 9) by (rewrite <- exp_plus; f_equal; lra).
  rewrite X in H. assert (Y := exp_pos (0 - 10)).
  replace (exp (0 - 10) / (exp (0 - 10) + exp (0 - 10) * exp 9)) with (/ (1 + exp 9)) in H
    by (assert (Q := exp_pos 9); assert (Q2 := Rmult_lt_0_compat _ _ Y Q); field; conj; lra).
  assert (E3 : 4 <= exp 3) by (assert (Q := exp_ineq1_le 3); lra).
  assert (E9 : exp 9 = exp 3 * exp 3 * exp 3) by (rewrite <- !exp_plus; f_equal; lra).
  assert (64 <= exp 9) by (rewrite E9; nra).
  assert (/ (1 + exp 9) <= / 65) by (apply Rinv_le_contravar; lra). lra.
Qed.
Print Assumptions C30_blake_refuted.

Theorem C30_none : robust (none) /\ at_most_one (none) /\ cost_monotone (none).
Proof.
  assert (E : forall e, none e = 1) by reflexivity.
  split; [split | split].
  - intros e _. rewrite E. lra.
  - intros a b _. rewrite !E. lra.
  - intros e _. rewrite E. lra.
  - intros a b H. rewrite !E. lra.
Qed.
Print Assumptions C30_none.

(** ** Weights as derivatives.  Each weight is the derivative, with respect to
    the squared error, of the loss the estimator is named after. *)
Theorem C30_derivatives : forall s k eps e, 0 < s -> 0 < k -> 0 < eps -> 0 < e ->
  is_derive (fun x => x / (s + x)) e (geman s e) /\
  is_derive (fun x => s * ln (1 + x / s)) e (cauchy s e) /\
  (e <> k * k -> is_derive (fun x => if Rlt_dec x (k * k) then x else 2 * k * sqrt x - k * k) e
                   (huber k e)) /\
  is_derive (fun x => - ln (exp (- x) + eps)) e (blake_weight RA exp eps e).
Proof.
  intros s k eps e Hs Hk Heps He. split; [ | split; [ | split]].
  - unfold geman, geman_weight. cbn [add div mul RA]. auto_derive; [lra | field; lra].
  - unfold cauchy, cauchy_weight. cbn [add div mul of_Z RA].
    assert (0 < e / s) by (apply Rdiv_lt_0_compat; lra).
    auto_derive; [lra | ]. field. conj; lra.
  - intro N. unfold huber, huber_weight. cbn [lt div mul root of_Z RA].
    destruct (rlt e (k * k)) eqn:C.
    + apply rlt_true in C.
      apply (is_derive_ext_loc (fun x => x)); [ | auto_derive; [exact I | reflexivity]].
      assert (D : 0 < k * k - e) by lra. exists (mkposreal _ D). intros y Hy.
      unfold ball in Hy. cbn in Hy. unfold AbsRing_ball, abs, minus, plus, opp in Hy. cbn in Hy.
      apply Rabs_def2 in Hy. destruct (Rlt_dec y (k * k)); [reflexivity | lra].
    + apply rlt_false in C.
      apply (is_derive_ext_loc (fun x => 2 * k * sqrt x - k * k)).
      * assert (D : 0 < e - k * k) by lra. exists (mkposreal _ D). intros y Hy.
        unfold ball in Hy. cbn in Hy. unfold AbsRing_ball, abs, minus, plus, opp in Hy. cbn in Hy.
        apply Rabs_def2 in Hy. destruct (Rlt_dec y (k * k)); [lra | reflexivity].
      * assert (Q := sqrt_lt_R0 e He). auto_derive; [exact He | field; lra].
  - unfold blake_weight, neg. cbn [add div mul sub of_Z RA].
    assert (Q := exp_pos (- e)). assert (Q' := exp_pos (0 - e)).
    auto_derive; [lra | ]. replace (0 - e) with (- e) by lra. field. lra.
Qed.
Print Assumptions C30_derivatives.

Example C30_ex_huber : huber 3 16 = 3 / 4 /\ huber 3 4 = 1.
Proof.
  unfold huber, huber_weight. cbn [lt mul div root of_Z RA]. split.
  - destruct (rlt 16 (3 * 3)) eqn:E; [apply rlt_true in E; lra | ].
    replace 16 with (4 * 4) by lra. rewrite sqrt_square by lra. lra.
  - destruct (rlt 4 (3 * 3)) eqn:E; [reflexivity | apply rlt_false in E; lra].
Qed.

(** ** binary64 *)

(** Zero parameters make a weight NaN at a zero error, and a huge error gets
    weight zero instead of a positive one. *)
Theorem C30_float_refuted :
  huber_weight F64 (of_Z F64 0) (of_Z F64 0) = SpecFloat.S754_nan /\
  cauchy_weight F64 (of_Z F64 0) (of_Z F64 0) = SpecFloat.S754_nan /\
  geman_weight F64 (of_Z F64 0) (of_Z F64 0) = SpecFloat.S754_nan /\
  geman_weight F64 (of_Z F64 1) (of_Z F64 (2 ^ 600)) = SpecFloat.S754_zero false.
Proof. vm_compute. conj; reflexivity. Qed.
Print Assumptions C30_float_refuted.
