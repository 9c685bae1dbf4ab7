(** * C98: small numerical helpers *)
From Coq Require Import Reals Lra Lia ZArith Bool.
From Verif Require Import Base LutModel LutProofs NhModel NhSpec.
Local Open Scope R_scope.

Lemma nearest_unique x y z : nearest x y -> nearest x z -> y = z.
Proof.
  intros [A A'] [B B']. assert (T : forall p q, nearest x p -> nearest x q -> ~ (p < q)%Z).
  { clear. intros p q [A A'] [B B'] L. assert (PQ : IZR p + 1 <= IZR q) by (rewrite <- plus_IZR; apply IZR_le; lia).
    assert (X : - / 2 <= x - IZR p <= / 2) by (revert A; unfold Rabs; destruct (Rcase_abs _); lra). assert (Y : - / 2 <= x - IZR q <= / 2) by (revert B; unfold Rabs; destruct (Rcase_abs _); lra).
    assert (XP : x - IZR p = / 2) by lra. assert (XQ : x - IZR q = - / 2) by lra.
    assert (A1 : Rabs x < Rabs (IZR p)) by (apply A'; rewrite XP; apply Rabs_right; lra). assert (B1 : Rabs x < Rabs (IZR q)) by (apply B'; rewrite XQ, Rabs_Ropp; apply Rabs_right; lra).
    assert (PI : 0 <= IZR p \/ IZR p <= -1) by (destruct (Z_le_gt_dec 0 p); [ left; apply IZR_le; lia | right; apply IZR_le; lia ]).
    revert A1 B1. unfold Rabs. destruct (Rcase_abs x); destruct (Rcase_abs (IZR p)); destruct (Rcase_abs (IZR q)); lra. }
  pose proof (T y z (conj A A') (conj B B')). pose proof (T z y (conj B B') (conj A A')). lia.
Qed.
Lemma round_nearest x : nearest x (round x).
Proof.
  unfold nearest, round, floor, ceil. destruct (Rlt_dec x 0) as [L | L].
  - pose proof (int_part_bounds (- (x - / 2))) as F. set (k := Int_part (- (x - / 2))) in *. rewrite opp_IZR.
    assert (K : 0 <= IZR k) by (apply IZR_le; assert (-1 < k)%Z by (apply lt_IZR; lra); lia).
    unfold Rabs. repeat destruct (Rcase_abs _); lra.
  - pose proof (int_part_bounds (x + / 2)) as F. set (k := Int_part (x + / 2)) in *.
    assert (K : 0 <= IZR k) by (apply IZR_le; assert (-1 < k)%Z by (apply lt_IZR; lra); lia).
    unfold Rabs. repeat destruct (Rcase_abs _); lra.
Qed.

(** Rounding gives the nearest integer, halves away from zero, if it fits; the float
    version of rint wraps around instead of being undefined. *)
Theorem C98_round : forall x z, nearest x z ->
  round x = z /\
  (in_i32 z -> rint_double x = Ok z /\ rint_float x = Ok z /\ lrint_double x = Ok z /\ lrint_float x = Ok z) /\
  (in_i64 z -> lrint_float x = Ok z) /\
  (~ in_i32 z -> rint_double x = UB /\ (in_i64 z -> exists r k, rint_float x = Ok r /\ in_i32 r /\ r = (z + k * 4294967296)%Z)).
Proof.
  intros x z N. assert (E : round x = z) by (apply (nearest_unique x); [ apply round_nearest | exact N ]). split; [ exact E | ].
  unfold rint_double, rint_float, lrint_double, lrint_float. rewrite E. unfold ret_i32, ret_i64. split; [ | split ].
  - intros I. assert (J : in_i64b z = true) by (unfold in_i64b, INT64_MIN, INT64_MAX; unfold in_i32, INT_MIN, INT_MAX in I; apply andb_true_iff; split; apply Z.leb_le; lia).
    rewrite (proj2 (in_i32b_iff z) I), J. cbn [obind]. rewrite cast_i32_id by exact I. split; [ reflexivity | split; [ reflexivity | split; reflexivity ] ].
  - intros I. unfold in_i64b. unfold in_i64 in I. rewrite (proj2 (Z.leb_le _ _) (proj1 I)), (proj2 (Z.leb_le _ _) (proj2 I)). reflexivity.
  - intros I. destruct (in_i32b z) eqn:B; [ apply in_i32b_iff in B; contradiction | ]. split; [ reflexivity | ]. intros J.
    assert (JB : in_i64b z = true) by (unfold in_i64b; unfold in_i64 in J; apply andb_true_iff; split; apply Z.leb_le; lia). rewrite JB. cbn [obind].
    exists (cast_i32 z), (- ((z + 2147483648) / 4294967296))%Z. split; [ reflexivity | ]. unfold cast_i32, in_i32, INT_MIN, INT_MAX.
    pose proof (Z.mod_pos_bound (z + 2147483648) 4294967296 ltac:(lia)). pose proof (Z.div_mod (z + 2147483648) 4294967296 ltac:(lia)). lia.
Qed.
Print Assumptions C98_round.

(** Although its result is a long, lrint of a double is undefined outside int. *)
Theorem C98_lrint_refuted : forall z, (2147483647 < z <= 9223372036854775807)%Z -> nearest (IZR z) z /\ in_i64 z /\ lrint_double (IZR z) = UB.
Proof.
  intros z Z. assert (N : nearest (IZR z) z). { unfold nearest. replace (IZR z - IZR z) with 0 by ring. rewrite Rabs_R0. split; [ lra | intros; lra ]. }
  split; [ exact N | split; [ unfold in_i64, INT64_MIN, INT64_MAX; lia | ] ]. apply (C98_round _ _ N). unfold in_i32, INT_MIN, INT_MAX. lia.
Qed.
Print Assumptions C98_lrint_refuted.

(** Exactly one of the three comparisons holds; equality within a tolerance means
    differing by at most that part of the larger number; an epsilon that is not
    positive is rejected. *)
Theorem C98_compare : forall a b eps,
  (eps <= 0 -> approximately_equal a b eps = Throw /\ definitely_greater a b eps = Throw /\ definitely_less a b eps = Throw) /\
  (0 < eps -> exists e g l, approximately_equal a b eps = Ok e /\ definitely_greater a b eps = Ok g /\ definitely_less a b eps = Ok l /\
     (e = true <-> (Rabs (a - b) <= eps * Rabs a \/ Rabs (a - b) <= eps * Rabs b)) /\
     (g = true <-> (a > b /\ e = false)) /\ (l = true <-> (a < b /\ e = false)) /\
     approximately_equal b a eps = Ok e /\ definitely_less b a eps = Ok g).
Proof.
  intros a b eps. unfold approximately_equal, definitely_greater, definitely_less, compare_with. split.
  - intros E. destruct (Rlt_dec 0 eps); [ lra | ]. split; [ reflexivity | split; reflexivity ].
  - intros E. destruct (Rlt_dec 0 eps); [ | lra ]. eexists _, _, _. split; [ reflexivity | split; [ reflexivity | split; [ reflexivity | ] ] ].
    unfold le, max_times_epsilon. rewrite (Rmax_comm (Rabs b)), (Rabs_minus_sym b a). set (m := Rmax (Rabs a) (Rabs b) * eps).
    assert (M0 : 0 <= m) by (unfold m; apply Rmult_le_pos; [ apply Rle_trans with (Rabs a); [ apply Rabs_pos | apply Rmax_l ] | lra ]).
    assert (ME : Rabs (a - b) <= m <-> Rabs (a - b) <= eps * Rabs a \/ Rabs (a - b) <= eps * Rabs b).
    { unfold m. split.
      - intros H. unfold Rmax in H. destruct (Rle_dec (Rabs a) (Rabs b)); [ right | left ]; lra.
      - pose proof (Rmax_l (Rabs a) (Rabs b)). pose proof (Rmax_r (Rabs a) (Rabs b)).
        assert (Rabs a * eps <= Rmax (Rabs a) (Rabs b) * eps) by (apply Rmult_le_compat_r; lra). assert (Rabs b * eps <= Rmax (Rabs a) (Rabs b) * eps) by (apply Rmult_le_compat_r; lra). intros [W | W]; lra. }
    rewrite <- ME. clearbody m. clear ME.
    assert (AB : Rabs (a - b) = a - b /\ 0 <= a - b \/ Rabs (a - b) = b - a /\ a - b < 0) by (unfold Rabs; destruct (Rcase_abs (a - b)); [ right | left ]; lra).
    destruct (Rle_dec (Rabs (a - b)) m); destruct (Rle_dec (a - b) m); destruct (Rle_dec (b - a) m); try (exfalso; lra); cbn [negb].
    + split; [ tauto | split; [ split; [ discriminate | intros [_ Q]; discriminate ] | split; [ split; [ discriminate | intros [_ Q]; discriminate ] | split; reflexivity ] ] ].
    + split; [ split; [ discriminate | intros; contradiction ] | split; [ split; [ discriminate | intros [Q _]; lra ] | split; [ split; [ intros _; split; [ lra | reflexivity ] | reflexivity ] | split; reflexivity ] ] ].
    + split; [ split; [ discriminate | intros; contradiction ] | split; [ split; [ intros _; split; [ lra | reflexivity ] | reflexivity ] | split; [ split; [ discriminate | intros [Q _]; lra ] | split; reflexivity ] ] ].
Qed.
Print Assumptions C98_compare.

(** The quadratic formula: unless b and c are both zero, the two results are exactly
    the real roots, with their sum and product; without real roots it throws. *)
Theorem C98_quadratic : forall a b c, a <> 0 ->
  (b * b - 4 * a * c < 0 -> solve_quadratic a b c = Throw /\ forall x, a * x * x + b * x + c <> 0) /\
  (0 <= b * b - 4 * a * c -> b <> 0 \/ c <> 0 -> exists x y, solve_quadratic a b c = Ok (x, y) /\
     x + y = - b / a /\ x * y = c / a /\ forall z, a * z * z + b * z + c = 0 <-> z = x \/ z = y).
Proof.
  intros a b c A. unfold solve_quadratic. cbv zeta. replace (b * b - 4 * c * a) with (b * b - 4 * a * c) by ring. set (d := b * b - 4 * a * c). split.
  - intros D. destruct (Rlt_dec d 0); [ | lra ]. split; [ reflexivity | ]. intros x X.
    assert (E : d = (2 * a * x + b) * (2 * a * x + b)). { unfold d. replace c with (- (a * x * x + b * x)) by lra. ring. } pose proof (Rle_0_sqr (2 * a * x + b)) as Q. unfold Rsqr in Q. lra.
  - intros D NZ. destruct (Rlt_dec d 0) as [ | _ ]; [ lra | ]. pose proof (sqrt_pos d) as SP. pose proof (sqrt_sqrt d D) as SS. set (s := sqrt d) in *.
    set (n := if Rlt_dec b 0 then s - b else - s - b).
    assert (NN : n <> 0). { unfold n. destruct (Rlt_dec b 0); [ lra | ]. intros H. assert (b = 0) by lra. assert (S0 : s = 0) by lra. destruct NZ as [NZ | NZ]; [ contradiction | ]. assert (d = 0) by (rewrite <- SS, S0; ring). unfold d in *. apply NZ. apply (Rmult_eq_reg_l a); [ | exact A ]. nra. }
    assert (ROOT : n * n + 2 * b * n + 4 * a * c = 0). { unfold n, d in *. destruct (Rlt_dec b 0); nra. }
    unfold quotient. destruct (Req_EM_T (2 * a) 0); [ exfalso; apply A; lra | ]. destruct (Req_EM_T n 0); [ contradiction | ]. cbn [obind].
    exists (n / (2 * a)), (2 * c / n). split; [ reflexivity | ].
    assert (SUM : n / (2 * a) + 2 * c / n = - b / a). { apply (Rmult_eq_reg_r (2 * a * n)); [ | apply Rmult_integral_contrapositive; split; assumption ]. replace ((n / (2 * a) + 2 * c / n) * (2 * a * n)) with (n * n + 4 * a * c) by (field; split; assumption). replace (- b / a * (2 * a * n)) with (- 2 * b * n) by (field; assumption). lra. }
    assert (PROD : n / (2 * a) * (2 * c / n) = c / a) by (field; split; assumption).
    split; [ exact SUM | split; [ exact PROD | ] ]. intros z.
    assert (FAC : a * z * z + b * z + c = a * ((z - n / (2 * a)) * (z - 2 * c / n))).
    { replace ((z - n / (2 * a)) * (z - 2 * c / n)) with (z * z - (n / (2 * a) + 2 * c / n) * z + n / (2 * a) * (2 * c / n)) by ring. rewrite SUM, PROD. field. exact A. }
    rewrite FAC. split.
    + intros H. apply Rmult_integral in H. destruct H as [H | H]; [ contradiction | ]. apply Rmult_integral in H. destruct H; [ left | right ]; lra.
    + intros [-> | ->]; ring.
Qed.
Print Assumptions C98_quadratic.

(** With b and c zero the only root is zero, but the second result is a quotient of
    zeros. *)
Theorem C98_quadratic_refuted : forall a, a <> 0 -> (forall z, a * z * z + 0 * z + 0 = 0 <-> z = 0) /\ solve_quadratic a 0 0 = UB.
Proof.
  intros a A. split.
  - intros z. split; [ | intros ->; ring ]. intros H. assert (E : a * (z * z) = 0) by lra. apply Rmult_integral in E. destruct E as [E | E]; [ contradiction | ]. apply Rmult_integral in E. destruct E; assumption.
  - unfold solve_quadratic. cbv zeta. replace (0 * 0 - 4 * 0 * a) with 0 by ring. destruct (Rlt_dec 0 0); [ lra | ]. rewrite sqrt_0. replace (- 0 - 0) with 0 by ring. unfold quotient.
    destruct (Req_EM_T (2 * a) 0); [ reflexivity | ]. destruct (Req_EM_T 0 0); [ reflexivity | contradiction ].
Qed.
Print Assumptions C98_quadratic_refuted.

Theorem C98_sign : forall x, (0 < x -> sgn x = 1%Z) /\ (x < 0 -> sgn x = (-1)%Z) /\ (x = 0 -> sgn x = 0%Z) /\ IZR (sgn x) * Rabs x = x.
Proof.
  intros x. unfold sgn, Rabs. destruct (Rlt_dec 0 x); destruct (Rlt_dec x 0); try lra; destruct (Rcase_abs x); try lra; cbn [Z.sub Z.add Z.opp Z.pos_sub]; (split; [ intros; try reflexivity; lra | split; [ intros; try reflexivity; lra | split; [ intros; try reflexivity; lra | lra ] ] ]).
Qed.
Print Assumptions C98_sign.

Example C98_ex : nearest (5 / 2) 3 /\ nearest (- 5 / 2) (-3) /\ solve_quadratic 1 (-3) 2 = Ok (2, 1) /\ approximately_equal 100 101 (/ 50) = Ok true.
Proof.
  split; [ split; [ unfold Rabs; destruct (Rcase_abs _); lra | intros; rewrite !Rabs_right; lra ] | split; [ split; [ unfold Rabs; destruct (Rcase_abs _); lra | intros; rewrite !Rabs_left; lra ] | split ] ].
  - unfold solve_quadratic. cbv zeta. replace (-3 * -3 - 4 * 2 * 1) with 1 by ring. rewrite sqrt_1. destruct (Rlt_dec 1 0); [ lra | ]. destruct (Rlt_dec (-3) 0); [ | lra ].
    unfold quotient. destruct (Req_EM_T (2 * 1) 0); [ lra | ]. destruct (Req_EM_T (1 - -3) 0); [ lra | ]. cbn [obind]. f_equal. f_equal; field.
  - unfold approximately_equal, compare_with. destruct (Rlt_dec 0 (/ 50)); [ | lra ]. unfold le, max_times_epsilon. rewrite Rabs_left, !Rabs_right, Rmax_right by lra. destruct (Rle_dec _ _); [ reflexivity | lra ].
Qed.
