(** * Proofs about fixed-point numbers *)
From Coq Require Import Reals Lra Lia ZArith Bool.
From Verif Require Import Base LutModel LutProofs FxModel FxSpec.
Local Open Scope Z_scope.

Lemma pow_double b : 1 <= b -> 2 ^ b = 2 * 2 ^ (b - 1) /\ 0 < 2 ^ (b - 1).
Proof. intros B. split; [ rewrite <- Z.pow_succ_r by lia; f_equal; lia | apply Z.pow_pos_nonneg; lia ]. Qed.
Lemma wrap_number b v : 1 <= b -> number b (wrap b v).
Proof. intros B. destruct (pow_double b B) as [E P]. unfold number, wrap, low. pose proof (Z.mod_pos_bound (v - - 2 ^ (b - 1)) (2 ^ b) ltac:(lia)). lia. Qed.
Lemma wrap_id b v : 1 <= b -> number b v -> wrap b v = v.
Proof. intros B H. destruct (pow_double b B) as [E P]. unfold number in H. unfold wrap, low. rewrite Z.mod_small by lia. lia. Qed.
Lemma wrap_cong b v : 1 <= b -> exists k, wrap b v = v + k * 2 ^ b.
Proof. intros B. destruct (pow_double b B) as [E P]. unfold wrap. exists (- ((v - low b) / 2 ^ b)). pose proof (Z.div_mod (v - low b) (2 ^ b) ltac:(lia)). lia. Qed.
Lemma in_range_number b v : in_range b v = true <-> number b v.
Proof. unfold in_range, number, low, high. rewrite andb_true_iff, !Z.leb_le. reflexivity. Qed.
Lemma result_ok b v : 1 <= b -> number b v -> result b v = Ok v.
Proof. intros B H. unfold result. destruct (Z.ltb_spec b 32); [ rewrite wrap_id by assumption; reflexivity | ]. apply in_range_number in H. rewrite H. reflexivity. Qed.

Local Open Scope R_scope.
Lemma abs_between x y : Rabs x <= y -> - y <= x <= y.
Proof. unfold Rabs. destruct (Rcase_abs x); lra. Qed.
Lemma quot_real n m : m <> 0%Z -> let x := IZR n / IZR m in let k := IZR (Z.quot n m) in (0 <= x /\ k <= x < k + 1) \/ (x <= 0 /\ k - 1 < x <= k).
Proof.
  intros M. cbv zeta.
  assert (BASE : forall n m, (0 <= n)%Z -> (0 < m)%Z -> 0 <= IZR n / IZR m /\ IZR (Z.quot n m) <= IZR n / IZR m < IZR (Z.quot n m) + 1).
  { clear. intros n m Hn Hm. pose proof (Z.quot_div_nonneg n m Hn Hm) as Q. rewrite Q. pose proof (Z.div_mod n m ltac:(lia)) as D. pose proof (Z.mod_pos_bound n m Hm) as B.
    assert (M : 0 < IZR m) by (apply IZR_lt; lia). assert (N : IZR n = IZR m * IZR (n / m) + IZR (n mod m)) by (rewrite <- mult_IZR, <- plus_IZR; f_equal; exact D).
    assert (B1 : 0 <= IZR (n mod m)) by (apply IZR_le; lia). assert (B2 : IZR (n mod m) < IZR m) by (apply IZR_lt; lia).
    assert (E : IZR n / IZR m = IZR (n / m) + IZR (n mod m) / IZR m) by (rewrite N; field; lra).
    assert (F : 0 <= IZR (n mod m) / IZR m < 1). { split; [ apply Rmult_le_pos; [ exact B1 | apply Rlt_le, Rinv_0_lt_compat; exact M ] | apply Rmult_lt_reg_r with (IZR m); [ exact M | field_simplify; lra ] ]. }
    split; [ apply Rmult_le_pos; [ apply IZR_le; exact Hn | apply Rlt_le, Rinv_0_lt_compat; exact M ] | rewrite E; lra ]. }
  assert (NZ : IZR m <> 0) by (apply not_0_IZR; exact M).
  destruct (Z_lt_le_dec m 0) as [Lm | Lm]; destruct (Z_lt_le_dec n 0) as [Ln | Ln].
  - left. pose proof (BASE (- n)%Z (- m)%Z ltac:(lia) ltac:(lia)) as H. rewrite Z.quot_opp_opp in H by exact M. rewrite !opp_IZR in H. replace (- IZR n / - IZR m) with (IZR n / IZR m) in H by (field; exact NZ). exact H.
  - right. pose proof (BASE n (- m)%Z ltac:(lia) ltac:(lia)) as H. rewrite Z.quot_opp_r in H by exact M. rewrite !opp_IZR in H. replace (IZR n / - IZR m) with (- (IZR n / IZR m)) in H by (field; exact NZ). lra.
  - right. pose proof (BASE (- n)%Z m ltac:(lia) ltac:(lia)) as H. rewrite Z.quot_opp_l in H by exact M. rewrite !opp_IZR in H. replace (- IZR n / IZR m) with (- (IZR n / IZR m)) in H by (field; exact NZ). lra.
  - left. apply BASE; lia.
Qed.
Lemma trunc_IZR z : trunc (IZR z) = z.
Proof.
  destruct (Rle_lt_dec 0 (IZR z)) as [A | A].
  - pose proof (trunc_pos _ A) as [B C]. apply le_IZR in B. rewrite <- plus_IZR in C. apply lt_IZR in C. lia.
  - pose proof (trunc_neg _ A) as [B C]. apply le_IZR in C. rewrite <- minus_IZR in B. apply lt_IZR in B. lia.
Qed.
Lemma cut_scaled D x r : (0 < D)%Z -> ((0 <= x * IZR D /\ IZR r <= x * IZR D < IZR r + 1) \/ (x * IZR D <= 0 /\ IZR r - 1 < x * IZR D <= IZR r)) -> cut D x r.
Proof.
  intros P H. assert (DP : 0 < IZR D) by (apply IZR_lt; exact P). unfold cut, value. rewrite plus_IZR, minus_IZR.
  assert (X : x = x * IZR D / IZR D) by (field; lra). set (y := x * IZR D) in *. rewrite X. assert (I := Rinv_0_lt_compat _ DP). unfold Rdiv.
  destruct H as [(A & B & C) | (A & B & C)]; [ left | right ].
  - split; [ apply Rmult_le_pos; lra | split; [ apply Rmult_le_compat_r; lra | apply Rmult_lt_compat_r; lra ] ].
  - split; [ nra | split; [ apply Rmult_lt_compat_r; lra | apply Rmult_le_compat_r; lra ] ].
Qed.
Lemma cut_number b D x r : (0 < D)%Z -> cut D x r -> Rabs x <= value D (2 ^ (b - 1) - 1) -> number b r.
Proof.
  intros P C A. assert (DP : 0 < IZR D) by (apply IZR_lt; exact P). unfold cut, value in *. assert (I := Rinv_0_lt_compat _ DP). unfold Rdiv in *. apply abs_between in A.
  assert (LE : forall u v : Z, IZR u * / IZR D < IZR v * / IZR D -> (u < v)%Z) by (intros u v H; apply lt_IZR; apply (Rmult_lt_reg_r (/ IZR D)); assumption).
  assert (LE' : forall u v : Z, IZR u * / IZR D <= IZR v * / IZR D -> (u <= v)%Z) by (intros u v H; apply le_IZR; apply (Rmult_le_reg_r (/ IZR D)); assumption).
  assert (N : - (IZR (2 ^ (b - 1) - 1) * / IZR D) = IZR (- (2 ^ (b - 1) - 1)) * / IZR D) by (rewrite opp_IZR; ring). rewrite N in A. unfold number.
  destruct C as [(C1 & C2 & C3) | (C1 & C2 & C3)].
  - split; [ | apply LE'; lra ]. assert (0 < r + 1)%Z by (apply LE; rewrite Rmult_0_l; lra). assert (0 <= 2 ^ (b - 1))%Z by (apply Z.pow_nonneg; lia). lia.
  - split; [ assert (- (2 ^ (b - 1) - 1) <= r)%Z by (apply LE'; lra); lia | ]. assert (r - 1 < 0)%Z by (apply LE; rewrite Rmult_0_l; lra).
    assert (- (2 ^ (b - 1) - 1) <= 2 ^ (b - 1) - 1)%Z by (apply LE'; lra). lia.
Qed.

Section LongDouble.
Variable ld : R -> R.
Hypothesis LD : extended ld.
Lemma long_division (a c m : Z) : m <> 0%Z -> Rabs (IZR a * IZR c / IZR m) <= IZR (2 ^ 63 - 3) ->
  exists r, of_long_double (ld (ld (IZR a * IZR c) / IZR m)) = Ok r /\ Rabs (IZR r - IZR a * IZR c / IZR m) <= 3 / 2 /\
    (forall k, (a * c = k * m)%Z -> (- 2 ^ 64 <= a * c <= 2 ^ 64)%Z -> r = k).
Proof.
  intros M B. destruct LD as (MONO & EXACT & ERR). assert (NZ : IZR m <> 0) by (apply not_0_IZR; exact M).
  set (x := IZR a * IZR c / IZR m) in *. set (y := ld (IZR a * IZR c) / IZR m).
  assert (P64 : 2 ^ 64 = 18446744073709551616) by lra. change (2 ^ 63 - 3)%Z with 9223372036854775805%Z in B.
  assert (XY : Rabs (y - x) <= / 2).
  { pose proof (ERR (IZR a * IZR c)) as E. rewrite P64 in E. replace (y - x) with ((ld (IZR a * IZR c) - IZR a * IZR c) * / IZR m) by (unfold x, y; field; exact NZ). rewrite Rabs_mult.
    assert (XX : Rabs x = Rabs (IZR a * IZR c) * Rabs (/ IZR m)) by (unfold x, Rdiv; rewrite Rabs_mult; reflexivity). pose proof (Rabs_pos (/ IZR m)) as PM.
    apply Rle_trans with (Rabs (IZR a * IZR c) / 18446744073709551616 * Rabs (/ IZR m)); [ apply Rmult_le_compat_r; assumption | ].
    replace (Rabs (IZR a * IZR c) / 18446744073709551616 * Rabs (/ IZR m)) with (Rabs x / 18446744073709551616) by (rewrite XX; unfold Rdiv; ring). lra. }
  apply abs_between in B. apply abs_between in XY.
  pose proof (int_part_bounds y) as F. set (f := Int_part y) in *.
  assert (F1 : (-9223372036854775808 < f < 9223372036854775807)%Z) by (split; apply lt_IZR; lra).
  assert (Z1 : IZR f <= ld y) by (rewrite <- (EXACT f) by lia; apply MONO; lra).
  assert (Z2 : ld y <= IZR f + 1) by (replace (IZR f + 1) with (IZR (f + 1)) by (rewrite plus_IZR; ring); rewrite <- (EXACT (f + 1)%Z) by lia; apply MONO; rewrite plus_IZR; lra).
  assert (T : trunc (ld y) = f \/ trunc (ld y) = (f + 1)%Z).
  { destruct (Rle_lt_dec 0 (ld y)) as [A | A].
    - pose proof (trunc_pos _ A) as [T1 T2]. assert (IZR (trunc (ld y)) <= IZR (f + 1)) as U by (rewrite plus_IZR; lra). apply le_IZR in U. assert (IZR f < IZR (trunc (ld y) + 1)) as V by (rewrite plus_IZR; lra). apply lt_IZR in V. lia.
    - pose proof (trunc_neg _ A) as [T1 T2]. assert (IZR f <= IZR (trunc (ld y))) as U by lra. apply le_IZR in U. assert (IZR (trunc (ld y)) < IZR (f + 2)) as V by (rewrite plus_IZR; lra). apply lt_IZR in V. lia. }
  exists (trunc (ld y)). split; [ | split ].
  - unfold of_long_double. assert (H : in_range 64 (trunc (ld y)) = true) by (apply in_range_number; unfold number; change (2 ^ (64 - 1))%Z with 9223372036854775808%Z; lia). rewrite H. reflexivity.
  - apply Rabs_le. destruct T as [-> | ->]; rewrite ?plus_IZR; lra.
  - intros k K KB. assert (Y : y = IZR k). { unfold y. rewrite <- mult_IZR, (EXACT _ KB), K, mult_IZR. field. exact NZ. }
    assert (KF : f = k). { assert (IZR f < IZR (k + 1)) as U by (rewrite plus_IZR; lra). apply lt_IZR in U. assert (IZR k < IZR (f + 1)) as V by (rewrite plus_IZR; lra). apply lt_IZR in V. lia. }
    rewrite Y, EXACT by lia. apply trunc_IZR.
Qed.
End LongDouble.
