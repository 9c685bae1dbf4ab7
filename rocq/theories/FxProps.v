(** * C96: fixed-point numbers *)
From Coq Require Import Reals Lra Lia ZArith Bool.
From Verif Require Import Base LutModel LutProofs FxModel FxSpec FxProofs.
Local Open Scope Z_scope.

Lemma width_cases b D : type_ok b D -> 1 <= b /\ (0 < D) /\ number b D.
Proof. intros [B P]. unfold number. destruct B as [-> | [-> | [-> | ->]]]; cbn in *; lia. Qed.
Lemma value_lin D p q : value D (p + q) = (value D p + value D q)%R /\ value D (p - q) = (value D p - value D q)%R /\ value D (- p) = (- value D p)%R.
Proof. unfold value, Rdiv. rewrite plus_IZR, minus_IZR, opp_IZR. split; [ ring | split; ring ]. Qed.

(** Sums, differences and negatives are exact whenever the type can hold them;
    otherwise they wrap for the two narrow types and are undefined for the others. *)
Theorem C96_sums : forall b D p q, type_ok b D -> number b p -> number b q ->
  (forall f e, (f = plus b p q /\ e = p + q) \/ (f = minus b p q /\ e = p - q) \/ (f = negate b p /\ e = - p) ->
     (number b e -> f = Ok e) /\
     (~ number b e -> 32 <= b -> f = UB) /\
     (b < 32 -> exists r k, f = Ok r /\ number b r /\ r = e + k * 2 ^ b)) /\
  value D (p + q) = (value D p + value D q)%R /\ value D (p - q) = (value D p - value D q)%R /\ value D (- p) = (- value D p)%R.
Proof.
  intros b D p q T P Q. destruct (width_cases b D T) as (B & _ & _). split; [ | apply value_lin ]. intros f e H.
  assert (F : f = result b e) by (destruct H as [[-> ->] | [[-> ->] | [-> ->]]]; reflexivity). rewrite F. split; [ | split ].
  - apply result_ok. exact B.
  - intros N W. unfold result. destruct (Z.ltb_spec b 32); [ lia | ]. destruct (in_range b e) eqn:E; [ | reflexivity ]. apply in_range_number in E. contradiction.
  - intros W. destruct (wrap_cong b e B) as (k & K). exists (wrap b e), k. split; [ unfold result; rewrite (proj2 (Z.ltb_lt b 32) W); reflexivity | split; [ apply wrap_number; exact B | exact K ] ].
Qed.
Print Assumptions C96_sums.

(** Products are rounded toward zero; those of 64-bit numbers are within one and a
    half units, and exact if the exact result exists and the product fits. *)
Theorem C96_product : forall ld b D p q, extended ld -> type_ok b D -> number b p -> number b q ->
  let x := (value D p * value D q)%R in
  (b < 64 -> (Rabs x <= value D (2 ^ (b - 1) - 1))%R -> exists r, times ld b D p q = Ok r /\ cut D x r) /\
  (b = 64 -> (Rabs x <= value D (2 ^ 63 - 3))%R -> exists r, times ld b D p q = Ok r /\ (Rabs (value D r - x) <= 3 / 2 / IZR D)%R /\
     (forall k, p * q = k * D -> - 2 ^ 64 <= p * q <= 2 ^ 64 -> r = k)).
Proof.
  intros ld b D p q LD T P Q x. destruct (width_cases b D T) as (B & DP & _). assert (DR : (0 < IZR D)%R) by (apply IZR_lt; exact DP).
  assert (X : (x * IZR D = IZR p * IZR q / IZR D)%R) by (unfold x, value; field; lra). split.
  - intros W A. exists (Z.quot (p * q) D). unfold times. rewrite (proj2 (Z.ltb_lt b 64) W).
    assert (C : cut D x (Z.quot (p * q) D)). { apply cut_scaled; [ exact DP | ]. rewrite X, <- mult_IZR. apply quot_real. lia. }
    split; [ rewrite wrap_id; [ reflexivity | exact B | apply (cut_number b D x); assumption ] | exact C ].
  - intros -> A. unfold times. cbn [Z.ltb Z.compare Pos.compare Pos.compare_cont].
    destruct (long_division ld LD p q D ltac:(lia)) as (r & E & F & G).
    { rewrite <- X, Rabs_mult, (Rabs_right (IZR D)) by lra. apply Rle_trans with (value D (2 ^ 63 - 3) * IZR D)%R; [ apply Rmult_le_compat_r; lra | ]. unfold value. right. field. lra. }
    exists r. split; [ exact E | split; [ | exact G ] ].
    replace (value D r - x)%R with ((IZR r - IZR p * IZR q / IZR D) * / IZR D)%R by (unfold value, x, value; field; lra). rewrite Rabs_mult, (Rabs_right (/ IZR D)) by (apply Rle_ge, Rlt_le, Rinv_0_lt_compat; lra).
    unfold Rdiv at 3. apply Rmult_le_compat_r; [ apply Rlt_le, Rinv_0_lt_compat; lra | exact F ].
Qed.
Print Assumptions C96_product.

(** The same for quotients; a division by zero is undefined. *)
Theorem C96_quotient : forall ld b D p q, extended ld -> type_ok b D -> number b p -> number b q ->
  let x := (value D p / value D q)%R in
  (q = 0 -> over ld b D p q = UB) /\
  (q <> 0 -> b < 64 -> (Rabs x <= value D (2 ^ (b - 1) - 1))%R -> exists r, over ld b D p q = Ok r /\ cut D x r) /\
  (q <> 0 -> b = 64 -> (Rabs x <= value D (2 ^ 63 - 3))%R -> exists r, over ld b D p q = Ok r /\ (Rabs (value D r - x) <= 3 / 2 / IZR D)%R /\
     (forall k, p * D = k * q -> - 2 ^ 64 <= p * D <= 2 ^ 64 -> r = k)).
Proof.
  intros ld b D p q LD T P Q x. destruct (width_cases b D T) as (B & DP & _). assert (DR : (0 < IZR D)%R) by (apply IZR_lt; exact DP). split; [ intros ->; reflexivity | ].
  assert (X : q <> 0 -> (x * IZR D = IZR p * IZR D / IZR q)%R) by (intros NZ; unfold x, value; field; split; [ apply not_0_IZR; exact NZ | lra ]). split.
  - intros NZ W A. exists (Z.quot (p * D) q). unfold over. destruct (Z.eqb_spec q 0); [ contradiction | ]. rewrite (proj2 (Z.ltb_lt b 64) W).
    assert (C : cut D x (Z.quot (p * D) q)). { apply cut_scaled; [ exact DP | ]. rewrite (X NZ), <- mult_IZR. apply quot_real. exact NZ. }
    split; [ rewrite wrap_id; [ reflexivity | exact B | apply (cut_number b D x); assumption ] | exact C ].
  - intros NZ -> A. unfold over. destruct (Z.eqb_spec q 0); [ contradiction | ]. cbn [Z.ltb Z.compare Pos.compare Pos.compare_cont].
    destruct (long_division ld LD p D q NZ) as (r & E & F & G).
    { rewrite <- (X NZ), Rabs_mult, (Rabs_right (IZR D)) by lra. apply Rle_trans with (value D (2 ^ 63 - 3) * IZR D)%R; [ apply Rmult_le_compat_r; lra | ]. unfold value. right. field. lra. }
    exists r. split; [ exact E | split; [ | exact G ] ].
    replace (value D r - x)%R with ((IZR r - IZR p * IZR D / IZR q) * / IZR D)%R by (rewrite <- (X NZ); unfold value; field; lra). rewrite Rabs_mult, (Rabs_right (/ IZR D)) by (apply Rle_ge, Rlt_le, Rinv_0_lt_compat; lra).
    unfold Rdiv at 3. apply Rmult_le_compat_r; [ apply Rlt_le, Rinv_0_lt_compat; lra | exact F ].
Qed.
Print Assumptions C96_quotient.

(** From and to floating point: rounded toward zero, and back to the same number. *)
Theorem C96_double : forall b D, type_ok b D ->
  (forall x, (Rabs x <= value D (2 ^ (b - 1) - 1))%R -> exists r, of_double b D x = Ok r /\ cut D x r) /\
  (forall p, number b p -> to_double D p = value D p /\ of_double b D (to_double D p) = Ok p).
Proof.
  intros b D T. destruct (width_cases b D T) as (B & DP & _). assert (DR : (0 < IZR D)%R) by (apply IZR_lt; exact DP). split.
  - intros x A. exists (trunc (x * IZR D)). assert (C : cut D x (trunc (x * IZR D))).
    { apply cut_scaled; [ exact DP | ]. destruct (Rle_lt_dec 0 (x * IZR D)) as [S | S]; [ left; pose proof (trunc_pos _ S); lra | right; pose proof (trunc_neg _ S); lra ]. }
    split; [ | exact C ]. unfold of_double. rewrite (proj2 (in_range_number b _) (cut_number b D x _ DP C A)). reflexivity.
  - intros p P. split; [ reflexivity | ]. unfold of_double, to_double. replace (IZR p / IZR D * IZR D)%R with (IZR p) by (field; lra). rewrite trunc_IZR, (proj2 (in_range_number b p) P). reflexivity.
Qed.
Print Assumptions C96_double.

(** Numbers that are not negative are converted to another type by rounding down,
    as long as nothing overflows. *)
Theorem C96_convert : forall b1 D1 b2 D2 p, type_ok b1 D1 -> type_ok b2 D2 -> number b1 p -> 0 <= p -> p * D2 < 2 ^ 64 ->
  (value D1 p <= value D2 (2 ^ (b2 - 1) - 1))%R -> cut D2 (value D1 p) (convert b2 D2 D1 p).
Proof.
  intros b1 D1 b2 D2 p T1 T2 N P F L. destruct (width_cases b1 D1 T1) as (B1 & DP1 & _). destruct (width_cases b2 D2 T2) as (B2 & DP2 & _).
  assert (DR1 : (0 < IZR D1)%R) by (apply IZR_lt; exact DP1). assert (DR2 : (0 < IZR D2)%R) by (apply IZR_lt; exact DP2).
  assert (PR : (0 <= IZR p)%R) by (apply IZR_le; exact P). assert (V : (0 <= value D1 p)%R) by (unfold value; apply Rmult_le_pos; [ exact PR | apply Rlt_le, Rinv_0_lt_compat; exact DR1 ]).
  unfold convert. rewrite (Z.mod_small p) by nia. rewrite (Z.mod_small (p * D2)) by nia.
  rewrite <- (Z.quot_div_nonneg (p * D2) D1) by nia.
  assert (C : cut D2 (value D1 p) (Z.quot (p * D2) D1)).
  { apply cut_scaled; [ exact DP2 | ]. replace (value D1 p * IZR D2)%R with (IZR (p * D2) / IZR D1)%R by (unfold value; rewrite mult_IZR; field; lra). apply quot_real. lia. }
  rewrite wrap_id; [ exact C | exact B2 | ]. apply (cut_number b2 D2 (value D1 p)); [ exact DP2 | exact C | ]. rewrite Rabs_right by lra. exact L.
Qed.
Print Assumptions C96_convert.

(** Negative numbers are not: the conversion is computed without sign, so every
    negative number with a divider of at least two becomes a 64-bit number that is
    not negative, even with the same divider. *)
Theorem C96_convert_refuted : forall b1 D1 D2 p, type_ok b1 D1 -> type_ok 64 D2 -> number b1 p -> p < 0 -> 2 <= D1 ->
  (value D1 p < 0 <= value D2 (convert 64 D2 D1 p))%R.
Proof.
  intros b1 D1 D2 p T1 T2 N P H. destruct (width_cases b1 D1 T1) as (B1 & DP1 & _). destruct (width_cases 64 D2 T2) as (B2 & DP2 & _).
  assert (DR1 : (0 < IZR D1)%R) by (apply IZR_lt; exact DP1). assert (DR2 : (0 < IZR D2)%R) by (apply IZR_lt; exact DP2). unfold value, Rdiv. split.
  - assert ((IZR p < 0)%R) by (apply IZR_lt; exact P). pose proof (Rinv_0_lt_compat _ DR1). nra.
  - apply Rmult_le_pos; [ | apply Rlt_le, Rinv_0_lt_compat; exact DR2 ]. apply IZR_le. unfold convert. set (u := (p mod 2 ^ 64 * D2) mod 2 ^ 64).
    assert (U : 0 <= u < 2 ^ 64) by (apply Z.mod_pos_bound; reflexivity).
    assert (Q : 0 <= u / D1 < 2 ^ 63). { split; [ apply Z.div_pos; lia | ]. apply Z.div_lt_upper_bound; [ lia | ]. change (2 ^ 64) with (2 * 2 ^ 63) in U. nia. }
    rewrite wrap_id; [ lia | lia | ]. unfold number. change (64 - 1) with 63. lia.
Qed.
Print Assumptions C96_convert_refuted.

Example C96_ex : extended (fun x => x) /\ type_ok 8 10 /\ type_ok 32 1000000 /\ type_ok 64 1000000000 /\
  times (fun x => x) 8 10 15 (-25) = Ok (-37) /\ over (fun x => x) 32 1000000 1000000 3000000 = Ok 333333 /\
  plus 8 100 100 = Ok (-56) /\ plus 32 2147483647 1 = UB /\
  convert 32 1000 10 15 = 1500 /\ convert 64 1000 1000 (-1) = 18446744073709550.
Proof.
  split; [ | split; [ | split; [ | split; [ | split; [ reflexivity | split; [ reflexivity | split; [ reflexivity | split; [ reflexivity | split; reflexivity ] ] ] ] ] ] ] ].
  - split; [ intros; assumption | split; [ reflexivity | ] ]. intros x. replace (x - x)%R with 0%R by ring. rewrite Rabs_R0. pose proof (Rabs_pos x). lra.
  - split; [ tauto | cbn; lia ].
  - split; [ tauto | cbn; lia ].
  - split; [ tauto | cbn; lia ].
Qed.
