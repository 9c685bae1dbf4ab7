From Coquelicot Require Import Coquelicot.
From Coq Require Import Reals List Arith ZArith Bool Lia Lra.
From Verif Require Import Base BsplModel BsplSpec BsplProofs BsdProofs BsqModel.
Import ListNotations.
Local Open Scope R_scope.

(** ** evalIntegral *)
(** The antiderivative of the polynomial of a segment that is zero at its start. *)
Definition prim (b : bspline) (m : mat) (s r : nat) (t : R) : R :=
  (knot (knots b) (s + 1) - knot (knots b) s) *
  bsum (order b) (fun c => coef b r (s + 1 - order b + c)%nat * bsum (order b) (fun i => m i c * power_row (upar b s t) i)).

Lemma power_row_derive b s i t : knot (knots b) s < knot (knots b) (s + 1) ->
  is_derive (fun x => power_row (upar b s x) i) t (upar b s t ^ i / (knot (knots b) (s + 1) - knot (knots b) s)).
Proof.
  intros P. unfold power_row, upar. assert (I := pos_INR i).
  replace (i + 1)%nat with (S i) by lia. auto_derive; [ tauto | ].
  match goal with |- ?a = ?b => change (@eq R a b) end. cbn [pred].
  rewrite <- S_INR. assert (INR (S i) <> 0) by (apply not_0_INR; lia).
  match goal with |- context [match i with O => 1 | S _ => ?x end] =>
    replace (match i with O => 1 | S _ => x end) with (INR (S i)) by (destruct i; reflexivity) end.
  change ((t + - knot (knots b) s) * / (knot (knots b) (s + 1) - knot (knots b) s))
    with ((t - knot (knots b) s) / (knot (knots b) (s + 1) - knot (knots b) s)).
  generalize (((t - knot (knots b) s) / (knot (knots b) (s + 1) - knot (knots b) s)) ^ i). intros x.
  field. split; [ lra | assumption ].
Qed.

Lemma prim_derive b m s r t : knot (knots b) s < knot (knots b) (s + 1) ->
  is_derive (prim b m s r) t (piece b m s 0 r t).
Proof.
  intros P. unfold prim, piece.
  set (w := knot (knots b) (s + 1) - knot (knots b) s).
  replace (bsum (order b) (fun c => coef b r (s + 1 - order b + c)%nat * wgt b m s 0 t c))
    with (w * bsum (order b) (fun c => coef b r (s + 1 - order b + c)%nat * bsum (order b) (fun i => m i c * (upar b s t ^ i / w)))).
  - apply derive_scal_const.
    apply (bsum_derive (order b) (fun c x => coef b r (s + 1 - order b + c)%nat * bsum (order b) (fun i => m i c * power_row (upar b s x) i))).
    intros c _. apply derive_scal_const.
    apply (bsum_derive (order b) (fun i x => m i c * power_row (upar b s x) i)).
    intros i _. apply derive_scal_const. apply power_row_derive. exact P.
  - rewrite <- bsum_scal. apply bsum_ext. intros c _. rewrite wgt_0. unfold urow.
    rewrite Rmult_comm, Rmult_assoc. f_equal. rewrite <- bsum_scal_r. apply bsum_ext. intros i _.
    unfold w. field. lra.
Qed.

Lemma prim_start b m s r : knot (knots b) s < knot (knots b) (s + 1) -> prim b m s r (knot (knots b) s) = 0.
Proof.
  intros P. unfold prim. rewrite (bsum_zero (order b)); [ ring | ]. intros c _. rewrite bsum_zero; [ ring | ].
  intros i _. unfold power_row, upar. replace (knot (knots b) s - knot (knots b) s) with 0 by ring.
  unfold Rdiv at 2. rewrite Rmult_0_l, pow_i by lia. unfold Rdiv. ring.
Qed.

Lemma piece_continuous b m s d r x : knot (knots b) s < knot (knots b) (s + 1) -> continuous (piece b m s d r) x.
Proof.
  intros P. apply (ex_derive_continuous (V := R_NormedModule)). eexists. apply piece_derive. exact P.
Qed.

Lemma seg_RInt b m s r f a c : wf b -> / 10000000000 <= hi b - last_start b -> agrees b 0 r f ->
  (order b - 1 <= s < ncols b)%nat -> knot (knots b) s < knot (knots b) (s + 1) ->
  basis_M (knots b) (order b) s = Ok m -> knot (knots b) s <= a -> a <= c -> c <= knot (knots b) (s + 1) ->
  is_RInt f a c (prim b m s r c - prim b m s r a).
Proof.
  intros W EN A S1 P EM K0 AC K1.
  apply (is_RInt_ext (piece b m s 0 r)).
  - intros x [X1 X2]. rewrite Rmin_left in X1 by lra. rewrite Rmax_right in X2 by lra. symmetry.
    apply (agrees_piece b 0 r f s m W EN A S1 P EM). lra.
  - apply (is_RInt_derive (prim b m s r) (piece b m s 0 r)).
    + intros x _. apply prim_derive. exact P.
    + intros x _. apply piece_continuous. exact P.
Qed.

Lemma integral_term_ok b s w v : wf b -> (order b - 1 <= s < ncols b)%nat ->
  exists m, basis_M (knots b) (order b) s = Ok m /\
    integral_term b s w v = Ok (fun r => w * bsum (order b) (fun c => coef b r (s + 1 - order b + c)%nat * bsum (order b) (fun i => m i c * v i))).
Proof.
  intros W S1. assert (W' := W). destruct W' as [O LE C B SO].
  destruct (bases_nth b W (s + 1 - order b)) as [m [E1 E2]]; [ lia | ].
  replace (s + 1 - order b + order b - 1)%nat with s in E2 by lia.
  exists m. split; [ exact E2 | ]. unfold integral_term. rewrite isub_ok by lia. cbn [obind].
  unfold coef_block. destruct (Nat.leb_spec (s + 1 - order b + order b) (ncols b)); [ | lia ]. cbn [obind].
  rewrite E1. reflexivity.
Qed.

Lemma central_RInt b : wf b -> / 10000000000 <= hi b - last_start b ->
  forall n s acc, (order b - 1 <= s)%nat -> (s + n <= ncols b)%nat ->
  exists v, central b s n acc = Ok v /\
    forall r f, agrees b 0 r f -> is_RInt f (knot (knots b) s) (knot (knots b) (s + n)) (v r - acc r).
Proof.
  intros W EN. assert (W' := W). destruct W' as [O LE C B SO].
  induction n as [ | n IH ]; intros s acc S1 S2; cbn [central].
  - exists acc. split; [ reflexivity | ]. intros r f A. rewrite Nat.add_0_r. replace (acc r - acc r) with 0 by ring.
    apply (is_RInt_point (V := R_NormedModule)).
  - rewrite !vat_knot by lia. cbn [obind].
    destruct (integral_term_ok b s (knot (knots b) (s + 1) - knot (knots b) s) (fun i => 1 / (INR i + 1)) W) as [m [EM E]]; [ lia | ].
    rewrite E. cbn [obind].
    match goal with |- exists v, central b (S s) n ?a = Ok v /\ _ => destruct (IH (S s) a) as [v [EV RI]]; [ lia | lia | ] end.
    exists v. split; [ exact EV | ]. intros r f A. specialize (RI r f A). cbv beta in RI.
    replace (s + S n)%nat with (S s + n)%nat by lia. replace (S s) with (s + 1)%nat in RI |- * by lia.
    match type of RI with is_RInt _ _ _ (_ - (_ + ?x)) =>
      replace (v r - acc r) with (@plus R_NormedModule x (v r - (acc r + x))) by (unfold plus; cbn; ring); set (X := x) in * end.
    apply (is_RInt_Chasles (V := R_NormedModule) _ _ (knot (knots b) (s + 1))); [ | exact RI ].
    assert (LEK : knot (knots b) s <= knot (knots b) (s + 1)) by (apply SO; lia).
    destruct (Rlt_dec (knot (knots b) s) (knot (knots b) (s + 1))) as [P | P].
    + replace X with (prim b m s r (knot (knots b) (s + 1)) - prim b m s r (knot (knots b) s)).
      { apply seg_RInt; first [ assumption | lia | lra ]. }
      rewrite prim_start by exact P. unfold prim, X. rewrite Rminus_0_r. f_equal. apply bsum_ext. intros c _. f_equal.
      apply bsum_ext. intros i _. f_equal. unfold power_row, upar. unfold Rdiv at 2. rewrite Rinv_r by lra. rewrite pow1. reflexivity.
    + assert (EQ : knot (knots b) (s + 1) = knot (knots b) s) by lra. rewrite EQ.
      replace X with 0 by (unfold X; rewrite EQ; ring). apply (is_RInt_point (V := R_NormedModule)).
Qed.

Definition snapped_to (l : list R) (t t' : R) : Prop :=
  t' = t \/ exists j, (j < length l)%nat /\ t' = knot l j /\ t' < t <= t' + / 10 ^ 16.

Lemma remainder_ok b t s : wf b -> / 10000000000 <= hi b - last_start b ->
  (order b - 1 <= s < ncols b)%nat -> knot (knots b) s < knot (knots b) (s + 1) ->
  knot (knots b) s <= t <= knot (knots b) (s + 1) ->
  exists v t', remainder b t (knot (knots b) (s + 1) - knot (knots b) s) s = Ok v /\ snapped_to (knots b) t t' /\
    knot (knots b) s <= t' <= knot (knots b) (s + 1) /\
    forall r f, agrees b 0 r f -> is_RInt f (knot (knots b) s) t' (v r).
Proof.
  intros W EN S1 P I. assert (W' := W). destruct W' as [O LE C B SO].
  unfold remainder. rewrite vat_knot by lia. cbn [obind]. cbv zeta.
  destruct (Rlt_dec (/ 10 ^ 16) (t - knot (knots b) s)) as [L | L].
  - rewrite (rltb_true (/ 10 ^ 16) (t - knot (knots b) s)) by exact L.
    rewrite (rltb_true (/ 10 ^ 16)) by lra. cbn [andb].
    destruct (integral_term_ok b s (knot (knots b) (s + 1) - knot (knots b) s)
      (power_row ((t - knot (knots b) s) / (knot (knots b) (s + 1) - knot (knots b) s))) W S1) as [m [EM E]].
    rewrite E. eexists. exists t. split; [ reflexivity | ]. split; [ left; reflexivity | ]. split; [ exact I | ].
    intros r f A. cbv beta.
    match goal with |- is_RInt _ _ _ ?x => replace x with (prim b m s r t - prim b m s r (knot (knots b) s)) end.
    + apply seg_RInt; first [ assumption | lra ].
    + rewrite prim_start by exact P. unfold prim, upar. ring.
  - rewrite (rltb_false (/ 10 ^ 16) (t - knot (knots b) s)) by lra. cbn [andb].
    exists (fun _ => 0), (knot (knots b) s). split; [ reflexivity | ]. split.
    + destruct (Req_dec t (knot (knots b) s)) as [E | E]; [ left; symmetry; exact E | ].
      right. exists s. split; [ lia | ]. split; [ reflexivity | ]. split; lra.
    + split; [ lra | ]. intros r f _. apply (is_RInt_point (V := R_NormedModule)).
Qed.

Lemma located_unique b t s s' : located b t s -> located b t s' -> s = s'.
Proof. intros [_ E] [_ E']. congruence. Qed.

Lemma integral_forward_ok b t1 t2 : wf b -> / 10000000000 <= hi b - last_start b ->
  lo b <= t1 -> t1 <= t2 -> t2 <= hi b ->
  exists v t1' t2', integral_forward b t1 t2 = Ok v /\ snapped_to (knots b) t1 t1' /\ snapped_to (knots b) t2 t2' /\
    forall r f, agrees b 0 r f -> is_RInt f t1' t2' (v r).
Proof.
  intros W EN L1 L12 L2. assert (W' := W). destruct W' as [O LE C B SO].
  assert (RS : forall t, resolved b t).
  { intros t. unfold resolved. destruct (Rle_dec (last_start b) t); [ right; assumption | left; lra ]. }
  destruct (located_closed b t1 W) as [s1 [LO1 [P1 [I1 H1]]]]; [ lra | apply RS | lra | ].
  destruct (located_closed b t2 W) as [s2 [LO2 [P2 [I2 H2]]]]; [ lra | apply RS | lra | ].
  assert (SS : (s1 <= s2)%nat).
  { destruct (le_lt_dec s1 s2) as [ | G ]; [ assumption | exfalso ].
    destruct LO1 as [B1 E1]. destruct LO2 as [B2 E2].
    assert (knot (knots b) (s2 + 1) <= knot (knots b) s1) by (apply SO; lia).
    assert (t1 = t2) by lra. subst t2. assert (s1 = s2) by congruence. lia. }
  destruct LO1 as [B1 E1]. destruct LO2 as [B2 E2].
  destruct (remainder_ok b t1 s1 W EN B1 P1 I1) as [v1 [t1' [R1 [N1 [_ J1]]]]].
  destruct (remainder_ok b t2 s2 W EN B2 P2 I2) as [v2 [t2' [R2 [N2 [_ J2]]]]].
  destruct (central_RInt b W EN (s2 - s1) s1 (fun r => 0 - v1 r)) as [m [EM JM]]; [ lia | lia | ].
  exists (fun r => m r + v2 r), t1', t2'. split.
  { unfold integral_forward. rewrite E1. cbn [obind]. rewrite E2. cbn [obind]. rewrite R1. cbn [obind].
    rewrite EM. cbn [obind]. rewrite R2. reflexivity. }
  split; [ exact N1 | ]. split; [ exact N2 | ]. intros r f A. specialize (J1 r f A). specialize (J2 r f A). specialize (JM r f A).
  replace (s1 + (s2 - s1))%nat with s2 in JM by lia. cbv beta in JM.
  replace (m r + v2 r) with (@plus R_NormedModule (@opp R_NormedModule (v1 r)) (@plus R_NormedModule (m r - (0 - v1 r)) (v2 r))) by (unfold plus, opp; cbn; ring).
  apply (is_RInt_Chasles (V := R_NormedModule) _ _ (knot (knots b) s1)).
  - apply (is_RInt_swap (V := R_NormedModule)). exact J1.
  - apply (is_RInt_Chasles (V := R_NormedModule) _ _ (knot (knots b) s2)); assumption.
Qed.

Lemma eval_integral_ok b t1 t2 : wf b -> / 10000000000 <= hi b - last_start b ->
  lo b <= t1 <= hi b -> lo b <= t2 <= hi b ->
  exists v t1' t2', eval_integral b t1 t2 = Ok v /\ snapped_to (knots b) t1 t1' /\ snapped_to (knots b) t2 t2' /\
    forall r f, agrees b 0 r f -> is_RInt f t1' t2' (v r).
Proof.
  intros W EN I1 I2. unfold eval_integral. destruct (Rlt_dec t2 t1) as [L | L].
  - rewrite rltb_true by exact L.
    destruct (integral_forward_ok b t2 t1 W EN) as [v [t2' [t1' [E [N2 [N1 J]]]]]]; [ lra | lra | lra | ].
    rewrite E. cbn [obind]. exists (fun r => - v r), t1', t2'. split; [ reflexivity | ].
    split; [ exact N1 | ]. split; [ exact N2 | ]. intros r f A.
    apply (is_RInt_swap (V := R_NormedModule)). exact (J r f A).
  - rewrite rltb_false by lra. apply integral_forward_ok; first [ assumption | lra ].
Qed.

(** ** Quadratic forms *)
Definition bil (n : nat) (Q : mat) (x y : vec) : R := bsum n (fun r => x r * bsum n (fun c => Q r c * y c)).
Definition mapply (n : nat) (M : mat) (x : vec) : vec := fun r => bsum n (fun c => M r c * x c).

Lemma bil_ext n Q x y Q' x' y' : (forall r c, (r < n)%nat -> (c < n)%nat -> Q r c = Q' r c) ->
  (forall r, (r < n)%nat -> x r = x' r) -> (forall r, (r < n)%nat -> y r = y' r) -> bil n Q x y = bil n Q' x' y'.
Proof.
  intros HQ HX HY. unfold bil. apply bsum_ext. intros r Lr. rewrite HX by exact Lr. f_equal.
  apply bsum_ext. intros c Lc. rewrite HQ, HY by assumption. reflexivity.
Qed.

Lemma bil_congruence n M V x y : bil n (mmul n (mmul n (mtr M) V) M) x y = bil n V (mapply n M x) (mapply n M y).
Proof.
  unfold bil, mapply, mmul, mtr.
  transitivity (bsum n (fun r => bsum n (fun c => bsum n (fun i => bsum n (fun j => x r * M j r * V j i * M i c * y c))))).
  { apply bsum_ext. intros r _. rewrite <- bsum_scal. apply bsum_ext. intros c _.
    rewrite <- Rmult_assoc, (Rmult_comm (x r)), Rmult_assoc, <- bsum_scal_r. apply bsum_ext. intros i _.
    rewrite <- bsum_scal_r, <- bsum_scal_r. apply bsum_ext. intros j _. ring. }
  transitivity (bsum n (fun j => bsum n (fun i => bsum n (fun r => bsum n (fun c => x r * M j r * V j i * M i c * y c))))).
  { rewrite (bsum_ext n _ (fun r => bsum n (fun j => bsum n (fun i => bsum n (fun c => x r * M j r * V j i * M i c * y c))))).
    - rewrite bsum_swap. apply bsum_ext. intros j _. rewrite bsum_swap. reflexivity.
    - intros r _. rewrite bsum_swap. rewrite (bsum_ext n _ (fun i => bsum n (fun j => bsum n (fun c => x r * M j r * V j i * M i c * y c)))).
      + rewrite bsum_swap. reflexivity.
      + intros i _. rewrite bsum_swap. reflexivity. }
  apply bsum_ext. intros j _. rewrite <- bsum_scal. apply bsum_ext. intros i _.
  rewrite <- bsum_scal_r. apply bsum_ext. intros r _. rewrite <- !bsum_scal. apply bsum_ext. intros c _. ring.
Qed.

Fixpoint iter_D (k : nat) (Dm : mat) (n : nat) (x : vec) : vec :=
  match n with O => x | S m => mapply k Dm (iter_D k Dm m x) end.

Lemma iter_D_ext k Dm n (p q : vec) : (forall a, (a < k)%nat -> p a = q a) ->
  forall a, (a < k)%nat -> iter_D k Dm n p a = iter_D k Dm n q a.
Proof.
  intros H. induction n as [ | n IH ]; intros a La; cbn [iter_D]; [ apply H; exact La | ].
  unfold mapply. apply bsum_ext. intros c Lc. rewrite IH by exact Lc. reflexivity.
Qed.

Lemma derive_V_bil k Dm n : forall V x y, bil k (derive_V k n Dm V) x y = bil k V (iter_D k Dm n x) (iter_D k Dm n y).
Proof.
  induction n as [ | n IH ]; intros V x y; cbn [derive_V iter_D]; [ reflexivity | ].
  rewrite IH. apply bil_congruence.
Qed.

Lemma bsum_RInt n (f : nat -> R -> R) (v : nat -> R) a b :
  (forall i, (i < n)%nat -> is_RInt (f i) a b (v i)) -> is_RInt (fun x => bsum n (fun i => f i x)) a b (bsum n v).
Proof.
  induction n as [ | n IH ]; intros H; cbn [bsum].
  - assert (X := is_RInt_const (V := R_NormedModule) a b 0). unfold scal in X. cbn in X. unfold mult in X. cbn in X.
    rewrite Rmult_0_r in X. exact X.
  - apply (is_RInt_plus (V := R_NormedModule)); [ apply IH; intros; apply H; lia | apply H; lia ].
Qed.

Lemma scal_RInt (f : R -> R) v a b c : is_RInt f a b v -> is_RInt (fun x => c * f x) a b (c * v).
Proof. intros H. apply (is_RInt_scal (V := R_NormedModule)). exact H. Qed.

(** Polynomials in the local parameter *)
Definition poly (k : nat) (p : vec) (u : R) : R := bsum k (fun a => p a * u ^ a).

Lemma Dii_apply (k : nat) (recip : R) (p : vec) a : (a < k)%nat ->
  mapply k (fun r c => if (c =? r + 1)%nat && (r <? k - 1)%nat then (INR r + 1) * recip else 0) p a
  = if (a <? k - 1)%nat then (INR a + 1) * recip * p (a + 1)%nat else 0.
Proof.
  intros L. unfold mapply. destruct (Nat.ltb_spec a (k - 1)).
  - rewrite (bsum_single k (a + 1)); [ rewrite Nat.eqb_refl; cbn [andb]; reflexivity | lia | ].
    intros i _ N. destruct (Nat.eqb_spec i (a + 1)); [ contradiction | ]. cbn [andb]. ring.
  - apply bsum_zero. intros i _. rewrite andb_false_r. ring.
Qed.

Lemma poly_derive k (p : vec) a w t : w <> 0 ->
  is_derive (fun x => poly k p ((x - a) / w)) t
    (poly k (mapply k (fun r c => if (c =? r + 1)%nat && (r <? k - 1)%nat then (INR r + 1) * (1 / w) else 0) p) ((t - a) / w)).
Proof.
  intros NZ. unfold poly.
  replace (bsum k (fun i => mapply k _ p i * ((t - a) / w) ^ i))
    with (bsum k (fun i => p i * (INR i * ((t - a) / w) ^ (i - 1) / w))).
  - apply (bsum_derive k (fun i x => p i * ((x - a) / w) ^ i)). intros i _. apply derive_scal_const.
    apply (is_derive_ext (fun x => ((x - a) / w) ^ i)); [ reflexivity | ].
    replace (INR i * ((t - a) / w) ^ (i - 1) / w) with (INR i * (1 / w) * ((t - a) / w) ^ Init.Nat.pred i).
    + apply (is_derive_pow (fun x => (x - a) / w) i t (1 / w)). auto_derive; [ tauto | ].
      match goal with |- ?x = ?y => change (@eq R x y) end. field. exact NZ.
    + replace (Init.Nat.pred i) with (i - 1)%nat by lia. field. exact NZ.
  - destruct k as [ | k ]; [ reflexivity | ]. rewrite bsum_first. change (INR 0) with 0.
    replace (p 0%nat * (0 * ((t - a) / w) ^ (0 - 1) / w)) with 0 by (unfold Rdiv; ring).
    change (bsum (S k)) with (fun f => bsum k f + f k). cbv beta.
    rewrite Dii_apply by lia. destruct (Nat.ltb_spec k (S k - 1)); [ lia | ].
    rewrite Rplus_0_l, Rmult_0_l, Rplus_0_r. apply bsum_ext. intros i Li. rewrite Dii_apply by lia.
    destruct (Nat.ltb_spec i (S k - 1)); [ | lia ]. rewrite S_INR. replace (S i - 1)%nat with i by lia.
    replace (i + 1)%nat with (S i) by lia. field. exact NZ.
Qed.

Lemma power_RInt n a w : 0 < w -> is_RInt (fun x => ((x - a) / w) ^ n) a (a + w) (/ (INR n + 1) * w).
Proof.
  intros NZ. assert (I := pos_INR n).
  replace (/ (INR n + 1) * w) with (minus (w * (((a + w - a) / w) ^ S n / (INR n + 1))) (w * (((a - a) / w) ^ S n / (INR n + 1)))).
  - apply (is_RInt_derive (fun x => w * (((x - a) / w) ^ S n / (INR n + 1))) (fun x => ((x - a) / w) ^ n)).
    + intros x _. replace (((x - a) / w) ^ n) with (w * (/ (INR n + 1) * (INR (S n) * (1 / w) * ((x - a) / w) ^ Init.Nat.pred (S n)))).
      * apply derive_scal_const.
        apply (is_derive_ext (fun x => / (INR n + 1) * ((x - a) / w) ^ S n)); [ intros y; match goal with |- ?x = ?y => change (@eq R x y) end; unfold Rdiv; ring | ].
        apply derive_scal_const. apply (is_derive_pow (fun x => (x - a) / w) (S n) x (1 / w)). auto_derive; [ tauto | ].
        match goal with |- ?x = ?y => change (@eq R x y) end. field. lra.
      * rewrite S_INR. cbn [Init.Nat.pred]. field. split; lra.
    + intros x _. apply (ex_derive_continuous (V := R_NormedModule)). auto_derive. tauto.
  - unfold minus, plus, opp. cbn -[pow INR]. replace ((a + w - a) / w) with 1 by (field; lra).
    replace ((a - a) / w) with 0 by (field; lra). rewrite pow1, pow_i by lia. field. lra.
Qed.

Lemma poly_bil_RInt k p q a w : 0 < w ->
  is_RInt (fun x => poly k p ((x - a) / w) * poly k q ((x - a) / w)) a (a + w)
    (bil k (fun r c => / (INR (r + c) + 1) * w) p q).
Proof.
  intros P. apply (is_RInt_ext (fun x => bsum k (fun r => p r * bsum k (fun c => q c * ((x - a) / w) ^ (r + c))))).
  - intros x _. unfold poly. rewrite <- bsum_scal_r. apply bsum_ext. intros r _.
    rewrite (bsum_ext k _ (fun c => ((x - a) / w) ^ r * (q c * ((x - a) / w) ^ c))).
    + rewrite bsum_scal. ring.
    + intros c _. rewrite pow_add. ring.
  - unfold bil. apply (bsum_RInt k (fun r x => p r * bsum k (fun c => q c * ((x - a) / w) ^ (r + c)))). intros r _.
    apply scal_RInt. rewrite (bsum_ext k _ (fun c => q c * (/ (INR (r + c) + 1) * w))) by (intros; ring).
    apply (bsum_RInt k (fun c x => q c * ((x - a) / w) ^ (r + c))). intros c _. apply scal_RInt. apply power_RInt. exact P.
Qed.

(** ** A segment of the spline with coefficient vector x *)
Definition with_coefs (b : bspline) (x : vec) : bspline :=
  BSp (order b) (knots b) (dim b) (ncols b) (fun r i => x (i * dim b + r)%nat) (bases b).
Definition yrow (b : bspline) (m : mat) (seg : nat) (x : vec) (i : nat) : vec :=
  fun a => bsum (order b) (fun j => m a j * x ((seg + j) * dim b + i)%nat).

Lemma with_coefs_wf b x : wf b -> wf (with_coefs b x).
Proof. intros [O LE C B SO]. constructor; assumption. Qed.

Definition Dmat (k : nat) (w : R) : mat :=
  fun r c => if (c =? r + 1)%nat && (r <? k - 1)%nat then (INR r + 1) * (1 / w) else 0.

Lemma piece_poly b x m s d i : wf b -> (order b - 1 <= s)%nat -> knot (knots b) s < knot (knots b) (s + 1) ->
  forall t, piece (with_coefs b x) m s d i t =
    poly (order b) (iter_D (order b) (Dmat (order b) (knot (knots b) (s + 1) - knot (knots b) s)) d
                      (yrow b m (s + 1 - order b) x i)) ((t - knot (knots b) s) / (knot (knots b) (s + 1) - knot (knots b) s)).
Proof.
  intros W S1 P. induction d as [ | d IH ]; intros t.
  - cbn [iter_D]. unfold piece, poly, yrow. cbn [order coef with_coefs dim].
    rewrite (bsum_ext (order b) (fun c => _ * wgt _ m s 0 t c)
      (fun c => bsum (order b) (fun a => x ((s + 1 - order b + c) * dim b + i)%nat * (upar b s t ^ a * m a c)))).
    + rewrite bsum_swap. apply bsum_ext. intros a _. rewrite <- bsum_scal_r. apply bsum_ext. intros c _. unfold upar. ring.
    + intros c _. rewrite wgt_0, bsum_scal. reflexivity.
  - assert (D1 : is_derive (piece (with_coefs b x) m s d i) t (piece (with_coefs b x) m s (S d) i t)) by (apply piece_derive; exact P).
    cbn [iter_D].
    apply is_derive_unique in D1. rewrite <- D1. apply is_derive_unique.
    eapply is_derive_ext; [ intros y; symmetry; apply IH | ]. apply poly_derive. lra.
Qed.

(** Block decompositions *)
Lemma div_mod_block D a c : (a < D)%nat -> ((c * D + a) / D = c)%nat /\ ((c * D + a) mod D = a)%nat.
Proof.
  intros L. split.
  - rewrite Nat.add_comm, Nat.div_add by lia. rewrite Nat.div_small by exact L. lia.
  - rewrite Nat.add_comm, Nat.mod_add by lia. apply Nat.mod_small. exact L.
Qed.

Lemma Mi_apply b B seg x i a : (i < dim b)%nat -> (a < order b)%nat ->
  mapply (dim b * order b) (fun row col => if (row / order b =? col mod dim b)%nat then B (row mod order b)%nat (col / dim b)%nat else 0)
    (fun c => x (seg * dim b + c)%nat) (i * order b + a)%nat = yrow b B seg x i a.
Proof.
  intros Li La. unfold mapply, yrow. rewrite Nat.mul_comm, bsum_blocks.
  destruct (div_mod_block (order b) a i La) as [-> ->].
  apply bsum_ext. intros j _. rewrite (bsum_single (dim b) i); [ | exact Li | ].
  - destruct (div_mod_block (dim b) i j Li) as [-> ->]. rewrite Nat.eqb_refl. do 2 f_equal. lia.
  - intros i' Li' N. destruct (div_mod_block (dim b) i' j Li') as [_ ->].
    destruct (Nat.eqb_spec i i'); [ subst; contradiction | ring ].
Qed.

Lemma WV_bil k D (W V : mat) (x y : vec) :
  bil (D * k) (fun r c => W (r / k)%nat (c / k)%nat * V (r mod k)%nat (c mod k)%nat) x y =
  bsum D (fun i => bsum D (fun j => W i j * bil k V (fun a => x (i * k + a)%nat) (fun a => y (j * k + a)%nat))).
Proof.
  unfold bil. rewrite bsum_blocks. apply bsum_ext. intros i _.
  transitivity (bsum k (fun a => bsum D (fun j => bsum k (fun e => W i j * (x (i * k + a)%nat * (V a e * y (j * k + e)%nat)))))).
  { apply bsum_ext. intros a La. rewrite bsum_blocks, <- bsum_scal. apply bsum_ext. intros j _.
    rewrite <- bsum_scal. apply bsum_ext. intros e Le.
    destruct (div_mod_block k a i La) as [-> ->]. destruct (div_mod_block k e j Le) as [-> ->]. ring. }
  rewrite bsum_swap. apply bsum_ext. intros j _. rewrite <- bsum_scal. apply bsum_ext. intros a _.
  rewrite <- bsum_scal, <- bsum_scal. reflexivity.
Qed.

Definition wform (D : nat) (W : mat) (f g : nat -> R -> R) (t : R) : R :=
  bsum D (fun i => bsum D (fun j => W i j * (f i t * g j t))).

Definition shift (o : nat) (x : vec) : vec := fun c => x (o + c)%nat.

Lemma num_segments_wf b : wf b -> num_segments b = (ncols b + 1 - order b)%nat.
Proof. intros [O LE C B SO]. unfold num_segments, num_segments_of. lia. Qed.

Lemma bases_length b : wf b -> length (bases b) = (ncols b + 1 - order b)%nat.
Proof.
  intros W. assert (W' := W). destruct W' as [O LE C B SO]. unfold init_bases in B.
  destruct (basis_loop_nth _ _ _ _ _ B) as [L _]. rewrite L. unfold num_segments_of. lia.
Qed.

Lemma time_interval_ok b seg : wf b -> (seg + order b <= ncols b)%nat ->
  time_interval b seg = Ok (knot (knots b) (seg + order b - 1), knot (knots b) (seg + order b)).
Proof.
  intros W L. assert (N := num_segments_wf b W). destruct W as [O LE C B SO]. unfold time_interval.
  rewrite min_knots_eq by lia. destruct (Nat.ltb_spec (length (knots b)) (2 * order b)); [ lia | ].
  rewrite N. destruct (Nat.ltb_spec seg (ncols b + 1 - order b)); [ | lia ].
  rewrite !vat_knot by lia. cbn [obind]. do 2 f_equal; f_equal; lia.
Qed.

(** What the three matrices of a segment are. *)
Lemma segment_matrices b seg : wf b -> (seg + order b <= ncols b)%nat ->
  exists m Dm, basis_M (knots b) (order b) (seg + order b - 1) = Ok m /\ Dii b seg = Ok Dm /\
    Vi b seg = Ok (fun r c => / (INR (r + c) + 1) * (knot (knots b) (seg + order b) - knot (knots b) (seg + order b - 1))) /\
    Mi b seg = Ok (fun row col => if (row / order b =? col mod dim b)%nat then m (row mod order b)%nat (col / dim b)%nat else 0) /\
    (knot (knots b) (seg + order b - 1) < knot (knots b) (seg + order b) ->
     Dm = Dmat (order b) (knot (knots b) (seg + order b) - knot (knots b) (seg + order b - 1))).
Proof.
  intros W L. destruct (bases_nth b W seg L) as [m [E1 E2]].
  eexists m, _. split; [ exact E2 | ]. split.
  { unfold Dii. rewrite bases_length by exact W. destruct (Nat.ltb_spec seg (ncols b + 1 - order b)); [ | lia ].
    rewrite time_interval_ok by assumption. cbn [obind]. reflexivity. }
  split. { unfold Vi. rewrite time_interval_ok by assumption. reflexivity. }
  split. { unfold Mi. rewrite E1. reflexivity. }
  intros P. cbv zeta. rewrite rltb_true by lra. reflexivity.
Qed.

Lemma segment_form_RInt b seg m Dm WV W d x y f g :
  wf b -> / 10000000000 <= hi b - last_start b -> (seg + order b <= ncols b)%nat ->
  basis_M (knots b) (order b) (seg + order b - 1) = Ok m ->
  (knot (knots b) (seg + order b - 1) < knot (knots b) (seg + order b) ->
     Dm = Dmat (order b) (knot (knots b) (seg + order b) - knot (knots b) (seg + order b - 1))) ->
  (forall r c, WV r c = W (r / order b)%nat (c / order b)%nat *
     derive_V (order b) d Dm (fun r c => / (INR (r + c) + 1) * (knot (knots b) (seg + order b) - knot (knots b) (seg + order b - 1)))
       (r mod order b)%nat (c mod order b)%nat) ->
  (forall i, (i < dim b)%nat -> agrees (with_coefs b x) d i (f i)) ->
  (forall i, (i < dim b)%nat -> agrees (with_coefs b y) d i (g i)) ->
  let M : mat := fun row col => if (row / order b =? col mod dim b)%nat then m (row mod order b)%nat (col / dim b)%nat else 0 in
  let N := (dim b * order b)%nat in
  is_RInt (wform (dim b) W f g) (knot (knots b) (seg + order b - 1)) (knot (knots b) (seg + order b))
    (bil N (mmul N (mmul N (mtr M) WV) M) (shift (seg * dim b) x) (shift (seg * dim b) y)).
Proof.
  intros WF EN L EM HD HW AF AG M N. assert (WF' := WF). destruct WF' as [O LE C B SO].
  rewrite bil_congruence.
  rewrite (bil_ext N WV _ _ (fun r c => W (r / order b)%nat (c / order b)%nat *
     derive_V (order b) d Dm (fun r c => / (INR (r + c) + 1) * (knot (knots b) (seg + order b) - knot (knots b) (seg + order b - 1)))
       (r mod order b)%nat (c mod order b)%nat) (mapply N M (shift (seg * dim b) x)) (mapply N M (shift (seg * dim b) y)))
    by (intros; first [ apply HW | reflexivity ]).
  unfold N. rewrite WV_bil. unfold wform.
  apply (bsum_RInt (dim b) (fun i t => bsum (dim b) (fun j => W i j * (f i t * g j t)))). intros i Li.
  apply (bsum_RInt (dim b) (fun j t => W i j * (f i t * g j t))). intros j Lj. apply scal_RInt.
  rewrite derive_V_bil.
  set (K0 := knot (knots b) (seg + order b - 1)) in *. set (K1 := knot (knots b) (seg + order b)) in *.
  assert (LK : K0 <= K1) by (apply SO; lia).
  destruct (Rlt_dec K0 K1) as [P | P].
  - specialize (HD P).
    assert (EX : forall x i, (i < dim b)%nat -> forall a, (a < order b)%nat ->
      iter_D (order b) Dm d (fun a => mapply (dim b * order b) M (shift (seg * dim b) x) (i * order b + a)%nat) a =
      iter_D (order b) Dm d (yrow b m seg x i) a).
    { intros x' i' Li'. apply iter_D_ext. intros a La. unfold M, shift. apply Mi_apply; assumption. }
    rewrite (bil_ext (order b) _ _ _ (fun r c => / (INR (r + c) + 1) * (K1 - K0)) (iter_D (order b) Dm d (yrow b m seg x i))
      (iter_D (order b) Dm d (yrow b m seg y j))) by (intros; first [ reflexivity | apply EX; assumption ]).
    assert (S1 : (order b - 1 <= seg + order b - 1 < ncols b)%nat) by lia.
    assert (P' : knot (knots b) (seg + order b - 1) < knot (knots b) (seg + order b - 1 + 1)).
    { replace (seg + order b - 1 + 1)%nat with (seg + order b)%nat by lia. exact P. }
    assert (PW : forall x r f, agrees (with_coefs b x) d r f -> forall t, K0 < t < K1 ->
      f t = poly (order b) (iter_D (order b) Dm d (yrow b m seg x r)) ((t - K0) / (K1 - K0))).
    { intros x' r' f' A t I.
      rewrite (agrees_piece (with_coefs b x') d r' f' (seg + order b - 1) m (with_coefs_wf b x' WF) EN A S1 P' EM t);
        [ | cbn [knots with_coefs]; replace (seg + order b - 1 + 1)%nat with (seg + order b)%nat by lia; fold K0 K1; lra ].
      rewrite piece_poly by (first [ assumption | lia ]).
      replace (seg + order b - 1 + 1)%nat with (seg + order b)%nat by lia. fold K0 K1.
      replace (seg + order b - order b)%nat with seg by lia. rewrite HD. reflexivity. }
    apply (is_RInt_ext (fun t => poly (order b) (iter_D (order b) Dm d (yrow b m seg x i)) ((t - K0) / (K1 - K0))
      * poly (order b) (iter_D (order b) Dm d (yrow b m seg y j)) ((t - K0) / (K1 - K0)))).
    + intros t [T1 T2]. rewrite Rmin_left in T1 by lra. rewrite Rmax_right in T2 by lra.
      rewrite (PW x i (f i) (AF i Li)) by lra. rewrite (PW y j (g j) (AG j Lj)) by lra. reflexivity.
    + assert (X := poly_bil_RInt (order b) (iter_D (order b) Dm d (yrow b m seg x i)) (iter_D (order b) Dm d (yrow b m seg y j))
        K0 (K1 - K0)). replace (K0 + (K1 - K0)) with K1 in X by ring. apply X. lra.
  - assert (EQ : K1 = K0) by lra. rewrite EQ.
    replace (bil _ _ _ _) with 0; [ apply (is_RInt_point (V := R_NormedModule)) | ].
    symmetry. unfold bil. apply bsum_zero. intros r _. rewrite bsum_zero; [ ring | ]. intros c _. ring.
Qed.

Lemma segment_Q_RInt b W seg d : wf b -> / 10000000000 <= hi b - last_start b -> (seg + order b <= ncols b)%nat ->
  symmetric_check (dim b) W = true ->
  exists Q, segment_Q b (dim b) (dim b) W seg d = Ok Q /\
  forall x y f g, (forall i, (i < dim b)%nat -> agrees (with_coefs b x) (Z.to_nat d) i (f i)) ->
    (forall i, (i < dim b)%nat -> agrees (with_coefs b y) (Z.to_nat d) i (g i)) ->
    is_RInt (wform (dim b) W f g) (knot (knots b) (seg + order b - 1)) (knot (knots b) (seg + order b))
      (bil (order b * dim b) Q (shift (seg * dim b) x) (shift (seg * dim b) y)).
Proof.
  intros WF EN L SY. destruct (segment_matrices b seg WF L) as [m [Dm [EM [ED [EV [EMi HD]]]]]].
  eexists. split.
  { unfold segment_Q. rewrite bases_length by exact WF. destruct (Nat.ltb_spec seg (ncols b + 1 - order b)); [ | lia ].
    rewrite Nat.eqb_refl. cbn [andb]. rewrite ED. cbn [obind]. rewrite EV. cbn [obind]. rewrite EMi. cbn [obind].
    rewrite SY. cbv zeta. reflexivity. }
  intros x y f g AF AG. rewrite (Nat.mul_comm (order b)).
  apply (segment_form_RInt b seg m Dm _ W (Z.to_nat d) x y f g WF EN L EM HD); [ | exact AF | exact AG ].
  intros r c. reflexivity.
Qed.

Definition diag (w : vec) : mat := fun i j => if (i =? j)%nat then w i else 0.

Lemma segment_Q_diag_RInt b w seg d : wf b -> / 10000000000 <= hi b - last_start b -> (seg + order b <= ncols b)%nat ->
  exists Q, segment_Q_diag b (dim b) w seg d = Ok Q /\
  forall x y f g, (forall i, (i < dim b)%nat -> agrees (with_coefs b x) (Z.to_nat d) i (f i)) ->
    (forall i, (i < dim b)%nat -> agrees (with_coefs b y) (Z.to_nat d) i (g i)) ->
    is_RInt (wform (dim b) (diag w) f g) (knot (knots b) (seg + order b - 1)) (knot (knots b) (seg + order b))
      (bil (order b * dim b) Q (shift (seg * dim b) x) (shift (seg * dim b) y)).
Proof.
  intros WF EN L. destruct (segment_matrices b seg WF L) as [m [Dm [EM [ED [EV [EMi HD]]]]]].
  eexists. split.
  { unfold segment_Q_diag. rewrite bases_length by exact WF. destruct (Nat.ltb_spec seg (ncols b + 1 - order b)); [ | lia ].
    rewrite Nat.eqb_refl. rewrite ED. cbn [obind]. rewrite EV. cbn [obind]. rewrite EMi. cbn [obind].
    cbv zeta. reflexivity. }
  intros x y f g AF AG. rewrite (Nat.mul_comm (order b)).
  apply (segment_form_RInt b seg m Dm _ (diag w) (Z.to_nat d) x y f g WF EN L EM HD); [ | exact AF | exact AG ].
  intros r c. unfold diag. destruct (r / order b =? c / order b)%nat; ring.
Qed.

(** ** The whole curve *)
Lemma bsum_window N o n f : (o + n <= N)%nat ->
  bsum N (fun r => if (o <=? r)%nat && (r <? o + n)%nat then f (r - o)%nat else 0) = bsum n f.
Proof.
  intros L. replace N with (o + (n + (N - o - n)))%nat by lia. rewrite bsum_app, bsum_app.
  rewrite bsum_zero; [ | intros i Li; destruct (Nat.leb_spec o i); [ lia | reflexivity ] ].
  rewrite (bsum_ext n _ f).
  - rewrite (bsum_zero (N - o - n)); [ ring | ]. intros i Li.
    destruct (Nat.ltb_spec (o + (n + i)) (o + n)); [ lia | ]. rewrite andb_false_r. reflexivity.
  - intros i Li. destruct (Nat.leb_spec o (o + i)); [ | lia ]. destruct (Nat.ltb_spec (o + i) (o + n)); [ | lia ].
    cbn [andb]. f_equal. lia.
Qed.

Lemma add_block_bil N Q o n q : (o + n <= N)%nat ->
  exists Q', add_block N Q o n q = Ok Q' /\ forall x y, bil N Q' x y = bil N Q x y + bil n q (shift o x) (shift o y).
Proof.
  intros L. unfold add_block. destruct (Nat.leb_spec (o + n) N); [ | lia ]. eexists. split; [ reflexivity | ].
  intros x y. unfold bil.
  rewrite <- (bsum_window N o n (fun r => shift o x r * bsum n (fun c => q r c * shift o y c))) by exact L.
  rewrite <- bsum_plus. apply bsum_ext. intros r _.
  destruct (Nat.leb_spec o r) as [R1 | R1]; destruct (Nat.ltb_spec r (o + n)) as [R2 | R2]; cbn [andb]; try ring.
  rewrite <- (bsum_window N o n (fun c => q (r - o)%nat c * shift o y c)) by exact L.
  unfold shift. replace (o + (r - o))%nat with r by lia. rewrite <- Rmult_plus_distr_l. f_equal.
  rewrite <- bsum_plus. apply bsum_ext. intros c _.
  destruct (Nat.leb_spec o c) as [C1 | C1]; destruct (Nat.ltb_spec c (o + n)) as [C2 | C2]; cbn [andb]; try ring.
  replace (o + (c - o))%nat with c by lia. ring.
Qed.

Lemma sum_segments_RInt b W (seg_q : nat -> outcome mat) d : wf b ->
  (forall seg, (seg + order b <= ncols b)%nat -> exists Q, seg_q seg = Ok Q /\
    forall x y f g, (forall i, (i < dim b)%nat -> agrees (with_coefs b x) d i (f i)) ->
      (forall i, (i < dim b)%nat -> agrees (with_coefs b y) d i (g i)) ->
      is_RInt (wform (dim b) W f g) (knot (knots b) (seg + order b - 1)) (knot (knots b) (seg + order b))
        (bil (order b * dim b) Q (shift (seg * dim b) x) (shift (seg * dim b) y))) ->
  forall n s Q, (s + n + order b <= ncols b + 1)%nat ->
  exists Q', sum_segments b seg_q s n Q = Ok Q' /\
    forall x y f g, (forall i, (i < dim b)%nat -> agrees (with_coefs b x) d i (f i)) ->
      (forall i, (i < dim b)%nat -> agrees (with_coefs b y) d i (g i)) ->
      is_RInt (wform (dim b) W f g) (knot (knots b) (s + order b - 1)) (knot (knots b) (s + n + order b - 1))
        (bil (dim b * ncols b) Q' x y - bil (dim b * ncols b) Q x y).
Proof.
  intros WF HS. assert (WF' := WF). destruct WF' as [O LE C B SO].
  induction n as [ | n IH ]; intros s Q L; cbn [sum_segments].
  - exists Q. split; [ reflexivity | ]. intros x y f g _ _. rewrite Nat.add_0_r, Rminus_eq_0.
    apply (is_RInt_point (V := R_NormedModule)).
  - destruct (HS s) as [q [Eq Hq]]; [ lia | ]. rewrite Eq. cbn [obind].
    destruct (add_block_bil (dim b * ncols b) Q (s * dim b) (order b * dim b) q) as [Q1 [E1 H1]]; [ nia | ].
    rewrite E1. cbn [obind]. destruct (IH (S s) Q1) as [Q2 [E2 H2]]; [ lia | ]. exists Q2. split; [ exact E2 | ].
    intros x y f g AF AG. specialize (H2 x y f g AF AG). specialize (Hq x y f g AF AG).
    replace (S s + n + order b - 1)%nat with (s + S n + order b - 1)%nat in H2 by lia.
    replace (S s + order b - 1)%nat with (s + order b)%nat in H2 by lia.
    replace (bil (dim b * ncols b) Q2 x y - bil (dim b * ncols b) Q x y)
      with (@plus R_NormedModule (bil (order b * dim b) q (shift (s * dim b) x) (shift (s * dim b) y))
              (bil (dim b * ncols b) Q2 x y - bil (dim b * ncols b) Q1 x y))
      by (rewrite H1; unfold plus; cbn -[bil]; ring).
    apply (is_RInt_Chasles (V := R_NormedModule) _ _ (knot (knots b) (s + order b))); assumption.
Qed.

Lemma bil_zero n x y : bil n (fun _ _ => 0) x y = 0.
Proof. unfold bil. apply bsum_zero. intros r _. rewrite bsum_zero; [ ring | intros; ring ]. Qed.

Lemma curve_Q_RInt b W d : wf b -> / 10000000000 <= hi b - last_start b -> symmetric_check (dim b) W = true ->
  exists Q, curve_Q b (dim b) (dim b) W d = Ok Q /\
  forall x y f g, (forall i, (i < dim b)%nat -> agrees (with_coefs b x) (Z.to_nat d) i (f i)) ->
    (forall i, (i < dim b)%nat -> agrees (with_coefs b y) (Z.to_nat d) i (g i)) ->
    is_RInt (wform (dim b) W f g) (lo b) (hi b) (bil (dim b * ncols b) Q x y).
Proof.
  intros WF EN SY. assert (WF' := WF). destruct WF' as [O LE C B SO].
  destruct (sum_segments_RInt b W (fun s => segment_Q b (dim b) (dim b) W s d) (Z.to_nat d) WF) with
    (n := num_segments b) (s := 0%nat) (Q := fun (_ _ : nat) => 0) as [Q [E H]].
  - intros seg L. apply segment_Q_RInt; assumption.
  - rewrite num_segments_wf by exact WF. lia.
  - exists Q. split; [ unfold curve_Q; rewrite Nat.eqb_refl; exact E | ].
    intros x y f g AF AG. specialize (H x y f g AF AG). rewrite bil_zero, Rminus_0_r, num_segments_wf in H by exact WF.
    replace (0 + (ncols b + 1 - order b) + order b - 1)%nat with (ncols b) in H by lia. exact H.
Qed.

Lemma curve_Q_diag_RInt b w d : wf b -> / 10000000000 <= hi b - last_start b ->
  exists Q, curve_Q_diag b (dim b) w d = Ok Q /\
  forall x y f g, (forall i, (i < dim b)%nat -> agrees (with_coefs b x) (Z.to_nat d) i (f i)) ->
    (forall i, (i < dim b)%nat -> agrees (with_coefs b y) (Z.to_nat d) i (g i)) ->
    is_RInt (wform (dim b) (diag w) f g) (lo b) (hi b) (bil (dim b * ncols b) Q x y).
Proof.
  intros WF EN. assert (WF' := WF). destruct WF' as [O LE C B SO].
  destruct (sum_segments_RInt b (diag w) (fun s => segment_Q_diag b (dim b) w s d) (Z.to_nat d) WF) with
    (n := num_segments b) (s := 0%nat) (Q := fun (_ _ : nat) => 0) as [Q [E H]].
  - intros seg L. apply segment_Q_diag_RInt; assumption.
  - rewrite num_segments_wf by exact WF. lia.
  - exists Q. split; [ unfold curve_Q_diag; rewrite Nat.eqb_refl; exact E | ].
    intros x y f g AF AG. specialize (H x y f g AF AG). rewrite bil_zero, Rminus_0_r, num_segments_wf in H by exact WF.
    replace (0 + (ncols b + 1 - order b) + order b - 1)%nat with (ncols b) in H by lia. exact H.
Qed.
