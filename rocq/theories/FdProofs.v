(** * Proofs: accuracy of difference quotients, and the loops *)
From Coquelicot Require Import Coquelicot.
From Coq Require Import Reals List Bool Arith Lra Lia.
From Verif Require Import Base FdModel FdSpec.
Import ListNotations.
Local Close Scope Z_scope.
Local Open Scope R_scope.

(** ** Difference quotients *)

Lemma grows (g g' k k' : R -> R) (h : R) :
  (forall s, 0 <= s <= h -> is_derive g s (g' s)) ->
  (forall s, 0 <= s <= h -> is_derive k s (k' s)) ->
  (forall s, 0 <= s <= h -> Rabs (g' s) <= k' s) -> g 0 = 0 -> k 0 = 0 ->
  forall s, 0 <= s <= h -> Rabs (g s) <= k s.
Proof.
  intros G K B G0 K0 s Hs.
  assert (P : forall c, Rabs c = 1 -> c * g s <= k s).
  { intros c Hc.
    destruct (MVT_gen (fun t => k t - c * g t) 0 s (fun t => k' t - c * g' t)) as (t & T & E).
    - intros t Ht. rewrite Rmin_left, Rmax_right in Ht by lra.
      apply (is_derive_minus (V := R_NormedModule)); [ apply K; lra | ].
      apply is_derive_scal. apply G; lra.
    - intros t Ht. rewrite Rmin_left, Rmax_right in Ht by lra.
      apply continuity_pt_filterlim.
      apply (ex_derive_continuous (V := R_NormedModule) (fun t => k t - c * g t)).
      exists (k' t - c * g' t). apply (is_derive_minus (V := R_NormedModule)); [ apply K; lra | ].
      apply is_derive_scal. apply G; lra.
    - rewrite Rmin_left, Rmax_right in T by lra.
      assert (B1 := B t ltac:(lra)).
      assert (c * g' t <= k' t).
      { apply Rle_trans with (Rabs (c * g' t)); [ apply Rle_abs | ]. rewrite Rabs_mult, Hc. lra. }
      assert (0 <= (k' t - c * g' t) * (s - 0)) by (apply Rmult_le_pos; lra).
      rewrite G0, K0 in E. lra. }
  apply Rabs_le. generalize (P 1 ltac:(apply Rabs_R1)) (P (-1) ltac:(rewrite Rabs_left; lra)). lra.
Qed.

Lemma along (g g1 : R -> R) (x a s : R) : is_derive g (x + a * s) (g1 (x + a * s)) ->
  is_derive (fun s => g (x + a * s)) s (a * g1 (x + a * s)).
Proof.
  intros H. apply (is_derive_comp g (fun s => x + a * s) s (g1 (x + a * s)) a); [ exact H | ].
  auto_derive; [ tauto | ]. match goal with |- ?a = ?b => change (@eq R a b) end. ring.
Qed.

Lemma poly_derive (c : R) (n : nat) (s : R) : is_derive (fun s => c * s ^ S n) s (c * (INR (S n) * s ^ n)).
Proof.
  apply is_derive_scal. evar_last; [ apply (is_derive_pow (fun s => s) (S n) s 1), (is_derive_id (K := R_AbsRing)) | ].
  match goal with |- ?a = ?b => change (@eq R a b) end. cbn [Nat.pred]. ring.
Qed.
Lemma linear_derive (c s : R) : is_derive (fun s => c * s) s c.
Proof. auto_derive; [ tauto | ]. match goal with |- ?a = ?b => change (@eq R a b) end. ring. Qed.

(** Sums of shifted functions *)
Definition odd2 (g : R -> R) (x a s : R) : R := g (x + a * s) - g (x + - a * s).
Definition even2 (g : R -> R) (x a s : R) : R := g (x + a * s) + g (x + - a * s).
Lemma odd_derive g g1 x a s : is_derive g (x + a * s) (g1 (x + a * s)) -> is_derive g (x + - a * s) (g1 (x + - a * s)) ->
  is_derive (odd2 g x a) s (a * even2 g1 x a s).
Proof.
  intros A B. unfold odd2, even2.
  evar_last; [ apply (is_derive_minus (V := R_NormedModule)); apply along; eassumption | ].
  match goal with |- ?a = ?b => change (@eq R a b) end. unfold minus, plus, opp; cbn. ring.
Qed.
Lemma even_derive g g1 x a s : is_derive g (x + a * s) (g1 (x + a * s)) -> is_derive g (x + - a * s) (g1 (x + - a * s)) ->
  is_derive (even2 g x a) s (a * odd2 g1 x a s).
Proof.
  intros A B. unfold odd2, even2.
  evar_last; [ apply (is_derive_plus (V := R_NormedModule)); apply along; eassumption | ].
  match goal with |- ?a = ?b => change (@eq R a b) end. unfold plus; cbn. ring.
Qed.

Lemma central_sum (g g1 : R -> R) (x h M : R) : 0 <= h -> bends3 g g1 x h M ->
  Rabs (g (x + h) - g (x - h) - 2 * h * g1 x) <= M / 3 * h ^ 3.
Proof.
  intros Hh (g2 & g3 & H).
  assert (D : forall s a, 0 <= s <= h -> (a = 1 \/ a = -1) -> x - h <= x + a * s <= x + h) by (intros s a Hs [ -> | -> ]; lra).
  assert (B3 : forall s, 0 <= s <= h -> Rabs (1 * even2 g3 x 1 s) <= 2 * M).
  { intros s Hs. unfold even2. destruct (H _ (D s 1 Hs (or_introl eq_refl))) as (_ & _ & _ & P).
    destruct (H _ (D s (-1) Hs (or_intror eq_refl))) as (_ & _ & _ & Q). rewrite Rmult_1_l.
    eapply Rle_trans; [ apply Rabs_triang | ]. replace (- (1)) with (-1) by ring. lra. }
  assert (B2 : forall s, 0 <= s <= h -> Rabs (odd2 g2 x 1 s) <= 2 * M * s).
  { apply (grows (odd2 g2 x 1) (fun s => 1 * even2 g3 x 1 s) (fun s => 2 * M * s) (fun _ => 2 * M) h).
    - intros s Hs. apply odd_derive.
      + apply (H _ (D s 1 Hs (or_introl eq_refl))).
      + replace (- (1)) with (-1) by ring. apply (H _ (D s (-1) Hs (or_intror eq_refl))).
    - intros s Hs. apply linear_derive.
    - exact B3.
    - unfold odd2. rewrite !Rmult_0_r. ring.
    - ring. }
  assert (B1 : forall s, 0 <= s <= h -> Rabs (even2 g1 x 1 s - 2 * g1 x) <= M * s ^ 2).
  { apply (grows (fun s => even2 g1 x 1 s - 2 * g1 x) (fun s => odd2 g2 x 1 s) (fun s => M * s ^ 2) (fun s => 2 * M * s) h).
    - intros s Hs. evar_last; [ apply (is_derive_minus (V := R_NormedModule)); [ apply (even_derive g1 g2) | apply (is_derive_const (V := R_NormedModule)) ] | ].
      + apply (H _ (D s 1 Hs (or_introl eq_refl))).
      + replace (- (1)) with (-1) by ring. apply (H _ (D s (-1) Hs (or_intror eq_refl))).
      + match goal with |- ?a = ?b => change (@eq R a b) end. unfold minus, plus, opp, zero; cbn. ring.
    - intros s Hs. evar_last; [ apply poly_derive | ]. match goal with |- ?a = ?b => change (@eq R a b) end. cbn. ring.
    - exact B2.
    - unfold even2. rewrite !Rmult_0_r, Rplus_0_r. ring.
    - ring. }
  assert (B0 : forall s, 0 <= s <= h -> Rabs (odd2 g x 1 s - 2 * g1 x * s) <= M / 3 * s ^ 3).
  { apply (grows (fun s => odd2 g x 1 s - 2 * g1 x * s) (fun s => even2 g1 x 1 s - 2 * g1 x) (fun s => M / 3 * s ^ 3) (fun s => M * s ^ 2) h).
    - intros s Hs. evar_last; [ apply (is_derive_minus (V := R_NormedModule)); [ apply (odd_derive g g1) | apply linear_derive ] | ].
      + apply (H _ (D s 1 Hs (or_introl eq_refl))).
      + replace (- (1)) with (-1) by ring. apply (H _ (D s (-1) Hs (or_intror eq_refl))).
      + match goal with |- ?a = ?b => change (@eq R a b) end. unfold minus, plus, opp; cbn. ring.
    - intros s Hs. evar_last; [ apply poly_derive | ]. match goal with |- ?a = ?b => change (@eq R a b) end. cbn. field.
    - exact B1.
    - unfold odd2. rewrite !Rmult_0_r, !Rplus_0_r. ring.
    - ring. }
  specialize (B0 h ltac:(lra)). unfold odd2 in B0.
  replace (x + 1 * h) with (x + h) in B0 by ring. replace (x + - (1) * h) with (x - h) in B0 by ring.
  replace (g (x + h) - g (x - h) - 2 * h * g1 x) with (g (x + h) - g (x - h) - 2 * g1 x * h) by ring. exact B0.
Qed.

Lemma central (g g1 : R -> R) (x h M : R) : 0 < h -> bends3 g g1 x h M ->
  Rabs ((g (x + h) - g (x - h)) / (h * 2) - g1 x) <= M * h ^ 2 / 6.
Proof.
  intros Hh H. assert (P := central_sum g g1 x h M ltac:(lra) H).
  replace ((g (x + h) - g (x - h)) / (h * 2) - g1 x) with ((g (x + h) - g (x - h) - 2 * h * g1 x) * / (h * 2)) by (field; lra).
  assert (I : 0 < / (h * 2)) by (apply Rinv_0_lt_compat; lra).
  rewrite Rabs_mult, (Rabs_pos_eq (/ (h * 2))) by lra.
  replace (M * h ^ 2 / 6) with (M / 3 * h ^ 3 * / (h * 2)) by (field; lra).
  apply Rmult_le_compat_r; [ lra | exact P ].
Qed.

Section Five.
Variables (g g1 g2 g3 g4 g5 : R -> R) (x h M : R).
Hypothesis H : forall s, x - 2 * h <= s <= x + 2 * h ->
    is_derive g s (g1 s) /\ is_derive g1 s (g2 s) /\ is_derive g2 s (g3 s) /\ is_derive g3 s (g4 s) /\
    is_derive g4 s (g5 s) /\ Rabs (g5 s) <= M.
Lemma inside s a : 0 <= s <= h -> (a = 1 \/ a = - (1) \/ a = 2 \/ a = - (2)) -> x - 2 * h <= x + a * s <= x + 2 * h.
Proof. intros Hs [ -> | [ -> | [ -> | -> ] ] ]; lra. Qed.
Ltac ins := apply inside; [ assumption | tauto ].
Ltac real := match goal with |- ?a = ?b => change (@eq R a b) end; unfold minus, plus, opp, zero; cbn; try field; try ring.

(** b8 odd(1) - c odd(2) with derivative *)
Lemma five_odd (k k1 : R -> R) (p q s : R) : (forall s, x - 2 * h <= s <= x + 2 * h -> is_derive k s (k1 s)) -> 0 <= s <= h ->
  is_derive (fun s => p * odd2 k x 1 s - q * odd2 k x 2 s) s (p * even2 k1 x 1 s - 2 * q * even2 k1 x 2 s).
Proof.
  intros K Hs.
  evar_last; [ apply (is_derive_minus (V := R_NormedModule)); apply is_derive_scal; apply odd_derive; apply K; ins | real ].
Qed.
Lemma five_even (k k1 : R -> R) (p q s : R) : (forall s, x - 2 * h <= s <= x + 2 * h -> is_derive k s (k1 s)) -> 0 <= s <= h ->
  is_derive (fun s => p * even2 k x 1 s - q * even2 k x 2 s) s (p * odd2 k1 x 1 s - 2 * q * odd2 k1 x 2 s).
Proof.
  intros K Hs.
  evar_last; [ apply (is_derive_minus (V := R_NormedModule)); apply is_derive_scal; apply even_derive; apply K; ins | real ].
Qed.

Lemma five_sum s : 0 <= s <= h ->
  Rabs (8 * odd2 g x 1 s - 1 * odd2 g x 2 s - 12 * g1 x * s) <= 2 / 3 * M * s ^ 5.
Proof.
  assert (B5 : forall s, 0 <= s <= h -> Rabs (8 * even2 g5 x 1 s - 2 * 16 * even2 g5 x 2 s) <= 80 * M).
  { intros t Ht. unfold even2.
    assert (P1 := proj2 (proj2 (proj2 (proj2 (proj2 (H _ (inside t 1 Ht ltac:(tauto)))))))).
    assert (P2 := proj2 (proj2 (proj2 (proj2 (proj2 (H _ (inside t (- (1)) Ht ltac:(tauto)))))))).
    assert (P3 := proj2 (proj2 (proj2 (proj2 (proj2 (H _ (inside t 2 Ht ltac:(tauto)))))))).
    assert (P4 := proj2 (proj2 (proj2 (proj2 (proj2 (H _ (inside t (- (2)) Ht ltac:(tauto)))))))).
    apply Rabs_le_between in P1. apply Rabs_le_between in P2. apply Rabs_le_between in P3. apply Rabs_le_between in P4. apply Rabs_le. lra. }
  assert (B4 : forall s, 0 <= s <= h -> Rabs (8 * odd2 g4 x 1 s - 16 * odd2 g4 x 2 s) <= 80 * M * s).
  { apply (grows _ (fun s => 8 * even2 g5 x 1 s - 2 * 16 * even2 g5 x 2 s) (fun s => 80 * M * s) (fun _ => 80 * M) h).
    - intros t Ht. apply five_odd; [ intros; apply H; assumption | exact Ht ].
    - intros t Ht. apply linear_derive.
    - exact B5.
    - unfold odd2. rewrite !Rmult_0_r. ring.
    - ring. }
  assert (B3 : forall s, 0 <= s <= h -> Rabs (8 * even2 g3 x 1 s - 8 * even2 g3 x 2 s) <= 40 * M * s ^ 2).
  { apply (grows _ (fun s => 8 * odd2 g4 x 1 s - 2 * 8 * odd2 g4 x 2 s) (fun s => 40 * M * s ^ 2) (fun s => 80 * M * s) h).
    - intros t Ht. apply five_even; [ intros; apply H; assumption | exact Ht ].
    - intros t Ht. evar_last; [ apply poly_derive | real ].
    - intros t Ht. replace (2 * 8) with 16 by ring. apply B4; exact Ht.
    - unfold even2. rewrite !Rmult_0_r. ring.
    - ring. }
  assert (B2 : forall s, 0 <= s <= h -> Rabs (8 * odd2 g2 x 1 s - 4 * odd2 g2 x 2 s) <= 40 / 3 * M * s ^ 3).
  { apply (grows _ (fun s => 8 * even2 g3 x 1 s - 2 * 4 * even2 g3 x 2 s) (fun s => 40 / 3 * M * s ^ 3) (fun s => 40 * M * s ^ 2) h).
    - intros t Ht. apply five_odd; [ intros; apply H; assumption | exact Ht ].
    - intros t Ht. evar_last; [ apply poly_derive | real ].
    - intros t Ht. replace (2 * 4) with 8 by ring. apply B3; exact Ht.
    - unfold odd2. rewrite !Rmult_0_r. ring.
    - ring. }
  assert (B1 : forall s, 0 <= s <= h -> Rabs (8 * even2 g1 x 1 s - 2 * even2 g1 x 2 s - 12 * g1 x) <= 10 / 3 * M * s ^ 4).
  { apply (grows _ (fun s => 8 * odd2 g2 x 1 s - 2 * 2 * odd2 g2 x 2 s) (fun s => 10 / 3 * M * s ^ 4) (fun s => 40 / 3 * M * s ^ 3) h).
    - intros t Ht. evar_last; [ apply (is_derive_minus (V := R_NormedModule)); [ apply (five_even g1 g2); [ | exact Ht ] | apply (is_derive_const (V := R_NormedModule)) ] | ].
      + intros u Hu. apply (H u Hu).
      + real.
    - intros t Ht. evar_last; [ apply poly_derive | real ].
    - intros t Ht. replace (2 * 2) with 4 by ring. apply B2; exact Ht.
    - unfold even2. rewrite !Rmult_0_r, Rplus_0_r. ring.
    - ring. }
  apply (grows (fun s => 8 * odd2 g x 1 s - 1 * odd2 g x 2 s - 12 * g1 x * s) (fun s => 8 * even2 g1 x 1 s - 2 * even2 g1 x 2 s - 12 * g1 x)
    (fun s => 2 / 3 * M * s ^ 5) (fun s => 10 / 3 * M * s ^ 4) h).
  - intros t Ht. evar_last; [ apply (is_derive_minus (V := R_NormedModule)); [ apply (five_odd g g1); [ | exact Ht ] | apply linear_derive ] | ].
    + intros u Hu. apply (H u Hu).
    + real.
  - intros t Ht. evar_last; [ apply poly_derive | real ].
  - exact B1.
  - unfold odd2. rewrite !Rmult_0_r. ring.
  - ring.
Qed.
End Five.

Lemma five (g g1 : R -> R) (x h M : R) : 0 < h -> bends5 g g1 x (2 * h) M ->
  Rabs ((8 * g (x + h) + g (x - 2 * h) - g (x + 2 * h) - 8 * g (x - h)) / (h * 12) - g1 x) <= M * h ^ 4 / 18.
Proof.
  intros Hh (g2 & g3 & g4 & g5 & H).
  assert (P := five_sum g g1 g2 g3 g4 g5 x h M H h ltac:(lra)). unfold odd2 in P.
  replace (x + 1 * h) with (x + h) in P by ring. replace (x + - (1) * h) with (x - h) in P by ring.
  replace (x + - (2) * h) with (x - 2 * h) in P by ring.
  replace ((8 * g (x + h) + g (x - 2 * h) - g (x + 2 * h) - 8 * g (x - h)) / (h * 12) - g1 x)
    with ((8 * (g (x + h) - g (x - h)) - 1 * (g (x + 2 * h) - g (x - 2 * h)) - 12 * g1 x * h) * / (h * 12)) by (field; lra).
  assert (I : 0 < / (h * 12)) by (apply Rinv_0_lt_compat; lra).
  rewrite Rabs_mult, (Rabs_pos_eq (/ (h * 12))) by lra.
  replace (M * h ^ 4 / 18) with (2 / 3 * M * h ^ 5 * / (h * 12)) by (field; lra).
  apply Rmult_le_compat_r; [ lra | exact P ].
Qed.

(** ** Vectors *)

Lemma bump_length x c d : length (bump x c d) = length x.
Proof.
  unfold bump. rewrite app_length, firstn_length.
  assert (E := skipn_length c x). destruct (skipn c x) as [ | a r ]; cbn [length] in *; lia.
Qed.
Lemma bump_cons a x c d : bump (a :: x) (S c) d = a :: bump x c d.
Proof. reflexivity. Qed.
Lemma bump_nth x c d i : (c < length x)%nat -> nth i (bump x c d) 0 = nth i x 0 + (if Nat.eqb i c then d else 0).
Proof.
  revert c i; induction x as [ | a x IH ]; intros c i Hc; [ cbn in Hc; lia | ].
  destruct c as [ | c ].
  - unfold bump. cbn [firstn skipn app]. destruct i; cbn; ring.
  - rewrite bump_cons. destruct i; cbn [nth Nat.eqb]; [ ring | ]. apply IH. cbn in Hc; lia.
Qed.
Lemma with_length x c v : length (with_component x c v) = length x.
Proof. unfold with_component. rewrite map_length, seq_length. reflexivity. Qed.
Lemma with_nth x c v i : (i < length x)%nat -> nth i (with_component x c v) 0 = if Nat.eqb i c then v else nth i x 0.
Proof.
  intros Hi. unfold with_component. set (F := fun i => if Nat.eqb i c then v else nth i x 0).
  rewrite (nth_indep _ 0 (F 0%nat)) by (rewrite map_length, seq_length; exact Hi).
  rewrite map_nth, seq_nth by exact Hi. reflexivity.
Qed.
Lemma bump_with x c d : (c < length x)%nat -> bump x c d = with_component x c (nth c x 0 + d).
Proof.
  intros Hc. apply (nth_ext _ _ 0 0); [ rewrite bump_length, with_length; reflexivity | ].
  intros i Hi. rewrite bump_length in Hi. rewrite bump_nth, with_nth by assumption.
  destruct (Nat.eqb_spec i c) as [ -> | N ]; ring.
Qed.
Lemma with_with x c v w : (c < length x)%nat -> with_component (with_component x c v) c w = with_component x c w.
Proof.
  intros Hc. apply (nth_ext _ _ 0 0); [ rewrite !with_length; reflexivity | ].
  intros i Hi. rewrite !with_length in Hi. rewrite !with_nth by (try rewrite with_length; assumption).
  destruct (Nat.eqb i c); reflexivity.
Qed.
Lemma with_same x c : with_component x c (nth c x 0) = x.
Proof.
  apply (nth_ext _ _ 0 0); [ apply with_length | ].
  intros i Hi. rewrite with_length in Hi. rewrite with_nth by assumption.
  destruct (Nat.eqb_spec i c) as [ -> | N ]; reflexivity.
Qed.
Lemma bump_bump x c d e : (c < length x)%nat -> bump (bump x c d) c e = bump x c (d + e).
Proof.
  intros Hc. apply (nth_ext _ _ 0 0); [ rewrite !bump_length; reflexivity | ].
  intros i Hi. rewrite !bump_nth by (try rewrite bump_length; assumption). destruct (Nat.eqb i c); ring.
Qed.
Lemma bump_zero x c : (c < length x)%nat -> bump x c 0 = x.
Proof.
  intros Hc. rewrite bump_with, Rplus_0_r by exact Hc. apply with_same.
Qed.

Lemma quotients_nth a b w r : length a = length b -> nth r (quotients a b w) 0 = (nth r a 0 - nth r b 0) / w.
Proof.
  revert b r; induction a as [ | p a IH ]; intros [ | m b ] r L; cbn [length] in L; try discriminate.
  - cbn. destruct r; unfold Rdiv; ring.
  - cbn [quotients]. destruct r; cbn [nth]; [ reflexivity | ]. apply IH. lia.
Qed.
Lemma quotients_length a b w : length a = length b -> length (quotients a b w) = length a.
Proof.
  revert b; induction a as [ | p a IH ]; intros [ | m b ] L; cbn [length quotients] in *; try discriminate; [ reflexivity | ].
  rewrite IH by lia. reflexivity.
Qed.
Lemma stencil_nth a b c d w r : length b = length a -> length c = length a -> length d = length a ->
  nth r (stencil a b c d w) 0 = (8 * nth r b 0 + nth r d 0 - nth r a 0 - 8 * nth r c 0) / (w * 12).
Proof.
  revert b c d r; induction a as [ | p a IH ]; intros [ | b0 b ] [ | c0 c ] [ | d0 d ] r L1 L2 L3; cbn [length] in *; try discriminate.
  - cbn. destruct r; unfold Rdiv; ring.
  - cbn [stencil]. destruct r; cbn [nth]; [ reflexivity | ]. apply IH; lia.
Qed.

(** ** The estimate *)
Section Estimate.
Context {S : Type}.
Variable f : S -> list R -> S * list R.
Variable eps : R.
Variable Inv : S -> Prop.
Variable v : list R -> list R.
Variables n m : nat.
Hypothesis Hf : forall s x, Inv s -> length x = n -> Inv (fst (f s x)) /\ snd (f s x) = v x.
Hypothesis Hv : forall x, length x = n -> length (v x) = m.

Definition width (x : R) : R := Rmax (Rabs x * eps) eps.
Definition col (x0 : list R) (c : nat) : list R :=
  quotients (v (bump x0 c (width (nth c x0 0)))) (v (bump x0 c (- width (nth c x0 0)))) (width (nth c x0 0) * 2).

Lemma columns_ok x0 cs s : length x0 = n -> Inv s ->
  exists s', columns f eps m x0 cs s = Ok (s', map (col x0) cs) /\ Inv s'.
Proof using Hf Hv.
  intros L. revert s; induction cs as [ | c cs IH ]; intros s I; cbn [columns map].
  - exists s. split; [ reflexivity | exact I ].
  - fold (width (nth c x0 0)). set (h := width (nth c x0 0)).
    destruct (Hf s (bump x0 c h) I ltac:(rewrite bump_length; exact L)) as (I1 & V1).
    destruct (f s (bump x0 c h)) as [s1 fxp]; cbn [fst snd] in I1, V1.
    destruct (Hf s1 (bump x0 c (- h)) I1 ltac:(rewrite bump_length; exact L)) as (I2 & V2).
    destruct (f s1 (bump x0 c (- h))) as [s2 fxm]; cbn [fst snd] in I2, V2.
    subst fxp fxm. rewrite !Hv, !Nat.eqb_refl by (rewrite bump_length; exact L). cbn [andb].
    destruct (IH s2 I2) as (s' & E & I'). rewrite E. cbn [obind].
    exists s'. split; [ reflexivity | exact I' ].
Qed.
Lemma estimate_ok x0 s : length x0 = n -> Inv s ->
  exists s', estimate f eps s x0 = Ok (s', map (col x0) (seq 0 n)) /\ Inv s'.
Proof using Hf Hv.
  intros L I. unfold estimate.
  destruct (Hf s x0 I L) as (I1 & V1). destruct (f s x0) as [s1 fx]; cbn [fst snd] in I1, V1. subst fx.
  rewrite Hv, L by exact L. apply columns_ok; assumption.
Qed.

Lemma width_pos x : 0 < eps -> 0 < width x.
Proof using. intros H. unfold width. apply Rlt_le_trans with eps; [ exact H | apply Rmax_r ]. Qed.
Lemma col_near x0 c r (g1 : R -> R) M : 0 < eps -> length x0 = n -> (c < n)%nat ->
  bends3 (fun s => nth r (v (with_component x0 c s)) 0) g1 (nth c x0 0) (width (nth c x0 0)) M ->
  Rabs (nth r (col x0 c) 0 - g1 (nth c x0 0)) <= M * width (nth c x0 0) ^ 2 / 6.
Proof using Hv.
  intros He L Hc B. unfold col. rewrite quotients_nth by (rewrite !Hv by (rewrite bump_length; exact L); reflexivity).
  rewrite !bump_with by lia. fold (Rminus (nth c x0 0) (width (nth c x0 0))).
  apply (central (fun s => nth r (v (with_component x0 c s)) 0)); [ apply width_pos; exact He | exact B ].
Qed.
End Estimate.

(** ** Error terms *)
Section Terms.
Context {val : Type}.
Variable dim : nat -> nat.
Variable move : nat -> val -> list R -> val.
Variable err : (nat -> val) -> list R.

Fixpoint size (ids : list nat) : nat := match ids with [] => 0%nat | i :: r => (dim i + size r)%nat end.
Lemma input_size_size ids : input_size dim ids = size ids.
Proof using.
  unfold input_size. assert (H : forall n, fold_left (fun n i => (n + dim i)%nat) ids n = (n + size ids)%nat).
  { induction ids as [ | i r IH ]; intros n; cbn [fold_left size]; [ lia | rewrite IH; lia ]. }
  apply H.
Qed.
Fixpoint chunk (ids : list nat) (dr : list R) (j : nat) : list R :=
  match ids with [] => [] | i :: r => if (j =? i)%nat then firstn (dim i) dr else chunk r (skipn (dim i) dr) j end.

Lemma update_all_other ids dr (e : store) j : ~ In j ids -> update_all dim move ids dr e j = e j.
Proof using.
  revert dr e; induction ids as [ | i r IH ]; intros dr e N; cbn [update_all]; [ reflexivity | ].
  rewrite IH by (intro; apply N; right; assumption). unfold put.
  destruct (Nat.eqb_spec j i) as [ -> | ]; [ exfalso; apply N; left; reflexivity | reflexivity ].
Qed.
Lemma update_all_in ids dr (e : store) j : NoDup ids -> In j ids ->
  update_all dim move ids dr e j = (move j (now e j) (chunk ids dr j), now e j).
Proof using.
  revert dr e; induction ids as [ | i r IH ]; intros dr e D I; [ destruct I | ].
  inversion D as [ | ? ? N D' ]; subst. cbn [update_all chunk].
  destruct (Nat.eqb_spec j i) as [ -> | Ne ].
  - rewrite update_all_other by exact N. unfold put. rewrite Nat.eqb_refl. reflexivity.
  - destruct I as [ X | I ]; [ congruence | ]. rewrite IH by assumption.
    assert (E : now (put e i (move i (now e i) (firstn (dim i) dr), now e i)) j = now e j).
    { unfold now, put. apply Nat.eqb_neq in Ne. rewrite Ne. reflexivity. }
    rewrite E. reflexivity.
Qed.
Lemma revert_all_now ids (e : store (val := val)) j : now (revert_all ids e) j = if in_dec Nat.eq_dec j ids then snd (e j) else now e j.
Proof using.
  revert e; induction ids as [ | i r IH ]; intros e; cbn [revert_all]; [ reflexivity | ].
  rewrite IH. destruct (in_dec Nat.eq_dec j r) as [ I | N ].
  - destruct (in_dec Nat.eq_dec j (i :: r)) as [ _ | X ]; [ | exfalso; apply X; right; exact I ].
    unfold put. destruct (Nat.eqb_spec j i) as [ -> | ]; reflexivity.
  - destruct (in_dec Nat.eq_dec j (i :: r)) as [ [ X | X ] | X ].
    + subst j. unfold now, put. rewrite Nat.eqb_refl. reflexivity.
    + contradiction.
    + unfold now, put. destruct (Nat.eqb_spec j i) as [ -> | ]; [ exfalso; apply X; left; reflexivity | reflexivity ].
Qed.

Definition shifted (ids : list nat) (v0 : nat -> val) (dr : list R) : nat -> val :=
  fun j => if in_dec Nat.eq_dec j ids then move j (v0 j) (chunk ids dr j) else v0 j.
Definition keeps (v0 : nat -> val) (s : store * list R) : Prop := forall j, now (fst s) j = v0 j.

Lemma functor_ok ids v0 s dr : NoDup ids -> keeps v0 s ->
  keeps v0 (fst (functor dim move err ids s dr)) /\ snd (functor dim move err ids s dr) = err (shifted ids v0 dr).
Proof using.
  intros D K. unfold functor; cbn [fst snd]. split.
  - intros j. cbn [fst]. rewrite revert_all_now. destruct (in_dec Nat.eq_dec j ids) as [ I | N ].
    + rewrite update_all_in by assumption. cbn [snd]. apply K.
    + unfold now at 1. rewrite update_all_other by assumption. apply K.
  - f_equal. apply FunctionalExtensionality.functional_extensionality. intros j. unfold shifted, now at 1.
    destruct (in_dec Nat.eq_dec j ids) as [ I | N ].
    + rewrite update_all_in by assumption. cbn [fst]. rewrite K. reflexivity.
    + rewrite update_all_other by assumption. apply K.
Qed.

(** *** One component moved *)
Lemma chunk_zero ids j : In j ids -> chunk ids (repeat 0 (size ids)) j = repeat 0 (dim j).
Proof using.
  induction ids as [ | i r IH ]; intros I; [ destruct I | ]. cbn [chunk size].
  rewrite repeat_app. destruct (Nat.eqb_spec j i) as [ -> | Ne ].
  - rewrite firstn_app, repeat_length, Nat.sub_diag, firstn_O, app_nil_r. apply firstn_all2. rewrite repeat_length. lia.
  - destruct I as [ X | I ]; [ congruence | ].
    rewrite skipn_app, repeat_length, Nat.sub_diag, skipn_all2 by (rewrite repeat_length; lia). cbn [app skipn]. apply IH, I.
Qed.
Lemma firstn_exact {A} (a b : list A) n : length a = n -> firstn n (a ++ b) = a.
Proof using. intros <-. rewrite firstn_app, Nat.sub_diag, firstn_O, app_nil_r. apply firstn_all. Qed.
Lemma skipn_exact {A} (a b : list A) n : length a = n -> skipn n (a ++ b) = b.
Proof using. intros <-. rewrite skipn_app, Nat.sub_diag, skipn_all. reflexivity. Qed.
Lemma chunk_one pre i post U j : NoDup (pre ++ i :: post) -> length U = dim i -> In j (pre ++ i :: post) ->
  chunk (pre ++ i :: post) (repeat 0 (size pre) ++ U ++ repeat 0 (size post)) j = if (j =? i)%nat then U else repeat 0 (dim j).
Proof using.
  intros D L. induction pre as [ | p pre IH ]; intros I; cbn [app chunk size repeat] in *.
  - destruct (Nat.eqb_spec j i) as [ -> | Ne ].
    + apply firstn_exact, L.
    + rewrite skipn_exact by exact L. apply chunk_zero. destruct I as [ X | I ]; [ congruence | exact I ].
  - inversion D as [ | ? ? N D' ]; subst. rewrite repeat_app, <- app_assoc.
    destruct (Nat.eqb_spec j p) as [ -> | Ne ].
    + rewrite firstn_exact by apply repeat_length.
      destruct (Nat.eqb_spec p i) as [ -> | ]; [ exfalso; apply N, in_or_app; right; left; reflexivity | reflexivity ].
    + rewrite skipn_exact by apply repeat_length. apply IH; [ exact D' | ]. destruct I as [ X | I ]; [ congruence | exact I ].
Qed.
Lemma with_app_mid (a b c : list R) k s : (k < length b)%nat ->
  with_component (a ++ b ++ c) (length a + k) s = a ++ with_component b k s ++ c.
Proof using.
  intros Hk. apply (nth_ext _ _ 0 0).
  { rewrite with_length, !app_length, with_length. reflexivity. }
  intros i Hi. rewrite with_length in Hi. rewrite with_nth by exact Hi. rewrite !app_length in Hi.
  destruct (Nat.lt_ge_cases i (length a)) as [ L | G ].
  - rewrite (app_nth1 a _ _ L), (app_nth1 a _ _ L). destruct (Nat.eqb_spec i (length a + k)); [ lia | reflexivity ].
  - rewrite (app_nth2 a _ _ G), (app_nth2 a _ _ G).
    destruct (Nat.lt_ge_cases (i - length a) (length b)) as [ L | G2 ].
    + rewrite !app_nth1 by (try rewrite with_length; exact L). rewrite with_nth by exact L.
      destruct (Nat.eqb_spec i (length a + k)), (Nat.eqb_spec (i - length a) k); try lia; reflexivity.
    + rewrite !app_nth2 by (try rewrite with_length; exact G2). rewrite with_length.
      destruct (Nat.eqb_spec i (length a + k)); [ lia | reflexivity ].
Qed.
Lemma size_app a b : size (a ++ b) = (size a + size b)%nat.
Proof using. induction a as [ | i r IH ]; cbn [app size]; [ reflexivity | lia ]. Qed.

Lemma shifted_one pre i post v0 k s : NoDup (pre ++ i :: post) -> (k < dim i)%nat ->
  (forall j v, move j v (repeat 0 (dim j)) = v) ->
  shifted (pre ++ i :: post) v0 (with_component (repeat 0 (size (pre ++ i :: post))) (size pre + k) s) = nudged dim move v0 i k s.
Proof using.
  intros D Hk Z.
  assert (E : with_component (repeat 0 (size (pre ++ i :: post))) (size pre + k) s
              = repeat 0 (size pre) ++ with_component (repeat 0 (dim i)) k s ++ repeat 0 (size post)).
  { rewrite size_app. cbn [size]. rewrite !repeat_app. rewrite <- (repeat_length 0 (size pre)) at 2.
    apply with_app_mid. rewrite repeat_length. exact Hk. }
  rewrite E. apply FunctionalExtensionality.functional_extensionality. intros j. unfold shifted, nudged.
  destruct (in_dec Nat.eq_dec j (pre ++ i :: post)) as [ I | N ].
  - rewrite chunk_one by (try assumption; rewrite with_length, repeat_length; reflexivity).
    destruct (Nat.eqb_spec j i) as [ -> | ]; [ reflexivity | apply Z ].
  - destruct (Nat.eqb_spec j i) as [ -> | ]; [ exfalso; apply N, in_or_app; right; left; reflexivity | reflexivity ].
Qed.

(** *** The blocks *)
Lemma blocks_ids ids J : map fst (blocks dim ids J) = ids.
Proof using. revert J; induction ids as [ | i r IH ]; intros J; cbn [blocks map fst]; [ reflexivity | rewrite IH; reflexivity ]. Qed.
Lemma blocks_in ids J i B : In (i, B) (blocks dim ids J) ->
  exists pre post, ids = pre ++ i :: post /\ B = firstn (dim i) (skipn (size pre) J).
Proof using.
  revert J; induction ids as [ | a r IH ]; intros J I; cbn [blocks] in I; [ destruct I | ].
  destruct I as [ X | I ].
  - exists [], r. assert (a = i) by congruence. subst a. split; [ reflexivity | ]. cbn [size]. cbn [skipn]. congruence.
  - destruct (IH _ I) as (pre & post & E & F). exists (a :: pre), post. split; [ rewrite E; reflexivity | ].
    rewrite F. cbn [size]. f_equal. rewrite Nat.add_comm. clear. revert J. generalize (size pre) as p, (dim a) as d.
    intros p d J. revert J; induction d as [ | d IH ]; intros J; [ rewrite Nat.add_0_r; reflexivity | ].
    rewrite Nat.add_succ_r. destruct J; [ rewrite !skipn_nil; reflexivity | cbn [skipn]; apply IH ].
Qed.
Lemma block_nth (F : nat -> list R) a d b k : (k < d)%nat -> nth k (firstn d (skipn a (map F (seq 0 (a + d + b))))) [] = F (a + k)%nat.
Proof using.
  intros Hk.
  assert (E : seq 0 (a + d + b) = seq 0 a ++ seq a d ++ seq (a + d) b) by (rewrite <- !seq_app, <- !Nat.add_assoc; f_equal; lia).
  rewrite E, !map_app, skipn_exact by (rewrite map_length, seq_length; reflexivity).
  rewrite firstn_exact by (rewrite map_length, seq_length; reflexivity).
  rewrite (nth_indep _ [] (F 0%nat)) by (rewrite map_length, seq_length; exact Hk).
  rewrite map_nth, seq_nth by exact Hk. reflexivity.
Qed.
Lemma block_length (F : nat -> list R) a d b : length (firstn d (skipn a (map F (seq 0 (a + d + b))))) = d.
Proof using. rewrite firstn_length, skipn_length, map_length, seq_length. lia. Qed.

(** What the blocks of the estimate are. *)
Definition good_block (v0 : nat -> val) (h : R) (m : nat) (b : nat * list (list R)) : Prop :=
  length (snd b) = dim (fst b) /\
  forall k, (k < dim (fst b))%nat -> length (nth k (snd b) []) = m /\
  forall r g1 M, bends3 (fun s => nth r (err (nudged dim move v0 (fst b) k s)) 0) g1 0 h M ->
    Rabs (entry (snd b) r k - g1 0) <= M * h ^ 2 / 6.

Lemma term_estimate ids h v0 s m : NoDup ids -> 0 < h -> (forall j v, move j v (repeat 0 (dim j)) = v) ->
  (forall w, length (err w) = m) -> keeps v0 s ->
  exists s' J, estimate (functor dim move err ids) h s (repeat 0 (input_size dim ids)) = Ok (s', J) /\ keeps v0 s' /\
    Forall (good_block v0 h m) (blocks dim ids J).
Proof using.
  intros D Hh Z L K. rewrite input_size_size.
  destruct (estimate_ok (functor dim move err ids) h (keeps v0) (fun dr => err (shifted ids v0 dr)) (size ids) m
    (fun s x I _ => functor_ok ids v0 s x D I) (fun x _ => L _) (repeat 0 (size ids)) s ltac:(apply repeat_length) K) as (s' & E & K').
  exists s', (map (col h (fun dr => err (shifted ids v0 dr)) (repeat 0 (size ids))) (seq 0 (size ids))).
  split; [ exact E | split; [ exact K' | ] ].
  apply Forall_forall. intros [i B] I. destruct (blocks_in _ _ _ _ I) as (pre & post & EI & EB). clear I E.
  set (F := col h (fun dr => err (shifted ids v0 dr)) (repeat 0 (size ids))) in EB.
  assert (ES : size ids = (size pre + dim i + size post)%nat) by (rewrite EI, size_app; cbn [size]; lia).
  rewrite ES in EB. unfold good_block; cbn [fst snd]. rewrite EB. split; [ apply block_length | ].
  intros k Hk. rewrite block_nth by exact Hk. split.
  { unfold F, col. rewrite quotients_length; rewrite !L; reflexivity. }
  intros r g1 M Bd. unfold entry. rewrite block_nth by exact Hk.
  assert (W : width h (nth (size pre + k) (repeat 0 (size ids)) 0) = h).
  { unfold width. rewrite nth_repeat, Rabs_R0, Rmult_0_l. apply Rmax_right. lra. }
  assert (P := col_near h (fun dr => err (shifted ids v0 dr)) (size ids) m (fun x _ => L _) (repeat 0 (size ids)) (size pre + k) r g1 M Hh
    ltac:(apply repeat_length) ltac:(lia)).
  rewrite W, nth_repeat in P. apply P.
  assert (EF : (fun s => nth r (err (shifted ids v0 (with_component (repeat 0 (size ids)) (size pre + k) s))) 0)
             = (fun s => nth r (err (nudged dim move v0 i k s)) 0)).
  { apply FunctionalExtensionality.functional_extensionality. intros x. rewrite EI, shifted_one; [ reflexivity | rewrite <- EI; exact D | exact Hk | exact Z ]. }
  rewrite EF. exact Bd.
Qed.
End Terms.

(** ** The comparison *)
Lemma near_column_iff tol a n : length a = length n ->
  (near_column tol a n = true <-> forall r, (r < length a)%nat -> Rabs (nth r n 0 - nth r a 0) <= Rabs tol).
Proof.
  revert n; induction a as [ | x a IH ]; intros [ | y n ] L; cbn [length near_column] in *; try discriminate.
  - split; [ intros _ r Hr; lia | reflexivity ].
  - rewrite andb_true_iff, IH by lia. split.
    + intros (A & B) [ | r ] Hr; cbn [nth]; [ destruct (Rle_dec (Rabs (y - x)) (Rabs tol)); [ assumption | discriminate ] | apply B; lia ].
    + intros H. split.
      * destruct (Rle_dec (Rabs (y - x)) (Rabs tol)) as [ | N ]; [ reflexivity | ]. exfalso. apply N, (H 0%nat). lia.
      * intros r Hr. apply (H (S r)). lia.
Qed.
Lemma near_block_iff tol m a n : length a = length n -> (forall k, (k < length a)%nat -> length (nth k a []) = m /\ length (nth k n []) = m) ->
  (near_block tol a n = true <-> forall k r, (k < length a)%nat -> (r < m)%nat -> Rabs (entry n r k - entry a r k) <= Rabs tol).
Proof.
  revert n; induction a as [ | x a IH ]; intros [ | y n ] L S; cbn [length near_block] in *; try discriminate.
  - split; [ intros _ k r Hk; lia | reflexivity ].
  - assert (S0 := S 0%nat ltac:(lia)). cbn [nth] in S0.
    rewrite andb_true_iff, near_column_iff by lia. rewrite IH by (try lia; intros k Hk; apply (S (Datatypes.S k)); lia). split.
    + intros (A & B) [ | k ] r Hk Hr; unfold entry; cbn [nth]; [ apply A; lia | apply (B k r); lia ].
    + intros H. split.
      * intros r Hr. apply (H 0%nat r); lia.
      * intros k r Hk Hr. apply (H (Datatypes.S k) r); lia.
Qed.
Lemma compare_iff tol ana bs : compare_blocks tol ana bs = true <->
  forall i n, In (i, n) bs -> exists a, ana i = Some a /\ near_block tol a n = true.
Proof.
  induction bs as [ | (i & n) bs IH ]; cbn [compare_blocks].
  - split; [ intros _ i n [] | reflexivity ].
  - split.
    + intros H j q [ E | I ].
      * assert (j = i) by congruence. assert (q = n) by congruence. subst j q.
        destruct (ana i) as [ a | ]; [ | discriminate ]. apply andb_true_iff in H. exists a. split; [ reflexivity | apply H ].
      * destruct (ana i) as [ a | ]; [ | discriminate ]. apply andb_true_iff in H. apply (proj1 IH (proj2 H)), I.
    + intros H. destruct (H i n (or_introl eq_refl)) as (a & -> & ->). cbn [andb]. apply IH. intros j q I. apply H. right; exact I.
Qed.

(** ** The macros *)
Lemma point_columns_eq f step x cs : (forall c, In c cs -> (c < length x)%nat) ->
  point_columns f step x cs = map (fun c => quotients (f (bump x c step)) (f (bump x c (- step))) (step * 2)) cs.
Proof.
  intros H. induction cs as [ | c cs IH ]; cbn [point_columns map]; [ reflexivity | ].
  assert (Hc : (c < length x)%nat) by (apply H; left; reflexivity).
  rewrite !bump_bump by (try rewrite bump_length; exact Hc).
  replace (step + - (2 * step) + step) with 0 by ring. replace (step + - (2 * step)) with (- step) by ring.
  rewrite bump_zero by exact Hc. rewrite IH; [ reflexivity | ]. intros d Hd. apply H. right; exact Hd.
Qed.

Definition fall (step : R) (I : list R) (l : list nat) : list R := fold_left (fun I c => bump I c (- (2 * step))) l I.
Definition five_col (f : list R -> list R) (step : R) (I : list R) (c : nat) : list R :=
  stencil (f (bump I c (2 * step))) (f (bump I c step)) (f (bump I c (- step))) (f (bump I c (- (2 * step)))) step.
Lemma param_columns_nth f step I cs p : (forall c, In c cs -> (c < length I)%nat) -> (p < length cs)%nat ->
  nth p (param_columns f step I cs) [] = five_col f step (fall step I (firstn p cs)) (nth p cs 0%nat).
Proof.
  revert I p; induction cs as [ | c cs IH ]; intros I p H Hp; [ cbn in Hp; lia | ].
  assert (Hc : (c < length I)%nat) by (apply H; left; reflexivity).
  cbn [param_columns]. rewrite !bump_bump by (try rewrite bump_length; exact Hc).
  replace (2 * step + - step + - (2 * step) + - step) with (- (2 * step)) by ring.
  replace (2 * step + - step + - (2 * step)) with (- step) by ring. replace (2 * step + - step) with step by ring.
  destruct p as [ | p ]; [ reflexivity | ]. cbn [nth firstn]. rewrite IH.
  - reflexivity.
  - intros d Hd. rewrite bump_length. apply H. right; exact Hd.
  - cbn [length] in Hp. lia.
Qed.
Lemma param_columns_length f step I cs : length (param_columns f step I cs) = length cs.
Proof. revert I; induction cs as [ | c cs IH ]; intros I; cbn [param_columns length]; [ reflexivity | rewrite IH; reflexivity ]. Qed.
Lemma fall_length step I l : length (fall step I l) = length I.
Proof. unfold fall. revert I; induction l as [ | c l IH ]; intros I; cbn [fold_left]; [ reflexivity | rewrite IH; apply bump_length ]. Qed.
Lemma fall_nth step I l i : NoDup l -> (forall c, In c l -> (c < length I)%nat) ->
  nth i (fall step I l) 0 = nth i I 0 - (if in_dec Nat.eq_dec i l then 2 * step else 0).
Proof.
  unfold fall. revert I; induction l as [ | c l IH ]; intros I D H; cbn [fold_left].
  - destruct (in_dec Nat.eq_dec i []) as [ [] | ]; ring.
  - inversion D as [ | ? ? N D' ]; subst. rewrite IH by (try exact D'; intros d Hd; rewrite bump_length; apply H; right; exact Hd).
    rewrite bump_nth by (apply H; left; reflexivity).
    destruct (Nat.eqb_spec i c) as [ -> | Ne ].
    + destruct (in_dec Nat.eq_dec c l) as [ X | _ ]; [ contradiction | ].
      destruct (in_dec Nat.eq_dec c (c :: l)) as [ _ | X ]; [ ring | exfalso; apply X; left; reflexivity ].
    + destruct (in_dec Nat.eq_dec i l) as [ X | X ], (in_dec Nat.eq_dec i (c :: l)) as [ Y | Y ]; try ring.
      * exfalso. apply Y. right; exact X.
      * destruct Y as [ Y | Y ]; [ congruence | contradiction ].
Qed.
Lemma lower_eq (P : nat -> bool) step I l : NoDup l -> (forall c, In c l -> (c < length I)%nat) ->
  (forall i, (i < length I)%nat -> (In i l <-> P i = true)) ->
  fall step I l = map (fun i => nth i I 0 - (if P i then 2 * step else 0)) (seq 0 (length I)).
Proof.
  intros D H E. apply (nth_ext _ _ 0 0); [ rewrite fall_length, map_length, seq_length; reflexivity | ].
  intros i Hi. rewrite fall_length in Hi. rewrite fall_nth by assumption.
  set (F := fun i => nth i I 0 - (if P i then 2 * step else 0)).
  rewrite (nth_indep (map F (seq 0 (length I))) 0 (F 0%nat)) by (rewrite map_length, seq_length; exact Hi).
  rewrite map_nth, seq_nth by exact Hi. unfold F. cbn [Nat.add].
  destruct (in_dec Nat.eq_dec i l) as [ X | X ]; destruct (P i) eqn:Q; try reflexivity; exfalso.
  - apply E in X; [ congruence | exact Hi ].
  - apply X, E; assumption.
Qed.
Lemma firstn_seq n c : (c <= n)%nat -> firstn c (seq 0 n) = seq 0 c.
Proof.
  intros H. replace n with (c + (n - c))%nat by lia. rewrite seq_app. apply firstn_exact, seq_length.
Qed.
Lemma firstn_rev_seq n c : (c < n)%nat -> firstn (n - 1 - c) (rev (seq 0 n)) = rev (seq (S c) (n - 1 - c)).
Proof.
  intros H. assert (E : seq 0 n = seq 0 (S c) ++ seq (S c) (n - 1 - c)) by (rewrite <- seq_app; f_equal; lia).
  rewrite E, rev_app_distr. apply firstn_exact. rewrite rev_length, seq_length. reflexivity.
Qed.

Lemma five_near f step I c r (g1 : R -> R) M m : 0 < step -> (c < length I)%nat -> (forall x, length x = length I -> length (f x) = m) ->
  bends5 (fun s => nth r (f (with_component I c s)) 0) g1 (nth c I 0) (2 * step) M ->
  Rabs (nth r (five_col f step I c) 0 - g1 (nth c I 0)) <= M * step ^ 4 / 18.
Proof.
  intros Hs Hc L B. unfold five_col.
  rewrite stencil_nth by (rewrite !L by apply bump_length; reflexivity).
  rewrite !bump_with by exact Hc. fold (Rminus (nth c I 0) step). fold (Rminus (nth c I 0) (2 * step)).
  apply (five (fun s => nth r (f (with_component I c s)) 0)); assumption.
Qed.

Lemma intrinsic_column f step I c : (c < length I)%nat -> nth c (estimate_intrinsic f step I) [] = five_col f step (lower_before I c (2 * step)) c.
Proof.
  intros Hc. unfold estimate_intrinsic. rewrite param_columns_nth.
  - rewrite seq_nth by exact Hc. cbn [Nat.add]. f_equal. rewrite firstn_seq by lia. apply lower_eq.
    + apply seq_NoDup.
    + intros d Hd. apply in_seq in Hd. lia.
    + intros i Hi. rewrite in_seq, Nat.ltb_lt. lia.
  - intros d Hd. apply in_seq in Hd. lia.
  - rewrite seq_length. exact Hc.
Qed.
Lemma distortion_column f step I c : (c < length I)%nat -> nth c (estimate_distortion f step I) [] = five_col f step (lower_after I c (2 * step)) c.
Proof.
  intros Hc. unfold estimate_distortion.
  rewrite rev_nth by (rewrite param_columns_length, rev_length, seq_length; exact Hc).
  rewrite param_columns_length, rev_length, seq_length. replace (length I - S c)%nat with (length I - 1 - c)%nat by lia.
  rewrite param_columns_nth.
  - rewrite rev_nth by (rewrite seq_length; lia). rewrite seq_length. replace (length I - S (length I - 1 - c))%nat with c by lia.
    rewrite seq_nth by exact Hc. cbn [Nat.add]. f_equal. rewrite firstn_rev_seq by exact Hc. apply lower_eq.
    + apply NoDup_rev, seq_NoDup.
    + intros d Hd. apply in_rev, in_seq in Hd. lia.
    + intros i Hi. rewrite <- in_rev, in_seq, Nat.ltb_lt. lia.
  - intros d Hd. apply in_rev, in_seq in Hd. lia.
  - rewrite rev_length, seq_length. lia.
Qed.
Lemma lower_before_nth I c d i : (i < length I)%nat -> nth i (lower_before I c d) 0 = nth i I 0 - (if Nat.ltb i c then d else 0).
Proof.
  intros Hi. unfold lower_before. set (F := fun i => nth i I 0 - (if Nat.ltb i c then d else 0)).
  rewrite (nth_indep _ 0 (F 0%nat)) by (rewrite map_length, seq_length; exact Hi).
  rewrite map_nth, seq_nth by exact Hi. reflexivity.
Qed.
Lemma lower_after_nth I c d i : (i < length I)%nat -> nth i (lower_after I c d) 0 = nth i I 0 - (if Nat.ltb c i then d else 0).
Proof.
  intros Hi. unfold lower_after. set (F := fun i => nth i I 0 - (if Nat.ltb c i then d else 0)).
  rewrite (nth_indep _ 0 (F 0%nat)) by (rewrite map_length, seq_length; exact Hi).
  rewrite map_nth, seq_nth by exact Hi. reflexivity.
Qed.
Lemma lower_before_length I c d : length (lower_before I c d) = length I.
Proof. unfold lower_before. rewrite map_length, seq_length. reflexivity. Qed.
Lemma lower_after_length I c d : length (lower_after I c d) = length I.
Proof. unfold lower_after. rewrite map_length, seq_length. reflexivity. Qed.
