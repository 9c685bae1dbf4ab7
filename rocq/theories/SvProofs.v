(** * Proofs about the solver with marginal analysis *)
From Coq Require Import Reals List Arith ZArith Bool Lia Lra.
From Verif Require Import Base BsplModel BsplSpec BsplProofs SvModel SvSpec.
Import ListNotations.
Local Open Scope R_scope.

Definition dot (n : nat) (x y : vec) : R := bsum n (fun i => x i * y i).
Lemma inner_dot n x y : inner n x y = dot n x y.
Proof. reflexivity. Qed.
Lemma dot_ext n x y x' y' : (forall i, (i < n)%nat -> x i = x' i) -> (forall i, (i < n)%nat -> y i = y' i) -> dot n x y = dot n x' y'.
Proof. intros A B. apply bsum_ext. intros i H. rewrite A, B by exact H. reflexivity. Qed.
Lemma dot_sym n x y : dot n x y = dot n y x.
Proof. apply bsum_ext. intros i _. ring. Qed.
Lemma dot_minus_l n x y z : dot n (fun i => x i - y i) z = dot n x z - dot n y z.
Proof. unfold dot. rewrite <- bsum_minus. apply bsum_ext. intros i _. ring. Qed.
Lemma dot_minus_r n x y z : dot n z (fun i => x i - y i) = dot n z x - dot n z y.
Proof. unfold dot. rewrite <- bsum_minus. apply bsum_ext. intros i _. ring. Qed.
Lemma dot_plus_r n x y z : dot n z (fun i => x i + y i) = dot n z x + dot n z y.
Proof. unfold dot. rewrite <- bsum_plus. apply bsum_ext. intros i _. ring. Qed.
Lemma dot_scal_r n a x z : dot n z (fun i => a * x i) = a * dot n z x.
Proof. unfold dot. rewrite <- bsum_scal. apply bsum_ext. intros i _. ring. Qed.
Lemma dot_nonneg n x : 0 <= dot n x x.
Proof. apply bsum_nonneg. intros i _. apply Rle_0_sqr. Qed.
Lemma dot_zero n x : dot n x x = 0 -> forall i, (i < n)%nat -> x i = 0.
Proof.
  unfold dot. induction n as [ | n IH]; intros H i Hi; [ lia | ]. cbn [bsum] in H.
  assert (A : 0 <= bsum n (fun i => x i * x i)) by (apply bsum_nonneg; intros; apply Rle_0_sqr).
  pose proof (Rle_0_sqr (x n)) as B. unfold Rsqr in B.
  destruct (Nat.eq_dec i n) as [-> | N]; [ | apply IH; [ lra | lia ] ].
  destruct (Rmult_integral (x n) (x n)); lra.
Qed.
(** A sum of columns *)
Lemma dot_columns n p (z : vec) (M : mat) (a : vec) : dot n z (fun i => bsum p (fun k => M i k * a k)) = bsum p (fun k => dot n z (fun i => M i k) * a k).
Proof.
  unfold dot. rewrite (bsum_ext n _ (fun i => bsum p (fun k => z i * M i k * a k))).
  - rewrite bsum_swap. apply bsum_ext. intros k _. rewrite bsum_scal_r. reflexivity.
  - intros i _. rewrite <- bsum_scal. apply bsum_ext. intros k _. ring.
Qed.
Lemma unit_sum n i (f : vec) : (i < n)%nat -> bsum n (fun k => unit_entry i k * f k) = f i.
Proof.
  intros H. rewrite (bsum_single n i); [ | exact H | ].
  - unfold unit_entry. rewrite Nat.eqb_refl. ring.
  - intros k Hk N. unfold unit_entry. destruct (Nat.eqb_spec i k); [ congruence | ring ].
Qed.
Lemma unit_sum_r n i (f : vec) : (i < n)%nat -> bsum n (fun k => unit_entry k i * f k) = f i.
Proof.
  intros H. rewrite <- (unit_sum n i f H) at 1. apply bsum_ext. intros k _. unfold unit_entry. rewrite (Nat.eqb_sym k i). reflexivity.
Qed.
(** Coordinates in an orthonormal basis *)
Lemma dot_rotated m Q u v : orthogonal m Q ->
  bsum m (fun i => dot m (fun k => Q k i) u * dot m (fun k => Q k i) v) = dot m u v.
Proof.
  intros (_ & O). unfold dot.
  rewrite (bsum_ext m _ (fun i => bsum m (fun k => bsum m (fun l => (Q k i * Q l i) * (u k * v l))))).
  2:{ intros i Hi. rewrite <- bsum_scal_r. apply bsum_ext. intros k Hk. rewrite <- bsum_scal. apply bsum_ext. intros l Hl. ring. }
  rewrite bsum_swap. apply bsum_ext. intros k Hk. rewrite bsum_swap.
  rewrite (bsum_ext m _ (fun l => unit_entry k l * (u k * v l))).
  - apply (unit_sum m k (fun l => u k * v l)). exact Hk.
  - intros l Hl. rewrite bsum_scal_r, bsum_total, O by assumption. reflexivity.
Qed.
Lemma columns_dot n Q k l : orthogonal n Q -> (k < n)%nat -> (l < n)%nat -> dot n (fun i => Q i k) (fun i => Q i l) = unit_entry k l.
Proof. intros (O & _) Hk Hl. unfold dot. rewrite bsum_total. apply O; assumption. Qed.

(** ** The pseudo-inverse *)
Section Pseudo.
Variables (n p : nat) (C : mat) (Om : mat) (U V : mat) (S : vec).
Hypothesis G : forall c d, (c < n)%nat -> (d < n)%nat -> Om c d = bsum p (fun i => C i c * C i d).
Hypothesis Sv : svd_exact n Om U S V.
Definition Omx (x : vec) : vec := fun c => bsum n (fun d => Om c d * x d).
Definition Cx (x : vec) : vec := fun i => bsum n (fun c => C i c * x c).

Lemma om_gram x y : dot n y (Omx x) = dot p (Cx y) (Cx x).
Proof.
  unfold dot, Omx, Cx.
  transitivity (bsum n (fun c => bsum n (fun d => bsum p (fun i => (C i c * y c) * (C i d * x d))))).
  - apply bsum_ext. intros c Hc. rewrite <- bsum_scal. apply bsum_ext. intros d Hd. rewrite G by assumption. rewrite <- bsum_scal_r, <- bsum_scal.
    apply bsum_ext. intros i _. ring.
  - transitivity (bsum n (fun c => bsum p (fun i => bsum n (fun d => (C i c * y c) * (C i d * x d))))).
    { apply bsum_ext. intros c _. apply bsum_swap. }
    rewrite bsum_swap. apply bsum_ext. intros i _. rewrite <- bsum_scal_r. apply bsum_ext. intros c _. rewrite bsum_scal. reflexivity.
Qed.
Lemma om_sym x y : dot n y (Omx x) = dot n x (Omx y).
Proof. rewrite !om_gram. apply dot_sym. Qed.
Lemma om_svd x c : (c < n)%nat -> Omx x c = bsum n (fun k => U c k * (S k * dot n (fun d => V d k) x)).
Proof.
  intros Hc. destruct Sv as (_ & _ & _ & _ & E). unfold Omx, dot.
  rewrite (bsum_ext n _ (fun d => bsum n (fun k => U c k * S k * V d k * x d))).
  - rewrite bsum_swap. apply bsum_ext. intros k _. rewrite <- !bsum_scal. apply bsum_ext. intros d _. ring.
  - intros d Hd. rewrite (E c d Hc Hd), <- bsum_total, <- bsum_scal_r. reflexivity.
Qed.
Lemma u_om k x : (k < n)%nat -> dot n (fun c => U c k) (Omx x) = S k * dot n (fun d => V d k) x.
Proof.
  intros Hk. rewrite (dot_ext n _ _ (fun c => U c k) (fun c => bsum n (fun l => U c l * (S l * dot n (fun d => V d l) x)))); [ | reflexivity | intros c Hc; apply om_svd, Hc ].
  rewrite (dot_columns n n (fun c => U c k) U (fun l => S l * dot n (fun d => V d l) x)).
  rewrite (bsum_ext n _ (fun l => unit_entry k l * (S l * dot n (fun d => V d l) x))).
  - apply (unit_sum n k (fun l => S l * dot n (fun d => V d l) x)), Hk.
  - intros l Hl. rewrite columns_dot; [ reflexivity | exact (proj1 Sv) | exact Hk | exact Hl ].
Qed.
Lemma om_v k c : (k < n)%nat -> (c < n)%nat -> Omx (fun d => V d k) c = S k * U c k.
Proof.
  intros Hk Hc. rewrite om_svd by exact Hc.
  rewrite (bsum_ext n _ (fun l => unit_entry l k * (U c l * S l))).
  - rewrite (unit_sum_r n k (fun l => U c l * S l)) by exact Hk. ring.
  - intros l Hl. rewrite columns_dot; [ ring | exact (proj1 (proj2 Sv)) | exact Hl | exact Hk ].
Qed.
(** Left and right vectors of a positive value agree *)
Lemma u_is_v k : (k < n)%nat -> S k <> 0 -> forall c, (c < n)%nat -> U c k = V c k.
Proof.
  intros Hk Pk. assert (Sk : 0 < S k) by (pose proof (proj1 (proj2 (proj2 Sv)) k Hk); lra).
  set (w := fun c => U c k - V c k).
  assert (E : dot n w (Omx w) = - (S k * dot n w w)).
  { assert (A : dot n w (Omx (fun c => U c k)) = S k * dot n w (fun c => V c k)).
    { rewrite om_sym. rewrite (u_om k w Hk). rewrite (dot_sym n (fun d => V d k) w). reflexivity. }
    assert (B : dot n w (Omx (fun c => V c k)) = S k * dot n w (fun c => U c k)).
    { rewrite (dot_ext n _ _ w (fun c => S k * U c k)); [ apply dot_scal_r | reflexivity | intros c Hc; apply om_v; assumption ]. }
    assert (D : dot n w (Omx w) = dot n w (Omx (fun c => U c k)) - dot n w (Omx (fun c => V c k))).
    { rewrite <- dot_minus_r. apply dot_ext; [ reflexivity | ]. intros c _. unfold Omx. rewrite <- bsum_minus. apply bsum_ext. intros d _. unfold w. ring. }
    rewrite D, A, B. assert (W : dot n w w = dot n w (fun c => U c k) - dot n w (fun c => V c k)) by (rewrite <- dot_minus_r; reflexivity).
    rewrite W. ring. }
  rewrite om_gram in E. pose proof (dot_nonneg p (Cx w)). pose proof (dot_nonneg n w).
  assert (Z : dot n w w = 0).
  { destruct (Rle_lt_or_eq_dec _ _ H0) as [L | L]; [ | symmetry; exact L ]. pose proof (Rmult_lt_0_compat _ _ Sk L). lra. }
  intros c Hc. pose proof (dot_zero n w Z c Hc) as W. unfold w in W. lra.
Qed.

Variables (r : nat) (br : vec).
Hypothesis Hr : (r <= n)%nat.
Hypothesis Kept : forall k, (k < r)%nat -> S k <> 0.
Definition zr : vec := fun c => bsum r (fun k => V c k * / S k * bsum n (fun d => U d k * br d)).
Lemma v_zr k : (k < n)%nat -> dot n (fun c => V c k) zr = if (k <? r)%nat then / S k * dot n (fun d => U d k) br else 0.
Proof.
  intros Hk. unfold zr.
  rewrite (dot_ext n _ _ (fun c => V c k) (fun c => bsum r (fun l => V c l * (/ S l * dot n (fun d => U d l) br)))); [ | reflexivity | ].
  2:{ intros c _. apply bsum_ext. intros l _. unfold dot. ring. }
  rewrite (dot_columns n r (fun c => V c k) V (fun l => / S l * dot n (fun d => U d l) br)).
  rewrite (bsum_ext r _ (fun l => unit_entry k l * (/ S l * dot n (fun d => U d l) br))).
  2:{ intros l Hl. rewrite columns_dot; [ reflexivity | exact (proj1 (proj2 Sv)) | exact Hk | lia ]. }
  destruct (Nat.ltb_spec k r) as [L | L].
  - apply (unit_sum r k (fun l => / S l * dot n (fun d => U d l) br)), L.
  - apply bsum_zero. intros l Hl. unfold unit_entry. destruct (Nat.eqb_spec k l); [ lia | ring ].
Qed.
Lemma zr_normal y : (forall k, (r <= k < n)%nat -> dot n (fun c => V c k) y = 0) ->
  dot n (fun c => y c - zr c) (fun c => Omx zr c - br c) = 0.
Proof.
  intros Hy. rewrite <- (dot_rotated n V _ _ (proj1 (proj2 Sv))). apply bsum_zero. intros k Hk.
  destruct (lt_dec k r) as [L | L].
  - assert (E : dot n (fun c => V c k) (fun c => Omx zr c - br c) = 0).
    { rewrite (dot_ext n (fun c => V c k) _ (fun c => U c k) (fun c => Omx zr c - br c)); [ | intros c Hc; symmetry; apply u_is_v; [ exact Hk | apply Kept, L | exact Hc ] | reflexivity ].
      rewrite dot_minus_r, u_om, v_zr by exact Hk. rewrite (proj2 (Nat.ltb_lt k r) L). pose proof (Kept k L). field_simplify; [ ring | assumption ]. }
    rewrite E. ring.
  - rewrite dot_minus_r, Hy, v_zr by lia. rewrite (proj2 (Nat.ltb_ge k r)) by lia. ring.
Qed.
(** Least squares among the vectors at right angles to the discarded ones *)
Variable d : vec.
Hypothesis Rhs : forall c, (c < n)%nat -> br c = bsum p (fun i => C i c * d i).
Lemma zr_least y : (forall k, (r <= k < n)%nat -> dot n (fun c => V c k) y = 0) ->
  dot p (fun i => Cx y i - d i) (fun i => Cx y i - d i) =
  dot p (fun i => Cx zr i - d i) (fun i => Cx zr i - d i) + dot p (Cx (fun c => y c - zr c)) (Cx (fun c => y c - zr c)).
Proof.
  intros Hy. set (e := fun c => y c - zr c).
  assert (N : dot p (Cx e) (fun i => Cx zr i - d i) = 0).
  { rewrite dot_minus_r, <- om_gram.
    assert (B : dot p (Cx e) d = dot n e br).
    { unfold dot, Cx. rewrite (bsum_ext n (fun i => e i * br i) (fun c => bsum p (fun i => C i c * e c * d i))).
      - rewrite bsum_swap. apply bsum_ext. intros i _. rewrite bsum_scal_r. reflexivity.
      - intros c Hc. rewrite (Rhs c Hc), <- bsum_scal. apply bsum_ext. intros i _. ring. }
    rewrite B, <- dot_minus_r. apply zr_normal, Hy. }
  assert (E : forall i, Cx y i - d i = (Cx zr i - d i) + Cx e i).
  { intros i. unfold Cx. replace (bsum n (fun c => C i c * y c)) with (bsum n (fun c => C i c * zr c) + bsum n (fun c => C i c * e c)); [ ring | ].
    rewrite <- bsum_plus. apply bsum_ext. intros c _. unfold e. ring. }
  rewrite (dot_ext p _ _ (fun i => (Cx zr i - d i) + Cx e i) (fun i => (Cx zr i - d i) + Cx e i)) by (intros; apply E).
  rewrite dot_plus_r. rewrite (dot_sym p _ (fun i => Cx zr i - d i)), (dot_sym p _ (Cx e)), !dot_plus_r, N.
  rewrite (dot_sym p (fun i => Cx zr i - d i) (Cx e)), N. ring.
Qed.
End Pseudo.

(** ** The numerical rank *)
Lemma above_le n s t : (above n s t <= n)%nat.
Proof. induction n as [ | n IH]; cbn [above]; [ lia | ]. destruct (Rlt_dec t (s n)); lia. Qed.
Lemma above_all n s t : (forall k, (k < n)%nat -> t < s k) -> above n s t = n.
Proof. induction n as [ | n IH]; cbn [above]; intros H; [ reflexivity | ]. rewrite IH by (intros; apply H; lia). destruct (Rlt_dec t (s n)) as [_ | N]; [ lia | exfalso; apply N, H; lia ]. Qed.
Lemma estimate_rank_spec n s t : (0 < n)%nat -> (forall k l, (k <= l < n)%nat -> s l <= s k) ->
  estimate_rank n s t = Nat.max 1 (above n s t).
Proof.
  intros Hn Hs. unfold estimate_rank.
  assert (L : forall i, (i < n)%nat -> rank_loop s t i (S i) = Nat.max 1 (above (S i) s t)).
  { induction i as [ | i IH]; intros Hi.
    - cbn [rank_loop above]. destruct (Rlt_dec t (s 0%nat)); reflexivity.
    - cbn [rank_loop]. destruct (Rlt_dec t (s (S i))) as [A | A].
      + rewrite above_all; [ lia | ]. intros k Hk. pose proof (Hs k (S i) ltac:(lia)). lra.
      + replace (S (S i) - 1)%nat with (S i) by lia. rewrite IH by lia.
        change (above (S (S i)) s t) with (above (S i) s t + (if Rlt_dec t (s (S i)) then 1 else 0))%nat. destruct (Rlt_dec t (s (S i))); [ contradiction | ]. lia. }
  replace n with (S (n - 1)) at 2 by lia. rewrite L by lia. replace (S (n - 1)) with n by lia. reflexivity.
Qed.
Lemma above_prefix n s t k : (forall k l, (k <= l < n)%nat -> s l <= s k) -> (k < above n s t)%nat -> t < s k.
Proof.
  induction n as [ | n IH]; cbn [above]; intros Hs H; [ lia | ].
  destruct (Rlt_dec t (s n)) as [A | A].
  - pose proof (above_le n s t). pose proof (Hs k n ltac:(lia)). lra.
  - apply IH; [ intros a b Hab; apply Hs; lia | lia ].
Qed.
