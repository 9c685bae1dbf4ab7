(** * C93: fitting a line segment to the pixels of a cluster *)
From Coq Require Import Reals List Lia Lra.
From Verif Require Import Base KinModel KinProofs RotEuler LfModel LfSpec LfProofs.
Import ListNotations.
Local Open Scope R_scope.

(** The line fitted has the least weighted sum of squared distances of all lines. *)
Theorem C93_line : forall l, 0 < weight_of l ->
  exists g, fit_line l = Some g /\ is_direction (dx g, dy g) /\
    forall q u, is_direction u -> error (p g) (dx g, dy g) l <= error q u l.
Proof.
  intros l Hn. rewrite (fit_line_eq l) by lra. eexists. split; [ reflexivity | ]. cbn [dx dy p]. split.
  - unfold is_direction. cbn [fst snd]. match goal with |- context [sin ?a] => pose proof (sin2_cos2 a) as Q end. unfold Rsqr in Q. lra.
  - intros q u U. rewrite !(error_centred l) by lra. cbn [fst snd]. apply Rmult_le_compat_l; [ lra | ].
    pose proof (best_direction l u U) as B. cbv zeta in B.
    match goal with |- _ <= _ + ?s * ?s => pose proof (Rle_0_sqr s) as Q; unfold Rsqr in Q end.
    eapply Rle_trans; [ | apply Rplus_le_compat; [ exact B | exact Q ] ]. right. ring.
Qed.
Print Assumptions C93_line.

(** The segment lies on that line; its ends are the feet of two of the points,
    and the feet of all points lie between them. *)
Lemma segment_facts l : 0 < weight_of l -> exists g a b, fit_line l = Some g /\ fit_segment l = Some (a, b) /\ is_direction (dx g, dy g) /\
  exists lo hi, a = (fst (p g) + (lo - along (dx g, dy g) (p g)) * dx g, snd (p g) + (lo - along (dx g, dy g) (p g)) * dy g) /\
    b = (fst (p g) + (hi - along (dx g, dy g) (p g)) * dx g, snd (p g) + (hi - along (dx g, dy g) (p g)) * dy g) /\
    (forall c, In c l -> lo <= along (dx g, dy g) (px c, py c) <= hi) /\
    (exists c, In c l /\ lo = along (dx g, dy g) (px c, py c)) /\ (exists c, In c l /\ hi = along (dx g, dy g) (px c, py c)).
Proof.
  intros Hn. destruct (C93_line l Hn) as (g & E & U & _).
  assert (PD : p_done g = false). { rewrite (fit_line_eq l) in E by lra. assert (H : p_done g = p_done g) by reflexivity. inversion E. reflexivity. }
  destruct (extent_ok (dx g, dy g) (p g) U l g None eq_refl eq_refl PD) as (l1 & acc & X & D1 & P1 & N1 & S).
  destruct acc as [[lo hi] | ]; [ | exfalso; destruct S as [-> _]; cbn in Hn; lra ].
  destruct S as (S1 & _ & S3 & S4).
  destruct (point_of_coordinate_ok (dx g, dy g) (p g) l1 lo U D1 P1 N1) as (l2 & Q1 & Q2).
  exists g. eexists. eexists. split; [ exact E | ]. split.
  - unfold fit_segment. rewrite E, X, Q1. pose proof (Q2 hi) as Q. destruct (point_of_coordinate l2 hi) as [l3 b]. cbn [snd] in Q. rewrite Q. reflexivity.
  - split; [ exact U | ]. exists lo, hi. cbn [fst snd]. split; [ reflexivity | ]. split; [ reflexivity | ]. split; [ exact S1 | ]. split.
    + destruct S3 as [S3 | (x & y & Z & _)]; [ exact S3 | discriminate ].
    + destruct S4 as [S4 | (x & y & Z & _)]; [ exact S4 | discriminate ].
Qed.
Lemma foot_eq q u c : is_direction u -> foot q u c = (fst q + (along u (px c, py c) - along u q) * fst u, snd q + (along u (px c, py c) - along u q) * snd u).
Proof.
  intros U. unfold is_direction in U. unfold foot, off, along. cbn [fst snd]. f_equal.
  - replace (fst q + (px c * fst u + py c * snd u - (fst q * fst u + snd q * snd u)) * fst u) with (fst q + (px c - fst q) * (fst u * fst u) + (py c - snd q) * snd u * fst u) by ring.
    replace (fst u * fst u) with (1 - snd u * snd u) by lra. ring.
  - replace (snd q + (px c * fst u + py c * snd u - (fst q * fst u + snd q * snd u)) * snd u) with (snd q + (py c - snd q) * (snd u * snd u) + (px c - fst q) * fst u * snd u) by ring.
    replace (snd u * snd u) with (1 - fst u * fst u) by lra. ring.
Qed.
Theorem C93_segment : forall l, 0 < weight_of l ->
  exists g a b, fit_line l = Some g /\ fit_segment l = Some (a, b) /\
    (exists c d, In c l /\ In d l /\ a = foot (p g) (dx g, dy g) c /\ b = foot (p g) (dx g, dy g) d) /\
    (forall c, In c l -> exists t, 0 <= t <= 1 /\
       foot (p g) (dx g, dy g) c = (fst a + t * (fst b - fst a), snd a + t * (snd b - snd a))).
Proof.
  intros l Hn. destruct (segment_facts l Hn) as (g & a & b & E & F & U & lo & hi & A & B & H & (c1 & I1 & L1) & (c2 & I2 & L2)).
  exists g, a, b. split; [ exact E | ]. split; [ exact F | ]. split.
  - exists c1, c2. split; [ exact I1 | ]. split; [ exact I2 | ]. rewrite !foot_eq by exact U. cbn [fst snd]. rewrite <- L1, <- L2. split; [ exact A | exact B ].
  - intros c I. pose proof (H c I) as Hc. set (k := along (dx g, dy g) (px c, py c)) in *.
    rewrite foot_eq by exact U. fold k. rewrite A, B. cbn [fst snd].
    destruct (Req_EM_T lo hi) as [Q | Q].
    + exists 0. split; [ lra | ]. replace k with lo by lra. f_equal; ring.
    + exists ((k - lo) / (hi - lo)). assert (P : 0 < hi - lo) by lra. split.
      * split; [ apply Rmult_le_pos; [ lra | left; apply Rinv_0_lt_compat; exact P ] | ]. apply Rmult_le_reg_r with (hi - lo); [ exact P | ]. unfold Rdiv. rewrite Rmult_assoc, Rinv_l by lra. lra.
      * f_equal; field; lra.
Qed.
Print Assumptions C93_segment.

(** Pixels on one line are fitted exactly. *)
Lemma error_nonneg q u l : (forall a, In a l -> 0 <= pw a) -> 0 <= error q u l /\ (error q u l = 0 -> forall a, In a l -> 0 < pw a -> off q u a = 0).
Proof.
  induction l as [ | a l IH]; intros H; [ split; [ cbn; lra | intros _ b [] ] | ].
  destruct IH as [I1 I2]; [ intros; apply H; right; assumption | ]. cbn [error fold_right]. fold (error q u l).
  pose proof (H a (or_introl eq_refl)) as Ha. pose proof (Rle_0_sqr (off q u a)) as Q. unfold Rsqr in Q. assert (P : 0 <= pw a * (off q u a * off q u a)) by (apply Rmult_le_pos; assumption).
  split; [ lra | ]. intros Z b [<- | I] Pb; [ | apply I2; [ lra | exact I | exact Pb ] ].
  assert (Z1 : pw a * (off q u a * off q u a) = 0) by lra. apply Rmult_integral in Z1. destruct Z1 as [Z1 | Z1]; [ lra | ]. apply Rmult_integral in Z1. tauto.
Qed.
Theorem C93_exact : forall l q u, (forall a, In a l -> 0 < pw a) -> l <> [] -> is_direction u -> (forall a, In a l -> off q u a = 0) ->
  exists a b, fit_segment l = Some (a, b) /\
    (exists c d, In c l /\ In d l /\ a = (px c, py c) /\ b = (px d, py d)) /\
    forall c, In c l -> exists t, 0 <= t <= 1 /\ (px c, py c) = (fst a + t * (fst b - fst a), snd a + t * (snd b - snd a)).
Proof.
  intros l q u W NE U O.
  assert (Hn : 0 < weight_of l).
  { assert (P : forall k, (forall a, In a k -> 0 < pw a) -> 0 <= weight_of k) by (induction k as [ | a k IH]; intros H; cbn [weight_of fold_right]; [ lra | pose proof (H a (or_introl eq_refl)); pose proof (IH ltac:(intros; apply H; right; assumption)) as Q; unfold weight_of in Q; lra ]).
    destruct l as [ | a k]; [ contradiction | ]. cbn [weight_of fold_right]. pose proof (W a (or_introl eq_refl)). pose proof (P k ltac:(intros; apply W; right; assumption)) as Q. unfold weight_of in Q. lra. }
  destruct (C93_line l Hn) as (g & E & Ug & Best). destruct (C93_segment l Hn) as (g' & a & b & E' & F & (c1 & c2 & I1 & I2 & A & B) & H).
  assert (g' = g) by congruence. subst g'.
  assert (Z0 : error q u l = 0). { clear - O. induction l as [ | a l IH]; cbn [error fold_right]; [ reflexivity | ]. fold (error q u l). rewrite IH by (intros; apply O; right; assumption). rewrite O by (left; reflexivity). ring. }
  destruct (error_nonneg (p g) (dx g, dy g) l ltac:(intros; left; apply W; assumption)) as [G1 G2].
  pose proof (Best q u U) as G3. assert (Z : error (p g) (dx g, dy g) l = 0) by lra.
  assert (FT : forall c, In c l -> foot (p g) (dx g, dy g) c = (px c, py c)). { intros c I. unfold foot. rewrite (G2 Z c I (W c I)). f_equal; ring. }
  exists a, b. split; [ exact F | ]. split.
  - exists c1, c2. split; [ exact I1 | ]. split; [ exact I2 | ]. rewrite A, B, !FT by assumption. split; reflexivity.
  - intros c I. destruct (H c I) as (t & Ht & T). exists t. split; [ exact Ht | ]. rewrite <- FT by exact I. exact T.
Qed.
Print Assumptions C93_exact.
Example C93_ex : let l := [XYW 0 1 2; XYW 1 3 1; XYW 3 7 1] in
  (forall a, In a l -> 0 < pw a) /\ 0 < weight_of l /\
  is_direction (1 / sqrt 5, 2 / sqrt 5) /\ (forall a, In a l -> off (0, 1) (1 / sqrt 5, 2 / sqrt 5) a = 0).
Proof.
  intros l. assert (P : 0 < sqrt 5) by (apply sqrt_lt_R0; lra). assert (S5 : sqrt 5 * sqrt 5 = 5) by (apply sqrt_sqrt; lra).
  split; [ intros a [<- | [<- | [<- | []]]]; cbn; lra | ]. split; [ cbn; lra | ]. split.
  - unfold is_direction. cbn [fst snd]. replace (1 / sqrt 5 * (1 / sqrt 5) + 2 / sqrt 5 * (2 / sqrt 5)) with (5 / (sqrt 5 * sqrt 5)) by (field; lra). rewrite S5. field.
  - intros a [<- | [<- | [<- | []]]]; unfold off; cbn [fst snd px py]; field; lra.
Qed.
(** Without any weight there is no segment. *)
Theorem C93_no_weight : forall l, weight_of l = 0 -> fit_segment l = None.
Proof.
  intros l Z. unfold fit_segment, fit_line. rewrite fold_add. cbn [s_n]. rewrite Z, Rplus_0_l. destruct (Req_EM_T 0 0) as [_ | N]; [ reflexivity | lra ].
Qed.
Print Assumptions C93_no_weight.
