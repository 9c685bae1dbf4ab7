(** * Proofs about detections *)
From Coq Require Import Reals List Arith ZArith Bool Lia Lra.
From Verif Require Import Base TagModel TagSpec TagProofs TdModel TdSpec.
Import ListNotations.
Local Open Scope R_scope.

Lemma rltb_true a b : rltb a b = true <-> a < b.
Proof. unfold rltb. destruct (Rlt_dec a b); split; intros; (reflexivity || discriminate || tauto || assumption). Qed.
Lemma rltb_false a b : rltb a b = false <-> b <= a.
Proof. unfold rltb. destruct (Rlt_dec a b); split; intros; (reflexivity || discriminate || lra). Qed.

(** ** Distances *)
Lemma distance_0 a : distance2D a a = 0.
Proof. unfold distance2D. cbv zeta. rewrite !Rminus_diag_eq by reflexivity. replace (0 * 0 + 0 * 0) with 0 by ring. apply sqrt_0. Qed.
Lemma distance_sym a b : distance2D a b = distance2D b a.
Proof. unfold distance2D. cbv zeta. f_equal. ring. Qed.
Lemma distance_pos a b : a <> b -> 0 < distance2D a b.
Proof.
  intros N. unfold distance2D. cbv zeta. apply sqrt_lt_R0. destruct a as (a1 & a2), b as (b1 & b2). cbn [fst snd].
  destruct (Req_EM_T a1 b1) as [ -> | N1 ].
  - assert (a2 <> b2) by congruence. assert (0 < (a2 - b2) * (a2 - b2)) by (apply Rsqr_pos_lt; lra). nra.
  - assert (0 < (a1 - b1) * (a1 - b1)) by (apply Rsqr_pos_lt; lra). pose proof (Rle_0_sqr (a2 - b2)). unfold Rsqr in *. lra.
Qed.
Lemma overlaps_sym a b : overlaps a b = overlaps b a.
Proof. unfold overlaps. cbv zeta. rewrite distance_sym. f_equal. field. Qed.

(** ** The nearest corner *)
Lemma nearest_corner_spec b q k : (k < 4)%nat -> distinct q -> b = q k -> nearest_corner b q 0 4 (-1) flt_max = Z.of_nat k.
Proof.
  intros K D ->. assert (F : 0 < flt_max) by (unfold flt_max; apply (IZR_lt 0); reflexivity).
  assert (P : forall i, (i < 4)%nat -> i <> k -> 0 < distance2D (q k) (q i)).
  { intros i Hi N. apply distance_pos. intros E. apply N. symmetry. apply D; assumption. }
  assert (KEEP : forall n i dist rot, (i + n <= 4)%nat -> 0 <= dist -> (k < i)%nat -> dist = 0 -> nearest_corner (q k) q i n rot dist = rot).
  { induction n as [ | n IH ]; intros i dist rot L0 L1 L2 ->; cbn [nearest_corner]; [ reflexivity | ]. cbv zeta.
    rewrite (proj2 (rltb_false _ _)); [ apply IH; lia || lra | ]. apply Rlt_le, P; lia. }
  assert (RUN : forall n i dist rot, (i + n = 4)%nat -> (i <= k)%nat -> 0 < dist -> nearest_corner (q k) q i n rot dist = Z.of_nat k).
  { induction n as [ | n IH ]; intros i dist rot L0 L1 L2; cbn [nearest_corner]; [ lia | ]. cbv zeta.
    destruct (Nat.eq_dec i k) as [ -> | N ].
    - rewrite distance_0, (proj2 (rltb_true _ _)) by exact L2. apply KEEP; lia || lra.
    - destruct (rltb (distance2D (q k) (q i)) dist); apply IH; try lia; [ apply P; lia | exact L2 ]. }
  apply RUN; lia || exact F.
Qed.

(** ** Turning the homography *)
Definition cs (k : nat) : R := match k with 0%nat => 1 | 2%nat => -1 | _ => 0 end.
Definition sn (k : nat) : R := match k with 1%nat => 1 | 3%nat => -1 | _ => 0 end.
Lemma cos_turn k : (k < 4)%nat -> cos (IZR (Z.of_nat k) * PI / 2) = cs k.
Proof.
  intros K. destruct k as [ | [ | [ | [ | k ] ] ] ]; try lia; cbn [Z.of_nat Pos.of_succ_nat Pos.succ cs].
  - replace (0 * PI / 2) with 0 by field. apply cos_0.
  - replace (1 * PI / 2) with (PI / 2) by field. apply cos_PI2.
  - replace (2 * PI / 2) with PI by field. apply cos_PI.
  - replace (3 * PI / 2) with (3 * (PI / 2)) by field. apply cos_3PI2.
Qed.
Lemma sin_turn k : (k < 4)%nat -> sin (IZR (Z.of_nat k) * PI / 2) = sn k.
Proof.
  intros K. destruct k as [ | [ | [ | [ | k ] ] ] ]; try lia; cbn [Z.of_nat Pos.of_succ_nat Pos.succ sn].
  - replace (0 * PI / 2) with 0 by field. apply sin_0.
  - replace (1 * PI / 2) with (PI / 2) by field. apply sin_PI2.
  - replace (2 * PI / 2) with PI by field. apply sin_PI.
  - replace (3 * PI / 2) with (3 * (PI / 2)) by field. apply sin_3PI2.
Qed.
Lemma project_turned H c q k i : (k < 4)%nat -> (i < 4)%nat -> takes H c q ->
  project (times H (turn_matrix (Z.of_nat k))) c (fst (corner i)) (snd (corner i)) = started k q i.
Proof.
  intros K I T. unfold started. specialize (T ((i + k) mod 4)%nat (Nat.mod_upper_bound _ 4 ltac:(lia))). cbv zeta in T.
  destruct T as (Z & T1 & T2).
  set (x := fst (corner i)). set (y := snd (corner i)). set (x' := fst (corner ((i + k) mod 4))) in *. set (y' := snd (corner ((i + k) mod 4))) in *.
  assert (X : x' = cs k * x - sn k * y /\ y' = sn k * x + cs k * y).
  { unfold x, y, x', y'. destruct k as [ | [ | [ | [ | k ] ] ] ]; try lia; destruct i as [ | [ | [ | [ | i ] ] ] ]; try lia; cbn; lra. }
  destruct X as (X & Y).
  assert (ROW : forall r, times H (turn_matrix (Z.of_nat k)) r 0%nat * x + times H (turn_matrix (Z.of_nat k)) r 1%nat * y + times H (turn_matrix (Z.of_nat k)) r 2%nat =
                          H r 0%nat * x' + H r 1%nat * y' + H r 2%nat).
  { intros r. unfold times, turn_matrix. rewrite cos_turn, sin_turn, X, Y by exact K. ring. }
  unfold project. rewrite !ROW. destruct (Req_EM_T _ 0) as [ E | _ ]; [ contradiction | ]. rewrite T1, T2. symmetry. apply surjective_pairing.
Qed.

(** ** Where the cells are, from another corner *)
Lemma started_interpolate q x y : interpolate (started 1 q) x y = interpolate q (- y) x.
Proof. unfold interpolate, started. cbv zeta. cbn [Nat.add]. change (4 mod 4)%nat with 0%nat. change (1 mod 4)%nat with 1%nat. change (2 mod 4)%nat with 2%nat. change (3 mod 4)%nat with 3%nat. f_equal; field. Qed.
Lemma started_started q j k i : started j (started k q) i = started (j + k) q i.
Proof.
  unfold started. f_equal. rewrite Nat.add_mod_idemp_l by lia. f_equal. lia.
Qed.
Lemma interpolate_ext p q x y : (forall i, (i < 4)%nat -> p i = q i) -> interpolate p x y = interpolate q x y.
Proof. intros E. unfold interpolate. rewrite !E by lia. reflexivity. Qed.
Lemma cell_started f border q y x d : fdim f = Z.of_nat d -> (y < d)%nat -> (x < d)%nat ->
  cell_at f border (started 1 q) y x = cell_at f border q x (d - 1 - y).
Proof.
  intros E Hy Hx. unfold cell_at, interpolate01. cbv zeta. rewrite started_interpolate, E.
  replace (IZR (2 * Z.of_nat border + Z.of_nat d)) with (2 * INR border + INR d).
  2: { rewrite plus_IZR, mult_IZR, <- !INR_IZR_INZ. reflexivity. }
  assert (D : INR (d - 1 - y) = INR d - 1 - INR y) by (rewrite !minus_INR by lia; reflexivity).
  assert (P : 0 < 2 * INR border + INR d) by (pose proof (pos_INR border); assert (0 < INR d) by (apply lt_0_INR; lia); lra).
  rewrite D. f_equal. field. lra.
Qed.

(** ** Settling a detection *)
Lemma settle_length d kept : length (snd (settle d kept)) = length kept.
Proof.
  induction kept as [ | o r IH ]; [ reflexivity | ]. cbn [settle]. destruct (settle d r) as (fr & r'). cbn [snd] in IH.
  destruct (_ || _); [ cbn; lia | ]. cbn [snd]. destruct (_ <? _)%Z; [ cbn; lia | ]. destruct (_ || _); cbn; lia.
Qed.
(** Every kept entry stays or is replaced by the new one, which is then no worse. *)
Lemma settle_spec d : forall kept,
  let '(fresh, kept') := settle d kept in
  (fresh = true <-> forall o, In o kept -> ~ same_tag d o) /\
  (forall i o, nth_error kept i = Some o ->
     exists o', nth_error kept' i = Some o' /\
       ((o' = o /\ (same_tag d o -> no_worse o d)) \/ (o' = d /\ same_tag d o /\ no_worse d o))).
Proof.
  induction kept as [ | o r IH ]; cbn [settle].
  - split; [ split; [ intros _ o [] | reflexivity ] | ]. intros [ | i ] o E; discriminate.
  - destruct (settle d r) as (fr & r'). destruct IH as (F & N).
    assert (TAIL : forall x i o0, nth_error (o :: r) (S i) = Some o0 ->
      exists o', nth_error (x :: r') (S i) = Some o' /\ ((o' = o0 /\ (same_tag d o0 -> no_worse o0 d)) \/ (o' = d /\ same_tag d o0 /\ no_worse d o0))).
    { intros x i o0 E. cbn [nth_error] in *. exact (N i o0 E). }
    assert (CASE : same_tag d o \/ (~ same_tag d o /\ negb (t_id d =? t_id o)%Z || negb (overlaps d o) = true)).
    { unfold same_tag. destruct (Z.eqb_spec (t_id d) (t_id o)), (overlaps d o); cbn; [ left; split; [ assumption | reflexivity ] | right | right | right ];
        (split; [ intros (A & B); (discriminate || contradiction) | reflexivity ]). }
    destruct CASE as [ ST | (NS & ->) ].
    + assert (E : negb (t_id d =? t_id o)%Z || negb (overlaps d o) = false).
      { destruct ST as (A & B). rewrite A, Z.eqb_refl, B. reflexivity. }
      rewrite E. split; [ split; [ discriminate | intros H; exfalso; exact (H o (or_introl eq_refl) ST) ] | ].
      destruct (Z.ltb_spec (t_ham o) (t_ham d)).
      * intros [ | i ] o0 E0; [ | exact (TAIL o i o0 E0) ]. cbn in E0. injection E0 as <-. exists o. split; [ reflexivity | ]. left. split; [ reflexivity | ]. intros _. left. assumption.
      * destruct ((t_ham d <? t_ham o)%Z || rltb (t_per o) (t_per d)) eqn:B.
        -- intros [ | i ] o0 E0; [ | exact (TAIL d i o0 E0) ]. cbn in E0. injection E0 as <-. exists d. split; [ reflexivity | ]. right.
           split; [ reflexivity | ]. split; [ exact ST | ]. apply orb_true_iff in B. destruct B as [ B | B ].
           ++ left. apply Z.ltb_lt. exact B.
           ++ apply rltb_true in B. destruct (Z.eq_dec (t_ham d) (t_ham o)); [ right; split; [ assumption | lra ] | left; lia ].
        -- intros [ | i ] o0 E0; [ | exact (TAIL o i o0 E0) ]. cbn in E0. injection E0 as <-. exists o. split; [ reflexivity | ]. left. split; [ reflexivity | ].
           intros _. apply orb_false_iff in B. destruct B as (B1 & B2). apply Z.ltb_ge in B1. apply rltb_false in B2. right. split; [ lia | exact B2 ].
    + split.
      * rewrite F. split.
        -- intros H x [ <- | Hx ]; [ exact NS | apply H; exact Hx ].
        -- intros H x Hx. apply H. right. exact Hx.
      * intros [ | i ] o0 E0; [ | exact (TAIL o i o0 E0) ]. cbn in E0. injection E0 as <-. exists o. split; [ reflexivity | ]. left. split; [ reflexivity | ]. contradiction.
Qed.
Lemma no_worse_refl a : no_worse a a.
Proof. right. split; [ reflexivity | lra ]. Qed.
Lemma no_worse_trans a b c : no_worse a b -> no_worse b c -> no_worse a c.
Proof. unfold no_worse. intros [ A | (A & A') ] [ B | (B & B') ]; [ left; lia | left; lia | left; lia | right; split; [ lia | lra ] ]. Qed.
Lemma same_tag_sym a b : same_tag a b -> same_tag b a.
Proof. intros (A & B). split; [ congruence | rewrite overlaps_sym; exact B ]. Qed.
