(** * The forward rate is the derivative of the value *)
From Coquelicot Require Import Coquelicot.
From Coq Require Import Reals List Arith Lra Lia FunctionalExtensionality.
From Verif Require Import BsplModel BsplProofs BsdProofs KinModel KinSpec KinProofs KinExp KinCurve KinProps
  GqModel GqSpec GqLin GqInv.
Import ListNotations.
Local Open Scope R_scope.

(** ** A small calculus of derivatives *)
Lemma derive_eq (f : R -> R) (t a b : R) : is_derive f t a -> a = b -> is_derive f t b.
Proof. intros H E. rewrite <- E. exact H. Qed.
Lemma d_plus (f g : R -> R) (t a b : R) : is_derive f t a -> is_derive g t b -> is_derive (fun s => f s + g s) t (a + b).
Proof. apply (is_derive_plus (K := R_AbsRing) (V := R_NormedModule)). Qed.
Lemma d_minus (f g : R -> R) (t a b : R) : is_derive f t a -> is_derive g t b -> is_derive (fun s => f s - g s) t (a - b).
Proof. apply (is_derive_minus (K := R_AbsRing) (V := R_NormedModule)). Qed.
Lemma d_opp (f : R -> R) (t a : R) : is_derive f t a -> is_derive (fun s => - f s) t (- a).
Proof. apply (is_derive_opp (K := R_AbsRing) (V := R_NormedModule)). Qed.
Lemma d_const (x t : R) : is_derive (fun _ => x) t 0.
Proof. apply (@is_derive_const R_AbsRing R_NormedModule). Qed.
Lemma d_mult (f g : R -> R) (t a b : R) : is_derive f t a -> is_derive g t b ->
  is_derive (fun s => f s * g s) t (a * g t + f t * b).
Proof.
  intros A B. apply is_derive_Reals in A. apply is_derive_Reals in B. apply is_derive_Reals.
  exact (derivable_pt_lim_mult f g t a b A B).
Qed.
Lemma d_inv (f : R -> R) (t a : R) : is_derive f t a -> f t <> 0 -> is_derive (fun s => / f s) t (- a / (f t * f t)).
Proof.
  intros A N. eapply derive_eq; [apply (is_derive_inv f t a A N)|].
  unfold Rdiv. apply f_equal. apply f_equal. cbn [pow]. ring.
Qed.
Ltac dstep :=
  match goal with
  | H : is_derive ?f ?t _ |- is_derive ?f ?t _ => exact H
  | |- is_derive (fun s => @?f s + @?g s) ?t _ => apply (d_plus f g t)
  | |- is_derive (fun s => @?f s - @?g s) ?t _ => apply (d_minus f g t)
  | |- is_derive (fun s => - @?f s) ?t _ => apply (d_opp f t)
  | |- is_derive (fun s => @?f s * @?g s) ?t _ => apply (d_mult f g t)
  | |- is_derive (fun _ => ?x) ?t _ => apply (d_const x t)
  end.

Lemma quat_derive m (a b : R -> v4) t a' b' : v4_derive a t a' -> v4_derive b t b' ->
  v4_derive (fun s => quatMult m (a s) (b s)) t (v4_add (quatMult m a' (b t)) (quatMult m (a t) b')).
Proof.
  intros (A0 & A1 & A2 & A3) (B0 & B1 & B2 & B3). unfold v4_derive, quatMult, multTraditional, v4_add.
  destruct (traditional m); cbn [q0 q1 q2 q3].
  - split; [eapply derive_eq; [repeat dstep | ring]|].
    split; [eapply derive_eq; [repeat dstep | ring]|].
    split; eapply derive_eq; [repeat dstep | ring | repeat dstep | ring].
  - split; [eapply derive_eq; [repeat dstep | ring]|].
    split; [eapply derive_eq; [repeat dstep | ring]|].
    split; eapply derive_eq; [repeat dstep | ring | repeat dstep | ring].
Qed.
Definition pure (v : v3) : v4 := V4 (x0 v) (x1 v) (x2 v) 0.
Lemma quatMultPure_pure m a v : quatMultPure m a v = quatMult m a (pure v).
Proof.
  unfold quatMultPure, quatMult, multTraditionalPureLeft, multTraditionalPureRight, multTraditional, pure.
  cbn [q0 q1 q2 q3]. destruct (traditional m); f_equal; ring.
Qed.
Lemma pure_derive v t v' : v3_derive v t v' -> v4_derive (fun s => pure (v s)) t (pure v').
Proof.
  intros (A & B & C). unfold v4_derive, pure. cbn [q0 q1 q2 q3].
  split; [exact A|]. split; [exact B|]. split; [exact C | apply d_const].
Qed.
Lemma conj_derive q t q' : v4_derive q t q' -> v4_derive (fun s => conjugate (q s)) t (conjugate q').
Proof.
  intros (A & B & C & D). unfold v4_derive, conjugate. cbn [q0 q1 q2 q3].
  split; [apply d_opp, A|]. split; [apply d_opp, B|]. split; [apply d_opp, C | exact D].
Qed.
Lemma imag_derive q t q' : v4_derive q t q' -> v3_derive (fun s => imag (q s)) t (imag q').
Proof.
  intros (A & B & C & D). unfold v3_derive, imag. cbn [x0 x1 x2].
  split; [exact A|]. split; [exact B | exact C].
Qed.
Lemma v3_derive_eq f t a b : v3_derive f t a -> a = b -> v3_derive f t b.
Proof. intros H E. rewrite <- E. exact H. Qed.
Lemma v4_derive_eq f t a b : v4_derive f t a -> a = b -> v4_derive f t b.
Proof. intros H E. rewrite <- E. exact H. Qed.

Lemma v3_same (f g : R -> v3) t a : (forall s, f s = g s) -> v3_derive f t a -> v3_derive g t a.
Proof. intros E H. replace g with f; [exact H | apply functional_extensionality, E]. Qed.
Lemma v4_same (f g : R -> v4) t a : (forall s, f s = g s) -> v4_derive f t a -> v4_derive g t a.
Proof. intros E H. replace g with f; [exact H | apply functional_extensionality, E]. Qed.

Lemma vscale1 a : v4_scale 1 a = a.
Proof. destruct a as [a1 a2 a3 a4]. unfold v4_scale. cbn [q0 q1 q2 q3]. f_equal; ring. Qed.

Lemma rotated_derive m q v t q' v' : v4_derive q t q' -> v3_derive v t v' ->
  v3_derive (fun s => rotated m (q s) (v s)) t (v3_add (qrotDiffL m (q t) (v t) q') (rotated m (q t) v')).
Proof.
  intros Hq Hv. unfold rotated.
  pose proof (quat_derive m _ _ t _ _ (quat_derive m _ _ t _ _ Hq (pure_derive _ _ _ Hv)) (conj_derive _ _ _ Hq)) as D.
  cbv beta in D. apply imag_derive in D.
  eapply v3_derive_eq.
  { eapply v3_same; [|exact D]. intros s. rewrite quatMultPure_pure. reflexivity. }
  unfold qrotDiffL. rewrite !quatMultPure_pure.
  assert (Q : forall u w x, quatMult m (v4_add u w) x = v4_add (quatMult m u x) (quatMult m w x)).
  { intros u w x. pose proof (quat_l m x u w 1) as L. cbv beta in L. rewrite !vscale1 in L. exact L. }
  rewrite Q. clear Q.
  generalize (quatMult m (quatMult m q' (pure (v t))) (conjugate (q t))),
    (quatMult m (quatMult m (q t) (pure v')) (conjugate (q t))),
    (quatMult m (quatMult m (q t) (pure (v t))) (conjugate q')).
  intros u w z. unfold imag, v4_add, v4_scale, v3_add. cbn [q0 q1 q2 q3 x0 x1 x2]. f_equal; ring.
Qed.

Lemma invert_derive m q t q' : v4_derive q t q' -> v4_dot (q t) (q t) <> 0 ->
  v4_derive (fun s => invert (q s)) t (qinvDiff m (q t) q').
Proof.
  intros (A & B & C & D) N.
  unfold v4_derive, invert, qinvDiff, quatMult, multTraditional, conjugate, v4_scale, v4_dot, v4_neg in *.
  cbv zeta. cbn [q0 q1 q2 q3] in *.
  assert (N' : - q0 (q t) * - q0 (q t) + - q1 (q t) * - q1 (q t) + - q2 (q t) * - q2 (q t) + q3 (q t) * q3 (q t) <> 0)
    by (intros E; apply N; rewrite <- E; ring).
  assert (I : is_derive (fun s => / (- q0 (q s) * - q0 (q s) + - q1 (q s) * - q1 (q s) + - q2 (q s) * - q2 (q s) + q3 (q s) * q3 (q s))) t
     (- (2 * (q0 (q t) * q0 q' + q1 (q t) * q1 q' + q2 (q t) * q2 q' + q3 (q t) * q3 q')) /
      ((- q0 (q t) * - q0 (q t) + - q1 (q t) * - q1 (q t) + - q2 (q t) * - q2 (q t) + q3 (q t) * q3 (q t)) *
       (- q0 (q t) * - q0 (q t) + - q1 (q t) * - q1 (q t) + - q2 (q t) * - q2 (q t) + q3 (q t) * q3 (q t))))).
  { apply (d_inv (fun s => - q0 (q s) * - q0 (q s) + - q1 (q s) * - q1 (q s) + - q2 (q s) * - q2 (q s) + q3 (q s) * q3 (q s)) t);
      [|exact N']. eapply derive_eq; [repeat dstep | ring]. }
  destruct (traditional m); cbn [q0 q1 q2 q3].
  - split; [eapply derive_eq; [repeat dstep | field; exact N']|].
    split; [eapply derive_eq; [repeat dstep | field; exact N']|].
    split; eapply derive_eq; [repeat dstep | field; exact N' | repeat dstep | field; exact N'].
  - split; [eapply derive_eq; [repeat dstep | field; exact N']|].
    split; [eapply derive_eq; [repeat dstep | field; exact N']|].
    split; eapply derive_eq; [repeat dstep | field; exact N' | repeat dstep | field; exact N'].
Qed.

(** Places of a quaternion in a column, and back. *)
Lemma toq_ofq m q : toq m (ofq m q) = q.
Proof. unfold toq, ofq. cbn [Nat.eqb]. destruct (real_first m), q; reflexivity. Qed.
Lemma toq_derive m (A : R -> mat) A' t :
  (forall r c, (r < 4)%nat -> (c < 1)%nat -> is_derive (fun s => A s r c) t (A' r c)) ->
  v4_derive (fun s => toq m (A s)) t (toq m A').
Proof.
  intros H. unfold v4_derive, toq. destruct (real_first m); cbn [q0 q1 q2 q3];
    (split; [apply H; lia|]; split; [apply H; lia|]; split; apply H; lia).
Qed.
Lemma ofq_derive m (q : R -> v4) q' t r c : (c < 1)%nat -> v4_derive q t q' ->
  is_derive (fun s => ofq m (q s) r c) t (ofq m q' r c).
Proof.
  intros Hc (A & B & C & D). unfold ofq. destruct (Nat.eqb_spec c 0) as [E|E]; [|lia].
  destruct (real_first m); destruct r as [|[|[|[|r]]]]; try assumption; apply d_const.
Qed.
Lemma of3_derive (v : R -> v3) v' t r c : (c < 1)%nat -> v3_derive v t v' ->
  is_derive (fun s => of3 (v s) r c) t (of3 v' r c).
Proof.
  intros Hc (A & B & C). unfold of3. destruct (Nat.eqb_spec c 0) as [E|E]; [|lia].
  destruct r as [|[|[|r]]]; cbn [v3_at]; try assumption; apply d_const.
Qed.
Lemma col3_derive (A : R -> mat) A' t c n : (c < n)%nat ->
  (forall r c, (r < 3)%nat -> (c < n)%nat -> is_derive (fun s => A s r c) t (A' r c)) ->
  v3_derive (fun s => col3 (A s) c) t (col3 A' c).
Proof.
  intros Hc H. unfold v3_derive, col3. cbn [x0 x1 x2].
  split; [apply H; lia|]. split; apply H; lia.
Qed.
Lemma cross_derive (a b : R -> v3) t a' b' r : v3_derive a t a' -> v3_derive b t b' ->
  is_derive (fun s => v3_at (v3_cross (a s) (b s)) r) t (v3_at (v3_cross a' (b t)) r + v3_at (v3_cross (a t) b') r).
Proof.
  intros (A & B & C) (D & E & F). unfold v3_cross.
  destruct r as [|[|[|r]]]; cbn [v3_at x0 x1 x2]; eapply derive_eq; try (repeat dstep); ring.
Qed.

(** The exponential at zero. *)
Lemma exp_at_0 v : v4_derive (fun s => qexp (v3_scale s v)) 0 (pure v).
Proof.
  destruct (C54_update_jacobian quatIdentity (v3_scale 2 v)) as [D _].
  eapply v4_derive_eq.
  - eapply v4_same; [|exact D]. intros s. cbv beta.
    rewrite (proj2 (proj2 (C53_exponential (v3_scale s (v3_scale 2 v))))). unfold qexp.
    replace (v3_scale 2 (v3_scale s v)) with (v3_scale s (v3_scale 2 v))
      by (unfold v3_scale; cbn [x0 x1 x2]; f_equal; ring).
    destruct (axisAngle2quat (v3_scale s (v3_scale 2 v))) as [a b c d].
    unfold qplus, quatIdentity. cbn [q0 q1 q2 q3]. f_equal; ring.
  - unfold quatJacobian, quatIdentity, m43_vec, m43_scale, v3_scale, v3_dot, pure.
    cbn [a0 a1 a2 a3 q0 q1 q2 q3 x0 x1 x2]. destruct v as [i j k]. cbn [x0 x1 x2]. f_equal; field.
Qed.
Lemma qexp_0 v : qexp (v3_scale 0 v) = quatIdentity.
Proof.
  unfold qexp. rewrite <- (proj1 (proj2 (C53_exponential v3_zero))). f_equal.
  unfold v3_scale, v3_zero. cbn [x0 x1 x2]. f_equal; ring.
Qed.
Lemma quat_id_l m q : quatMult m quatIdentity q = q.
Proof.
  unfold quatMult, multTraditional, quatIdentity. destruct q as [i j k r]. cbn [q0 q1 q2 q3].
  destruct (traditional m); f_equal; ring.
Qed.
Lemma quat_id_r m q : quatMult m q quatIdentity = q.
Proof.
  unfold quatMult, multTraditional, quatIdentity. destruct q as [i j k r]. cbn [q0 q1 q2 q3].
  destruct (traditional m); f_equal; ring.
Qed.
Lemma update_0 m g p v : update m g p (v3_scale 0 v) = p.
Proof. unfold update. rewrite qexp_0. destruct g; [apply quat_id_r | apply quat_id_l]. Qed.

Lemma dUpdate_column m g p v r c : (c < 1)%nat ->
  mmul 3 (dUpdate m g p) (column 3 v) r c =
  ofq m (match g with
         | LEFT_TRANSLATED => quatMult m p (pure (V3 (v 0%nat) (v 1%nat) (v 2%nat)))
         | RIGHT_TRANSLATED => quatMult m (pure (V3 (v 0%nat) (v 1%nat) (v 2%nat))) p
         end) r c.
Proof.
  intros Hc. replace c with 0%nat by lia. rewrite mmul_column_at.
  unfold dUpdate, quatMult, multTraditional, pure, ofq, unit4th. cbn [Nat.eqb bsum x0 x1 x2].
  destruct g, (traditional m); cbn [Bool.eqb negb];
    destruct (real_first m); destruct r as [|[|[|[|r]]]];
    unfold m4_vec, quatPlus, quatOPlus, v4_dot; cbn [r40 r41 r42 r43 q0 q1 q2 q3]; ring.
Qed.
Lemma update_derive_0 m g p v :
  v4_derive (fun s => update m g p (v3_scale s v)) 0
    (match g with LEFT_TRANSLATED => quatMult m p (pure v) | RIGHT_TRANSLATED => quatMult m (pure v) p end).
Proof.
  assert (P : v4_derive (fun _ => p) 0 v4_zero).
  { unfold v4_derive, v4_zero. cbn [q0 q1 q2 q3].
    split; [apply d_const|]. split; [apply d_const|]. split; apply d_const. }
  unfold update. destruct g.
  - eapply v4_derive_eq; [apply (quat_derive m _ _ 0 _ _ P (exp_at_0 v))|]. cbv beta.
    unfold quatMult, multTraditional, v4_add, v4_zero. cbn [q0 q1 q2 q3]. destruct (traditional m); cbn [q0 q1 q2 q3]; f_equal; ring.
  - eapply v4_derive_eq; [apply (quat_derive m _ _ 0 _ _ (exp_at_0 v) P)|]. cbv beta.
    unfold quatMult, multTraditional, v4_add, v4_zero. cbn [q0 q1 q2 q3]. destruct (traditional m); cbn [q0 q1 q2 q3]; f_equal; ring.
Qed.

Section Rates.
Variable K : nat -> kind.
Variable inverse : nat -> mat -> mat.
Notation value := (value K inverse).
Notation rate := (rate K inverse).

Lemma step_vec (d : env) i s : V3 (s * d i 0%nat) (s * d i 1%nat) (s * d i 2%nat) = v3_scale s (V3 (d i 0%nat) (d i 1%nat) (d i 2%nat)).
Proof. reflexivity. Qed.
Lemma ofq_column m q : column 4 (fun r => ofq m q r 0%nat) = ofq m q.
Proof.
  mext. unfold column. destruct (Nat.ltb_spec r 4) as [L|L]; destruct (Nat.eqb_spec c 0) as [E|E]; cbn [andb].
  - rewrite E. reflexivity.
  - unfold ofq. destruct (Nat.eqb_spec c 0); [lia | reflexivity].
  - unfold ofq. destruct (c =? 0)%nat, (real_first m); destruct r as [|[|[|[|r]]]]; try lia; reflexivity.
  - unfold ofq. destruct (Nat.eqb_spec c 0); [lia | reflexivity].
Qed.
Lemma ofq_toq_column m x : ofq m (toq m (column 4 x)) = column 4 x.
Proof.
  mext. unfold ofq, toq, column. cbn [Nat.eqb Nat.ltb Nat.leb andb].
  destruct (Nat.eqb_spec c 0) as [E|E].
  - rewrite Bool.andb_true_r. destruct (real_first m); cbn [q0 q1 q2 q3]; destruct r as [|[|[|[|r]]]]; reflexivity.
  - rewrite Bool.andb_false_r. reflexivity.
Qed.
Lemma stepped_column_0 th d i : column (size (K i)) (moved K th d 0 i) = column (size (K i)) (th i).
Proof.
  unfold moved, stepped. destruct (K i) as [n|m g]; cbn [size].
  - f_equal. apply functional_extensionality. intros r. ring.
  - rewrite ofq_column, step_vec, update_0. apply ofq_toq_column.
Qed.
Lemma value_0 th d e : value (moved K th d 0) e = value th e.
Proof.
  induction e; cbn [GqModel.value]; rewrite ?IHe, ?IHe1, ?IHe2; try reflexivity; apply stepped_column_0.
Qed.

Lemma rate_derive th d : forall e m n, shaped K e m n -> regular K inverse th d e ->
  forall r c, (r < m)%nat -> (c < n)%nat ->
  is_derive (fun s => value (moved K th d s) e r c) 0 (rate th d e r c).
Proof.
  intros e m n S. induction S; intros G r0 c0 Hr Hc; cbn [regular] in G; cbn [GqModel.value GqLin.rate].
  - unfold moved, stepped. revert Hr. destruct (K i) as [n|m g]; cbn [size]; intros Hr.
    + unfold column. destruct (andb (r0 <? n)%nat (c0 =? 0)%nat); [|apply d_const].
      eapply derive_eq; [apply (d_plus (fun _ => th i r0) (fun s => s * d i r0) 0 0 (d i r0)); [apply d_const|]|ring].
      eapply derive_eq; [apply (d_mult (fun s => s) (fun _ => d i r0) 0 1 0); [apply (is_derive_id (K := R_AbsRing)) | apply d_const]|ring].
    + rewrite dUpdate_column by exact Hc.
      apply (is_derive_ext (fun s => ofq m (update m g (toq m (column 4 (th i))) (v3_scale s (V3 (d i 0%nat) (d i 1%nat) (d i 2%nat)))) r0 c0)).
      { intros s. rewrite (ofq_column m). reflexivity. }
      apply ofq_derive; [exact Hc|]. apply update_derive_0.
  - rewrite H. cbn [size]. unfold moved, stepped. rewrite H.
    unfold column. destruct (andb (r0 <? n)%nat (c0 =? 0)%nat); [|apply d_const].
    eapply derive_eq; [apply (d_plus (fun _ => th i r0) (fun s => s * d i r0) 0 0 (d i r0)); [apply d_const|]|ring].
    eapply derive_eq; [apply (d_mult (fun s => s) (fun _ => d i r0) 0 1 0); [apply (is_derive_id (K := R_AbsRing)) | apply d_const]|ring].
  - apply d_const.
  - apply IHS; assumption.
  - unfold mtrans. apply IHS; assumption.
  - destruct G as [Ga Gi].
    pose proof (inverse_derive n (fun s => value (moved K th d s) a)
      (fun s => inverse n (value (moved K th d s) a)) (rate th d a)) as D.
    cbv beta in D. rewrite (value_0 th d a) in D. apply D; try assumption.
    + intros r c Hr' Hc'. apply (IHS Ga); assumption.
  - destruct G as [Ga Gb]. unfold madd, mmul. rewrite <- bsum_plus. apply bsum_derive. intros j Hj.
    eapply derive_eq; [apply (d_mult (fun s => value (moved K th d s) a r0 j) (fun s => value (moved K th d s) b j c0) 0
       (rate th d a r0 j) (rate th d b j c0)); [apply (IHS1 Ga); assumption | apply (IHS2 Gb); assumption]|].
    cbv beta. rewrite !value_0. reflexivity.
  - destruct G as [Ga Gb]. apply d_plus; [apply (IHS1 Ga); assumption | apply (IHS2 Gb); assumption].
  - destruct G as [Ga Gb]. unfold madd, mneg, msub.
    apply d_minus; [apply (IHS1 Ga); assumption | apply (IHS2 Gb); assumption].
  - unfold mneg. apply d_opp. apply IHS; assumption.
  - unfold mscale. eapply derive_eq; [apply (d_mult (fun x => value (moved K th d x) a r0 c0) (fun _ => s) 0 (rate th d a r0 c0) 0);
      [apply IHS; assumption | apply d_const]|]. ring.
  - destruct G as [Ga Gb]. unfold madd, crossInto. cbn [Nat.eqb].
    eapply derive_eq; [apply (cross_derive (fun s => col3 (value (moved K th d s) a) 0)
      (fun s => col3 (value (moved K th d s) b) (if (n =? 1)%nat then 0 else c0)) 0
      (col3 (rate th d a) 0) (col3 (rate th d b) (if (n =? 1)%nat then 0 else c0)))|].
    + apply (col3_derive _ _ _ 0 1); [lia|]. intros r c Hr' Hc'. apply (IHS1 Ga); assumption.
    + apply (col3_derive _ _ _ _ n); [destruct (n =? 1)%nat; lia|]. intros r c Hr' Hc'. apply (IHS2 Gb); assumption.
    + cbv beta. rewrite !value_0. reflexivity.
  - destruct G as [Ga Gb]. unfold madd, crossInto. cbn [Nat.eqb].
    eapply derive_eq; [apply (cross_derive (fun s => col3 (value (moved K th d s) a) (if (n =? 1)%nat then 0 else c0))
      (fun s => col3 (value (moved K th d s) b) 0) 0
      (col3 (rate th d a) (if (n =? 1)%nat then 0 else c0)) (col3 (rate th d b) 0))|].
    + apply (col3_derive _ _ _ _ n); [destruct (n =? 1)%nat; lia|]. intros r c Hr' Hc'. apply (IHS1 Ga); assumption.
    + apply (col3_derive _ _ _ 0 1); [lia|]. intros r c Hr' Hc'. apply (IHS2 Gb); assumption.
    + cbv beta. rewrite !value_0. reflexivity.
  - destruct G as [Ga Gb].
    pose proof (quat_derive m _ _ 0 _ _ (toq_derive m _ _ 0 (fun r c => IHS1 Ga r c)) (toq_derive m _ _ 0 (fun r c => IHS2 Gb r c))) as D.
    cbv beta in D. rewrite !value_0 in D.
    eapply derive_eq; [apply (ofq_derive m _ _ 0 r0 c0 Hc D)|].
    unfold madd. rewrite <- (vscale1 (quatMult m (toq m (value th a)) (toq m (rate th d b)))), ofq_lin.
    rewrite vscale1. ring.
  - destruct G as [Ga N].
    pose proof (invert_derive m _ 0 _ (toq_derive m _ _ 0 (fun r c => IHS Ga r c))) as D.
    cbv beta in D. rewrite !value_0 in D. apply (ofq_derive m _ _ 0 r0 c0 Hc (D N)).
  - apply (ofq_derive m _ _ 0 r0 c0 Hc (conj_derive _ _ _ (toq_derive m _ _ 0 (fun r c => IHS G r c)))).
  - apply (of3_derive _ _ 0 r0 c0 Hc (imag_derive _ _ _ (toq_derive m _ _ 0 (fun r c => IHS G r c)))).
  - destruct G as [Ga Gb].
    pose proof (rotated_derive m _ _ 0 _ _ (toq_derive m _ _ 0 (fun r c => IHS1 Ga r c))
      (col3_derive _ _ 0 0 1 Nat.lt_0_1 (fun r c => IHS2 Gb r c))) as D.
    cbv beta in D. rewrite !value_0 in D.
    eapply derive_eq; [apply (of3_derive _ _ 0 r0 c0 Hc D)|].
    unfold madd, of3, v3_add. destruct (c0 =? 0)%nat; [|ring].
    destruct r0 as [|[|[|r0]]]; cbn [v3_at x0 x1 x2]; ring.
  - destruct G as [Ga N].
    assert (D : v3_derive (fun s => v3_scale 2 (col3 (value (moved K th d s) a) 0)) 0 (v3_scale 2 (col3 (rate th d a) 0))).
    { destruct (col3_derive _ _ 0 0 1 Nat.lt_0_1 (fun r c => IHS Ga r c)) as (D0 & D1 & D2).
      unfold v3_derive, v3_scale. cbn [x0 x1 x2].
      split; [apply derive_scal_const, D0|]. split; apply derive_scal_const; assumption. }
    pose proof (proj1 C54_exp_jacobian _ 0 _ D) as E. cbv beta in E. rewrite value_0 in E.
    eapply derive_eq; [apply (ofq_derive m _ _ 0 r0 c0 Hc (E N))|].
    replace c0 with 0%nat by lia. unfold mmul, dexp. cbn [bsum].
    destruct (quatExpJacobian (v3_scale 2 (col3 (value th a) 0))) as [u v w z].
    unfold ofq, m43_vec, m43_scale, unit3, v3_dot, v3_scale, col3. cbn [Nat.eqb a0 a1 a2 a3 q0 q1 q2 q3 x0 x1 x2].
    destruct (real_first m); destruct r0 as [|[|[|[|r0]]]]; ring.
Qed.
End Rates.

(** ** The quaternion algebra *)
Ltac q4eq := unfold quatMult, multTraditional, rotated, quatMultPure, multTraditionalPureLeft,
  multTraditionalPureRight, conjugate, imag, v4_dot, v3_dot in *; cbn [q0 q1 q2 q3 x0 x1 x2] in *.
Lemma assoc m a b c : quatMult m a (quatMult m b c) = quatMult m (quatMult m a b) c.
Proof. q4eq. destruct (traditional m); cbn [q0 q1 q2 q3]; f_equal; ring. Qed.
Lemma norm_mult m a b : v4_dot (quatMult m a b) (quatMult m a b) = v4_dot a a * v4_dot b b.
Proof. q4eq. destruct (traditional m); cbn [q0 q1 q2 q3]; ring. Qed.
Lemma inverse_sides m a : v4_dot a a <> 0 ->
  quatMult m a (invert a) = V4 0 0 0 1 /\ quatMult m (invert a) a = V4 0 0 0 1.
Proof.
  intros N. unfold invert, v4_scale. q4eq.
  assert (E : - q0 a * - q0 a + - q1 a * - q1 a + - q2 a * - q2 a + q3 a * q3 a =
    q0 a * q0 a + q1 a * q1 a + q2 a * q2 a + q3 a * q3 a) by ring.
  rewrite E. destruct (traditional m); cbn [q0 q1 q2 q3]; (split; f_equal; field; exact N).
Qed.
Lemma conj_mult m a b : conjugate (quatMult m a b) = quatMult m (conjugate b) (conjugate a).
Proof. q4eq. destruct (traditional m); cbn [q0 q1 q2 q3]; f_equal; ring. Qed.
Lemma rotated_pure m a v : pure (rotated m a v) = quatMult m (quatMult m a (pure v)) (conjugate a).
Proof.
  unfold rotated, pure. q4eq. destruct (traditional m); cbn [q0 q1 q2 q3 x0 x1 x2]; f_equal; ring.
Qed.
Lemma rotated_comp m a b v : rotated m a (rotated m b v) = rotated m (quatMult m a b) v.
Proof.
  assert (P : forall x y, pure x = pure y -> x = y).
  { intros [u1 u2 u3] [w1 w2 w3] E. injection E as E1 E2 E3. cbn [x0 x1 x2] in *. congruence. }
  apply P. rewrite !rotated_pure, conj_mult, !assoc. reflexivity.
Qed.
Lemma rotated_norm m a v :
  v3_dot (rotated m a v) (rotated m a v) = v4_dot a a * v4_dot a a * v3_dot v v.
Proof.
  assert (P : forall x, v3_dot x x = v4_dot (pure x) (pure x)) by (intros x; unfold pure; q4eq; ring).
  assert (C : v4_dot (conjugate a) (conjugate a) = v4_dot a a) by (q4eq; ring).
  rewrite !P, rotated_pure, !norm_mult, C. ring.
Qed.
Lemma unit_invert a : unit4 a -> invert a = conjugate a.
Proof.
  unfold unit4. intros U. unfold invert, v4_scale, v4_dot, conjugate. cbn [q0 q1 q2 q3].
  replace (- q0 a * - q0 a + - q1 a * - q1 a + - q2 a * - q2 a + q3 a * q3 a) with 1 by (rewrite <- U; ring).
  f_equal; field.
Qed.
Lemma ij m : quatMult m (V4 1 0 0 0) (V4 0 1 0 0) = V4 0 0 (if traditional m then 1 else -1) 0.
Proof. unfold quatMult, multTraditional. destruct (traditional m); cbn [q0 q1 q2 q3]; f_equal; ring. Qed.

(** ** The two cases without a right Jacobian *)
Lemma left_moves m :
  let K := fun _ : nat => Kquaternion m LEFT_TRANSLATED in
  is_derive (fun s => value K (fun _ A => A)
      (moved K (fun _ r => ofq m (V4 0 0 0 1) r 0%nat) (fun _ r => if (r =? 0)%nat then 1 else 0) s)
      (Evar 0) (if real_first m then 1%nat else 0%nat) 0%nat) 0 1.
Proof.
  intros K.
  eapply derive_eq.
  - apply (rate_derive K (fun _ A => A) _ _ (Evar 0) 4 1 (S_var K 0) I); [destruct (real_first m)|]; lia.
  - cbn [rate]. unfold K at 1. rewrite dUpdate_column by lia. rewrite ofq_column, toq_ofq.
    unfold quatMult, multTraditional, pure, ofq. cbn [Nat.eqb].
    destruct (traditional m), (real_first m); cbn [q0 q1 q2 q3 x0 x1 x2]; ring.
Qed.
Lemma exp_scaled m :
  let K := fun _ : nat => Kvector 3 in
  let th := fun _ r : nat => if (r =? 0)%nat then PI / 2 else 0 in
  let d := fun _ r : nat => if (r =? 0)%nat then 1 else 0 in
  let inverse := fun (_ : nat) (A : mat) => A in
  let r := if real_first m then 0%nat else 3%nat in
  is_derive (fun s => value K inverse (moved K th d s) (Escale (Eqexp m (Evector 0)) 2) r 0%nat) 0 (-2) /\
  applied (jacobians K inverse th (Escale (Eqexp m (Evector 0)) 2) DIdentity) d r = -1.
Proof.
  intros K th d inverse r. pose proof PI_RGT_0 as HP. pose proof PI2_1 as HP2.
  set (e := Escale (Eqexp m (Evector 0)) 2).
  assert (S : shaped K e 4 1) by (apply S_scale, S_qexp, S_vector; reflexivity).
  assert (N : forall s, -1 < s < 1 ->
    v3_norm (v3_scale 2 (col3 (value K inverse (moved K th d s) (Evector 0)) 0)) = PI + 2 * s).
  { intros s Hs. cbn [GqModel.value]. unfold moved, stepped, K, column, col3, v3_scale, v3_norm, v3_dot, th, d.
    cbn [size Nat.ltb Nat.leb Nat.eqb andb x0 x1 x2].
    replace (2 * (PI / 2 + s * 1) * (2 * (PI / 2 + s * 1)) + 2 * (0 + s * 0) * (2 * (0 + s * 0)) +
      2 * (0 + s * 0) * (2 * (0 + s * 0))) with ((PI + 2 * s) * (PI + 2 * s)) by field.
    apply sqrt_square. lra. }
  assert (G : regular K inverse th d e).
  { cbn [regular e]. split; [exact I|]. rewrite <- (value_0 K inverse th d), N by lra. unfold eps4. lra. }
  assert (Hr : (r < 4)%nat) by (unfold r; destruct (real_first m); lia).
  pose proof (rate_derive K inverse th d e 4 1 S G r 0%nat Hr Nat.lt_0_1) as D1.
  assert (D2 : is_derive (fun s => value K inverse (moved K th d s) e r 0%nat) 0 (-2)).
  { apply (is_derive_ext_loc (fun s => 2 * cos (PI / 2 + s))).
    - exists (mkposreal 1 Rlt_0_1). intros s Hs. change (Rabs (s - 0) < 1) in Hs.
      apply Rabs_def2 in Hs. cbn [GqModel.value e]. unfold mscale, qexp, axisAngle2quat.
      assert (Ns := N s). cbn [GqModel.value] in Ns. rewrite Ns by lra. unfold ofq, r. cbn [Nat.eqb].
      replace ((PI + 2 * s) * (1 / 2)) with (PI / 2 + s) by field.
      destruct (real_first m); cbn [q3]; apply Rmult_comm.
    - auto_derive; [exact I|]. rewrite Rplus_0_r, sin_PI2. ring. }
  split; [exact D2|].
  pose proof (is_derive_unique _ _ _ D1) as U1. pose proof (is_derive_unique _ _ _ D2) as U2.
  rewrite U1 in U2. cbn [GqLin.rate e] in U2. unfold mscale in U2.
  cbn [jacobians e applied convertIntoMatrix]. change (size (K 0%nat)) with 3%nat.
  rewrite mmul_column_at in U2. change (size (K 0%nat)) with 3%nat in U2. lra.
Qed.
