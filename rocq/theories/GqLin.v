(** * The reverse sweep adds up to the differential of the forward rate *)
From Coquelicot Require Import Coquelicot.
From Coq Require Import Reals List Arith Lra Lia FunctionalExtensionality.
From Verif Require Import BsplModel BsplProofs KinModel GqModel GqSpec.
Import ListNotations.
Local Open Scope R_scope.

Ltac mext := let r := fresh "r" in let c := fresh "c" in
  apply functional_extensionality; intros r; apply functional_extensionality; intros c.

Lemma bsum_lin n f g s : bsum n (fun i => f i + s * g i) = bsum n f + s * bsum n g.
Proof. rewrite bsum_plus, bsum_scal. reflexivity. Qed.

Lemma app_lin : forall D, linear_diff D -> forall A B s r,
  applyInto D (fun r c => A r c + s * B r c) r = applyInto D A r + s * applyInto D B r.
Proof.
  induction D as [|k M|f next IH|k M next IH]; cbn [linear_diff applyInto]; intros L A B s r.
  - reflexivity.
  - unfold mmul. rewrite <- bsum_lin. apply bsum_ext. intros i _. ring.
  - destruct L as [Lf Ln]. rewrite Lf. apply IH, Ln.
  - rewrite <- IH by exact L. f_equal. mext. unfold mmul. rewrite <- bsum_lin.
    apply bsum_ext. intros i _. ring.
Qed.

Lemma app_zero D : linear_diff D -> forall r, applyInto D mzero r = 0.
Proof.
  intros L r. pose proof (app_lin D L mzero mzero (-1) r) as E.
  replace (fun r0 c : nat => mzero r0 c + -1 * mzero r0 c) with mzero in E
    by (mext; unfold mzero; ring).
  lra.
Qed.

Lemma app_add D : linear_diff D -> forall A B r,
  applyInto D (madd A B) r = applyInto D A r + applyInto D B r.
Proof.
  intros L A B r. rewrite <- (Rmult_1_l (applyInto D B r)), <- (app_lin D L).
  f_equal. mext. unfold madd. ring.
Qed.

Lemma app_sum D : linear_diff D -> forall n (B : nat -> mat) x r,
  applyInto D (fun r c => bsum n (fun j => B j r c * x j)) r = bsum n (fun j => applyInto D (B j) r * x j).
Proof.
  intros L. induction n as [|n IH]; intros B x r.
  - cbn [bsum]. apply (app_zero D L).
  - cbn [bsum]. rewrite <- IH, (Rmult_comm _ (x n)), <- (app_lin D L). f_equal. mext. ring.
Qed.

Lemma bsum_pick n k f : (k < n)%nat -> (forall i, (i < n)%nat -> i <> k -> f i = 0) -> bsum n f = f k.
Proof.
  induction n as [|n IH]; intros H Z; [lia|]. cbn [bsum].
  destruct (Nat.eq_dec k n) as [E|N].
  - rewrite (bsum_zero n f); [rewrite E; lra|]. intros i Hi. apply Z; lia.
  - rewrite IH by (try lia; intros; apply Z; lia). rewrite (Z n) by lia. lra.
Qed.

Lemma column_sum n x : (fun r c => bsum n (fun j => basis j r c * x j)) = column n x.
Proof.
  mext. unfold basis, column.
  destruct (Nat.eqb_spec c 0) as [C|C].
  - rewrite Bool.andb_true_r. destruct (Nat.ltb_spec r n) as [L|L].
    + rewrite (bsum_pick n r) by first [ assumption |
        intros i Hi Ni; destruct (Nat.eqb_spec r i) as [E|E]; [lia|cbn [andb]; ring] ].
      rewrite Nat.eqb_refl. cbn [andb]. ring.
    + apply bsum_zero. intros i Hi. destruct (Nat.eqb_spec r i) as [E|E]; [lia|cbn [andb]; ring].
  - rewrite Bool.andb_false_r. apply bsum_zero. intros i _. rewrite Bool.andb_false_r. ring.
Qed.

Lemma mmul_column k M x :
  mmul k M (column k x) = (fun r c => bsum k (fun j => (if (c =? 0)%nat then M r j else 0) * x j)).
Proof.
  mext. unfold mmul, column. apply bsum_ext. intros j Hj.
  destruct (Nat.ltb_spec j k) as [L|L]; [|lia]. cbn [andb].
  destruct (Nat.eqb_spec c 0); ring.
Qed.

Lemma mmul_column_at k M x r : mmul k M (column k x) r 0%nat = bsum k (fun j => M r j * x j).
Proof. rewrite mmul_column. reflexivity. Qed.

Lemma mmul_assoc k n A B C : mmul n (mmul k A B) C = mmul k A (mmul n B C).
Proof.
  mext. unfold mmul.
  transitivity (bsum n (fun j => bsum k (fun i => A r i * B i j * C j c))).
  - apply bsum_ext. intros j _. rewrite <- bsum_scal_r. reflexivity.
  - rewrite bsum_swap. apply bsum_ext. intros i _. rewrite <- bsum_scal.
    apply bsum_ext. intros j _. ring.
Qed.

(** The blocks times a direction. *)
Lemma byApplication_then D : linear_diff D -> forall n J x r,
  bsum n (fun c => byApplication (DMatrixThen n J D) r c * x c) = applyInto D (mmul n J (column n x)) r.
Proof.
  intros L n J x r. rewrite mmul_column. unfold byApplication. cbn [applyBasisVectorInto].
  symmetry. apply (app_sum D L n (fun j a c => if (c =? 0)%nat then J a j else 0)).
Qed.

Lemma addBlock_applied D n : linear_diff D ->
  (match D with DMatrix k _ | DMatrixThen k _ _ => k = n | _ => True end) -> forall x r,
  bsum n (fun c => addBlock D r c * x c) = applyInto D (column n x) r.
Proof.
  intros L Hk x r. destruct D as [|k M|f next|k M next]; cbn [addBlock].
  - cbn [applyInto]. rewrite <- column_sum. apply bsum_ext. intros j _.
    unfold midentity, basis. cbn [Nat.eqb]. rewrite Bool.andb_true_r. reflexivity.
  - cbn [applyInto]. rewrite Hk. symmetry. apply mmul_column_at.
  - cbn [applyInto]. unfold byApplication. cbn [applyBasisVectorInto].
    rewrite <- column_sum. symmetry.
    exact (app_sum (DMap f next) L n basis x r).
  - rewrite Hk. cbn [applyInto]. apply (byApplication_then next L).
Qed.

Lemma addBlockWith_applied D n J : linear_diff D ->
  (match D with DMatrix k _ | DMatrixThen k _ _ => k = 4%nat | _ => True end) -> forall x r,
  bsum n (fun c => addBlockWith D n J r c * x c) = applyInto D (mmul n J (column n x)) r.
Proof.
  intros L Hk x r. destruct D as [|k M|f next|k M next]; cbn [addBlockWith].
  - cbn [applyInto]. symmetry. apply mmul_column_at.
  - cbn [applyInto]. rewrite <- mmul_assoc. symmetry. apply mmul_column_at.
  - apply (byApplication_then (DMap f next) L).
  - cbn [applyInto]. rewrite <- mmul_assoc. apply (byApplication_then next L).
Qed.

Lemma convert_applied D n : linear_diff D ->
  (match D with DMatrix k _ => k = n | DMatrixThen _ _ _ => False | _ => True end) -> forall x r,
  bsum n (fun c => convertIntoMatrix D r c * x c) = applyInto D (column n x) r.
Proof.
  intros L Hk x r. destruct D as [|k M|f next|k M next].
  - apply (addBlock_applied DIdentity n I I).
  - apply (addBlock_applied (DMatrix k M) n I Hk).
  - apply (addBlock_applied (DMap f next) n L I).
  - destruct Hk.
Qed.

Section Sweep.
Variable K : nat -> kind.
Variable inverse : nat -> mat -> mat.
Notation value := (value K inverse).
Notation jacobians := (jacobians K inverse).

(** The rate of the value when the design variables move along [d]. *)
Fixpoint rate (th d : env) (e : expr) : mat :=
  match e with
  | Evar i =>
      match K i with
      | Kvector n => column n (d i)
      | Kquaternion m g => mmul 3 (dUpdate m g (toq m (column 4 (th i)))) (column 3 (d i))
      end
  | Evector i => column (size (K i)) (d i)
  | Econst _ => mzero
  | Ecopy a => rate th d a
  | Etrans a => mtrans (rate th d a)
  | Einv n a => invDiff n (inverse n (value th a)) (rate th d a)
  | Emul k a b => madd (mmul k (rate th d a) (value th b)) (mmul k (value th a) (rate th d b))
  | Eadd a b => madd (rate th d a) (rate th d b)
  | Esub a b => madd (rate th d a) (mneg (rate th d b))
  | Eneg a => mneg (rate th d a)
  | Escale a s => mscale (rate th d a) s
  | Ecross lc rc a b =>
      madd (crossInto lc rc (rate th d a) (value th b)) (crossInto lc rc (value th a) (rate th d b))
  | Eqmul m a b =>
      madd (ofq m (quatMult m (toq m (rate th d a)) (toq m (value th b))))
           (ofq m (quatMult m (toq m (value th a)) (toq m (rate th d b))))
  | Eqinv m a => ofq m (qinvDiff m (toq m (value th a)) (toq m (rate th d a)))
  | Eqconj m a => ofq m (conjugate (toq m (rate th d a)))
  | Eqimag m a => of3 (imag (toq m (rate th d a)))
  | Eqrot m a b =>
      madd (of3 (qrotDiffL m (toq m (value th a)) (col3 (value th b) 0) (toq m (rate th d a))))
           (of3 (rotated m (toq m (value th a)) (col3 (rate th d b) 0)))
  | Eqexp m a => mmul 3 (dexp m (col3 (value th a) 0)) (rate th d a)
  end.

Lemma applied_app : forall A B d r, applied (A ++ B) d r = applied A d r + applied B d r.
Proof.
  induction A as [|((i, n), J) A IH]; intros B d r; cbn [applied app]; [lra|].
  rewrite IH. lra.
Qed.

Definition ready (D : differential) (m : nat) (e : expr) : Prop :=
  match D with
  | DIdentity | DMap _ _ => True
  | DMatrix k _ => k = m
  | DMatrixThen k _ _ => k = m /\ match e with Evector _ => False | _ => True end
  end.

Ltac lin := let A := fresh "A" in let B := fresh "B" in let s := fresh "s" in
  intros A B s; mext.
Lemma lin_id : linear (fun T => T).
Proof. lin. reflexivity. Qed.
Lemma lin_trans : linear mtrans.
Proof. lin. reflexivity. Qed.
Lemma lin_neg : linear mneg.
Proof. lin. unfold mneg. ring. Qed.
Lemma lin_scale x : linear (fun T => mscale T x).
Proof. lin. unfold mscale. ring. Qed.
Lemma lin_mul_l k V : linear (fun T => mmul k T V).
Proof. lin. unfold mmul. rewrite <- bsum_lin. apply bsum_ext. intros; ring. Qed.
Lemma lin_mul_r k V : linear (fun T => mmul k V T).
Proof. lin. unfold mmul. rewrite <- bsum_lin. apply bsum_ext. intros; ring. Qed.
Lemma lin_inv n V : linear (invDiff n V).
Proof.
  intros A B s. unfold invDiff. rewrite (lin_mul_r n (mneg V)). apply (lin_mul_l n V).
Qed.
Lemma lin_cross_l lc rc V : linear (fun T => crossInto lc rc T V).
Proof.
  lin. unfold crossInto, v3_cross, col3. cbn [x0 x1 x2].
  destruct r as [|[|[|r]]]; cbn [v3_at x0 x1 x2]; ring.
Qed.
Lemma lin_cross_r lc rc V : linear (fun T => crossInto lc rc V T).
Proof.
  lin. unfold crossInto, v3_cross, col3. cbn [x0 x1 x2].
  destruct r as [|[|[|r]]]; cbn [v3_at x0 x1 x2]; ring.
Qed.

(** Functions of quaternions. *)
Definition lin44 (f : v4 -> v4) : Prop := forall a b s, f (v4_add a (v4_scale s b)) = v4_add (f a) (v4_scale s (f b)).
Definition lin43 (f : v4 -> v3) : Prop := forall a b s, f (v4_add a (v4_scale s b)) = v3_add (f a) (v3_scale s (f b)).
Definition lin33 (f : v3 -> v3) : Prop := forall a b s, f (v3_add a (v3_scale s b)) = v3_add (f a) (v3_scale s (f b)).
Lemma toq_lin m A B s : toq m (fun r c => A r c + s * B r c) = v4_add (toq m A) (v4_scale s (toq m B)).
Proof. unfold toq, v4_add, v4_scale. destruct (real_first m); reflexivity. Qed.
Lemma col3_lin A B s c : col3 (fun r c => A r c + s * B r c) c = v3_add (col3 A c) (v3_scale s (col3 B c)).
Proof. reflexivity. Qed.
Lemma ofq_lin m a b s : ofq m (v4_add a (v4_scale s b)) = (fun r c => ofq m a r c + s * ofq m b r c).
Proof.
  mext. unfold ofq, v4_add, v4_scale. destruct (c =? 0)%nat, (real_first m);
    destruct r as [|[|[|[|r]]]]; cbn [q0 q1 q2 q3]; ring.
Qed.
Lemma of3_lin a b s : of3 (v3_add a (v3_scale s b)) = (fun r c => of3 a r c + s * of3 b r c).
Proof.
  mext. unfold of3, v3_add, v3_scale. destruct (c =? 0)%nat;
    destruct r as [|[|[|r]]]; cbn [v3_at x0 x1 x2]; ring.
Qed.
Lemma lin_q m f : lin44 f -> linear (fun T => ofq m (f (toq m T))).
Proof. intros L A B s. rewrite toq_lin, L. apply ofq_lin. Qed.
Lemma lin_q3 m f : lin43 f -> linear (fun T => of3 (f (toq m T))).
Proof. intros L A B s. rewrite toq_lin, L. apply of3_lin. Qed.
Lemma lin_3 f : lin33 f -> linear (fun T => of3 (f (col3 T 0))).
Proof. intros L A B s. rewrite col3_lin, L. apply of3_lin. Qed.

Ltac q4 := intros; unfold quatMult, quatMultPure, multTraditional, multTraditionalPureLeft,
  multTraditionalPureRight, conjugate, imag, v4_add, v4_scale, v3_add, v3_scale, v4_neg;
  cbn [q0 q1 q2 q3 x0 x1 x2];
  try destruct (traditional _); cbn [q0 q1 q2 q3 x0 x1 x2]; f_equal; ring.
Lemma quat_l m b : lin44 (fun a => quatMult m a b).
Proof. unfold lin44. q4. Qed.
Lemma quat_r m a : lin44 (fun b => quatMult m a b).
Proof. unfold lin44. q4. Qed.
Lemma conj_lin : lin44 conjugate.
Proof. unfold lin44. q4. Qed.
Lemma imag_lin : lin43 imag.
Proof. unfold lin43. q4. Qed.
Lemma pure_l m v : lin44 (fun a => quatMultPure m a v).
Proof. unfold lin44. q4. Qed.
Lemma qinv_lin m q : lin44 (qinvDiff m q).
Proof.
  intros a b s. unfold qinvDiff. cbv zeta. rewrite (quat_l m (conjugate q)), (quat_r m (conjugate q)).
  generalize (/ (v4_dot (conjugate q) (conjugate q) * v4_dot (conjugate q) (conjugate q))). intros k.
  generalize (quatMult m (conjugate q) (quatMult m a (conjugate q))),
    (quatMult m (conjugate q) (quatMult m b (conjugate q))). intros u v.
  unfold v4_add, v4_scale, v4_neg. cbn [q0 q1 q2 q3]. f_equal; ring.
Qed.
Lemma qrot_l_lin m q v : lin43 (qrotDiffL m q v).
Proof.
  intros a b s. unfold qrotDiffL. rewrite conj_lin, (quat_r m), (pure_l m v), (quat_l m (conjugate q)).
  generalize (quatMult m (quatMultPure m q v) (conjugate a)), (quatMult m (quatMultPure m q v) (conjugate b)),
    (quatMult m (quatMultPure m a v) (conjugate q)), (quatMult m (quatMultPure m b v) (conjugate q)).
  intros u w y z. unfold imag, v4_add, v4_scale, v3_add, v3_scale. cbn [q0 q1 q2 q3 x0 x1 x2]. f_equal; ring.
Qed.
Lemma rotated_lin m q : lin33 (rotated m q).
Proof.
  intros a b s. unfold rotated.
  replace (quatMultPure m q (v3_add a (v3_scale s b)))
    with (v4_add (quatMultPure m q a) (v4_scale s (quatMultPure m q b))) by q4.
  rewrite (quat_l m (conjugate q)). apply imag_lin.
Qed.

Lemma unary th d a n D f : linear_diff D -> linear f ->
  (forall D', linear_diff D' -> ready D' n a -> forall r,
     applied (jacobians th a D') d r = applyInto D' (rate th d a) r) ->
  forall r, applied (jacobians th a (DMap f D)) d r = applyInto D (f (rate th d a)) r.
Proof. intros L Lf IH r. rewrite (IH (DMap f D) (conj Lf L) I r). reflexivity. Qed.

Lemma sweep th d : forall e m n, shaped K e m n -> supported K e ->
  forall D, linear_diff D -> ready D m e ->
  forall r, applied (jacobians th e D) d r = applyInto D (rate th d e) r.
Proof.
  intros e m n S. induction S; intros U D L Rd row; cbn [supported] in U; cbn [GqModel.jacobians rate].
  - revert U Rd. destruct (K i) as [n|m g] eqn:Ki; cbn [size].
    + intros _ Rd. cbn [applied]. rewrite Rplus_0_r. apply addBlock_applied; [exact L|].
      destruct D; cbn [ready] in Rd; try exact I; tauto.
    + destruct g; [intros []|]. intros _ Rd. cbn [applied]. rewrite Rplus_0_r.
      apply addBlockWith_applied; [exact L|]. destruct D; cbn [ready] in Rd; try exact I; tauto.
  - rewrite H. cbn [size applied]. rewrite Rplus_0_r. apply convert_applied; [exact L|].
    destruct D; cbn [ready] in Rd; try exact I; tauto.
  - cbn [applied]. symmetry. apply app_zero, L.
  - apply (unary th d a m D (fun T => T) L lin_id (IHS U)).
  - apply (unary th d a m D mtrans L lin_trans (IHS U)).
  - apply (unary th d a n D _ L (lin_inv n _) (IHS U)).
  - destruct U as [Ua Ub]. rewrite applied_app, app_add by exact L. f_equal.
    + apply (unary th d a m D (fun T => mmul k T (value th b)) L (lin_mul_l k _) (IHS1 Ua)).
    + apply (unary th d b k D (fun T => mmul k (value th a) T) L (lin_mul_r k _) (IHS2 Ub)).
  - destruct U as [Ua Ub]. rewrite applied_app, app_add by exact L. f_equal.
    + apply (unary th d a m D (fun T => T) L lin_id (IHS1 Ua)).
    + apply (unary th d b m D (fun T => T) L lin_id (IHS2 Ub)).
  - destruct U as [Ua Ub]. rewrite applied_app, app_add by exact L. f_equal.
    + apply (unary th d a m D (fun T => T) L lin_id (IHS1 Ua)).
    + apply (unary th d b m D mneg L lin_neg (IHS2 Ub)).
  - apply (unary th d a m D mneg L lin_neg (IHS U)).
  - apply (unary th d a m D (fun T => mscale T s) L (lin_scale s) (IHS U)).
  - destruct U as [Ua Ub]. rewrite applied_app, app_add by exact L. f_equal.
    + apply (unary th d a 3 D (fun T => crossInto 1 n T (value th b)) L (lin_cross_l 1 n _) (IHS1 Ua)).
    + apply (unary th d b 3 D (fun T => crossInto 1 n (value th a) T) L (lin_cross_r 1 n _) (IHS2 Ub)).
  - destruct U as [Ua Ub]. rewrite applied_app, app_add by exact L. f_equal.
    + apply (unary th d a 3 D (fun T => crossInto n 1 T (value th b)) L (lin_cross_l n 1 _) (IHS1 Ua)).
    + apply (unary th d b 3 D (fun T => crossInto n 1 (value th a) T) L (lin_cross_r n 1 _) (IHS2 Ub)).
  - destruct U as [Ua Ub]. rewrite applied_app, app_add by exact L. f_equal.
    + apply (unary th d a 4 D _ L (lin_q m _ (quat_l m _)) (IHS1 Ua)).
    + apply (unary th d b 4 D _ L (lin_q m _ (quat_r m _)) (IHS2 Ub)).
  - apply (unary th d a 4 D _ L (lin_q m _ (qinv_lin m _)) (IHS U)).
  - apply (unary th d a 4 D _ L (lin_q m _ conj_lin) (IHS U)).
  - apply (unary th d a 4 D _ L (lin_q3 m _ imag_lin) (IHS U)).
  - destruct U as [Ua Ub]. rewrite applied_app, app_add by exact L. f_equal.
    + apply (unary th d a 4 D _ L (lin_q3 m _ (qrot_l_lin m _ _)) (IHS1 Ua)).
    + apply (unary th d b 3 D _ L (lin_3 _ (rotated_lin m _)) (IHS2 Ub)).
  - assert (Ua : supported K a) by (destruct a; [exact U|destruct U|..]; exact U).
    rewrite (IHS Ua (DMatrixThen 3 (dexp m (col3 (value th a) 0)) D) L); [reflexivity|].
    cbn [ready]. split; [reflexivity|]. destruct a; try exact I. exact U.
Qed.
End Sweep.
