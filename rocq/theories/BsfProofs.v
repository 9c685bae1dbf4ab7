From Coquelicot Require Import Coquelicot.
From Coq Require Import Reals List Arith ZArith Bool Lia Lra.
From Verif Require Import Base BsplModel BsplSpec BsplProofs BsdProofs BsqModel BsqProofs.
Import ListNotations.
Local Open Scope R_scope.

(** ** Normal equations *)
Lemma mapply_plus n M x y r : mapply n M (fun i => x i + y i) r = mapply n M x r + mapply n M y r.
Proof. unfold mapply. rewrite <- bsum_plus. apply bsum_ext. intros; ring. Qed.

Lemma bil_plus_l n Q x x' y : bil n Q (fun i => x i + x' i) y = bil n Q x y + bil n Q x' y.
Proof. unfold bil. rewrite <- bsum_plus. apply bsum_ext. intros; ring. Qed.
Lemma bil_plus_r n Q x y y' : bil n Q x (fun i => y i + y' i) = bil n Q x y + bil n Q x y'.
Proof.
  unfold bil. rewrite <- bsum_plus. apply bsum_ext. intros r _. rewrite <- Rmult_plus_distr_l. f_equal.
  rewrite <- bsum_plus. apply bsum_ext. intros; ring.
Qed.

Section NORMAL.
Variables (N rows : nat) (A Q : mat) (rhs c : vec).
Hypothesis SYM : forall x y, bil N Q x y = bil N Q y x.
Hypothesis PSD : forall x, 0 <= bil N Q x x.

Definition cost (x : vec) : R := bsum rows (fun j => (mapply N A x j - rhs j) ^ 2) + bil N Q x x.

(** The normal matrix is singular only along directions of zero cost. *)
Lemma normal_kernel x :
  (forall i, (i < N)%nat -> bsum N (fun j => (mmul rows (mtr A) A i j + Q i j) * x j) = 0) ->
  bsum rows (fun j => mapply N A x j ^ 2) = 0 /\ bil N Q x x = 0.
Proof using PSD.
  intros Z.
  assert (S : bsum rows (fun j => mapply N A x j ^ 2) + bil N Q x x = 0).
  { rewrite <- (bsum_zero N (fun i => x i * bsum N (fun j => (mmul rows (mtr A) A i j + Q i j) * x j))).
    2:{ intros i Li. rewrite (Z i Li). ring. }
    transitivity (bsum N (fun i => x i * bsum N (fun j => mmul rows (mtr A) A i j * x j)) + bil N Q x x).
    - f_equal. unfold mmul, mtr. symmetry.
      transitivity (bsum N (fun i => bsum N (fun j => bsum rows (fun m => A m i * x i * (A m j * x j))))).
      { apply bsum_ext. intros i _. rewrite <- bsum_scal. apply bsum_ext. intros j _.
        rewrite <- bsum_scal_r, <- bsum_scal. apply bsum_ext. intros; ring. }
      rewrite (bsum_ext N _ (fun i => bsum rows (fun m => bsum N (fun j => A m i * x i * (A m j * x j))))) by (intros; apply bsum_swap).
      rewrite bsum_swap. apply bsum_ext. intros m _. unfold mapply.
      rewrite (bsum_ext N _ (fun i => A m i * x i * bsum N (fun j => A m j * x j))) by (intros; apply bsum_scal).
      rewrite bsum_scal_r. ring.
    - unfold bil. rewrite <- bsum_plus. apply bsum_ext. intros i _. rewrite <- Rmult_plus_distr_l. f_equal.
      rewrite <- bsum_plus. apply bsum_ext. intros; ring. }
  assert (P1 : 0 <= bsum rows (fun j => mapply N A x j ^ 2)) by (apply bsum_nonneg; intros; apply pow2_ge_0).
  assert (P2 := PSD x). split; lra.
Qed.

Hypothesis SOL : forall i, (i < N)%nat ->
  bsum N (fun j => (mmul rows (mtr A) A i j + Q i j) * c j) = bsum rows (fun j => A j i * rhs j).

Lemma normal_minimum x : cost c <= cost x.
Proof using SYM PSD SOL.
  set (e := fun i => x i - c i).
  assert (T : bsum rows (fun j => mapply N A e j * (mapply N A c j - rhs j)) + bil N Q e c = 0).
  { transitivity (bsum N (fun i => e i * (bsum rows (fun j => A j i * (mapply N A c j - rhs j)) + bsum N (fun j => Q i j * c j)))).
    - rewrite (bsum_ext N _ (fun i => e i * bsum rows (fun j => A j i * (mapply N A c j - rhs j)) + e i * bsum N (fun j => Q i j * c j))) by (intros; ring).
      rewrite bsum_plus. f_equal.
      rewrite (bsum_ext N _ (fun i => bsum rows (fun j => A j i * e i * (mapply N A c j - rhs j)))).
      + rewrite bsum_swap. apply bsum_ext. intros j _. rewrite bsum_scal_r. reflexivity.
      + intros i _. rewrite <- bsum_scal. apply bsum_ext. intros; ring.
    - apply bsum_zero. intros i Li.
      replace (bsum rows (fun j => A j i * (mapply N A c j - rhs j)) + bsum N (fun j => Q i j * c j)) with 0; [ ring | ].
      assert (X := SOL i Li).
      rewrite (bsum_ext N _ (fun j => mmul rows (mtr A) A i j * c j + Q i j * c j)) in X by (intros; ring).
      rewrite bsum_plus in X.
      rewrite (bsum_ext rows _ (fun j => A j i * mapply N A c j - A j i * rhs j)) by (intros; ring). rewrite bsum_minus, <- X.
      replace (bsum rows (fun j => A j i * mapply N A c j)) with (bsum N (fun j => mmul rows (mtr A) A i j * c j)); [ ring | ].
      unfold mmul, mtr, mapply.
      rewrite (bsum_ext N _ (fun j => bsum rows (fun m => A m i * (A m j * c j)))).
      + rewrite bsum_swap. apply bsum_ext. intros m _. apply bsum_scal.
      + intros j _. rewrite <- bsum_scal_r. apply bsum_ext. intros; ring. }
  assert (E : cost x = cost c + (bsum rows (fun j => mapply N A e j ^ 2) + bil N Q e e)
                       + 2 * (bsum rows (fun j => mapply N A e j * (mapply N A c j - rhs j)) + bil N Q e c)).
  { unfold cost.
    assert (XE : forall i, x i = c i + e i) by (intros; unfold e; ring).
    replace (bil N Q x x) with (bil N Q c c + bil N Q e e + 2 * bil N Q e c).
    - rewrite (bsum_ext rows (fun j => (mapply N A x j - rhs j) ^ 2)
        (fun j => (mapply N A c j - rhs j) ^ 2 + mapply N A e j ^ 2 + 2 * (mapply N A e j * (mapply N A c j - rhs j)))).
      + rewrite !bsum_plus, bsum_scal. ring.
      + intros j _. replace (mapply N A x j) with (mapply N A c j + mapply N A e j); [ ring | ].
        rewrite <- mapply_plus. unfold mapply. apply bsum_ext. intros i _. rewrite XE. reflexivity.
    - rewrite (bil_ext N Q x x Q (fun i => c i + e i) (fun i => c i + e i)) by (intros; first [ reflexivity | apply XE ]).
      rewrite bil_plus_l, !bil_plus_r. rewrite (SYM c e). ring. }
  rewrite E, T. assert (0 <= bsum rows (fun j => mapply N A e j ^ 2)) by (apply bsum_nonneg; intros; apply pow2_ge_0).
  assert (P := PSD e). lra.
Qed.
End NORMAL.

(** ** The rows of the position constraints *)
Lemma resolved_all b t : / 10000000000 <= hi b - last_start b -> resolved b t.
Proof. intros E. unfold resolved. destruct (Rle_dec (last_start b) t); [ right; assumption | left; lra ]. Qed.

Lemma phi_facts b t : wf b -> / 10000000000 <= hi b - last_start b -> lo b <= t <= hi b ->
  exists bi w, (bi + order b <= ncols b)%nat /\
    local_coef_indices b t = Ok (seq (bi * dim b) (order b * dim b)) /\
    Phi b t 0 = Ok (scaled_identities (dim b) w) /\
    forall x, eval_D (with_coefs b x) t 0 = Ok (fun r => bsum (order b) (fun c => x ((bi + c) * dim b + r)%nat * w c)).
Proof.
  intros W EN I. assert (W' := W). destruct W' as [O LE C B SO].
  destruct (located_closed b t W I (resolved_all b t EN)) as [s [LO [P _]]]; [ lra | ].
  destruct (weights_ok b t s 0 W LO P) as [m [EM EW]]; [ lia | ]. destruct LO as [S1 ET].
  exists (s + 1 - order b)%nat, (wgt b m s (Z.to_nat 0) t). split; [ lia | ]. split.
  { unfold local_coef_indices. rewrite ET. cbn [obind]. rewrite isub_ok by lia. reflexivity. }
  split. { unfold Phi. rewrite EW. reflexivity. }
  intros x. unfold eval_D. change (weights (with_coefs b x) t 0) with (weights b t 0). rewrite EW. cbn [obind].
  unfold coef_block. cbn [order ncols coef dim with_coefs].
  destruct (Nat.leb_spec (s + 1 - order b + order b) (ncols b)); [ | lia ]. reflexivity.
Qed.

Lemma put_block_row N A r0 D c0 n P A' x r : (c0 + n <= N)%nat -> put_block N A r0 D c0 n P = Ok A' ->
  (forall r c, (r0 <= r)%nat -> A r c = 0) -> (r < D)%nat ->
  mapply N A' x (r0 + r)%nat = bsum n (fun m => P r m * x (c0 + m)%nat).
Proof.
  intros L E Z Lr. unfold put_block in E. destruct (Nat.leb_spec (c0 + n) N); [ | lia ].
  assert (EA : A' = fun r c => if (r0 <=? r)%nat && (r <? r0 + D)%nat && (c0 <=? c)%nat && (c <? c0 + n)%nat
                              then P (r - r0)%nat (c - c0)%nat else A r c) by congruence.
  subst A'. clear E. unfold mapply.
  rewrite <- (bsum_window N c0 n (fun m => P r m * x (c0 + m)%nat)) by exact L. apply bsum_ext. intros c _.
  destruct (Nat.leb_spec r0 (r0 + r)); [ | lia ]. destruct (Nat.ltb_spec (r0 + r) (r0 + D)); [ | lia ]. cbn [andb].
  destruct (Nat.leb_spec c0 c); destruct (Nat.ltb_spec c (c0 + n)); cbn [andb]; try (rewrite Z by lia; ring).
  replace (r0 + r - r0)%nat with r by lia. replace (c0 + (c - c0))%nat with c by lia. reflexivity.
Qed.

Lemma position_rows_ok b : wf b -> / 10000000000 <= hi b - last_start b -> (1 <= dim b)%nat ->
  forall ts brow A, (forall t, In t ts -> lo b <= t <= hi b) -> (forall r c, (brow <= r)%nat -> A r c = 0) ->
  exists A', position_rows b ts brow A = Ok A' /\ (forall r c, (r < brow)%nat -> A' r c = A r c) /\
    forall i r x v, (i < length ts)%nat -> (r < dim b)%nat -> eval_D (with_coefs b x) (nth i ts 0) 0 = Ok v ->
      mapply (dim b * ncols b) A' x (brow + (i * dim b + r))%nat = v r.
Proof.
  intros W EN D1. induction ts as [ | t ts IH ]; intros brow A IN Z; cbn [position_rows].
  - exists A. split; [ reflexivity | ]. split; [ reflexivity | ]. intros i r x v Li. cbn [length] in Li. lia.
  - destruct (phi_facts b t W EN (IN t (or_introl eq_refl))) as [bi [w [BL [EI [EP EE]]]]].
    assert (W' := W). destruct W' as [O LE C B SO].
    rewrite EI. cbn [obind]. rewrite EP. cbn [obind].
    destruct (order b * dim b)%nat as [ | nn ] eqn:EN2; [ nia | ]. cbn [seq]. rewrite (cons_seq nn (bi * dim b)), <- EN2.
    rewrite seq_length.
    assert (FIT : (bi * dim b + order b * dim b <= dim b * ncols b)%nat) by nia.
    destruct (put_block (dim b * ncols b) A brow (dim b) (bi * dim b) (order b * dim b) (scaled_identities (dim b) w)) as [A1 | | | ] eqn:E1;
      try (unfold put_block in E1; destruct (Nat.leb_spec (bi * dim b + order b * dim b) (dim b * ncols b)); [ discriminate | lia ]).
    cbn [obind].
    assert (EA1 : A1 = fun r c => if (brow <=? r)%nat && (r <? brow + dim b)%nat && (bi * dim b <=? c)%nat && (c <? bi * dim b + order b * dim b)%nat
        then scaled_identities (dim b) w (r - brow)%nat (c - bi * dim b)%nat else A r c).
    { unfold put_block in E1. destruct (Nat.leb_spec (bi * dim b + order b * dim b) (dim b * ncols b)); [ congruence | lia ]. }
    destruct (IH (brow + dim b)%nat A1) as [A2 [E2 [K2 H2]]].
    + intros t' I'. apply IN. right. exact I'.
    + intros r c Lr. rewrite EA1. destruct (Nat.ltb_spec r (brow + dim b)); [ lia | ]. rewrite andb_false_r. cbn [andb]. apply Z. lia.
    + exists A2. split; [ exact E2 | ]. split.
      * intros r c Lr. rewrite K2 by lia. rewrite EA1. destruct (Nat.leb_spec brow r); [ lia | ]. reflexivity.
      * intros i r x v Li Lr EV. destruct i as [ | i ].
        -- cbn [nth] in EV. rewrite EE in EV. cbn [Nat.mul]. rewrite Nat.add_0_l.
           transitivity (mapply (dim b * ncols b) A1 x (brow + r)%nat).
           { unfold mapply. apply bsum_ext. intros c _. rewrite K2 by lia. reflexivity. }
           rewrite (put_block_row _ _ _ _ _ _ _ _ x r FIT E1 Z Lr).
           rewrite (scaled_identities_apply (dim b) w (fun m => x (bi * dim b + m)%nat)) by exact Lr.
           assert (VE : v = fun r => bsum (order b) (fun c => x ((bi + c) * dim b + r)%nat * w c)) by congruence.
           rewrite VE. apply bsum_ext. intros c _. rewrite Rmult_comm. do 2 f_equal. lia.
        -- cbn [nth] in EV. cbn [length] in Li.
           replace (brow + (S i * dim b + r))%nat with (brow + dim b + (i * dim b + r))%nat by lia.
           apply H2; [ lia | exact Lr | exact EV ].
Qed.

(** ** Uniform knots *)
Lemma uniform_knot k K t0 dt i : (i < K)%nat -> knot (uniform_knots k K t0 dt) i = t0 + (INR i - INR k + 1) * dt.
Proof.
  intros L. unfold knot, uniform_knots.
  rewrite (nth_indep _ 0 ((fun i => t0 + (INR i - INR k + 1) * dt) 0%nat)) by (rewrite map_length, seq_length; exact L).
  rewrite (map_nth (fun i => t0 + (INR i - INR k + 1) * dt) (seq 0 K) 0%nat i). rewrite seq_nth by exact L. reflexivity.
Qed.

Lemma uniform_length k K t0 dt : length (uniform_knots k K t0 dt) = K.
Proof. unfold uniform_knots. rewrite map_length, seq_length. reflexivity. Qed.

Lemma uniform_nd k K t0 dt : 0 <= dt -> nondecreasing (uniform_knots k K t0 dt).
Proof.
  intros P i j [L1 L2]. rewrite uniform_length in L2. rewrite !uniform_knot by lia.
  assert (INR i <= INR j) by (apply le_INR; exact L1).
  assert ((INR i - INR k + 1) * dt <= (INR j - INR k + 1) * dt) by (apply Rmult_le_compat_r; lra). lra.
Qed.

Lemma nd_check_spec ts : nondecreasing_check ts = true ->
  forall t, In t ts -> hd 0 ts <= t <= last ts 0.
Proof.
  induction ts as [ | a ts IH ]; intros H t I; [ destruct I | ].
  destruct ts as [ | b ts ].
  - cbn [hd last]. destruct I as [<- | []]. lra.
  - cbn [nondecreasing_check] in H. apply andb_prop in H. destruct H as [H1 H2].
    assert (AB : a <= b) by (unfold rleb in H1; destruct (Rle_dec a b); [ assumption | discriminate ]).
    specialize (IH H2). cbn [hd] in IH |- *. change (last (a :: b :: ts) 0) with (last (b :: ts) 0).
    destruct I as [<- | I].
    + assert (X := IH b (or_introl eq_refl)). lra.
    + assert (X := IH t I). lra.
Qed.
