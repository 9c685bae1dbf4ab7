(** * The derivative of the inverse of a matrix *)
From Coquelicot Require Import Coquelicot.
From Coq Require Import Reals List Arith Lra Lia.
From Verif Require Import BsplModel BsplProofs BsdProofs KinModel GqModel GqSpec GqLin.
Local Open Scope R_scope.

Lemma bsum_abs n f : Rabs (bsum n f) <= bsum n (fun i => Rabs (f i)).
Proof.
  induction n as [|n IH]; cbn [bsum]; [rewrite Rabs_R0; lra|].
  eapply Rle_trans; [apply Rabs_triang|]. lra.
Qed.
Lemma bsum_le_const n f x : (forall i, (i < n)%nat -> f i <= x) -> bsum n f <= INR n * x.
Proof.
  induction n as [|n IH]; intros H; cbn [bsum]; [cbn [INR]; lra|].
  rewrite S_INR. pose proof (IH (fun i Hi => H i (Nat.lt_lt_succ_r _ _ Hi))).
  pose proof (H n (Nat.lt_succ_diag_r n)). lra.
Qed.
Lemma bsum_term n f k : (forall i, (i < n)%nat -> 0 <= f i) -> (k < n)%nat -> f k <= bsum n f.
Proof.
  induction n as [|n IH]; intros P H; [lia|]. cbn [bsum].
  assert (P' : forall i, (i < n)%nat -> 0 <= f i) by (intros; apply P; lia).
  destruct (Nat.eq_dec k n) as [E|N].
  - rewrite E. pose proof (bsum_nonneg n f P'). lra.
  - pose proof (IH P' ltac:(lia)). pose proof (P n ltac:(lia)). lra.
Qed.

(** The sum of the sizes of the entries. *)
Definition norm1 (n : nat) (X : mat) : R := bsum n (fun r => bsum n (fun c => Rabs (X r c))).
Lemma norm1_entry n X r c : (r < n)%nat -> (c < n)%nat -> Rabs (X r c) <= norm1 n X.
Proof.
  intros Hr Hc. unfold norm1.
  eapply Rle_trans; [|apply (bsum_term n (fun r => bsum n (fun c => Rabs (X r c))) r)].
  - apply (bsum_term n (fun c => Rabs (X r c)) c); [intros; apply Rabs_pos | exact Hc].
  - intros i _. apply bsum_nonneg. intros; apply Rabs_pos.
  - exact Hr.
Qed.
Lemma norm1_pos n X : 0 <= norm1 n X.
Proof. apply bsum_nonneg. intros. apply bsum_nonneg. intros. apply Rabs_pos. Qed.
Lemma norm1_le n X x : (forall r c, (r < n)%nat -> (c < n)%nat -> Rabs (X r c) <= x) -> norm1 n X <= INR n * (INR n * x).
Proof.
  intros H. unfold norm1. apply bsum_le_const. intros r Hr. apply bsum_le_const. intros c Hc. apply H; assumption.
Qed.

(** Products of three matrices, entry by entry. *)
Definition triple (n : nat) (A B C : mat) (r c : nat) : R :=
  bsum n (fun j => bsum n (fun k => A r j * B j k * C k c)).
Lemma triple_bound n A B C a b x r c :
  (forall r c, (r < n)%nat -> (c < n)%nat -> Rabs (A r c) <= a) ->
  (forall r c, (r < n)%nat -> (c < n)%nat -> Rabs (B r c) <= b) ->
  (forall r c, (r < n)%nat -> (c < n)%nat -> Rabs (C r c) <= x) ->
  (r < n)%nat -> (c < n)%nat -> Rabs (triple n A B C r c) <= INR n * (INR n * (a * b * x)).
Proof.
  intros HA HB HC Hr Hc. unfold triple.
  eapply Rle_trans; [apply bsum_abs|]. apply bsum_le_const. intros j Hj.
  eapply Rle_trans; [apply bsum_abs|]. apply bsum_le_const. intros k Hk.
  rewrite !Rabs_mult.
  pose proof (HA r j Hr Hj). pose proof (HB j k Hj Hk). pose proof (HC k c Hk Hc).
  pose proof (Rabs_pos (A r j)). pose proof (Rabs_pos (B j k)). pose proof (Rabs_pos (C k c)).
  apply Rmult_le_compat; try assumption.
  - apply Rmult_le_pos; assumption.
  - apply Rmult_le_compat; assumption.
Qed.

(** X - X0 = - X0 (A - A0) X for the inverses. *)
Lemma inverse_difference n A0 A X0 X r c : is_inverse n A0 X0 -> is_inverse n A X ->
  (r < n)%nat -> (c < n)%nat ->
  X r c - X0 r c = - triple n X0 (msub A A0) X r c.
Proof.
  intros H0 H Hr Hc. unfold triple, msub.
  assert (E1 : bsum n (fun j => bsum n (fun k => X0 r j * A j k * X k c)) = X0 r c).
  { transitivity (bsum n (fun j => X0 r j * (if (j =? c)%nat then 1 else 0))).
    - apply bsum_ext. intros j Hj. rewrite <- (proj1 (H j c Hj Hc)), <- bsum_scal.
      apply bsum_ext. intros k _. ring.
    - rewrite (bsum_pick n c); [rewrite Nat.eqb_refl; ring | exact Hc |].
      intros i _ N. destruct (Nat.eqb_spec i c) as [E|_]; [contradiction|]. ring. }
  assert (E2 : bsum n (fun j => bsum n (fun k => X0 r j * A0 j k * X k c)) = X r c).
  { rewrite bsum_swap. transitivity (bsum n (fun k => (if (r =? k)%nat then 1 else 0) * X k c)).
    - apply bsum_ext. intros k Hk. rewrite <- (proj2 (H0 r k Hr Hk)), <- bsum_scal_r. reflexivity.
    - rewrite (bsum_pick n r); [rewrite Nat.eqb_refl; ring | exact Hr |].
      intros i _ N. destruct (Nat.eqb_spec r i) as [E|_]; [congruence|]. ring. }
  transitivity (bsum n (fun j => bsum n (fun k => X0 r j * A0 j k * X k c)) -
                bsum n (fun j => bsum n (fun k => X0 r j * A j k * X k c))); [rewrite E1, E2; reflexivity|].
  rewrite <- bsum_minus.
  transitivity (bsum n (fun j => -1 * bsum n (fun k => X0 r j * (A j k - A0 j k) * X k c))).
  - apply bsum_ext. intros j _. rewrite <- bsum_minus, <- bsum_scal. apply bsum_ext. intros k _. ring.
  - rewrite bsum_scal. ring.
Qed.

Section Curve.
Variable n : nat.
Variables A X : R -> mat.
Variable A' : mat.
Hypothesis HA : forall r c, (r < n)%nat -> (c < n)%nat -> is_derive (fun s => A s r c) 0 (A' r c).
Hypothesis HX : locally 0 (fun s => is_inverse n (A s) (X s)).

Lemma X_at_0 : is_inverse n (A 0) (X 0).
Proof. exact (locally_singleton _ _ HX). Qed.

(** All entries are close at once. *)
Lemma near_all (P : nat -> R -> Prop) : (forall i, (i < n)%nat -> locally 0 (P i)) ->
  locally 0 (fun s => forall i, (i < n)%nat -> P i s).
Proof.
  generalize n. intros N. induction N as [|N IH]; intros H.
  - apply filter_forall. intros s i Hi. lia.
  - assert (H1 : locally 0 (fun s => forall i, (i < N)%nat -> P i s)) by (apply IH; intros; apply H; lia).
    assert (H2 : locally 0 (P N)) by (apply H; lia).
    generalize (filter_and _ _ H1 H2). apply filter_imp. intros s [B1 B2] i Hi.
    destruct (Nat.eq_dec i N) as [E|NE]; [rewrite E; exact B2 | apply B1; lia].
Qed.

Lemma A_near eps : 0 < eps -> locally 0 (fun s => forall r c, (r < n)%nat -> (c < n)%nat -> Rabs (A s r c - A 0 r c) <= eps).
Proof.
  intros E.
  assert (H : locally 0 (fun s => forall r, (r < n)%nat -> forall c, (c < n)%nat -> Rabs (A s r c - A 0 r c) <= eps)).
  { apply near_all. intros r Hr. apply (near_all (fun c s => Rabs (A s r c - A 0 r c) <= eps)). intros c Hc.
    assert (C : continuous (fun s => A s r c) 0).
    { apply (ex_derive_continuous (V := R_NormedModule)). exists (A' r c). apply HA; assumption. }
    apply (C (fun y => Rabs (y - A 0 r c) <= eps)).
    exists (mkposreal eps E). intros y Hy. cbn in Hy. unfold ball, AbsRing_ball, abs, minus, plus, opp in Hy.
    cbn in Hy. unfold Rminus. left. exact Hy. }
  revert H. apply filter_imp. intros s H r c Hr Hc. apply H; assumption.
Qed.

Lemma X_near eps : 0 < eps -> locally 0 (fun s => forall r c, (r < n)%nat -> (c < n)%nat -> Rabs (X s r c - X 0 r c) <= eps).
Proof.
  intros E. set (N0 := norm1 n (X 0)). set (m := INR n).
  assert (M : 0 <= m) by apply pos_INR. assert (P0 : 0 <= N0) by apply norm1_pos.
  set (C := m * m * N0).
  assert (PC : 0 <= C) by (unfold C; apply Rmult_le_pos; [apply Rmult_le_pos; assumption | exact P0]).
  (* the size allowed for A - A0 *)
  set (del := Rmin (/ (2 * (m * m * C) + 1)) (eps / (C * (2 * N0) + 1))).
  assert (D1 : 0 < 2 * (m * m * C) + 1) by (assert (0 <= m * m * C) by (apply Rmult_le_pos; [apply Rmult_le_pos; assumption | exact PC]); lra).
  assert (D2 : 0 < C * (2 * N0) + 1) by (assert (0 <= C * (2 * N0)) by (apply Rmult_le_pos; lra); lra).
  assert (PD : 0 < del).
  { unfold del. apply Rmin_glb_lt; [apply Rinv_0_lt_compat, D1 | apply Rdiv_lt_0_compat; assumption]. }
  generalize (filter_and _ _ HX (A_near del PD)). apply filter_imp. intros s [Hs Ha].
  set (N := norm1 n (X s)). assert (PN : 0 <= N) by apply norm1_pos.
  assert (B : forall r c, (r < n)%nat -> (c < n)%nat -> Rabs (X s r c - X 0 r c) <= C * del * N).
  { intros r c Hr Hc. rewrite (inverse_difference n (A 0) (A s) (X 0) (X s) r c X_at_0 Hs Hr Hc), Rabs_Ropp.
    eapply Rle_trans; [apply (triple_bound n (X 0) (msub (A s) (A 0)) (X s) N0 del N)|].
    - intros; apply norm1_entry; assumption.
    - intros; unfold msub; apply Ha; assumption.
    - intros; apply norm1_entry; assumption.
    - exact Hr.
    - exact Hc.
    - unfold C. fold m. lra. }
  assert (S1 : m * m * C * del <= / 2).
  { assert (Q : del <= / (2 * (m * m * C) + 1)) by apply Rmin_l.
    assert (G : 0 <= m * m * C) by (apply Rmult_le_pos; [apply Rmult_le_pos; assumption | exact PC]).
    apply Rle_trans with (m * m * C * / (2 * (m * m * C) + 1)).
    - apply Rmult_le_compat_l; assumption.
    - apply Rmult_le_reg_r with (2 * (m * m * C) + 1); [exact D1|].
      rewrite Rmult_assoc, Rinv_l, Rmult_1_r by lra. lra. }
  assert (NN : N <= 2 * N0).
  { assert (T : N <= N0 + m * m * (C * del * N)).
    { assert (T1 : norm1 n (msub (X s) (X 0)) <= m * (m * (C * del * N))) by (apply norm1_le; intros; unfold msub; apply B; assumption).
      assert (T2 : N <= N0 + norm1 n (msub (X s) (X 0))).
      { unfold N, N0, norm1, msub. rewrite <- bsum_plus. apply bsum_le. intros i _. rewrite <- bsum_plus. apply bsum_le. intros j _.
        replace (X s i j) with (X 0 i j + (X s i j - X 0 i j)) at 1 by ring. apply Rabs_triang. }
      lra. }
    assert (T3 : m * m * (C * del * N) <= / 2 * N).
    { replace (m * m * (C * del * N)) with (m * m * C * del * N) by ring. apply Rmult_le_compat_r; assumption. }
    lra. }
  intros r c Hr Hc. eapply Rle_trans; [apply B; assumption|].
  apply Rle_trans with (C * (2 * N0) * del).
  { replace (C * del * N) with (C * del * N) by ring. replace (C * (2 * N0) * del) with (C * del * (2 * N0)) by ring.
    apply Rmult_le_compat_l; [apply Rmult_le_pos; lra | exact NN]. }
  assert (Q : del <= eps / (C * (2 * N0) + 1)) by apply Rmin_r.
  assert (G : 0 <= C * (2 * N0)) by (apply Rmult_le_pos; lra).
  apply Rle_trans with (C * (2 * N0) * (eps / (C * (2 * N0) + 1))); [apply Rmult_le_compat_l; assumption|].
  apply Rmult_le_reg_r with (C * (2 * N0) + 1); [exact D2|].
  unfold Rdiv. rewrite !Rmult_assoc, Rinv_l, Rmult_1_r by lra.
  assert (0 <= eps) by lra. nra.
Qed.

Lemma X_continuous r c : (r < n)%nat -> (c < n)%nat -> continuous (fun s => X s r c) 0.
Proof.
  intros Hr Hc. apply filterlim_locally. intros e.
  assert (E : 0 < e / 2) by (destruct e as [e He]; cbn; lra).
  generalize (X_near (e / 2) E). apply filter_imp. intros s H.
  pose proof (H r c Hr Hc) as B.
  unfold ball. cbn. unfold AbsRing_ball, abs, minus, plus, opp. cbn.
  fold (Rminus (X s r c) (X 0 r c)). destruct e as [e He]. cbn in *. lra.
Qed.

(** If a difference is a sum of products of a fixed number, a difference that has a
    derivative, and a continuous function, it has the derivative one expects. *)
Lemma product_at_0 (f g : R -> R) (f' : R) : is_derive f 0 f' -> f 0 = 0 -> continuous g 0 ->
  is_derive (fun s => f s * g s) 0 (f' * g 0).
Proof.
  intros Hf Z Hg. apply is_derive_Reals in Hf. apply is_derive_Reals.
  intros e He.
  assert (C : forall ep, 0 < ep -> exists d : posreal, forall s, Rabs s < d -> Rabs (g s - g 0) < ep).
  { intros ep Hep. pose proof (proj1 (filterlim_locally _ _) Hg (mkposreal ep Hep)) as [d Hd].
    exists d. intros s Hs. apply Hd. unfold ball. cbn. unfold AbsRing_ball, abs, minus, plus, opp. cbn.
    rewrite Ropp_0, Rplus_0_r. exact Hs. }
  set (M := Rabs (g 0) + 1). assert (PM : 0 < M) by (unfold M; pose proof (Rabs_pos (g 0)); lra).
  set (F := Rabs f' + 1). assert (PF : 0 < F) by (unfold F; pose proof (Rabs_pos f'); lra).
  destruct (Hf (e / (2 * M)) ltac:(apply Rdiv_lt_0_compat; lra)) as [d1 H1].
  destruct (C (Rmin 1 (e / (2 * F)))) as [d2 H2].
  { apply Rmin_glb_lt; [lra|]. apply Rdiv_lt_0_compat; lra. }
  assert (PD : 0 < Rmin d1 d2) by (apply Rmin_glb_lt; [apply (cond_pos d1) | apply (cond_pos d2)]).
  exists (mkposreal _ PD). intros h Hh Bh. cbn in Bh.
  specialize (H1 h Hh (Rlt_le_trans _ _ _ Bh (Rmin_l _ _))).
  specialize (H2 h (Rlt_le_trans _ _ _ Bh (Rmin_r _ _))).
  rewrite Rplus_0_l in *. rewrite Z in *.
  assert (G1 : Rabs (g h - g 0) < 1) by (eapply Rlt_le_trans; [exact H2 | apply Rmin_l]).
  assert (G2 : Rabs (g h - g 0) < e / (2 * F)) by (eapply Rlt_le_trans; [exact H2 | apply Rmin_r]).
  assert (GM : Rabs (g h) <= M).
  { unfold M. replace (g h) with (g 0 + (g h - g 0)) by ring. eapply Rle_trans; [apply Rabs_triang|]. lra. }
  replace ((f h * g h - 0 * g 0) / h - f' * g 0) with (((f h - 0) / h - f') * g h + f' * (g h - g 0)) by (field; exact Hh).
  eapply Rle_lt_trans; [apply Rabs_triang|]. rewrite !Rabs_mult.
  assert (S1 : Rabs ((f h - 0) / h - f') * Rabs (g h) <= e / 2).
  { apply Rle_trans with (e / (2 * M) * M).
    - apply Rmult_le_compat; [apply Rabs_pos | apply Rabs_pos | lra | exact GM].
    - right. field. lra. }
  assert (S2 : Rabs f' * Rabs (g h - g 0) < e / 2).
  { apply Rle_lt_trans with (Rabs f' * (e / (2 * F))).
    - apply Rmult_le_compat_l; [apply Rabs_pos | lra].
    - replace (e / 2) with (F * (e / (2 * F))) by (field; lra).
      apply Rmult_lt_compat_r; [apply Rdiv_lt_0_compat; lra | unfold F; lra]. }
  lra.
Qed.

Lemma inverse_derive r c : (r < n)%nat -> (c < n)%nat ->
  is_derive (fun s => X s r c) 0 (invDiff n (X 0) A' r c).
Proof.
  intros Hr Hc.
  apply (is_derive_ext_loc (fun s => X 0 r c + -1 * triple n (X 0) (msub (A s) (A 0)) (X s) r c)).
  { generalize HX. apply filter_imp. intros s Hs.
    pose proof (inverse_difference n (A 0) (A s) (X 0) (X s) r c X_at_0 Hs Hr Hc). lra. }
  assert (T : is_derive (fun s => triple n (X 0) (msub (A s) (A 0)) (X s) r c) 0
                (bsum n (fun j => bsum n (fun k => X 0 r j * A' j k * X 0 k c)))).
  { unfold triple. apply bsum_derive. intros j Hj. apply bsum_derive. intros k Hk.
    apply (product_at_0 (fun s => X 0 r j * msub (A s) (A 0) j k) (fun s => X s k c)).
    - apply derive_scal_const. unfold msub.
      replace (A' j k) with (A' j k - 0) by ring.
      apply (is_derive_minus (fun s => A s j k) (fun _ => A 0 j k)); [apply HA; assumption|].
      apply (@is_derive_const R_AbsRing R_NormedModule).
    - unfold msub. ring.
    - apply X_continuous; assumption. }
  apply (derive_scal_const (-1)) in T.
  replace (invDiff n (X 0) A' r c) with (0 + -1 * bsum n (fun j => bsum n (fun k => X 0 r j * A' j k * X 0 k c))).
  { apply (is_derive_plus (fun _ => X 0 r c)); [apply (@is_derive_const R_AbsRing R_NormedModule) | exact T]. }
  unfold invDiff, mmul, mneg. rewrite Rplus_0_l, bsum_swap, <- bsum_scal.
  apply bsum_ext. intros k _. rewrite <- bsum_scal_r, <- bsum_scal. apply bsum_ext. intros j _. ring.
Qed.
End Curve.
