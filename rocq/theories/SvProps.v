(** * C91: the solver with marginal analysis of incremental calibration *)
From Coq Require Import Reals List Arith ZArith Bool Lia Lra FunctionalExtensionality.
From Verif Require Import Base BsplModel BsplSpec BsplProofs SvModel SvSpec SvProofs SvMain SvStep.
Import ListNotations.
Local Open Scope R_scope.

(** ** Small facts *)
Lemma null_space_rank s rk : rank s = Z.of_nat rk -> (rk <= nsv s)%nat ->
  null_space s = (nsv s, (nsv s - rk)%nat, fun c k => matV s c (rk + k)%nat).
Proof.
  intros E H. unfold null_space, has_rank. rewrite E, (proj2 (Z.eqb_neq _ _)) by lia. rewrite (proj2 (Z.leb_le _ _)) by lia. rewrite Nat2Z.id. reflexivity.
Qed.
Lemma covariance_rank s rk : rank s = Z.of_nat rk -> (rk <= nsv s)%nat ->
  covariance s = (nsv s, nsv s, fun c d => bsum rk (fun k => matV s c k * / sv s k * matV s d k)).
Proof.
  intros E H. unfold covariance, has_rank. rewrite E, (proj2 (Z.eqb_neq _ _)) by lia. rewrite (proj2 (Z.leb_le _ _)) by lia. rewrite Nat2Z.id. reflexivity.
Qed.
Lemma run_rows qr svd o s A b j s' x : (0 < j < ncol A)%nat -> solve qr svd o s A (nrow A) b (Z.of_nat j) = (s', Ok x) -> (j < nrow A)%nat.
Proof.
  intros Hj E. destruct (le_lt_dec (nrow A) j) as [L | L]; [ | exact L ]. pose proof (solve_small qr svd o A j Hj s b L) as T. rewrite E in T. discriminate.
Qed.

(** The step in scaled variables is a least squares solution of the system seen
    without some directions of the residuals: one more than the left block's
    missing rank.  Discarded singular vectors are not moved along. *)
Theorem C91_step : forall qr svd o s A b j r s' x, (0 < j < ncol A)%nat ->
  (forall t, qr_exact (nrow A) j (scaled o A) (fst (qr t (Sparse (nrow A) j (scaled o A) (stored A)))) (snd (qr t (Sparse (nrow A) j (scaled o A) (stored A)))) r) ->
  svd_correct svd (ncol A - j) ->
  solve qr svd o s A (nrow A) b (Z.of_nat j) = (s', Ok (Some x)) ->
  exists w N, null_space s' = ((ncol A - j)%nat, w, N) /\ deficiency s' = Z.of_nat w /\
  exists q z, blind q (S j - r) (nrow A) j (scaled o A) /\
    (forall c, (c < ncol A)%nat -> x c = column_factor o A c * z c) /\
    (forall k, (k < w)%nat -> inner (ncol A - j) (fun c => N c k) (from j z) = 0) /\
    forall y, (forall k, (k < w)%nat -> inner (ncol A - j) (fun c => N c k) (from j y) = 0) ->
      cost_without q (S j - r) (nrow A) (ncol A) (scaled o A) b z <= cost_without q (S j - r) (nrow A) (ncol A) (scaled o A) b y.
Proof.
  intros qr svd o s A b j r s' x Hj Hqr Hsvd Run. pose proof (run_rows _ _ _ _ _ _ _ _ _ Hj Run) as Hm.
  assert (DF : deficiency s' = (Z.of_nat (nsv s') - rank s')%Z).
  { destruct (solve_ok qr svd o A j Hj s b) as (Om & br & _ & _ & K); [ exact (proj1 (proj2 (proj2 (fac_exact qr o A j r Hqr)))) | exact Hm | ]. cbv zeta in K.
    destruct K as (_ & s1 & N1 & R1 & _ & _ & _ & _ & D1 & _ & [ (_ & E) | (_ & x1 & E & _) ]); rewrite Run in E; [ discriminate | ].
    assert (s1 = s') by congruence. subst s1. rewrite D1, N1, R1. reflexivity. }
  destruct (step_facts qr svd o s A b j r s' x Hj Hm Hqr Hsvd Run) as (z & rk & X & N & R & HR & _ & _ & Z & _ & L).
  exists (ncol A - j - rk)%nat, (fun c k => matV s' c (rk + k)%nat).
  split; [ rewrite (null_space_rank s' rk R) by lia; rewrite N; reflexivity | ].
  split; [ rewrite DF, N, R; lia | ].
  exists (q_blind r (Qs qr o A j)), z. split; [ exact (blind_ok (nrow A) (ncol A) j r (scaled o A) _ _ (fac_exact qr o A j r Hqr) ltac:(lia) Hm) | ]. split; [ exact X | ].
  split; [ intros k Hk; apply (Z (rk + k)%nat); lia | ].
  intros y Hy. rewrite (L y).
  - pose proof (bsum_nonneg r (fun i => row (nrow A) (ncol A) (scaled o A) (Qs qr o A j) b y i * row (nrow A) (ncol A) (scaled o A) (Qs qr o A j) b y i) (fun i _ => Rle_0_sqr _)).
    match goal with |- _ <= _ + _ + ?t => assert (0 <= t) by (apply bsum_nonneg; intros; apply Rle_0_sqr) end. lra.
  - intros k Hk. specialize (Hy (k - rk)%nat ltac:(lia)). replace (rk + (k - rk))%nat with k in Hy by lia. exact Hy.
Qed.
Print Assumptions C91_step.

(** In the plain case: no scaling, left block of full rank, nothing discarded.
    One direction of the residuals is ignored. *)
Theorem C91_plain : forall qr svd o s A b j s' x, (0 < j < ncol A)%nat -> scaling o = false ->
  (forall t, qr_exact (nrow A) j (scaled o A) (fst (qr t (Sparse (nrow A) j (scaled o A) (stored A)))) (snd (qr t (Sparse (nrow A) j (scaled o A) (stored A)))) j) ->
  svd_correct svd (ncol A - j) ->
  solve qr svd o s A (nrow A) b (Z.of_nat j) = (s', Ok (Some x)) -> deficiency s' = 0%Z ->
  exists u, inner (nrow A) u u = 1 /\ (forall c, (c < j)%nat -> inner (nrow A) u (fun i => entry A i c) = 0) /\
    forall y, let e v := misfit (ncol A) (entry A) b v in
      inner (nrow A) (e x) (e x) - inner (nrow A) u (e x) * inner (nrow A) u (e x) <=
      inner (nrow A) (e y) (e y) - inner (nrow A) u (e y) * inner (nrow A) u (e y).
Proof.
  intros qr svd o s A b j s' x Hj Ns Hqr Hsvd Run D0.
  destruct (C91_step qr svd o s A b j j s' x Hj Hqr Hsvd Run) as (w & N & _ & W & q & z & Bl & X & _ & L).
  assert (w = 0)%nat by lia. subst w. replace (S j - j)%nat with 1%nat in * by lia.
  assert (SE : forall i c, scaled o A i c = entry A i c) by (intros i c; unfold scaled, column_factor; rewrite Ns; ring).
  assert (MF : forall v i, misfit (ncol A) (scaled o A) b v i = misfit (ncol A) (entry A) b v i).
  { intros v i. unfold misfit. f_equal. change (total (ncol A)) with (bsum (ncol A)). apply bsum_ext. intros c _. rewrite SE. reflexivity. }
  assert (MX : forall i, misfit (ncol A) (entry A) b z i = misfit (ncol A) (entry A) b x i).
  { intros i. unfold misfit. f_equal. change (total (ncol A)) with (bsum (ncol A)). apply bsum_ext. intros c Hc. rewrite (X c Hc). unfold column_factor. rewrite Ns. ring. }
  assert (CE : forall v, cost_without q 1 (nrow A) (ncol A) (scaled o A) b v =
    inner (nrow A) (misfit (ncol A) (entry A) b v) (misfit (ncol A) (entry A) b v) -
    inner (nrow A) (q 0%nat) (misfit (ncol A) (entry A) b v) * inner (nrow A) (q 0%nat) (misfit (ncol A) (entry A) b v)).
  { intros v. unfold cost_without, cost.
    assert (E1 : inner (nrow A) (misfit (ncol A) (scaled o A) b v) (misfit (ncol A) (scaled o A) b v) = inner (nrow A) (misfit (ncol A) (entry A) b v) (misfit (ncol A) (entry A) b v)) by (rewrite !inner_dot; apply dot_ext; intros; apply MF).
    assert (E2 : inner (nrow A) (q 0%nat) (misfit (ncol A) (scaled o A) b v) = inner (nrow A) (q 0%nat) (misfit (ncol A) (entry A) b v)) by (rewrite !inner_dot; apply dot_ext; [ reflexivity | intros; apply MF ]).
    rewrite E1. cbn [total]. rewrite E2. ring. }
  exists (q 0%nat). destruct Bl as [B1 B2]. split; [ apply (B1 0%nat 0%nat); lia | ]. split.
  - intros c Hc. specialize (B2 0%nat c ltac:(lia) Hc). rewrite inner_dot in B2 |- *. rewrite <- B2. apply dot_ext; [ reflexivity | intros; symmetry; apply SE ].
  - intros y e. specialize (L y ltac:(intros k Hk; lia)). rewrite !CE in L.
    assert (E1 : inner (nrow A) (misfit (ncol A) (entry A) b z) (misfit (ncol A) (entry A) b z) = inner (nrow A) (e x) (e x)) by (rewrite !inner_dot; apply dot_ext; intros; apply MX).
    assert (E2 : inner (nrow A) (q 0%nat) (misfit (ncol A) (entry A) b z) = inner (nrow A) (q 0%nat) (e x)) by (rewrite !inner_dot; apply dot_ext; [ reflexivity | intros; apply MX ]).
    rewrite E1, E2 in L. exact L.
Qed.
Print Assumptions C91_plain.

(** A system with a solution is solved exactly if nothing is discarded. *)
Lemma gram_zero n p C Om U V S e : (forall c d, (c < n)%nat -> (d < n)%nat -> Om c d = bsum p (fun i => C i c * C i d)) ->
  svd_exact n Om U S V -> (forall k, (k < n)%nat -> S k <> 0) -> (forall i, (i < p)%nat -> bsum n (fun c => C i c * e c) = 0) ->
  forall c, (c < n)%nat -> e c = 0.
Proof.
  intros G Sv P Z. apply dot_zero. rewrite <- (dot_rotated n V e e (proj1 (proj2 Sv))). apply bsum_zero. intros k Hk.
  assert (E : S k * dot n (fun d => V d k) e = 0).
  { rewrite <- (u_om n Om U V S Sv k e Hk). rewrite (om_gram n p C Om G). unfold dot. apply bsum_zero. intros i Hi. unfold Cx. rewrite (Z i Hi). ring. }
  destruct (Rmult_integral _ _ E) as [F | F]; [ exfalso; exact (P k Hk F) | ]. rewrite F. ring.
Qed.
Theorem C91_consistent : forall qr svd o s A b j r s' x y, (0 < j < ncol A)%nat ->
  (forall t, qr_exact (nrow A) j (scaled o A) (fst (qr t (Sparse (nrow A) j (scaled o A) (stored A)))) (snd (qr t (Sparse (nrow A) j (scaled o A) (stored A)))) r) ->
  svd_correct svd (ncol A - j) ->
  solve qr svd o s A (nrow A) b (Z.of_nat j) = (s', Ok (Some x)) -> deficiency s' = 0%Z ->
  (forall i, (i < nrow A)%nat -> total (ncol A) (fun c => scaled o A i c * y c) = b i) ->
  forall i, (i < nrow A)%nat -> total (ncol A) (fun c => entry A i c * x c) = b i.
Proof.
  intros qr svd o s A b j r s' x y Hj Hqr Hsvd Run D0 Hy.
  pose proof (run_rows _ _ _ _ _ _ _ _ _ Hj Run) as Hm.
  destruct (C91_step qr svd o s A b j r s' x Hj Hqr Hsvd Run) as (w & N0 & NS & W & _).
  destruct (step_facts qr svd o s A b j r s' x Hj Hm Hqr Hsvd Run) as (z & rk & X & N & R & HR & Kept & (Om & HO & SE) & Z & Met & L).
  assert (w = 0)%nat by lia. subst w. rewrite (null_space_rank s' rk R) in NS by lia. assert (nsv s' - rk = 0)%nat by congruence. assert (rk = ncol A - j)%nat by lia. subst rk.
  set (m := nrow A) in *. set (n := ncol A) in *. set (B := scaled o A) in *. set (Q := Qs qr o A j) in *.
  pose proof (fac_exact qr o A j r Hqr) as FE. fold m B Q in FE.
  assert (M0 : forall i, (i < m)%nat -> misfit n B b y i = 0) by (intros i Hi; unfold misfit; rewrite (Hy i Hi); ring).
  assert (R0 : forall i, row m n B Q b y i = 0).
  { intros i. unfold row, dot. apply bsum_zero. intros k Hk. rewrite (M0 k Hk). ring. }
  assert (C0 : cost_without (q_blind r Q) (S j - r) m n B b y = 0).
  { rewrite (cost_split m n j r B Q _ b FE ltac:(lia) Hm). rewrite !bsum_zero; [ ring | | ]; intros i Hi; rewrite R0; ring. }
  assert (Cz : 0 <= cost_without (q_blind r Q) (S j - r) m n B b z).
  { rewrite (cost_split m n j r B Q _ b FE ltac:(lia) Hm). apply Rplus_le_le_0_compat; apply bsum_nonneg; intros; apply Rle_0_sqr. }
  specialize (L y ltac:(intros k Hk; lia)). rewrite C0 in L.
  assert (P1 : 0 <= bsum r (fun i => row m n B Q b y i * row m n B Q b y i)) by (apply bsum_nonneg; intros; apply Rle_0_sqr).
  set (h := fun i => bsum (n - j) (fun c => Wr m j B Q (S j + i) c * (from j y c - from j z c))) in *.
  assert (P2 : dot (m - S j) h h = 0).
  { pose proof (dot_nonneg (m - S j) h) as DN.
    assert (L2 : 0 = cost_without (q_blind r Q) (S j - r) m n B b z + bsum r (fun i => row m n B Q b y i * row m n B Q b y i) + dot (m - S j) h h) by exact L.
    lra. }
  assert (E : forall c, (c < n - j)%nat -> from j y c - from j z c = 0).
  { apply (gram_zero (n - j) (m - S j) (fun i c => Wr m j B Q (S j + i) c) Om (matU s') (matV s') (sv s') (fun c => from j y c - from j z c)).
    - intros c d _ _. apply HO.
    - exact SE.
    - exact Kept.
    - intros i Hi. exact (dot_zero (m - S j) h P2 i Hi). }
  assert (RZ : forall i, (i < m)%nat -> row m n B Q b z i = 0).
  { intros i Hi. destruct (lt_dec i r) as [Lr | Lr]; [ apply Met, Lr | ].
    rewrite <- (R0 i). rewrite !(row_low m n j r B Q _ b FE ltac:(lia) Hm) by lia. f_equal. apply bsum_ext. intros c Hc. rewrite <- (Rplus_0_l (from j z c)). rewrite <- (E c Hc). f_equal. ring. }
  assert (MZ : forall i, (i < m)%nat -> misfit n B b z i = 0).
  { apply dot_zero. rewrite <- (dot_rotated m Q _ _ (proj1 (proj2 (proj2 FE)))). apply bsum_zero. intros i Hi. fold (row m n B Q b z i). rewrite (RZ i Hi). ring. }
  intros i Hi. specialize (MZ i Hi). unfold misfit in MZ.
  replace (total n (fun c => entry A i c * x c)) with (total n (fun c => B i c * z c)); [ lra | ].
  change (total n) with (bsum n). apply bsum_ext. intros c Hc. rewrite (X c Hc). unfold B, scaled. ring.
Qed.
Print Assumptions C91_consistent.

(** ** The covariance *)
Lemma cov_main m n j r B Q back Om s' : qr_exact m j B Q back r -> (0 < j < n)%nat -> (j < m)%nat ->
  (forall c d, Om c d = bsum (m - S j) (fun i => Wr m j B Q (S j + i) c * Wr m j B Q (S j + i) d)) ->
  svd_exact (n - j) Om (matU s') (sv s') (matV s') -> (forall k, (k < n - j)%nat -> sv s' k <> 0) ->
  nsv s' = (n - j)%nat -> rank s' = Z.of_nat (n - j) ->
  exists K, covariance s' = ((n - j)%nat, (n - j)%nat, K) /\
    (forall c d, (c < n - j)%nat -> (d < n - j)%nat -> total (n - j) (fun e => K c e * Om e d) = unit_entry c d) /\
    exists q, blind q (S j - r) m j B /\
      forall v : vec,
        let seen := total (n - j) (fun c => v c * total (n - j) (fun d => Om c d * v d)) +
                    total (S j - r) (fun k => inner m (q k) (fun i => total (n - j) (fun c => B i (j + c)%nat * v c)) *
                                              inner m (q k) (fun i => total (n - j) (fun c => B i (j + c)%nat * v c))) in
        (forall y, (forall c, (c < n - j)%nat -> from j y c = v c) -> seen <= cost m n B (fun _ => 0) y) /\
        exists y, (forall c, (c < n - j)%nat -> from j y c = v c) /\ cost m n B (fun _ => 0) y = seen.
Proof.
  intros FE Hj Hm HO SE Pos N R. eexists. split; [ rewrite (covariance_rank s' (n - j) R) by lia; rewrite N; reflexivity | ].
  set (U := matU s') in *. set (D := sv s') in *. set (V := matV s') in *.
  split.
  { intros c d Hc Hd. change (total (n - j)) with (bsum (n - j)).
    rewrite (bsum_ext (n - j) _ (fun e => bsum (n - j) (fun k => V c k * / D k * (V e k * Om e d)))).
    2:{ intros e _. rewrite <- bsum_scal_r. apply bsum_ext. intros k _. ring. }
    rewrite bsum_swap.
    rewrite (bsum_ext (n - j) _ (fun k => V c k * V d k)).
    - change (bsum (n - j) (fun k => V c k * V d k)) with (total (n - j) (fun k => V c k * V d k)). apply (proj2 (proj1 (proj2 SE))); assumption.
    - intros k Hk. rewrite bsum_scal.
      assert (E : bsum (n - j) (fun e => V e k * Om e d) = D k * V d k).
      { pose proof (u_om (n - j) Om U V D SE k (fun e => unit_entry d e) Hk) as UO. unfold dot, Omx in UO.
        rewrite (bsum_ext (n - j) (fun i => V i k * unit_entry d i) (fun i => unit_entry d i * V i k)) in UO by (intros; ring). rewrite (unit_sum (n - j) d (fun i => V i k) Hd) in UO.
        rewrite <- UO. apply bsum_ext. intros e He. rewrite (u_is_v (n - j) (m - S j) (fun i c => Wr m j B Q (S j + i) c) Om U V D (fun c d _ _ => HO c d) SE k Hk (Pos k Hk) e He).
        f_equal. rewrite (bsum_ext (n - j) _ (fun d0 => unit_entry d d0 * Om e d0)) by (intros; ring). rewrite (unit_sum (n - j) d (fun d0 => Om e d0) Hd). reflexivity. }
      rewrite E. field. apply Pos, Hk. }
  exists (q_blind r Q). split; [ exact (blind_ok m n j r B Q back FE ltac:(lia) Hm) | ]. intros v seen.
  set (b0 := fun _ : nat => 0).
  assert (RW : forall y i, (forall c, (c < n - j)%nat -> from j y c = v c) -> (r <= i < m)%nat -> row m n B Q b0 y i = bsum (n - j) (fun c => Wr m j B Q i c * v c)).
  { intros y i Hy Hi. rewrite (row_low m n j r B Q back b0 FE ltac:(lia) Hm y i Hi). unfold b0 at 1. unfold dot at 1. rewrite (bsum_zero m) by (intros; ring).
    rewrite (bsum_ext (n - j) (fun c => Wr m j B Q i c * from j y c) (fun c => Wr m j B Q i c * v c)) by (intros c Hc; rewrite (Hy c Hc); reflexivity). ring. }
  destruct FE as (F1 & F2 & FF). assert (FE : qr_exact m j B Q back r) by (split; [ exact F1 | split; [ exact F2 | exact FF ] ]).
  assert (CS : forall y, (forall c, (c < n - j)%nat -> from j y c = v c) -> cost m n B b0 y = bsum r (fun i => row m n B Q b0 y i * row m n B Q b0 y i) + seen).
  { intros y Hy. pose proof (cost_split m n j r B Q back b0 FE ltac:(lia) Hm y) as SP. unfold cost_without in SP.
    assert (E1 : total (S j - r) (fun k => inner m (q_blind r Q k) (misfit n B b0 y) * inner m (q_blind r Q k) (misfit n B b0 y)) =
      total (S j - r) (fun k => inner m (q_blind r Q k) (fun i => total (n - j) (fun c => B i (j + c)%nat * v c)) * inner m (q_blind r Q k) (fun i => total (n - j) (fun c => B i (j + c)%nat * v c)))).
    { change (total (S j - r)) with (bsum (S j - r)). apply bsum_ext. intros k Hk.
      assert (E : inner m (q_blind r Q k) (misfit n B b0 y) = inner m (q_blind r Q k) (fun i => total (n - j) (fun c => B i (j + c)%nat * v c))).
      { change (inner m (q_blind r Q k) (misfit n B b0 y)) with (row m n B Q b0 y (r + k)). rewrite (RW y (r + k)%nat Hy) by lia.
        rewrite inner_dot. symmetry. change (total (n - j)) with (bsum (n - j)). apply (dot_columns m (n - j) (q_blind r Q k) (fun i c => B i (j + c)%nat) v). }
      rewrite E. reflexivity. }
    assert (E2 : bsum (m - S j) (fun i => row m n B Q b0 y (S j + i) * row m n B Q b0 y (S j + i)) = total (n - j) (fun c => v c * total (n - j) (fun d => Om c d * v d))).
    { pose proof (om_gram (n - j) (m - S j) (fun i c => Wr m j B Q (S j + i) c) Om (fun c d _ _ => HO c d) v v) as G. unfold dot, Omx, Cx in G.
      change (total (n - j)) with (bsum (n - j)). rewrite G. apply bsum_ext. intros i Hi. rewrite (RW y (S j + i)%nat Hy) by lia. reflexivity. }
    rewrite E1, E2 in SP. unfold seen. lra. }
  split.
  - intros y Hy. rewrite (CS y Hy). pose proof (bsum_nonneg r (fun i => row m n B Q b0 y i * row m n B Q b0 y i) (fun i _ => Rle_0_sqr _)). lra.
  - set (xl := back (fun i => dot m (fun k => Q k i) (fun i => b0 i - bsum (n - j) (fun c => B i (j + c)%nat * v c)))).
    assert (Hy : forall c, (c < n - j)%nat -> from j (joined j xl v) c = v c).
    { intros c _. unfold from, joined. rewrite (proj2 (Nat.ltb_ge (j + c) j)) by lia. replace (j + c - j)%nat with c by lia. reflexivity. }
    exists (joined j xl v). split; [ exact Hy | ]. rewrite (CS _ Hy). rewrite bsum_zero; [ ring | ].
    intros i Hi. assert (RM : row m n B Q b0 (joined j xl v) i = 0) by exact (row_met m n j r B Q back b0 FE ltac:(lia) Hm v i Hi). rewrite RM. ring.
Qed.
(** The covariance is the inverse of an information matrix that is the
    information on the right block, the least change of the residuals over the
    left variables, without the part in the ignored directions. *)
Theorem C91_covariance : forall qr svd o s A b j r s' x, (0 < j < ncol A)%nat ->
  (forall t, qr_exact (nrow A) j (scaled o A) (fst (qr t (Sparse (nrow A) j (scaled o A) (stored A)))) (snd (qr t (Sparse (nrow A) j (scaled o A) (stored A)))) r) ->
  svd_correct svd (ncol A - j) ->
  solve qr svd o s A (nrow A) b (Z.of_nat j) = (s', Ok (Some x)) -> deficiency s' = 0%Z ->
  exists K I, covariance s' = ((ncol A - j)%nat, (ncol A - j)%nat, K) /\
    (forall c d, (c < ncol A - j)%nat -> (d < ncol A - j)%nat -> total (ncol A - j) (fun e => K c e * I e d) = unit_entry c d) /\
    exists q, blind q (S j - r) (nrow A) j (scaled o A) /\
      forall v : vec,
        let change_by_right := fun i => total (ncol A - j) (fun c => scaled o A i (j + c)%nat * v c) in
        let seen := total (ncol A - j) (fun c => v c * total (ncol A - j) (fun d => I c d * v d)) +
                    total (S j - r) (fun k => inner (nrow A) (q k) change_by_right * inner (nrow A) (q k) change_by_right) in
        (forall y, (forall c, (c < ncol A - j)%nat -> from j y c = v c) -> seen <= cost (nrow A) (ncol A) (scaled o A) (fun _ => 0) y) /\
        exists y, (forall c, (c < ncol A - j)%nat -> from j y c = v c) /\ cost (nrow A) (ncol A) (scaled o A) (fun _ => 0) y = seen.
Proof.
  intros qr svd o s A b j r s' x Hj Hqr Hsvd Run D0. pose proof (run_rows _ _ _ _ _ _ _ _ _ Hj Run) as Hm.
  destruct (C91_step qr svd o s A b j r s' x Hj Hqr Hsvd Run) as (w & N0 & NS & W & _).
  destruct (step_facts qr svd o s A b j r s' x Hj Hm Hqr Hsvd Run) as (z & rk & X & N & R & HR & Kept & (Om & HO & SE) & _).
  assert (w = 0)%nat by lia. subst w. rewrite (null_space_rank s' rk R) in NS by lia. assert (nsv s' - rk = 0)%nat by congruence. assert (rk = ncol A - j)%nat by lia. subst rk.
  destruct (cov_main (nrow A) (ncol A) j r (scaled o A) (Qs qr o A j) _ Om s' (fac_exact qr o A j r Hqr) Hj Hm HO SE Kept N R) as (K & C & IV & q & Bl & V).
  exists K, Om. split; [ exact C | ]. split; [ exact IV | ]. exists q. split; [ exact Bl | exact V ].
Qed.
Print Assumptions C91_covariance.

(** ** When a step comes out *)
Theorem C91_runs : forall qr svd o s A b j r, (0 < j < ncol A)%nat -> (j < nrow A)%nat ->
  (forall t, qr_exact (nrow A) j (scaled o A) (fst (qr t (Sparse (nrow A) j (scaled o A) (stored A)))) (snd (qr t (Sparse (nrow A) j (scaled o A) (stored A)))) r) ->
  svd_correct svd (ncol A - j) ->
  exists s' res, solve qr svd o s A (nrow A) b (Z.of_nat j) = (s', Ok res) /\
    tolerance s' = (if Req_EM_T (svd_tol o) (-1) then sv s' 0%nat * eps_svd o * INR (ncol A - j) else svd_tol o) /\
    rank s' = Z.of_nat (Nat.max 1 (above (ncol A - j) (sv s') (tolerance s'))) /\
    deficiency s' = (Z.of_nat (ncol A - j) - rank s')%Z /\
    (0 <= tolerance s' -> (res = None <-> sv s' 0%nat = 0)) /\
    (nrow A = S j -> res = None).
Proof.
  intros qr svd o s A b j r Hj Hm Hqr Hsvd. pose proof (fac_exact qr o A j r Hqr) as FE.
  destruct (solve_ok qr svd o A j Hj s b (proj1 (proj2 (proj2 FE))) Hm) as (Om & br & HO & HB & K). cbv zeta in K.
  destruct K as (HR & s' & N1 & R1 & S1 & U1 & V1 & T1 & D1 & _ & K).
  set (D := snd (fst (svd (ncol A - j)%nat Om))) in *.
  assert (SE : svd_exact (ncol A - j) Om (fst (fst (svd (ncol A - j)%nat Om))) D (snd (svd (ncol A - j)%nat Om))).
  { pose proof (Hsvd Om) as C. unfold D. destruct (svd (ncol A - j)%nat Om) as [[U0 D0] V0]. apply C. exists (nrow A - S j)%nat, (fun i c => Wr (nrow A) j (scaled o A) (Qs qr o A j) (S j + i) c).
    intros c d _ _. rewrite HO. reflexivity. }
  set (rk := estimate_rank (ncol A - j) D (tol_of o (ncol A - j) D)) in *.
  assert (SO : forall k l, (k <= l < ncol A - j)%nat -> D l <= D k) by exact (proj1 (proj2 (proj2 (proj2 SE)))).
  assert (RK : rk = Nat.max 1 (above (ncol A - j) D (tol_of o (ncol A - j) D))) by (apply estimate_rank_spec; [ lia | exact SO ]).
  assert (EX : exists res, solve qr svd o s A (nrow A) b (Z.of_nat j) = (s', Ok res) /\ (res = None <-> exists k, (k < rk)%nat /\ D k = 0)).
  { destruct K as [ ((k & Hk & Z) & E) | (P & x & E & _) ].
    - exists None. split; [ exact E | ]. split; [ intros _; exists k; split; assumption | reflexivity ].
    - exists (Some x). split; [ exact E | ]. split; [ discriminate | ]. intros (k & Hk & Z). exfalso. exact (P k Hk Z). }
  destruct EX as (res & E & EN). exists s', res. split; [ exact E | ]. rewrite S1, T1, R1, D1.
  split; [ reflexivity | ]. split; [ rewrite RK; reflexivity | ]. split; [ reflexivity | ]. split.
  - intros T0. rewrite EN. split.
    + intros (k & Hk & Z). destruct (Nat.eq_dec k 0) as [-> | N]; [ exact Z | ].
      assert (L : (k < above (ncol A - j) D (tol_of o (ncol A - j) D))%nat) by lia.
      pose proof (above_prefix (ncol A - j) D (tol_of o (ncol A - j) D) k SO L). lra.
    + intros Z. exists 0%nat. split; [ lia | exact Z ].
  - intros Em. apply EN. exists 0%nat. split; [ lia | ].
    assert (OZ : forall c d, Om c d = 0) by (intros c d; rewrite HO, Em, Nat.sub_diag; reflexivity).
    pose proof (u_om (ncol A - j) Om _ _ D SE 0%nat (fun d => snd (svd (ncol A - j)%nat Om) d 0%nat) ltac:(lia)) as UO.
    rewrite columns_dot in UO; [ | exact (proj1 (proj2 SE)) | lia | lia ].
    assert (LZ : dot (ncol A - j) (fun c => fst (fst (svd (ncol A - j)%nat Om)) c 0%nat) (Omx (ncol A - j) Om (fun d => snd (svd (ncol A - j)%nat Om) d 0%nat)) = 0).
    { unfold dot. apply bsum_zero. intros c _. unfold Omx. rewrite bsum_zero; [ ring | ]. intros d _. rewrite OZ. ring. }
    rewrite LZ in UO. unfold unit_entry in UO. cbn [Nat.eqb] in UO. lra.
Qed.
Print Assumptions C91_runs.
Theorem C91_rejects : forall qr svd o s A nb b j,
  nrow A <> nb \/ (j <= 0)%Z \/ (Z.of_nat (ncol A) <= j)%Z \/ (Z.of_nat (nrow A) <= j)%Z ->
  snd (solve qr svd o s A nb b j) = Throw.
Proof.
  intros qr svd o s A nb b j H. unfold solve. destruct (Nat.eqb_spec (nrow A) nb) as [E | N]; cbn [negb]; [ subst nb | reflexivity ].
  destruct (Z.leb_spec j 0) as [J | J].
  { unfold column_submatrix at 1. rewrite (proj2 (Z.ltb_lt _ _)) by lia. reflexivity. }
  destruct (Z.leb_spec (Z.of_nat (ncol A)) j) as [J2 | J2].
  { destruct (column_submatrix A 0 (j - 1)); try reflexivity. cbv zeta. unfold column_submatrix. destruct (Z.ltb_spec (Z.of_nat (ncol A) - 1) j); [ reflexivity | lia ]. }
  pose proof (solve_small qr svd o A (Z.to_nat j) ltac:(lia) s b ltac:(lia)) as SS. unfold solve in SS. rewrite Z2Nat.id in SS by lia. rewrite Nat.eqb_refl in SS. cbn [negb] in SS. exact SS.
Qed.
Print Assumptions C91_rejects.

(** ** The analysis afterwards: without scaling; a rank found before for a left
    block of the same size is kept, even if it was found with scaling. *)
Definition plain (o : options) : options := Options false (eps_norm o) (eps_svd o) (eps_qr o) (svd_tol o) (qr_tolerance o).
Lemma scaled_plain o A : scaled (plain o) A = entry A.
Proof. apply functional_extensionality. intros i. apply functional_extensionality. intros c. unfold scaled, column_factor, plain. cbn [scaling]. ring. Qed.
Theorem C91_analyze : forall qr svd o s A j r, (0 < j < ncol A)%nat -> (j < nrow A)%nat ->
  (forall t, qr_exact (nrow A) j (entry A) (fst (qr t (Sparse (nrow A) j (entry A) (stored A)))) (snd (qr t (Sparse (nrow A) j (entry A) (stored A)))) r) ->
  svd_correct svd (ncol A - j) ->
  exists s', analyze_marginal qr svd o s A (Z.of_nat j) = (s', Ok tt) /\ nsv s' = (ncol A - j)%nat /\
    (sizes s = Some (nrow A, j, count_stored A j) -> rank s <> (-1)%Z -> rank s' = rank s) /\
    (rank s = (-1)%Z -> rank s' = Z.of_nat (Nat.max 1 (above (ncol A - j) (sv s') (tolerance s')))) /\
    (rank s' = Z.of_nat (ncol A - j) -> (forall k, (k < ncol A - j)%nat -> sv s' k <> 0) ->
     exists K I, covariance s' = ((ncol A - j)%nat, (ncol A - j)%nat, K) /\
       (forall c d, (c < ncol A - j)%nat -> (d < ncol A - j)%nat -> total (ncol A - j) (fun e => K c e * I e d) = unit_entry c d) /\
       exists q, blind q (S j - r) (nrow A) j (entry A) /\
         forall v : vec,
           let change_by_right := fun i => total (ncol A - j) (fun c => entry A i (j + c)%nat * v c) in
           let seen := total (ncol A - j) (fun c => v c * total (ncol A - j) (fun d => I c d * v d)) +
                       total (S j - r) (fun k => inner (nrow A) (q k) change_by_right * inner (nrow A) (q k) change_by_right) in
           (forall y, (forall c, (c < ncol A - j)%nat -> from j y c = v c) -> seen <= cost (nrow A) (ncol A) (entry A) (fun _ => 0) y) /\
           exists y, (forall c, (c < ncol A - j)%nat -> from j y c = v c) /\ cost (nrow A) (ncol A) (entry A) (fun _ => 0) y = seen).
Proof.
  intros qr svd o s A j r Hj Hm Hqr Hsvd.
  assert (LB : left_block (plain o) A j = Sparse (nrow A) j (entry A) (stored A)) by (unfold left_block; rewrite scaled_plain; reflexivity).
  assert (RB : right_block (plain o) A j = Sparse (nrow A) (ncol A - j) (fun i c => entry A i (j + c)%nat) (fun c => stored A (j + c)%nat)) by (unfold right_block; rewrite scaled_plain; reflexivity).
  set (F := fac qr (plain o) A j).
  assert (FE : qr_exact (nrow A) j (entry A) (f_Q F) (f_solve F) r).
  { unfold F. rewrite fac_eq, LB. apply Hqr. }
  destruct (reduce_left_ok (plain o) A j Hj F) as (Om & ArtQ & RL & _ & _ & HO); [ unfold F; rewrite fac_eq; reflexivity | exact (proj1 (proj2 (proj2 FE))) | exact Hm | ].
  assert (HO' : forall c d, Om c d = bsum (nrow A - S j) (fun i => Wr (nrow A) j (entry A) (f_Q F) (S j + i) c * Wr (nrow A) j (entry A) (f_Q F) (S j + i) d)).
  { intros c d. rewrite HO. unfold Wm. rewrite scaled_plain. reflexivity. }
  assert (SE : svd_exact (ncol A - j) Om (fst (fst (svd (ncol A - j)%nat Om))) (snd (fst (svd (ncol A - j)%nat Om))) (snd (svd (ncol A - j)%nat Om))).
  { pose proof (Hsvd Om) as C. destruct (svd (ncol A - j)%nat Om) as [[U0 D0] V0]. apply C. exists (nrow A - S j)%nat, (fun i c => Wr (nrow A) j (entry A) (f_Q F) (S j + i) c).
    intros c d _ _. rewrite HO'. reflexivity. }
  set (s1 := refresh s (Sparse (nrow A) j (entry A) (stored A))).
  assert (R1 : (sizes s = Some (nrow A, j, count_stored A j) -> rank s1 = rank s) /\ (rank s = (-1)%Z -> rank s1 = (-1)%Z)).
  { assert (CS : forall k, count_stored (Sparse (nrow A) j (entry A) (stored A)) k = count_stored A k) by (induction k as [ | k IH]; cbn [count_stored]; [ reflexivity | rewrite IH; reflexivity ]).
    unfold s1, refresh. cbn [nrow ncol]. destruct (sizes s) as [[[a c] e] | ].
    - split.
      + intros E. assert (a = nrow A) by congruence. assert (c = j) by congruence. assert (e = count_stored A j) by congruence. subst a c e. rewrite CS, !Nat.eqb_refl. reflexivity.
      + intros E. destruct (_ && _ && _); [ exact E | reflexivity ].
    - split; [ discriminate | ]. intros E. exact E. }
  set (s2 := State (sizes s1) (rank s1) (deficiency s1) (tolerance s1) (ncol A - j) (snd (fst (svd (ncol A - j)%nat Om))) (fst (fst (svd (ncol A - j)%nat Om))) (snd (svd (ncol A - j)%nat Om))).
  destruct (with_rank_ok o A j Hj s2) as (WR & HR); [ cbn [nsv s2]; lia | ].
  assert (RUN : analyze_marginal qr svd o s A (Z.of_nat j) =
    (if (rank s2 =? -1)%Z then match with_rank o s2 with Ok s3 => (s3, Ok tt) | _ => (s2, Throw) end else (s2, Ok tt))).
  { unfold analyze_marginal. rewrite (left_sub A j Hj), (right_sub A j Hj).
    change (factorize qr o (Sparse (nrow A) j (entry A) (stored A))) with (factorize qr (plain o) (Sparse (nrow A) j (entry A) (stored A))).
    rewrite <- RB, <- LB. fold (fac qr (plain o) A j). fold F. rewrite RL. rewrite with_svd_eq. rewrite LB. reflexivity. }
  rewrite RUN.
  assert (COV : forall s', nsv s' = (ncol A - j)%nat -> matU s' = matU s2 -> matV s' = matV s2 -> sv s' = sv s2 ->
     rank s' = Z.of_nat (ncol A - j) -> (forall k, (k < ncol A - j)%nat -> sv s' k <> 0) ->
     exists K, covariance s' = ((ncol A - j)%nat, (ncol A - j)%nat, K) /\
       (forall c d, (c < ncol A - j)%nat -> (d < ncol A - j)%nat -> total (ncol A - j) (fun e => K c e * Om e d) = unit_entry c d) /\
       exists q, blind q (S j - r) (nrow A) j (entry A) /\
         forall v : vec,
           let seen := total (ncol A - j) (fun c => v c * total (ncol A - j) (fun d => Om c d * v d)) +
                       total (S j - r) (fun k => inner (nrow A) (q k) (fun i => total (ncol A - j) (fun c => entry A i (j + c)%nat * v c)) *
                                                 inner (nrow A) (q k) (fun i => total (ncol A - j) (fun c => entry A i (j + c)%nat * v c))) in
           (forall y, (forall c, (c < ncol A - j)%nat -> from j y c = v c) -> seen <= cost (nrow A) (ncol A) (entry A) (fun _ => 0) y) /\
           exists y, (forall c, (c < ncol A - j)%nat -> from j y c = v c) /\ cost (nrow A) (ncol A) (entry A) (fun _ => 0) y = seen).
  { intros s' N U V S0 R P. apply (cov_main (nrow A) (ncol A) j r (entry A) (f_Q F) (f_solve F) Om s' FE Hj Hm HO'); [ rewrite U, V, S0; exact SE | exact P | exact N | exact R ]. }
  destruct (Z.eqb_spec (rank s2) (-1)) as [E | E].
  - rewrite WR. eexists. split; [ reflexivity | ]. split; [ reflexivity | ].
    split; [ intros H1 H2; exfalso; apply H2; rewrite <- (proj1 R1 H1); exact E | ].
    split.
    + intros _. cbn [rank sv tolerance]. f_equal. apply estimate_rank_spec; [ cbn [nsv s2]; lia | exact (proj1 (proj2 (proj2 (proj2 SE)))) ].
    + intros R P. match goal with |- context [covariance ?st] => destruct (COV st eq_refl eq_refl eq_refl eq_refl R P) as (K & C1 & C2 & C3) end. exists K, Om. split; [ exact C1 | split; [ exact C2 | exact C3 ] ].
  - exists s2. split; [ reflexivity | ]. split; [ reflexivity | ]. split; [ intros H1 _; exact (proj1 R1 H1) | ].
    split; [ intros H1; exfalso; apply E; exact (proj2 R1 H1) | ].
    intros R P. destruct (COV s2 eq_refl eq_refl eq_refl eq_refl R P) as (K & C1 & C2 & C3). exists K, Om. split; [ exact C1 | split; [ exact C2 | exact C3 ] ].
Qed.
Print Assumptions C91_analyze.

(** ** A small system: three equations, one variable on each side *)
Definition unit_qr (_ : R) (_ : sparse) : mat * (vec -> vec) := (unit_entry, fun y => y).
Definition svd1 (_ : nat) (M : mat) : mat * vec * mat := (unit_entry, fun _ => M 0%nat 0%nat, unit_entry).
Definition A3 : sparse := Sparse 3 2 (fun i c => match c with O => unit_entry i 0 | _ => match i with O => 0 | 1%nat => 3 | _ => 4 end end) (fun _ => 3%nat).
Definition opts : options := Options false (/ 100) (/ 1000) (/ 1000) 0 (-1).
Lemma unit_orthogonal n : orthogonal n unit_entry.
Proof.
  split; intros i j Hi Hj; change (total n) with (bsum n).
  - rewrite (unit_sum_r n i (fun k => unit_entry k j) Hi). reflexivity.
  - rewrite (unit_sum n i (fun k => unit_entry j k) Hi). unfold unit_entry. rewrite Nat.eqb_sym. reflexivity.
Qed.
Lemma svd1_correct : svd_correct svd1 1.
Proof.
  intros M (p & C & G). cbn [svd1]. split; [ apply unit_orthogonal | ]. split; [ apply unit_orthogonal | ].
  split; [ intros k _; rewrite G by lia; change (total p) with (bsum p); apply bsum_nonneg; intros; apply Rle_0_sqr | ].
  split; [ intros; lra | ]. intros c d Hc Hd. assert (c = 0)%nat by lia. assert (d = 0)%nat by lia. subst. cbn [total]. unfold unit_entry. cbn [Nat.eqb]. ring.
Qed.
Lemma A3_qr t : qr_exact 3 1 (scaled opts A3) (fst (unit_qr t (Sparse 3 1 (scaled opts A3) (stored A3)))) (snd (unit_qr t (Sparse 3 1 (scaled opts A3) (stored A3)))) 1.
Proof.
  cbn [unit_qr fst snd]. split; [ lia | ]. split; [ lia | ]. split; [ apply unit_orthogonal | ]. split.
  - intros i c Hi Hc. assert (c = 0)%nat by lia. subst c. unfold scaled, column_factor. cbn [scaling opts entry A3 total]. unfold unit_entry.
    destruct i as [ | [ | [ | i]]]; [ lia | | | lia ]; cbn [Nat.eqb]; ring.
  - intros y i Hi. assert (i = 0)%nat by lia. subst i. unfold scaled, column_factor. cbn [scaling opts entry A3 total]. unfold unit_entry. cbn [Nat.eqb]. ring.
Qed.
Lemma A3_step s b : exists s' x, solve unit_qr svd1 opts s A3 3 b 1%Z = (s', Ok (Some x)) /\ deficiency s' = 0%Z /\ x 0%nat = b 0%nat /\ x 1%nat = b 2%nat / 4.
Proof.
  destruct (solve_ok unit_qr svd1 opts A3 1 ltac:(cbn; lia) s b) as (Om & br & HO & HB & K).
  { exact (proj1 (proj2 (proj2 (fac_exact unit_qr opts A3 1 1 A3_qr)))). } { cbn; lia. }
  cbv zeta in K. cbn [ncol A3 nrow Nat.sub] in K. cbn [svd1 fst snd] in K.
  destruct K as (HR & s' & N & RR & _ & _ & _ & _ & DF & _ & K).
  assert (WM : forall i, (i < 3)%nat -> Wm opts A3 1 (fac unit_qr opts A3 1) i 0%nat = entry A3 i 1%nat).
  { intros i Hi. unfold Wm. rewrite fac_eq. cbn [f_Q unit_qr fst]. unfold dot. cbn [nrow A3].
    rewrite (unit_sum_r 3 i (fun k => scaled opts A3 k (1 + 0)%nat) Hi). unfold scaled, column_factor. cbn [scaling opts entry A3 Nat.add]. ring. }
  assert (QB : forall i, (i < 3)%nat -> dot 3 (fun k => f_Q (fac unit_qr opts A3 1) k i) b = b i).
  { intros i Hi. rewrite fac_eq. cbn [f_Q unit_qr fst]. unfold dot. apply (unit_sum_r 3 i b Hi). }
  assert (OM : Om 0%nat 0%nat = 16).
  { rewrite HO. cbn [nrow A3 Nat.sub bsum Nat.add]. rewrite WM by lia. cbn [entry A3]. ring. }
  assert (BR : br 0%nat = 4 * b 2%nat).
  { rewrite HB. cbn [nrow A3 Nat.sub bsum Nat.add]. rewrite WM by lia. change (nrow A3) with 3%nat. rewrite QB by lia. cbn [entry A3]. ring. }
  rewrite OM in *. set (rk := estimate_rank 1 _ _) in *. assert (E1 : rk = 1%nat) by lia. rewrite E1 in *.
  destruct K as [ ((k & _ & Z) & _) | (_ & x & E & X) ]; [ lra | ]. exists s', x. split; [ exact E | ]. split; [ exact DF | ].
  pose proof (X 0%nat ltac:(lia)) as X0. pose proof (X 1%nat ltac:(lia)) as X1.
  unfold joined in X0, X1. cbn [Nat.ltb Nat.leb Nat.sub] in X0, X1.
  assert (Z0 : zr 1 unit_entry unit_entry (fun _ : nat => 16) 1 br 0%nat = b 2%nat / 4).
  { unfold zr. cbn [bsum]. unfold unit_entry. cbn [Nat.eqb]. rewrite BR. field. }
  unfold column_factor in X0, X1. cbn [scaling opts] in X0, X1.
  split; [ | rewrite X1, Z0; ring ].
  rewrite X0, fac_eq. cbn [f_solve f_Q unit_qr fst snd]. unfold dot. change (nrow A3) with 3%nat.
  rewrite (unit_sum_r 3 0 (fun i => b i - bsum 1 (fun c => scaled opts A3 i (1 + c)%nat * zr 1 unit_entry unit_entry (fun _ : nat => 16) 1 br c)) ltac:(lia)).
  cbn [bsum]. unfold scaled, column_factor. cbn [scaling opts entry A3 Nat.add]. ring.
Qed.
(** The hypotheses of the theorems are met. *)
Example C91_ex : exists s' x, solve unit_qr svd1 opts empty A3 (nrow A3) (fun _ => 4) (Z.of_nat 1) = (s', Ok (Some x)) /\
  (0 < 1 < ncol A3)%nat /\ svd_correct svd1 (ncol A3 - 1) /\ deficiency s' = 0%Z /\ x 0%nat = 4 /\ x 1%nat = 1.
Proof.
  destruct (A3_step empty (fun _ => 4)) as (s' & x & E & D & X0 & X1). exists s', x. split; [ exact E | ]. split; [ cbn; lia | ].
  split; [ exact svd1_correct | ]. split; [ exact D | ]. split; [ exact X0 | ]. rewrite X1. field.
Qed.
(** The step is not the least squares solution, and at the least squares
    solution (no gradient left) it does not vanish. *)
Theorem C91_least_squares_refuted : exists qr svd o s A b j s' x y, (0 < j < ncol A)%nat /\
  (forall t, qr_exact (nrow A) j (scaled o A) (fst (qr t (Sparse (nrow A) j (scaled o A) (stored A)))) (snd (qr t (Sparse (nrow A) j (scaled o A) (stored A)))) j) /\
  svd_correct svd (ncol A - j) /\ scaling o = false /\
  solve qr svd o s A (nrow A) b (Z.of_nat j) = (s', Ok (Some x)) /\ deficiency s' = 0%Z /\
  cost (nrow A) (ncol A) (entry A) b y < cost (nrow A) (ncol A) (entry A) b x.
Proof.
  set (b := fun i => match i with 1%nat => 25 | _ => 0 end : R).
  destruct (A3_step empty b) as (s' & x & E & D & X0 & X1).
  exists unit_qr, svd1, opts, empty, A3, b, 1%nat, s', x, (fun c => match c with O => 0 | _ => 3 end).
  split; [ cbn; lia | ]. split; [ exact A3_qr | ]. split; [ exact svd1_correct | ]. split; [ reflexivity | ]. split; [ exact E | ]. split; [ exact D | ].
  unfold cost, inner, misfit. cbn [total nrow ncol A3 entry]. rewrite X0, X1. unfold b, unit_entry. cbn [Nat.eqb]. lra.
Qed.
Print Assumptions C91_least_squares_refuted.
Theorem C91_optimum_refuted : exists qr svd o s A b j s' x, (0 < j < ncol A)%nat /\
  (forall t, qr_exact (nrow A) j (scaled o A) (fst (qr t (Sparse (nrow A) j (scaled o A) (stored A)))) (snd (qr t (Sparse (nrow A) j (scaled o A) (stored A)))) j) /\
  svd_correct svd (ncol A - j) /\ scaling o = false /\
  (forall c, (c < ncol A)%nat -> inner (nrow A) (fun i => entry A i c) b = 0) /\
  solve qr svd o s A (nrow A) b (Z.of_nat j) = (s', Ok (Some x)) /\ deficiency s' = 0%Z /\ x 1%nat <> 0.
Proof.
  set (b := fun i => match i with 0%nat => 0 | 1%nat => 4 | _ => -3 end : R).
  destruct (A3_step empty b) as (s' & x & E & D & X0 & X1).
  exists unit_qr, svd1, opts, empty, A3, b, 1%nat, s', x.
  split; [ cbn; lia | ]. split; [ exact A3_qr | ]. split; [ exact svd1_correct | ]. split; [ reflexivity | ].
  split; [ | split; [ exact E | split; [ exact D | rewrite X1; unfold b; lra ] ] ].
  intros c Hc. cbn in Hc. unfold inner. cbn [total nrow A3 entry]. unfold b, unit_entry. destruct c as [ | [ | c]]; [ | | lia ]; cbn [Nat.eqb]; ring.
Qed.
Print Assumptions C91_optimum_refuted.
(** One equation more than left variables: no finite step. *)
Theorem C91_nan_refuted : exists qr svd o s A b j, (0 < j < ncol A)%nat /\ (j < nrow A)%nat /\
  (forall t, qr_exact (nrow A) j (scaled o A) (fst (qr t (Sparse (nrow A) j (scaled o A) (stored A)))) (snd (qr t (Sparse (nrow A) j (scaled o A) (stored A)))) j) /\
  (exists y, forall i, (i < nrow A)%nat -> misfit (ncol A) (entry A) b y i = 0) /\
  exists s', solve qr svd o s A (nrow A) b (Z.of_nat j) = (s', Ok None).
Proof.
  set (A2 := Sparse 2 2 unit_entry (fun _ => 1%nat)).
  assert (Q : forall t, qr_exact 2 1 (scaled opts A2) (fst (unit_qr t (Sparse 2 1 (scaled opts A2) (stored A2)))) (snd (unit_qr t (Sparse 2 1 (scaled opts A2) (stored A2)))) 1).
  { intros t. cbn [unit_qr fst snd]. split; [ lia | ]. split; [ lia | ]. split; [ apply unit_orthogonal | ]. split.
    - intros i c Hi Hc. assert (c = 0)%nat by lia. assert (i = 1)%nat by lia. subst c i. unfold scaled, column_factor. cbn [scaling opts entry A2 total]. unfold unit_entry. cbn [Nat.eqb]. ring.
    - intros y i Hi. assert (i = 0)%nat by lia. subst i. unfold scaled, column_factor. cbn [scaling opts entry A2 total]. unfold unit_entry. cbn [Nat.eqb]. ring. }
  exists unit_qr, svd1, opts, empty, A2, (fun _ => 1), 1%nat. split; [ cbn; lia | ]. split; [ cbn; lia | ]. split; [ exact Q | ].
  split.
  - exists (fun _ => 1). intros i Hi. cbn in Hi. unfold misfit. cbn [total ncol A2 entry]. unfold unit_entry. destruct i as [ | [ | i]]; [ | | lia ]; cbn [Nat.eqb]; ring.
  - destruct (C91_runs unit_qr svd1 opts empty A2 (fun _ => 1) 1 1 ltac:(cbn; lia) ltac:(cbn; lia) Q svd1_correct) as (s' & res & E & _ & _ & _ & _ & Z).
    exists s'. rewrite E, (Z eq_refl). reflexivity.
Qed.
Print Assumptions C91_nan_refuted.
