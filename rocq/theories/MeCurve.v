(** * Entries of the matrix of the motion of a curve *)
From Coquelicot Require Import Coquelicot.
From Coq Require Import Reals List Arith ZArith Bool Lia Lra.
From Verif Require Import Base BsplModel BsplSpec BsplProofs BsdProofs BsqModel BsqProofs.
Import ListNotations.
Local Close Scope Z_scope.
Local Open Scope R_scope.

Definition one_at (i : nat) : vec := fun j => if (j =? i)%nat then 1 else 0.

Lemma bil_unit n Q r c : (r < n)%nat -> (c < n)%nat -> bil n Q (one_at r) (one_at c) = Q r c.
Proof.
  intros Lr Lc. unfold bil, one_at. rewrite (bsum_single n r); [ | exact Lr | ].
  - rewrite Nat.eqb_refl, (bsum_single n c); [ rewrite Nat.eqb_refl; ring | exact Lc | ].
    intros i Li N. destruct (Nat.eqb_spec i c); [ contradiction | ring ].
  - intros i Li N. destruct (Nat.eqb_spec i r); [ contradiction | ring ].
Qed.
Lemma mapply_unit n M c r : (c < n)%nat -> mapply n M (one_at c) r = M r c.
Proof.
  intros Lc. unfold mapply, one_at. rewrite (bsum_single n c); [ rewrite Nat.eqb_refl; ring | exact Lc | ].
  intros i Li N. destruct (Nat.eqb_spec i c); [ contradiction | ring ].
Qed.
Lemma bil_sym n Q x y : (forall r c, (r < n)%nat -> (c < n)%nat -> Q r c = Q c r) -> bil n Q x y = bil n Q y x.
Proof.
  intros S. unfold bil.
  transitivity (bsum n (fun r => bsum n (fun c => x r * (Q r c * y c)))).
  { apply bsum_ext. intros r _. rewrite bsum_scal. reflexivity. }
  rewrite bsum_swap. apply bsum_ext. intros c Lc. rewrite <- bsum_scal. apply bsum_ext. intros r Lr. rewrite (S r c Lr Lc). ring.
Qed.
Lemma bil_zero_l n Q y : bil n Q (fun _ => 0) y = 0.
Proof. unfold bil. apply bsum_zero. intros. ring. Qed.
Lemma bil_zero_r n Q x : bil n Q x (fun _ => 0) = 0.
Proof. unfold bil. apply bsum_zero. intros r _. rewrite bsum_zero; [ ring | intros; ring ]. Qed.

(** Every entry of a segment's matrix is an entry of the weights times an entry
    of a symmetric form. *)
Lemma segment_entries b W seg d q : wf b -> (seg + order b <= ncols b)%nat -> segment_Q b (dim b) (dim b) W seg d = Ok q ->
  exists v, (forall i j, v i j = v j i) /\
    forall i j r s, (i < order b)%nat -> (j < order b)%nat -> (r < dim b)%nat -> (s < dim b)%nat ->
      q (i * dim b + r)%nat (j * dim b + s)%nat = W r s * v i j.
Proof.
  intros WF L E. destruct (segment_matrices b seg WF L) as [m [Dm [EM [ED [EV [EMi _]]]]]].
  unfold segment_Q in E. rewrite ED, EV, EMi in E. rewrite Nat.eqb_refl in E. cbn [andb obind] in E.
  destruct (seg <? length (bases b))%nat; [ | discriminate ]. destruct (symmetric_check (dim b) W); [ | discriminate ].
  cbv zeta in E.
  set (V := derive_V (order b) (Z.to_nat d) Dm
    (fun r c => / (INR (r + c) + 1) * (knot (knots b) (seg + order b) - knot (knots b) (seg + order b - 1)))) in *.
  set (M := fun row col : nat => if (row / order b =? col mod dim b)%nat then m (row mod order b)%nat (col / dim b)%nat else 0) in *.
  set (N := (dim b * order b)%nat) in *.
  match type of E with Ok ?e = Ok _ => assert (X : q = e) by congruence end. clear E. subst q.
  exists (fun i j => bil (order b) V (fun a => m a i) (fun a => m a j)). split.
  { intros i j. unfold V. rewrite !derive_V_bil. apply bil_sym. intros r c _ _. rewrite (Nat.add_comm r c). reflexivity. }
  intros i j r s Li Lj Lr Ls.
  assert (B1 : (i * dim b + r < N)%nat) by (unfold N; nia). assert (B2 : (j * dim b + s < N)%nat) by (unfold N; nia).
  rewrite <- (bil_unit N _ _ _ B1 B2). rewrite bil_congruence.
  rewrite (bil_ext N _ (mapply N M (one_at (i * dim b + r))) (mapply N M (one_at (j * dim b + s)))
    (fun a c => W (a / order b)%nat (c / order b)%nat * V (a mod order b)%nat (c mod order b)%nat)
    (fun a => M a (i * dim b + r)%nat) (fun a => M a (j * dim b + s)%nat)); [ | reflexivity | | ].
  2, 3: intros; apply mapply_unit; assumption.
  unfold N. rewrite WV_bil.
  assert (CO : forall i r, (r < dim b)%nat -> forall x a, (a < order b)%nat ->
    M (x * order b + a)%nat (i * dim b + r)%nat = if (x =? r)%nat then m a i else 0).
  { intros i' r' L' x a La. unfold M. destruct (div_mod_block (order b) a x La) as [-> ->].
    destruct (div_mod_block (dim b) r' i' L') as [-> ->]. reflexivity. }
  rewrite (bsum_single (dim b) r); [ rewrite (bsum_single (dim b) s) | exact Lr | ].
  - f_equal. apply bil_ext; [ reflexivity | | ]; intros a La.
    + rewrite (CO i r Lr r a La), Nat.eqb_refl. reflexivity.
    + rewrite (CO j s Ls s a La), Nat.eqb_refl. reflexivity.
  - exact Ls.
  - intros y Ly NY. rewrite (bil_ext (order b) V _ _ V (fun a => m a i) (fun _ => 0)); [ rewrite bil_zero_r; ring | reflexivity | | ].
    + intros a La. rewrite (CO i r Lr r a La), Nat.eqb_refl. reflexivity.
    + intros a La. rewrite (CO j s Ls y a La). destruct (Nat.eqb_spec y s); [ contradiction | reflexivity ].
  - intros x Lx NX. apply bsum_zero. intros y Ly.
    rewrite (bil_ext (order b) V _ _ V (fun _ => 0) (fun a => M (y * order b + a)%nat (j * dim b + s)%nat)); [ rewrite bil_zero_l; ring | reflexivity | | reflexivity ].
    intros a La. rewrite (CO i r Lr x a La). destruct (Nat.eqb_spec x r); [ contradiction | reflexivity ].
Qed.

(** A matrix of blocks of size D is made of multiples of one symmetric matrix:
    its blocks may be exchanged and transposed. *)
Definition exchangeable (D : nat) (q : mat) : Prop := forall i j r s, (r < D)%nat -> (s < D)%nat ->
  q (i * D + r)%nat (j * D + s)%nat = q (j * D + r)%nat (i * D + s)%nat.
Definition transposable (D : nat) (q : mat) : Prop := forall i j r s, (r < D)%nat -> (s < D)%nat ->
  q (i * D + r)%nat (j * D + s)%nat = q (j * D + s)%nat (i * D + r)%nat.

(** The window of a segment, in blocks. *)
Definition window (s k i : nat) : bool := (s <=? i)%nat && (i <? s + k)%nat.
Lemma window_scalar s k i D r : (r < D)%nat ->
  (s * D <=? i * D + r)%nat && (i * D + r <? s * D + k * D)%nat = window s k i.
Proof.
  intros L. unfold window. apply Bool.eq_true_iff_eq. rewrite !andb_true_iff, !Nat.leb_le, !Nat.ltb_lt. nia.
Qed.

Lemma add_block_entry D C k s Q q Q' : add_block (D * C) Q (s * D) (k * D) q = Ok Q' ->
  forall i j r t, (r < D)%nat -> (t < D)%nat -> Q' (i * D + r)%nat (j * D + t)%nat =
    Q (i * D + r)%nat (j * D + t)%nat +
    (if window s k i && window s k j then q ((i - s) * D + r)%nat ((j - s) * D + t)%nat else 0).
Proof.
  unfold add_block. destruct (s * D + k * D <=? D * C)%nat; [ | discriminate ]. intros E i j r t Lr Lt.
  match type of E with Ok ?e = Ok _ => assert (X : Q' = e) by congruence end. rewrite X. cbv beta.
  rewrite <- andb_assoc.
  replace (((s * D <=? i * D + r)%nat && (i * D + r <? s * D + k * D)%nat) && ((s * D <=? j * D + t)%nat && (j * D + t <? s * D + k * D)%nat))
    with (window s k i && window s k j) by (rewrite !window_scalar by assumption; reflexivity).
  destruct (window s k i) eqn:E1; destruct (window s k j) eqn:E2; cbn [andb]; try ring.
  unfold window in E1, E2. apply andb_true_iff in E1 as [E1 _]. apply andb_true_iff in E2 as [E2 _].
  apply Nat.leb_le in E1. apply Nat.leb_le in E2. f_equal. f_equal; nia.
Qed.

(** The matrix of the curve has both properties. *)
Lemma sum_segments_exchange b (seg_q : nat -> outcome mat) W : (1 <= dim b)%nat ->
  (forall r s, (r < dim b)%nat -> (s < dim b)%nat -> W r s = W s r) ->
  (forall seg q, (seg + order b <= ncols b)%nat -> seg_q seg = Ok q -> exists v, (forall i j, v i j = v j i) /\
    forall i j r s, (i < order b)%nat -> (j < order b)%nat -> (r < dim b)%nat -> (s < dim b)%nat ->
      q (i * dim b + r)%nat (j * dim b + s)%nat = W r s * v i j) ->
  forall n s Q Q', (s + n + order b <= ncols b + 1)%nat -> sum_segments b seg_q s n Q = Ok Q' ->
  exchangeable (dim b) Q -> transposable (dim b) Q -> exchangeable (dim b) Q' /\ transposable (dim b) Q'.
Proof.
  intros PD SW HS. induction n as [ | n IH ]; intros s Q Q' L E X1 X2; cbn [sum_segments] in E.
  - assert (Q' = Q) by congruence. subst Q'. split; assumption.
  - destruct (seg_q s) as [q | | | ] eqn:Eq; try discriminate. cbn [obind] in E.
    destruct (add_block _ _ _ _ _) as [Q1 | | | ] eqn:E1; try discriminate. cbn [obind] in E.
    destruct (HS s q ltac:(lia) Eq) as [v [SV HV]].
    apply (IH (S s) Q1 Q' ltac:(lia) E).
    + intros i j r t Lr Lt. rewrite !(add_block_entry (dim b) (ncols b) (order b) s Q q Q1 E1) by assumption.
      rewrite (X1 i j r t Lr Lt), (andb_comm (window _ _ i)).
      destruct (window s (order b) j) eqn:W1; destruct (window s (order b) i) eqn:W2; cbn [andb]; try reflexivity.
      unfold window in W1, W2. apply andb_true_iff in W1 as [A1 A2]. apply andb_true_iff in W2 as [B1 B2].
      apply Nat.leb_le in A1, B1. apply Nat.ltb_lt in A2, B2. rewrite !HV by lia. rewrite (SV (i - s)%nat). reflexivity.
    + intros i j r t Lr Lt. rewrite !(add_block_entry (dim b) (ncols b) (order b) s Q q Q1 E1) by assumption.
      rewrite (X2 i j r t Lr Lt), (andb_comm (window _ _ i)).
      destruct (window s (order b) j) eqn:W1; destruct (window s (order b) i) eqn:W2; cbn [andb]; try reflexivity.
      unfold window in W1, W2. apply andb_true_iff in W1 as [A1 A2]. apply andb_true_iff in W2 as [B1 B2].
      apply Nat.leb_le in A1, B1. apply Nat.ltb_lt in A2, B2. rewrite !HV by lia. rewrite (SV (i - s)%nat), (SW r t) by assumption. reflexivity.
Qed.

Lemma curve_exchange b W d Q : wf b -> (1 <= dim b)%nat ->
  (forall r s, (r < dim b)%nat -> (s < dim b)%nat -> W r s = W s r) ->
  curve_Q b (dim b) (dim b) W d = Ok Q -> exchangeable (dim b) Q /\ transposable (dim b) Q.
Proof.
  intros WF PD SW E. unfold curve_Q in E. rewrite Nat.eqb_refl in E. cbn [andb] in E.
  refine (sum_segments_exchange b (fun s => segment_Q b (dim b) (dim b) W s d) W PD SW _ (num_segments b) 0%nat _ Q _ E _ _).
  - intros seg q L Eq. exact (segment_entries b W seg d q WF L Eq).
  - rewrite num_segments_wf by exact WF. destruct WF. lia.
  - intros i j r s _ _. reflexivity.
  - intros i j r s _ _. reflexivity.
Qed.
