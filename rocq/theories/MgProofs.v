(** * Proofs about marginalization *)
From Coq Require Import Reals List Arith ZArith Bool Lia Lra.
From Verif Require Import Base BsplModel BsplSpec BsplProofs MgModel MgSpec.
Import ListNotations.
Local Open Scope R_scope.

(** ** Triangular systems *)
Lemma back_substitution : forall n (U : mat) (y : vec), (forall i, (i < n)%nat -> U i i <> 0) ->
  (forall i j, (i < n)%nat -> (j < i)%nat -> U i j = 0) ->
  exists x : vec, forall i, (i < n)%nat -> bsum n (fun j => U i j * x j) = y i.
Proof.
  induction n as [ | n IH ]; intros U y D L; [ exists (fun _ => 0); lia | ].
  set (z := y n / U n n).
  destruct (IH U (fun i => y i - U i n * z)) as (x & X); [ intros; apply D; lia | intros; apply L; lia | ].
  exists (fun j => if (j <? n)%nat then x j else z). intros i Hi. cbn [bsum]. rewrite Nat.ltb_irrefl.
  destruct (Nat.eq_dec i n) as [ -> | N ].
  - rewrite bsum_zero. { unfold z. field. apply D. lia. }
    intros j Hj. rewrite L by lia. ring.
  - rewrite (bsum_ext n _ (fun j => U i j * x j)).
    + rewrite X by lia. ring.
    + intros j Hj. destruct (Nat.ltb_spec j n); [ reflexivity | lia ].
Qed.

Lemma first_zero (U : mat) : forall n, (forall i, (i < n)%nat -> U i i <> 0) \/
  exists i, (i < n)%nat /\ U i i = 0 /\ forall k, (k < i)%nat -> U k k <> 0.
Proof.
  induction n as [ | n [ A | (i & A & B & C) ] ]; [ left; lia | | right; exists i; split; [ lia | split; assumption ] ].
  destruct (Req_dec (U n n) 0) as [ E | E ].
  - right. exists n. split; [ lia | ]. split; [ exact E | ]. intros k Hk. apply A. lia.
  - left. intros i Hi. destruct (Nat.eq_dec i n) as [ -> | N ]; [ exact E | apply A; lia ].
Qed.

Lemma diagonal_nonzero n (U : mat) : (forall i j, (i < n)%nat -> (j < i)%nat -> U i j = 0) ->
  (forall x : vec, (forall i, (i < n)%nat -> bsum n (fun j => U i j * x j) = 0) -> forall j, (j < n)%nat -> x j = 0) ->
  forall i, (i < n)%nat -> U i i <> 0.
Proof.
  intros L K. destruct (first_zero U n) as [ A | (i & Hi & Z & A) ]; [ exact A | exfalso ].
  destruct (back_substitution i U (fun k => - U k i)) as (x & X); [ exact A | intros; apply L; lia | ].
  set (w := fun j => if (j <? i)%nat then x j else if (j =? i)%nat then 1 else 0).
  assert (W : w i = 0).
  { apply K; [ | exact Hi ]. intros k Hk. replace n with (i + (1 + (n - i - 1)))%nat by lia. rewrite !bsum_app.
    rewrite (bsum_zero (n - i - 1)).
    2:{ intros j Hj. unfold w. destruct (Nat.ltb_spec (i + (1 + j)) i); [ lia | ]. destruct (Nat.eqb_spec (i + (1 + j)) i); [ lia | ring ]. }
    cbn [bsum]. unfold w at 2. rewrite Nat.add_0_r, Nat.ltb_irrefl, Nat.eqb_refl.
    rewrite (bsum_ext i _ (fun j => U k j * x j)).
    2:{ intros j Hj. unfold w. destruct (Nat.ltb_spec j i); [ reflexivity | lia ]. }
    destruct (lt_eq_lt_dec k i) as [ [ Q | -> ] | Q ].
    - rewrite X by exact Q. ring.
    - rewrite bsum_zero, Z; [ ring | ]. intros j Hj. rewrite L by lia. ring.
    - rewrite (L k i) by lia. rewrite bsum_zero; [ ring | ]. intros j Hj. rewrite L by lia. ring. }
  unfold w in W. rewrite Nat.ltb_irrefl, Nat.eqb_refl in W. lra.
Qed.

(** ** Orthogonal factors *)
Lemma identity_sum n i (f : vec) : (i < n)%nat -> bsum n (fun k => identity i k * f k) = f i.
Proof.
  intros H. rewrite (bsum_single n i); [ | exact H | ].
  - unfold identity. rewrite Nat.eqb_refl. ring.
  - intros k Hk N. unfold identity. destruct (Nat.eqb_spec i k); [ congruence | ring ].
Qed.

Lemma rotated_norm m (Q : mat) (v : vec) :
  (forall i j, (i < m)%nat -> (j < m)%nat -> total m (fun k => Q i k * Q j k) = identity i j) ->
  bsum m (fun i => bsum m (fun k => Q k i * v k) * bsum m (fun k => Q k i * v k)) = bsum m (fun i => v i * v i).
Proof.
  intros O.
  rewrite (bsum_ext m _ (fun i => bsum m (fun k => bsum m (fun l => (Q k i * Q l i) * (v k * v l))))).
  2:{ intros i Hi. rewrite <- bsum_scal_r. apply bsum_ext. intros k Hk. rewrite <- bsum_scal. apply bsum_ext. intros l Hl. ring. }
  rewrite bsum_swap. apply bsum_ext. intros k Hk. rewrite bsum_swap.
  rewrite (bsum_ext m _ (fun l => identity k l * (v k * v l))).
  - rewrite identity_sum by exact Hk. reflexivity.
  - intros l Hl. rewrite bsum_scal_r, bsum_total, O by assumption. reflexivity.
Qed.

Lemma qr_rows m n J Q R x i : is_qr m n J Q R -> (i < m)%nat ->
  bsum m (fun k => Q k i * bsum n (fun j => J k j * x j)) = bsum n (fun j => R i j * x j).
Proof.
  intros (O1 & O2 & UT & P) Hi.
  rewrite (bsum_ext m _ (fun k => bsum n (fun j => Q k i * J k j * x j))) by (intros; rewrite <- bsum_scal; apply bsum_ext; intros; ring).
  rewrite bsum_swap. apply bsum_ext. intros j Hj. rewrite bsum_scal_r. f_equal.
  rewrite (bsum_ext m _ (fun k => bsum m (fun l => (Q k i * Q k l) * R l j))).
  2:{ intros k Hk. rewrite P, <- bsum_total, <- bsum_scal by assumption. apply bsum_ext. intros l Hl. ring. }
  rewrite bsum_swap. rewrite (bsum_ext m _ (fun l => identity i l * R l j)).
  - apply (identity_sum m i (fun l => R l j)). exact Hi.
  - intros l Hl. rewrite bsum_scal_r, bsum_total, O1 by assumption. reflexivity.
Qed.

(** The squared residual splits into the rows of R. *)
Lemma qr_cost m n J Q R (b x : vec) : is_qr m n J Q R ->
  bsum m (fun i => (bsum n (fun j => J i j * x j) - b i) * (bsum n (fun j => J i j * x j) - b i)) =
  bsum m (fun i => (bsum n (fun j => R i j * x j) - bsum m (fun k => Q k i * b k)) *
                   (bsum n (fun j => R i j * x j) - bsum m (fun k => Q k i * b k))).
Proof.
  intros H. rewrite <- (rotated_norm m Q (fun i => bsum n (fun j => J i j * x j) - b i) (proj1 (proj2 H))).
  apply bsum_ext. intros i Hi.
  assert (E : bsum m (fun k => Q k i * (bsum n (fun j => J k j * x j) - b k)) =
              bsum n (fun j => R i j * x j) - bsum m (fun k => Q k i * b k)).
  { rewrite <- (qr_rows m n J Q R x i H Hi), <- bsum_minus. apply bsum_ext. intros k Hk. ring. }
  rewrite E. reflexivity.
Qed.

(** ** Indices *)
Fixpoint cols_at (m : indices) (o : nat) (l : list dvar) : Prop :=
  match l with [] => True | v :: r => colb m (vid v) = Z.of_nat o /\ cols_at m (o + vdim v) r end.
Fixpoint rows_at (m : indices) (o : nat) (l : list term) : Prop :=
  match l with [] => True | t :: r => rowb m (tid t) = Z.of_nat o /\ rows_at m (o + tdim t) r end.

Lemma repeated_spec : forall l seen, repeated seen l = false <-> NoDup l /\ forall x, In x l -> ~ In x seen.
Proof.
  induction l as [ | x l IH ]; intros seen; cbn [repeated].
  - split; [ intros _; split; [ constructor | intros x [] ] | reflexivity ].
  - destruct (existsb (Nat.eqb x) seen) eqn:E.
    + split; [ discriminate | ]. intros (_ & H). exfalso. apply (H x (or_introl eq_refl)).
      apply existsb_exists in E. destruct E as (y & Y & Q). apply Nat.eqb_eq in Q. congruence.
    + assert (NS : ~ In x seen).
      { intros I. assert (existsb (Nat.eqb x) seen = true); [ | congruence ]. apply existsb_exists. exists x. split; [ exact I | apply Nat.eqb_refl ]. }
      rewrite IH. split.
      * intros (N & H). split; [ constructor; [ | exact N ] | ].
        -- intros I. apply (H x I). left. reflexivity.
        -- intros y [ <- | I ]; [ exact NS | ]. intros J. apply (H y I). right. exact J.
      * intros (N & H). inversion N as [ | ? ? N1 N2 ]; subst. split; [ exact N2 | ].
        intros y I [ <- | J ]; [ exact (N1 I) | ]. exact (H y (or_intror I) J).
Qed.

Lemma number_variables_spec : forall l i c m, NoDup (map vid l) ->
  let '(m', n) := number_variables i c l m in
  n = (c + dims l)%nat /\ cols_at m' c l /\ rowb m' = rowb m /\ (forall v, ~ In v (map vid l) -> colb m' v = colb m v /\ blk m' v = blk m v).
Proof.
  induction l as [ | v l IH ]; intros i c m N; cbn [number_variables dims].
  - split; [ lia | ]. split; [ exact I | ]. split; [ reflexivity | intros; split; reflexivity ].
  - inversion N as [ | ? ? N1 N2 ]; subst.
    specialize (IH (S i) (c + vdim v)%nat (Indices (set_at (blk m) (vid v) (Z.of_nat i)) (set_at (colb m) (vid v) (Z.of_nat c)) (rowb m)) N2).
    destruct (number_variables (S i) (c + vdim v) l _) as (m' & n). destruct IH as (A & B & C & D). cbn [rowb colb blk] in *.
    split; [ lia | ]. split.
    + split; [ | exact B ]. rewrite (proj1 (D _ N1)). unfold set_at. rewrite Nat.eqb_refl. reflexivity.
    + split; [ exact C | ]. intros w Hw. cbn [map In] in Hw. destruct (D w) as (D1 & D2); [ tauto | ]. rewrite D1, D2. unfold set_at.
      destruct (Nat.eqb_spec w (vid v)) as [ -> | _ ]; [ exfalso; apply Hw; left; reflexivity | split; reflexivity ].
Qed.

Lemma number_terms_spec : forall l d m, NoDup (map tid l) ->
  let '(m', n) := number_terms d l m in
  n = (d + tdims l)%nat /\ rows_at m' d l /\ colb m' = colb m /\ blk m' = blk m /\ (forall t, ~ In t (map tid l) -> rowb m' t = rowb m t).
Proof.
  induction l as [ | v l IH ]; intros d m N; cbn [number_terms tdims].
  - split; [ lia | ]. split; [ exact I | ]. split; [ reflexivity | ]. split; [ reflexivity | intros; reflexivity ].
  - inversion N as [ | ? ? N1 N2 ]; subst.
    specialize (IH (d + tdim v)%nat (Indices (blk m) (colb m) (set_at (rowb m) (tid v) (Z.of_nat d))) N2).
    destruct (number_terms (d + tdim v) l _) as (m' & n). destruct IH as (A & B & C & C' & D). cbn [rowb colb blk] in *.
    split; [ lia | ]. split.
    + split; [ | exact B ]. rewrite (D _ N1). unfold set_at. rewrite Nat.eqb_refl. reflexivity.
    + split; [ exact C | ]. split; [ exact C' | ]. intros w Hw. cbn [map In] in Hw. rewrite D by tauto. unfold set_at.
      destruct (Nat.eqb_spec w (tid v)) as [ -> | _ ]; [ exfalso; apply Hw; left; reflexivity | reflexivity ].
Qed.

Lemma restore_variables_spec old : forall l m,
  let m' := restore_variables old l m in rowb m' = rowb m /\
  forall v, (In v (map vid l) -> blk m' v = blk old v /\ colb m' v = colb old v) /\
            (blk m v = blk old v -> blk m' v = blk old v) /\ (colb m v = colb old v -> colb m' v = colb old v).
Proof.
  induction l as [ | w l IH ]; intros m; cbn [restore_variables].
  - split; [ reflexivity | ]. intros v. split; [ intros [] | split; trivial ].
  - destruct (IH (Indices (set_at (blk m) (vid w) (blk old (vid w))) (set_at (colb m) (vid w) (colb old (vid w))) (rowb m))) as (A & B).
    cbn [rowb blk colb] in *. split; [ exact A | ]. intros v. destruct (B v) as (B1 & B2 & B3). unfold set_at in B2, B3.
    cbn [map In]. split; [ | split ].
    + intros [ E | I ]; [ | exact (B1 I) ]. subst v. rewrite Nat.eqb_refl in B2, B3. split; [ apply B2 | apply B3 ]; reflexivity.
    + intros E. destruct (Nat.eqb_spec v (vid w)) as [ -> | _ ]; [ apply B2; reflexivity | exact (B2 E) ].
    + intros E. destruct (Nat.eqb_spec v (vid w)) as [ -> | _ ]; [ apply B3; reflexivity | exact (B3 E) ].
Qed.
Lemma restore_terms_spec old : forall l m,
  let m' := restore_terms old l m in blk m' = blk m /\ colb m' = colb m /\
  forall t, (In t (map tid l) -> rowb m' t = rowb old t) /\ (rowb m t = rowb old t -> rowb m' t = rowb old t).
Proof.
  induction l as [ | w l IH ]; intros m; cbn [restore_terms].
  - split; [ reflexivity | ]. split; [ reflexivity | ]. intros v. split; [ intros [] | trivial ].
  - destruct (IH (Indices (blk m) (colb m) (set_at (rowb m) (tid w) (rowb old (tid w))))) as (A & A' & B).
    cbn [rowb blk colb] in *. split; [ exact A | ]. split; [ exact A' | ]. intros v. destruct (B v) as (B1 & B2). unfold set_at in B2.
    cbn [map In]. split.
    + intros [ E | I ]; [ | exact (B1 I) ]. subst v. rewrite Nat.eqb_refl in B2. apply B2; reflexivity.
    + intros E. destruct (Nat.eqb_spec v (tid w)) as [ -> | _ ]; [ apply B2; reflexivity | exact (B2 E) ].
Qed.

Lemma partition_spec nrem ntop : forall l k before,
  fst (partition nrem ntop k before l) = (dims (firstn (Z.to_nat (nrem - k)) l), skipn (Z.to_nat (nrem - k)) l).
Proof.
  induction l as [ | v l IH ]; intros k before; cbn [partition].
  - rewrite firstn_nil, skipn_nil. reflexivity.
  - specialize (IH (k + 1)%Z (before + vdim v)%nat). destruct (partition nrem ntop (k + 1) (before + vdim v) l) as ((n, rest), top).
    cbn [fst] in IH. injection IH as IH1 IH2. destruct (Z.ltb_spec k nrem).
    + replace (Z.to_nat (nrem - k)) with (S (Z.to_nat (nrem - (k + 1)))) by lia. cbn [fst firstn skipn dims]. congruence.
    + replace (Z.to_nat (nrem - k)) with 0%nat by lia. replace (Z.to_nat (nrem - (k + 1))) with 0%nat in * by lia.
      cbn [firstn skipn dims fst] in *. congruence.
Qed.

(** ** The system *)
(** The displacement that a vector of all columns stands for. *)
Fixpoint disp (l : list dvar) (o : nat) (x : vec) (i j : nat) : R :=
  match l with
  | [] => 0
  | v :: r => if (vid v =? i)%nat then vscaling v * x (o + j)%nat else disp r (o + vdim v) x i j
  end.

Lemma cols_at_in m x : forall l o, cols_at m o l -> NoDup (map vid l) -> forall v, In v l ->
  exists c, colb m (vid v) = Z.of_nat c /\ (o <= c)%nat /\ (c + vdim v <= o + dims l)%nat /\
    forall j, disp l o x (vid v) j = vscaling v * x (c + j)%nat.
Proof.
  induction l as [ | w l IH ]; intros o C0 N v Hv; [ destruct Hv | ]. destruct C0 as (C1 & C2). inversion N as [ | ? ? N1 N2 ]; subst. cbn [dims disp].
  destruct Hv as [ -> | Hv ].
  - exists o. split; [ exact C1 | ]. split; [ lia | ]. split; [ lia | ]. intros j. rewrite Nat.eqb_refl. reflexivity.
  - destruct (IH _ C2 N2 v Hv) as (c & A & B & C & D). exists c. split; [ exact A | ]. split; [ lia | ]. split; [ lia | ].
    intros j. destruct (Nat.eqb_spec (vid w) (vid v)) as [ E | _ ]; [ | apply D ].
    exfalso. apply N1. rewrite E. apply in_map. exact Hv.
Qed.

Lemma cols_at_disjoint m : forall l o, cols_at m o l -> NoDup (map vid l) -> forall v w, In v l -> In w l -> vid v <> vid w ->
  (colb m (vid v) + Z.of_nat (vdim v) <= colb m (vid w) \/ colb m (vid w) + Z.of_nat (vdim w) <= colb m (vid v))%Z.
Proof.
  induction l as [ | u l IH ]; intros o C0 N v w Hv Hw D; [ destruct Hv | ]. destruct C0 as (C1 & C2). inversion N as [ | ? ? N1 N2 ]; subst.
  destruct Hv as [ -> | Hv ], Hw as [ -> | Hw ].
  - congruence.
  - destruct (cols_at_in m (fun _ => 0) l _ C2 N2 w Hw) as (c & A & B & _). left. lia.
  - destruct (cols_at_in m (fun _ => 0) l _ C2 N2 v Hv) as (c & A & B & _). right. lia.
  - exact (IH _ C2 N2 v w Hv Hw D).
Qed.

(** One block row *)
Lemma row_blocks_spec m dvs rows ro h : cols_at m 0 dvs -> NoDup (map vid dvs) -> (ro + h <= rows)%nat ->
  forall l Y, NoDup (map (fun e => vid (fst e)) l) -> (forall v M, In (v, M) l -> In v dvs) ->
  (forall v M i j, In (v, M) l -> (ro <= i < ro + h)%nat -> (colb m (vid v) <= Z.of_nat j < colb m (vid v) + Z.of_nat (vdim v))%Z -> Y i j = 0) ->
  exists Y', row_blocks m rows (dims dvs) (Z.of_nat ro) h l Y = Ok Y' /\
    (forall i j, (i < ro \/ ro + h <= i)%nat -> Y' i j = Y i j) /\
    forall x i, (i < h)%nat -> bsum (dims dvs) (fun j => Y' (ro + i)%nat j * x j) =
      moved_error l (disp dvs 0 x) i + bsum (dims dvs) (fun j => Y (ro + i)%nat j * x j).
Proof.
  intros CA ND RO. induction l as [ | (v & M) l IH ]; intros Y NL IL Z; cbn [row_blocks moved_error].
  - exists Y. split; [ reflexivity | ]. split; [ reflexivity | ]. intros. ring.
  - cbn [map fst] in NL. inversion NL as [ | ? ? N1 N2 ]; subst.
    destruct (cols_at_in m (fun _ => 0) dvs 0 CA ND v (IL v M (or_introl eq_refl))) as (c & C1 & _ & C2 & _). cbn [Nat.add] in C2.
    rewrite C1. unfold put_block at 1. destruct (Z.leb_spec 0 (Z.of_nat ro)); [ | lia ].
    destruct (Z.leb_spec (Z.of_nat ro + Z.of_nat h) (Z.of_nat rows)); [ | lia ].
    destruct (Z.leb_spec 0 (Z.of_nat c)); [ | lia ].
    destruct (Z.leb_spec (Z.of_nat c + Z.of_nat (vdim v)) (Z.of_nat (dims dvs))); [ | lia ]. cbn [andb obind].
    match goal with |- context [ row_blocks _ _ _ _ _ l ?W ] => set (Y1 := W) end.
    destruct (IH Y1 N2) as (Y' & E & P & S).
    { intros w N Hw. apply (IL w N). right. exact Hw. }
    { intros w N i j Hw Hi Hj. assert (D : vid v <> vid w).
      { intros D. apply N1. rewrite D. apply in_map_iff. exists (w, N). split; [ reflexivity | exact Hw ]. }
      pose proof (cols_at_disjoint m dvs 0 CA ND v w (IL v M (or_introl eq_refl)) (IL w N (or_intror Hw)) D) as DJ. rewrite C1 in DJ.
      unfold Y1. destruct (Z.leb_spec (Z.of_nat c) (Z.of_nat j)); destruct (Z.ltb_spec (Z.of_nat j) (Z.of_nat c + Z.of_nat (vdim v)));
        try lia; cbn [andb]; rewrite ?andb_false_r; apply (Z w N i j (or_intror Hw) Hi Hj). }
    exists Y'. split; [ exact E | ]. split.
    + intros i j Hi. rewrite P by exact Hi. unfold Y1. destruct (Z.leb_spec (Z.of_nat ro) (Z.of_nat i)), (Z.ltb_spec (Z.of_nat i) (Z.of_nat ro + Z.of_nat h));
        try lia; reflexivity.
    + intros x i Hi. rewrite S by exact Hi.
      destruct (cols_at_in m x dvs 0 CA ND v (IL v M (or_introl eq_refl))) as (c' & C1' & _ & _ & DI).
      assert (c' = c) by lia. subst c'.
      rewrite <- (bsum_total (vdim v)). rewrite (bsum_ext (vdim v) _ (fun j => M i j * vscaling v * x (c + j)%nat)) by (intros; rewrite DI; ring).
      assert (W : bsum (dims dvs) (fun j => Y1 (ro + i)%nat j * x j) =
                  bsum (vdim v) (fun j => M i j * vscaling v * x (c + j)%nat) + bsum (dims dvs) (fun j => Y (ro + i)%nat j * x j)); [ | rewrite W; ring ].
      replace (dims dvs) with (c + (vdim v + (dims dvs - c - vdim v)))%nat by lia. rewrite !bsum_app.
      assert (B1 : forall j, (j < c \/ c + vdim v <= j)%nat -> Y1 (ro + i)%nat j = Y (ro + i)%nat j).
      { intros j Hj. unfold Y1. destruct (Z.leb_spec (Z.of_nat c) (Z.of_nat j)); destruct (Z.ltb_spec (Z.of_nat j) (Z.of_nat c + Z.of_nat (vdim v)));
          try lia; cbn [andb]; rewrite ?andb_false_r; reflexivity. }
      rewrite (bsum_ext c _ (fun j => Y (ro + i)%nat j * x j)) by (intros; rewrite B1 by lia; reflexivity).
      rewrite (bsum_ext (dims dvs - c - vdim v) _ (fun j => Y (ro + i)%nat (c + (vdim v + j))%nat * x (c + (vdim v + j))%nat)) by (intros; rewrite B1 by lia; reflexivity).
      rewrite (bsum_zero (vdim v) (fun j => Y _ _ * _)).
      2:{ intros j Hj. rewrite (Z v M) by (first [ left; reflexivity | lia ]). ring. }
      rewrite (bsum_ext (vdim v) _ (fun j => M i j * vscaling v * x (c + j)%nat)); [ ring | ].
      intros j Hj. unfold Y1. destruct (Z.leb_spec (Z.of_nat ro) (Z.of_nat (ro + i))); [ | lia ].
      destruct (Z.ltb_spec (Z.of_nat (ro + i)) (Z.of_nat ro + Z.of_nat h)); [ | lia ].
      destruct (Z.leb_spec (Z.of_nat c) (Z.of_nat (c + j))); [ | lia ].
      destruct (Z.ltb_spec (Z.of_nat (c + j)) (Z.of_nat c + Z.of_nat (vdim v))); [ | lia ]. cbn [andb].
      rewrite !Nat2Z.id. replace (ro + i - ro)%nat with i by lia. replace (c + j - c)%nat with j by lia. reflexivity.
Qed.

Lemma system_spec m dvs rows : cols_at m 0 dvs -> NoDup (map vid dvs) ->
  forall ets d Y y, rows_at m d ets -> (d + tdims ets <= rows)%nat ->
  (forall t, In t ets -> NoDup (map (fun e => vid (fst e)) (tjac t)) /\ forall v M, In (v, M) (tjac t) -> In v dvs) ->
  (forall i j, (d <= i)%nat -> Y i j = 0) ->
  exists J b, jacobian m rows (dims dvs) ets Y = Ok J /\ residuals m rows ets y = Ok b /\
    (forall i j, (i < d)%nat -> J i j = Y i j /\ b i = y i) /\
    (forall x, bsum (tdims ets) (fun i => (bsum (dims dvs) (fun j => J (d + i)%nat j * x j) - b (d + i)%nat) *
                                         (bsum (dims dvs) (fun j => J (d + i)%nat j * x j) - b (d + i)%nat)) = linear_cost ets (disp dvs 0 x)) /\
    (forall x y, bsum (tdims ets) (fun i => bsum (dims dvs) (fun j => J (d + i)%nat j * x j) * bsum (dims dvs) (fun j => J (d + i)%nat j * y j)) =
       moved_product ets (disp dvs 0 x) (disp dvs 0 y)) /\
    (forall t i, In t ets -> (i < tdim t)%nat -> exists k, (k < tdims ets)%nat /\
       forall x, moved_error (tjac t) (disp dvs 0 x) i = bsum (dims dvs) (fun j => J (d + k)%nat j * x j)).
Proof.
  intros CA ND. induction ets as [ | t ets IH ]; intros d Y y RA LE CV Z; cbn [jacobian residuals tdims linear_cost moved_product bsum].
  - exists Y, y. split; [ reflexivity | ]. split; [ reflexivity | ]. split; [ split; reflexivity | ]. split; [ reflexivity | ]. split; [ reflexivity | intros t i [] ].
  - destruct RA as (R1 & R2). cbn [tdims] in LE. rewrite R1.
    destruct (CV t (or_introl eq_refl)) as (NT & IT).
    destruct (row_blocks_spec m dvs rows d (tdim t) CA ND ltac:(lia) (tjac t) Y NT IT) as (Y1 & E1 & P1 & S1).
    { intros v M i j _ Hi _. apply Z. lia. }
    rewrite E1. unfold put_segment at 1. destruct (Z.leb_spec 0 (Z.of_nat d)); [ | lia ].
    destruct (Z.leb_spec (Z.of_nat d + Z.of_nat (tdim t)) (Z.of_nat rows)); [ | lia ]. cbn [andb obind].
    match goal with |- context [ residuals _ _ ets ?W ] => set (y1 := W) end.
    destruct (IH (d + tdim t)%nat Y1 y1 R2 ltac:(lia)) as (J & b & EJ & EB & KEEP & COST & PROD & ROW).
    { intros u Hu. apply CV. right. exact Hu. }
    { intros i j Hi. rewrite P1 by lia. apply Z. lia. }
    assert (RV : forall x i, (i < tdim t)%nat -> bsum (dims dvs) (fun j => J (d + i)%nat j * x j) = moved_error (tjac t) (disp dvs 0 x) i).
    { intros x i Hi. rewrite (bsum_ext _ _ (fun j => Y1 (d + i)%nat j * x j)).
      - rewrite S1 by exact Hi. rewrite (bsum_zero (dims dvs)); [ ring | ]. intros j Hj. rewrite Z by lia. ring.
      - intros j Hj. rewrite (proj1 (KEEP (d + i)%nat j ltac:(lia))). reflexivity. }
    exists J, b. split; [ exact EJ | ]. split; [ exact EB | ]. split.
    { intros i j Hi. destruct (KEEP i j ltac:(lia)) as (K1 & K2). rewrite K1, K2. split; [ apply P1; lia | ].
      unfold y1. destruct (Z.leb_spec (Z.of_nat d) (Z.of_nat i)); [ lia | reflexivity ]. }
    split.
    + intros x. rewrite bsum_app. rewrite <- (COST x). f_equal.
      * unfold sqr_norm. change total with bsum. apply bsum_ext. intros i Hi. rewrite RV by exact Hi.
        rewrite (proj2 (KEEP (d + i)%nat 0%nat ltac:(lia))). unfold y1.
        destruct (Z.leb_spec (Z.of_nat d) (Z.of_nat (d + i))); [ | lia ]. destruct (Z.ltb_spec (Z.of_nat (d + i)) (Z.of_nat d + Z.of_nat (tdim t))); [ | lia ].
        cbn [andb]. rewrite Nat2Z.id. replace (d + i - d)%nat with i by lia. unfold linear_error. ring.
      * apply bsum_ext. intros i Hi. rewrite Nat.add_assoc. reflexivity.
    + split.
      { intros x z. rewrite bsum_app, <- (PROD x z). f_equal.
        - change total with bsum. apply bsum_ext. intros i Hi. rewrite !RV by exact Hi. reflexivity.
        - apply bsum_ext. intros i Hi. rewrite Nat.add_assoc. reflexivity. }
      intros u i [ <- | Hu ] Hi.
      * exists i. split; [ lia | ]. intros x. symmetry. apply RV. exact Hi.
      * destruct (ROW u i Hu Hi) as (k & K1 & K2). exists (tdim t + k)%nat. split; [ lia | ]. intros x. rewrite K2, Nat.add_assoc. reflexivity.
Qed.

(** ** Displacements as one vector *)
Fixpoint spread (l : list dvar) (x : nat -> nat -> R) (i : nat) : R :=
  match l with
  | [] => 0
  | v :: r => if (i <? vdim v)%nat then x (vid v) i / vscaling v else spread r x (i - vdim v)
  end.
Lemma spread_app x : forall a b i, spread (a ++ b) x (dims a + i) = spread b x i.
Proof.
  induction a as [ | v a IH ]; intros b i; [ reflexivity | ]. cbn [app dims spread].
  destruct (Nat.ltb_spec (vdim v + dims a + i) (vdim v)); [ lia | ].
  replace (vdim v + dims a + i - vdim v)%nat with (dims a + i)%nat by lia. apply IH.
Qed.
Lemma disp_spread x : forall l o w, NoDup (map vid l) -> (forall v, In v l -> vscaling v <> 0) -> (forall i, (i < dims l)%nat -> w (o + i)%nat = spread l x i) ->
  agree l (disp l o w) x.
Proof.
  induction l as [ | v l IH ]; intros o w N S W u Hu j Hj; [ destruct Hu | ]. inversion N as [ | ? ? N1 N2 ]; subst. cbn [disp dims] in *.
  destruct (Nat.eqb_spec (vid v) (vid u)) as [ E | NE ].
  - assert (u = v). { destruct Hu as [ <- | Hu ]; [ reflexivity | ]. exfalso. apply N1. rewrite E. apply in_map. exact Hu. }
    subst u. rewrite W by lia. cbn [spread]. destruct (Nat.ltb_spec j (vdim v)); [ | lia ]. field. apply S. left. reflexivity.
  - destruct Hu as [ <- | Hu ]; [ congruence | ]. apply (IH _ _ N2); [ intros z Hz; apply S; right; exact Hz | | exact Hu | exact Hj ].
    intros i Hi. rewrite <- Nat.add_assoc, W by lia. cbn [spread]. destruct (Nat.ltb_spec (vdim v + i) (vdim v)); [ lia | ]. f_equal. lia.
Qed.
Lemma disp_app w : forall a b o i j, ~ In i (map vid a) -> disp (a ++ b) o w i j = disp b (o + dims a) w i j.
Proof.
  induction a as [ | v a IH ]; intros b o i j H; cbn [app disp dims]; [ rewrite Nat.add_0_r; reflexivity | ]. cbn [map In] in H.
  destruct (Nat.eqb_spec (vid v) i) as [ E | _ ]; [ tauto | ]. rewrite IH by tauto. f_equal. lia.
Qed.
Lemma disp_out w : forall l o i j, ~ In i (map vid l) -> disp l o w i j = 0.
Proof.
  induction l as [ | v l IH ]; intros o i j H; cbn [disp]; [ reflexivity | ]. cbn [map In] in H.
  destruct (Nat.eqb_spec (vid v) i) as [ E | _ ]; [ tauto | ]. apply IH. tauto.
Qed.
Lemma disp_app_l w : forall a b o i j, In i (map vid a) -> disp (a ++ b) o w i j = disp a o w i j.
Proof.
  induction a as [ | v a IH ]; intros b o i j H; [ destruct H | ]. cbn [app disp].
  destruct (Nat.eqb_spec (vid v) i) as [ E | N ]; [ reflexivity | ]. apply IH. destruct H as [ H | H ]; [ congruence | exact H ].
Qed.

Lemma moved_error_ext dvs x y : agree dvs x y -> forall l i, (forall v M, In (v, M) l -> In v dvs) -> moved_error l x i = moved_error l y i.
Proof.
  intros A. induction l as [ | (v & M) l IH ]; intros i H; [ reflexivity | ]. cbn [moved_error]. f_equal.
  - change total with bsum. apply bsum_ext. intros j Hj. rewrite (A v (H v M (or_introl eq_refl)) j Hj). reflexivity.
  - apply IH. intros w N HN. apply (H w N). right. exact HN.
Qed.
Lemma linear_cost_ext dvs x y : agree dvs x y -> forall ets, (forall t, In t ets -> forall v M, In (v, M) (tjac t) -> In v dvs) ->
  linear_cost ets x = linear_cost ets y.
Proof.
  intros A. induction ets as [ | t ets IH ]; intros H; [ reflexivity | ]. cbn [linear_cost]. f_equal.
  - unfold sqr_norm. change total with bsum. apply bsum_ext. intros i Hi. unfold linear_error.
    rewrite (moved_error_ext dvs x y A (tjac t) i (H t (or_introl eq_refl))). reflexivity.
  - apply IH. intros u Hu. apply H. right. exact Hu.
Qed.

(** ** The prior *)
Fixpoint flat (l : list dvar) (x : nat -> nat -> R) (i : nat) : R :=
  match l with [] => 0 | v :: r => if (i <? vdim v)%nat then x (vid v) i else flat r x (i - vdim v) end.
Lemma spread_flat x : forall l i, (forall v, In v l -> vscaling v = 1) -> spread l x i = flat l x i.
Proof.
  induction l as [ | v l IH ]; intros i H; [ reflexivity | ]. cbn [spread flat]. rewrite (H v) by (left; reflexivity).
  rewrite IH by (intros w Hw; apply H; right; exact Hw). destruct (i <? vdim v)%nat; [ field | reflexivity ].
Qed.
Lemma differences_spec x : forall l n o y, (o + dims l <= n)%nat ->
  exists z, differences n o (displacements l x) y = Ok z /\ (forall i, (i < o)%nat -> z i = y i) /\
    forall i, (i < dims l)%nat -> z (o + i)%nat = flat l x i.
Proof.
  induction l as [ | v l IH ]; intros n o y H; cbn [displacements map differences].
  - exists y. split; [ reflexivity | ]. split; [ reflexivity | ]. cbn [dims]. intros. lia.
  - cbn [dims] in H. unfold put_segment. destruct (Z.leb_spec 0 (Z.of_nat o)); [ | lia ].
    destruct (Z.leb_spec (Z.of_nat o + Z.of_nat (vdim v)) (Z.of_nat n)); [ | lia ]. cbn [andb obind].
    match goal with |- context [ differences _ _ _ ?W ] => set (y1 := W) end.
    destruct (IH n (o + vdim v)%nat y1 ltac:(lia)) as (z & E & A & B). exists z. split; [ exact E | ]. split.
    + intros i Hi. rewrite A by lia. unfold y1. destruct (Z.leb_spec (Z.of_nat o) (Z.of_nat i)); [ lia | reflexivity ].
    + intros i Hi. cbn [dims] in Hi. cbn [flat]. destruct (Nat.ltb_spec i (vdim v)).
      * rewrite A by lia. unfold y1. destruct (Z.leb_spec (Z.of_nat o) (Z.of_nat (o + i))); [ | lia ].
        destruct (Z.ltb_spec (Z.of_nat (o + i)) (Z.of_nat o + Z.of_nat (vdim v))); [ | lia ]. cbn [andb].
        rewrite Nat2Z.id. replace (o + i - o)%nat with i by lia. reflexivity.
      * replace (o + i)%nat with (o + vdim v + (i - vdim v))%nat by lia. apply B; lia.
Qed.
