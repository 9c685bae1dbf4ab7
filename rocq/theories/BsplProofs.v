(** * Proofs about the B-spline model: basis matrices and evaluation *)
From Coq Require Import Reals List Arith ZArith Bool Lia Lra.
From Verif Require Import Base BsplModel BsplSpec.
Import ListNotations.
Local Open Scope R_scope.

(** ** Sums *)
Lemma bsum_total n f : bsum n f = total n f.
Proof. induction n; cbn [bsum total]; [ reflexivity | rewrite IHn; reflexivity ]. Qed.

Lemma bsum_ext n f g : (forall i, (i < n)%nat -> f i = g i) -> bsum n f = bsum n g.
Proof.
  induction n; intros H; cbn [bsum]; [ reflexivity | ].
  rewrite IHn by (intros; apply H; lia). rewrite (H n) by lia. reflexivity.
Qed.

Lemma bsum_zero n f : (forall i, (i < n)%nat -> f i = 0) -> bsum n f = 0.
Proof.
  induction n; intros H; cbn [bsum]; [ reflexivity | ].
  rewrite IHn by (intros; apply H; lia). rewrite (H n) by lia. ring.
Qed.

Lemma bsum_plus n f g : bsum n (fun i => f i + g i) = bsum n f + bsum n g.
Proof. induction n; cbn [bsum]; [ ring | rewrite IHn; ring ]. Qed.

Lemma bsum_minus n f g : bsum n (fun i => f i - g i) = bsum n f - bsum n g.
Proof. induction n; cbn [bsum]; [ ring | rewrite IHn; ring ]. Qed.

Lemma bsum_scal n c f : bsum n (fun i => c * f i) = c * bsum n f.
Proof. induction n; cbn [bsum]; [ ring | rewrite IHn; ring ]. Qed.

Lemma bsum_scal_r n c f : bsum n (fun i => f i * c) = bsum n f * c.
Proof. induction n; cbn [bsum]; [ ring | rewrite IHn; ring ]. Qed.

Lemma bsum_swap n m (f : nat -> nat -> R) :
  bsum n (fun i => bsum m (fun j => f i j)) = bsum m (fun j => bsum n (fun i => f i j)).
Proof.
  induction n; cbn [bsum].
  - symmetry. apply bsum_zero. reflexivity.
  - rewrite IHn, <- bsum_plus. reflexivity.
Qed.

Lemma bsum_first n f : bsum (S n) f = f 0%nat + bsum n (fun i => f (S i)).
Proof.
  induction n; [ cbn [bsum]; ring | ].
  change (bsum (S (S n)) f) with (bsum (S n) f + f (S n)). rewrite IHn.
  cbn [bsum]. ring.
Qed.

Lemma bsum_app n m f : bsum (n + m) f = bsum n f + bsum m (fun i => f (n + i)%nat).
Proof.
  induction m.
  - rewrite Nat.add_0_r. cbn [bsum]. ring.
  - rewrite Nat.add_succ_r. cbn [bsum]. rewrite IHm. ring.
Qed.

Lemma bsum_single n k f :
  (k < n)%nat -> (forall i, (i < n)%nat -> i <> k -> f i = 0) -> bsum n f = f k.
Proof.
  induction n; intros K H; [ lia | ]. cbn [bsum].
  destruct (Nat.eq_dec k n) as [E | E].
  - subst k. rewrite bsum_zero by (intros; apply H; lia). ring.
  - rewrite IHn by (first [ lia | intros; apply H; lia ]). rewrite (H n) by lia. ring.
Qed.

Lemma bsum_nonneg n f : (forall i, (i < n)%nat -> 0 <= f i) -> 0 <= bsum n f.
Proof.
  induction n; intros H; cbn [bsum]; [ lra | ].
  assert (0 <= bsum n f) by (apply IHn; intros; apply H; lia).
  assert (0 <= f n) by (apply H; lia). lra.
Qed.

Lemma bsum_le n f g : (forall i, (i < n)%nat -> f i <= g i) -> bsum n f <= bsum n g.
Proof.
  induction n; intros H; cbn [bsum]; [ lra | ].
  assert (bsum n f <= bsum n g) by (apply IHn; intros; apply H; lia).
  assert (f n <= g n) by (apply H; lia). lra.
Qed.

(** ** Small model lemmas *)
Lemma rleb_true a b : a <= b -> rleb a b = true.
Proof. intros H. unfold rleb. destruct (Rle_dec a b); [ reflexivity | lra ]. Qed.
Lemma rleb_false a b : b < a -> rleb a b = false.
Proof. intros H. unfold rleb. destruct (Rle_dec a b); [ lra | reflexivity ]. Qed.
Lemma rltb_true a b : a < b -> rltb a b = true.
Proof. intros H. unfold rltb. destruct (Rlt_dec a b); [ reflexivity | lra ]. Qed.
Lemma rltb_false a b : b <= a -> rltb a b = false.
Proof. intros H. unfold rltb. destruct (Rlt_dec a b); [ lra | reflexivity ]. Qed.

Lemma vat_knot l i : (i < length l)%nat -> vat l i = Ok (knot l i).
Proof.
  intros H. unfold vat, knot. rewrite (nth_error_nth' l 0 H). reflexivity.
Qed.

Lemma vat_out l i : (length l <= i)%nat -> vat l i = UB.
Proof. intros H. unfold vat. apply nth_error_None in H. rewrite H. reflexivity. Qed.

Lemma isub_ok a b : (b <= a)%nat -> isub a b = Ok (a - b)%nat.
Proof. intros H. unfold isub. destruct (Nat.ltb_spec a b); [ lia | reflexivity ]. Qed.

Lemma tabulate_ok n f g :
  (forall i, (i < n)%nat -> f i = Ok (g i)) ->
  exists v, tabulate n f = Ok v /\ forall i, (i < n)%nat -> v i = g i.
Proof.
  induction n; intros H; cbn [tabulate].
  - exists (fun _ => 0). split; [ reflexivity | intros; lia ].
  - destruct IHn as [v [E V]]; [ intros; apply H; lia | ].
    rewrite E. cbn [obind]. rewrite (H n) by lia. cbn [obind].
    exists (fun i => if (i =? n)%nat then g n else v i). split; [ reflexivity | ].
    intros i L. destruct (Nat.eqb_spec i n) as [-> | N]; [ reflexivity | apply V; lia ].
Qed.

(** ** The basis functions on one knot segment are polynomials *)
Fixpoint pc (kn : nat -> R) (s k j : nat) (t : R) : R :=
  match k with
  | O => 0
  | S k' =>
    match k' with
    | O => if (j =? s)%nat then 1 else 0
    | S _ =>
      ratio (t - kn j) (kn (j + k')%nat - kn j) * pc kn s k' j t
      + ratio (kn (j + k)%nat - t) (kn (j + k)%nat - kn (j + 1)%nat) * pc kn s k' (j + 1) t
    end
  end.

Lemma pc_succ kn s k j t :
  pc kn s (S (S k)) j t =
  ratio (t - kn j) (kn (j + S k)%nat - kn j) * pc kn s (S k) j t
  + ratio (kn (j + S (S k))%nat - t) (kn (j + S (S k))%nat - kn (j + 1)%nat) * pc kn s (S k) (j + 1) t.
Proof. reflexivity. Qed.

Lemma pc_support kn s k : forall j t, (j + k <= s \/ s < j)%nat -> pc kn s k j t = 0.
Proof.
  induction k as [ | k IH ]; intros j t H; [ reflexivity | ].
  destruct k as [ | k ].
  - cbn [pc]. destruct (Nat.eqb_spec j s); [ lia | reflexivity ].
  - rewrite pc_succ, IH by lia. rewrite IH by lia. ring.
Qed.

Lemma ratio_pos a b : b <> 0 -> ratio a b = a / b.
Proof. intros H. unfold ratio. destruct (Req_EM_T b 0); [ contradiction | reflexivity ]. Qed.

Definition in_seg (left : bool) (a b t : R) : Prop :=
  if left then a < t <= b else a <= t < b.

Lemma cox_local left l s k : nondecreasing l -> (s + 1 < length l)%nat ->
  forall j t, (j + k < length l)%nat -> in_seg left (knot l s) (knot l (s + 1)) t ->
  cox left (knot l) k j t = pc (knot l) s k j t.
Proof.
  intros ND LS. induction k as [ | k IH ]; intros j t LJ I; [ reflexivity | ].
  destruct k as [ | k ].
  - cbn [cox pc]. unfold indicator.
    destruct (Nat.eqb_spec j s) as [-> | N].
    + destruct left; cbn [in_seg] in I.
      * destruct (Rlt_dec (knot l s) t); [ | lra ]. destruct (Rle_dec t (knot l (s + 1))); [ reflexivity | lra ].
      * destruct (Rle_dec (knot l s) t); [ | lra ]. destruct (Rlt_dec t (knot l (s + 1))); [ reflexivity | lra ].
    + assert (D : (j < s \/ s < j)%nat) by lia.
      destruct D as [D | D].
      * assert (knot l (j + 1) <= knot l s) by (apply ND; lia).
        destruct left; cbn [in_seg] in I.
        -- destruct (Rlt_dec (knot l j) t); [ | reflexivity ]. destruct (Rle_dec t (knot l (j + 1))); [ lra | reflexivity ].
        -- destruct (Rle_dec (knot l j) t); [ | reflexivity ]. destruct (Rlt_dec t (knot l (j + 1))); [ lra | reflexivity ].
      * assert (knot l (s + 1) <= knot l j) by (apply ND; lia).
        destruct left; cbn [in_seg] in I.
        -- destruct (Rlt_dec (knot l j) t); [ lra | reflexivity ].
        -- destruct (Rle_dec (knot l j) t); [ lra | reflexivity ].
  - change (cox left (knot l) (S (S k)) j t) with
      (ratio (t - knot l j) (knot l (j + S k)%nat - knot l j) * cox left (knot l) (S k) j t
       + ratio (knot l (j + S (S k))%nat - t) (knot l (j + S (S k))%nat - knot l (j + 1)%nat)
         * cox left (knot l) (S k) (j + 1) t).
    rewrite pc_succ, IH by (first [ lia | assumption ]). rewrite IH by (first [ lia | assumption ]). reflexivity.
Qed.

(** ** The matrix recursion *)
Definition urow (u : R) (k : nat) (m : mat) (c : nat) : R := bsum k (fun r => u ^ r * m r c).

Lemma M_step_row u k m d0 d1 c : (c < S (S k))%nat ->
  urow u (S (S k)) (M_step (S (S k)) m d0 d1) c =
  (if (c <? S k)%nat then urow u (S k) m c * (1 - (d0 c + u * d1 c)) else 0)
  + (if (0 <? c)%nat then urow u (S k) m (c - 1) * (d0 (c - 1)%nat + u * d1 (c - 1)%nat) else 0).
Proof.
  intros LC. unfold urow.
  set (A := fun idx c : nat => if (c =? idx)%nat then 1 - d0 idx else if (c =? idx + 1)%nat then d0 idx else 0).
  set (B := fun idx c : nat => if (c =? idx)%nat then - d1 idx else if (c =? idx + 1)%nat then d1 idx else 0).
  assert (E : bsum (S (S k)) (fun r => u ^ r * M_step (S (S k)) m d0 d1 r c)
              = bsum (S k) (fun idx => bsum (S k) (fun r => u ^ r * m r idx) * (A idx c + u * B idx c))).
  { unfold M_step. cbn [Nat.sub].
    transitivity (bsum (S (S k)) (fun r => bsum (S k) (fun idx => u ^ r *
       ((if (r <? S k)%nat then m r idx else 0) * A idx c + (if (0 <? r)%nat then m (r - 1)%nat idx else 0) * B idx c)))).
    { apply bsum_ext. intros r _. rewrite bsum_scal, bsum_plus. reflexivity. }
    rewrite bsum_swap. apply bsum_ext. intros idx _.
    transitivity (bsum (S (S k)) (fun r => u ^ r * (if (r <? S k)%nat then m r idx else 0)) * A idx c
                  + bsum (S (S k)) (fun r => u ^ r * (if (0 <? r)%nat then m (r - 1)%nat idx else 0)) * B idx c).
    { rewrite <- !bsum_scal_r, <- bsum_plus. apply bsum_ext. intros; ring. }
    assert (E1 : bsum (S (S k)) (fun r => u ^ r * (if (r <? S k)%nat then m r idx else 0))
                 = bsum (S k) (fun r => u ^ r * m r idx)).
    { change (bsum (S (S k)) (fun r => u ^ r * (if (r <? S k)%nat then m r idx else 0))) with
        (bsum (S k) (fun r => u ^ r * (if (r <? S k)%nat then m r idx else 0))
         + u ^ S k * (if (S k <? S k)%nat then m (S k) idx else 0)).
      destruct (Nat.ltb_spec (S k) (S k)) as [F | F]; [ lia | ].
      rewrite Rmult_0_r, Rplus_0_r. apply bsum_ext. intros r Lr.
      destruct (Nat.ltb_spec r (S k)); [ reflexivity | lia ]. }
    assert (E2 : bsum (S (S k)) (fun r => u ^ r * (if (0 <? r)%nat then m (r - 1)%nat idx else 0))
                 = u * bsum (S k) (fun r => u ^ r * m r idx)).
    { rewrite bsum_first. change (0 <? 0)%nat with false. cbv iota.
      rewrite Rmult_0_r, Rplus_0_l, <- bsum_scal. apply bsum_ext. intros r _.
      change (0 <? S r)%nat with true. cbv iota.
      replace (S r - 1)%nat with r by lia. cbn [pow]. ring. }
    rewrite E1, E2. ring. }
  rewrite E. clear E.
  transitivity (bsum (S k) (fun idx => (if (idx =? c)%nat then
        bsum (S k) (fun r => u ^ r * m r c) * (1 - (d0 c + u * d1 c)) else 0)
     + (if (c =? idx + 1)%nat then
        bsum (S k) (fun r => u ^ r * m r (c - 1)%nat) * (d0 (c - 1)%nat + u * d1 (c - 1)%nat) else 0))).
  { apply bsum_ext. intros idx L. subst A B. cbn beta.
    rewrite (Nat.eqb_sym idx c).
    destruct (Nat.eqb_spec c idx) as [E | E]; destruct (Nat.eqb_spec c (idx + 1)) as [F | F].
    - lia.
    - subst idx. ring.
    - subst c. replace (idx + 1 - 1)%nat with idx by lia. ring.
    - ring. }
  rewrite bsum_plus. f_equal.
  - destruct (Nat.ltb_spec c (S k)) as [L | L].
    + rewrite (bsum_single _ c); [ rewrite Nat.eqb_refl; reflexivity | lia | ].
      intros i _ N. destruct (Nat.eqb_spec i c); [ contradiction | reflexivity ].
    + apply bsum_zero. intros i Li. destruct (Nat.eqb_spec i c); [ lia | reflexivity ].
  - destruct (Nat.ltb_spec 0 c) as [L | L].
    + rewrite (bsum_single _ (c - 1)%nat); [ | lia | ].
      * destruct (Nat.eqb_spec c (c - 1 + 1)); [ reflexivity | lia ].
      * intros i _ N. destruct (Nat.eqb_spec c (i + 1)); [ lia | reflexivity ].
    + apply bsum_zero. intros i Li. destruct (Nat.eqb_spec c (i + 1)); [ lia | reflexivity ].
Qed.

Lemma d_0_val l k i j : (j + k - 1 < length l)%nat -> (j < length l)%nat -> (i < length l)%nat ->
  knot l j < knot l (j + k - 1) ->
  d_0 l k i j = Ok ((knot l i - knot l j) / (knot l (j + k - 1) - knot l j)).
Proof.
  intros H1 H2 H3 D. unfold d_0. rewrite !vat_knot by lia. cbn [obind].
  rewrite rleb_false by lra. reflexivity.
Qed.

Lemma d_1_val l k i j : (j + k - 1 < length l)%nat -> (j < length l)%nat -> (i + 1 < length l)%nat ->
  knot l j < knot l (j + k - 1) ->
  d_1 l k i j = Ok ((knot l (i + 1) - knot l i) / (knot l (j + k - 1) - knot l j)).
Proof.
  intros H1 H2 H3 D. unfold d_1. rewrite !vat_knot by lia. cbn [obind].
  rewrite rleb_false by lra. reflexivity.
Qed.

(** The matrix of segment s exists whenever the knots it reads do. *)
Lemma basis_M_exists l s k : (1 <= k <= s + 1)%nat -> (s + k <= length l)%nat -> (s + 1 < length l)%nat ->
  exists m, basis_M l k s = Ok m.
Proof.
  induction k as [ | k IH ]; intros K L S1; [ lia | ].
  destruct k as [ | k ]; [ eexists; reflexivity | ].
  destruct IH as [m E]; [ lia | lia | lia | ].
  change (basis_M l (S (S k)) s) with
    (do m <- basis_M l (S k) s;
     do d0 <- tabulate (S k) (fun idx => do j <- isub (s + 2 + idx) (S (S k)); d_0 l (S (S k)) s j);
     do d1 <- tabulate (S k) (fun idx => do j <- isub (s + 2 + idx) (S (S k)); d_1 l (S (S k)) s j);
     Ok (M_step (S (S k)) m d0 d1)).
  rewrite E. cbn [obind].
  assert (T0 : exists v, tabulate (S k) (fun idx => do j <- isub (s + 2 + idx) (S (S k)); d_0 l (S (S k)) s j) = Ok v).
  { destruct (tabulate_ok (S k) (fun idx => do j <- isub (s + 2 + idx) (S (S k)); d_0 l (S (S k)) s j)
      (fun idx => let j := (s + 2 + idx - S (S k))%nat in
         if rleb (knot l (j + S (S k) - 1) - knot l j) 0 then 0
         else (knot l s - knot l j) / (knot l (j + S (S k) - 1) - knot l j))) as [v [V _]].
    - intros i Li. rewrite isub_ok by lia. cbn [obind]. unfold d_0. rewrite !vat_knot by lia. cbn [obind].
      cbv zeta. destruct (rleb _ _); reflexivity.
    - exists v. exact V. }
  assert (T1 : exists v, tabulate (S k) (fun idx => do j <- isub (s + 2 + idx) (S (S k)); d_1 l (S (S k)) s j) = Ok v).
  { destruct (tabulate_ok (S k) (fun idx => do j <- isub (s + 2 + idx) (S (S k)); d_1 l (S (S k)) s j)
      (fun idx => let j := (s + 2 + idx - S (S k))%nat in
         if rleb (knot l (j + S (S k) - 1) - knot l j) 0 then 0
         else (knot l (s + 1) - knot l s) / (knot l (j + S (S k) - 1) - knot l j))) as [v [V _]].
    - intros i Li. rewrite isub_ok by lia. cbn [obind]. unfold d_1. rewrite !vat_knot by lia. cbn [obind].
      cbv zeta. destruct (rleb _ _); reflexivity.
    - exists v. exact V. }
  destruct T0 as [v0 ->]. destruct T1 as [v1 ->]. cbn [obind]. eexists. reflexivity.
Qed.

Lemma basis_M_succ l k s m : basis_M l (S (S k)) s = Ok m ->
  exists m' d0 d1, basis_M l (S k) s = Ok m' /\
    tabulate (S k) (fun idx => do j <- isub (s + 2 + idx) (S (S k)); d_0 l (S (S k)) s j) = Ok d0 /\
    tabulate (S k) (fun idx => do j <- isub (s + 2 + idx) (S (S k)); d_1 l (S (S k)) s j) = Ok d1 /\
    m = M_step (S (S k)) m' d0 d1.
Proof.
  change (basis_M l (S (S k)) s) with
    (do m <- basis_M l (S k) s;
     do d0 <- tabulate (S k) (fun idx => do j <- isub (s + 2 + idx) (S (S k)); d_0 l (S (S k)) s j);
     do d1 <- tabulate (S k) (fun idx => do j <- isub (s + 2 + idx) (S (S k)); d_1 l (S (S k)) s j);
     Ok (M_step (S (S k)) m d0 d1)).
  destruct (basis_M l (S k) s) as [m' | | | ]; cbn [obind]; try discriminate.
  destruct (tabulate (S k) (fun idx => do j <- isub (s + 2 + idx) (S (S k)); d_0 l (S (S k)) s j)) as [d0 | | | ];
    cbn [obind]; try discriminate.
  destruct (tabulate (S k) (fun idx => do j <- isub (s + 2 + idx) (S (S k)); d_1 l (S (S k)) s j)) as [d1 | | | ];
    cbn [obind]; try discriminate.
  intros E. exists m', d0, d1. split; [ reflexivity | ]. split; [ reflexivity | ]. split; [ reflexivity | ].
  congruence.
Qed.

(** Row u of the basis matrix is the row of basis polynomials. *)
Lemma basis_row l s t : nondecreasing l -> (s + 1 < length l)%nat -> knot l s < knot l (s + 1) ->
  forall k m, (1 <= k <= s + 1)%nat -> (s + k <= length l)%nat -> basis_M l k s = Ok m ->
  forall c, (c < k)%nat ->
  urow ((t - knot l s) / (knot l (s + 1) - knot l s)) k m c = pc (knot l) s k (s + 1 + c - k) t.
Proof.
  intros ND LS W. set (u := (t - knot l s) / (knot l (s + 1) - knot l s)).
  induction k as [ | k IH ]; intros m K L E c Lc; [ lia | ].
  destruct k as [ | k ].
  - cbn [basis_M] in E. assert (m = (fun _ _ => 1)) by congruence. subst m. unfold urow. cbn [bsum pow pc].
    destruct (Nat.eqb_spec (s + 1 + c - 1) s); [ ring | lia ].
  - destruct (basis_M_succ _ _ _ _ E) as [m' [d0 [d1 [E' [T0 [T1 ->]]]]]].
    assert (DEN : forall j, (j <= s)%nat -> (s + 1 <= j + S k)%nat -> (j + S k < length l)%nat ->
       knot l j < knot l (j + S k)).
    { intros j J1 J2 J3. assert (knot l j <= knot l s) by (apply ND; lia).
      assert (knot l (s + 1) <= knot l (j + S k)) by (apply ND; lia). lra. }
    assert (D01 : forall idx, (idx < S k)%nat ->
       d0 idx + u * d1 idx = (t - knot l (s + idx - k)) / (knot l (s + idx - k + S k) - knot l (s + idx - k))).
    { intros idx Li.
      destruct (tabulate_ok (S k) (fun idx => do j <- isub (s + 2 + idx) (S (S k)); d_0 l (S (S k)) s j)
        (fun idx => (knot l s - knot l (s + idx - k)) / (knot l (s + idx - k + S k) - knot l (s + idx - k)))) as [v [V VV]].
      { intros i Hi. rewrite isub_ok by lia. cbn [obind]. replace (s + 2 + i - S (S k))%nat with (s + i - k)%nat by lia.
        assert (D := DEN (s + i - k)%nat). replace (s + i - k + S k)%nat with (s + i - k + S (S k) - 1)%nat in * by lia.
        apply d_0_val; first [ lia | apply D; lia ]. }
      assert (d0 = v) by congruence. subst v. clear V.
      destruct (tabulate_ok (S k) (fun idx => do j <- isub (s + 2 + idx) (S (S k)); d_1 l (S (S k)) s j)
        (fun idx => (knot l (s + 1) - knot l s) / (knot l (s + idx - k + S k) - knot l (s + idx - k)))) as [v [V VV1]].
      { intros i Hi. rewrite isub_ok by lia. cbn [obind]. replace (s + 2 + i - S (S k))%nat with (s + i - k)%nat by lia.
        assert (D := DEN (s + i - k)%nat). replace (s + i - k + S k)%nat with (s + i - k + S (S k) - 1)%nat in * by lia.
        apply d_1_val; first [ lia | apply D; lia ]. }
      assert (d1 = v) by congruence. subst v. clear V.
      rewrite VV, VV1 by exact Li. assert (D := DEN (s + idx - k)%nat ltac:(lia) ltac:(lia) ltac:(lia)).
      subst u. field. lra. }
    rewrite M_step_row by exact Lc.
    rewrite pc_succ.
    destruct (Nat.ltb_spec c (S k)) as [C1 | C1].
    + rewrite (IH m') by (first [ lia | assumption ]). rewrite D01 by lia.
      destruct (Nat.ltb_spec 0 c) as [C2 | C2].
      * rewrite (IH m') by (first [ lia | assumption ]). rewrite D01 by lia.
        replace (s + 1 + (c - 1) - S k)%nat with (s + 1 + c - S (S k))%nat by lia.
        replace (s + (c - 1) - k)%nat with (s + 1 + c - S (S k))%nat by lia.
        replace (s + 1 + c - S k)%nat with (s + 1 + c - S (S k) + 1)%nat by lia.
        replace (s + c - k)%nat with (s + 1 + c - S (S k) + 1)%nat by lia.
        replace (s + 1 + c - S (S k) + 1 + S k)%nat with (s + 1 + c - S (S k) + S (S k))%nat by lia.
        set (j := (s + 1 + c - S (S k))%nat).
        assert (Da := DEN j ltac:(lia) ltac:(lia) ltac:(lia)).
        assert (Db := DEN (j + 1)%nat ltac:(lia) ltac:(lia) ltac:(lia)).
        replace (j + 1 + S k)%nat with (j + S (S k))%nat in Db by lia.
        rewrite !ratio_pos by lra. field. lra.
      * assert (c = 0)%nat by lia. subst c.
        rewrite (pc_support _ _ (S k) (s + 1 + 0 - S (S k))) by lia.
        replace (s + 1 + 0 - S k)%nat with (s + 1 + 0 - S (S k) + 1)%nat by lia.
        replace (s + 0 - k)%nat with (s + 1 + 0 - S (S k) + 1)%nat by lia.
        replace (s + 1 + 0 - S (S k) + 1 + S k)%nat with (s + 1 + 0 - S (S k) + S (S k))%nat by lia.
        set (j := (s + 1 + 0 - S (S k))%nat).
        assert (Db := DEN (j + 1)%nat ltac:(lia) ltac:(lia) ltac:(lia)).
        replace (j + 1 + S k)%nat with (j + S (S k))%nat in Db by lia.
        rewrite (ratio_pos (knot l (j + S (S k)) - t)) by lra. field. lra.
    + assert (c = S k) by lia. subst c. change (0 <? S k)%nat with true. cbv iota.
      rewrite (IH m') by (first [ lia | assumption ]). rewrite D01 by lia.
      rewrite (pc_support _ _ (S k) (s + 1 + S k - S (S k) + 1)) by lia.
      replace (s + 1 + (S k - 1) - S k)%nat with (s + 1 + S k - S (S k))%nat by lia.
      replace (s + (S k - 1) - k)%nat with (s + 1 + S k - S (S k))%nat by lia.
      set (j := (s + 1 + S k - S (S k))%nat).
      assert (Da := DEN j ltac:(lia) ltac:(lia) ltac:(lia)).
      rewrite (ratio_pos (t - knot l j)) by lra. ring.
Qed.

(** ** Segment lookup *)
Lemma upper_pos_spec l t :
  (upper_pos l t <= length l)%nat /\
  (forall i, (i < upper_pos l t)%nat -> knot l i <= t) /\
  ((upper_pos l t < length l)%nat -> t < knot l (upper_pos l t)).
Proof.
  induction l as [ | a r [H1 [H2 H3]] ]; cbn [upper_pos length].
  - split; [ lia | ]. split; intros; lia.
  - unfold rltb. destruct (Rlt_dec t a) as [L | L].
    + split; [ lia | ]. split; [ intros; lia | ]. intros _. exact L.
    + split; [ lia | ]. split.
      * intros i Hi. destruct i as [ | i ]; [ unfold knot; cbn [nth]; lra | ].
        change (knot (a :: r) (S i)) with (knot r i). apply H2. lia.
      * intros Hi. change (knot (a :: r) (S (upper_pos r t))) with (knot r (upper_pos r t)). apply H3. lia.
Qed.

Lemma skipn_nth_In (x : R) p l : In x (skipn p l) -> exists i, (p <= i < length l)%nat /\ x = knot l i.
Proof.
  revert p. induction l as [ | a r IH ]; intros p H.
  - rewrite skipn_nil in H. destruct H.
  - destruct p as [ | p ].
    + cbn [skipn] in H. destruct (In_nth _ _ 0 H) as [i [L E]]. exists i. split; [ lia | symmetry; exact E ].
    + cbn [skipn] in H. destruct (IH p H) as [i [L E]]. exists (S i). cbn [length]. split; [ lia | exact E ].
Qed.

Lemma upper_bound_ok l t : nondecreasing l -> upper_bound l t = Ok (upper_pos l t).
Proof.
  intros ND. unfold upper_bound. destruct (upper_pos_spec l t) as [H1 [H2 H3]].
  assert (F : forallb (rltb t) (skipn (upper_pos l t) l) = true).
  { apply forallb_forall. intros x I. destruct (skipn_nth_In _ _ _ I) as [i [L ->]].
    apply rltb_true. assert (knot l (upper_pos l t) <= knot l i) by (apply ND; lia).
    assert (t < knot l (upper_pos l t)) by (apply H3; lia). lra. }
  rewrite F. reflexivity.
Qed.

(** A spline as every successful construction leaves it. *)
Record wf (b : bspline) : Prop := {
  wf_order : (2 <= order b)%nat;
  wf_len : (2 * order b <= length (knots b))%nat;
  wf_cols : (ncols b + order b = length (knots b))%nat;
  wf_bases : init_bases (knots b) (order b) = Ok (bases b);
  wf_sorted : nondecreasing (knots b)
}.

Definition lo (b : bspline) : R := knot (knots b) (order b - 1).
Definition hi (b : bspline) : R := knot (knots b) (ncols b).
(** The last knot before t_max. *)
Definition last_start (b : bspline) : R := knot (knots b) (ncols b - 1).

Lemma min_knots_eq k : (1 <= k)%nat -> min_knots k = (2 * k)%nat.
Proof. intros. unfold min_knots, num_knots_required, num_coefs_required. lia. Qed.

Lemma t_min_ok b : wf b -> t_min b = Ok (lo b).
Proof.
  intros [O L C B SO]. unfold t_min, lo. rewrite min_knots_eq by lia.
  destruct (Nat.ltb_spec (length (knots b)) (2 * order b)); [ lia | ]. apply vat_knot. lia.
Qed.

Lemma t_max_ok b : wf b -> t_max b = Ok (hi b).
Proof.
  intros [O L C B SO]. unfold t_max, hi. rewrite min_knots_eq by lia.
  destruct (Nat.ltb_spec (length (knots b)) (2 * order b)); [ lia | ].
  replace (length (knots b) - order b)%nat with (ncols b) by lia. apply vat_knot. lia.
Qed.

Definition near_end (b : bspline) (t : R) : Prop := Rabs (hi b - t) < / 10000000000.

(** The result of computeTIndex. *)
Lemma T_index_inner b t : wf b -> lo b <= t -> t <= hi b -> ~ near_end b t ->
  exists s, (order b - 1 <= s < ncols b)%nat /\
    knot (knots b) s <= t < knot (knots b) (s + 1) /\
    compute_T_index b t = Ok (knot (knots b) (s + 1) - knot (knots b) s, s).
Proof.
  intros W L H N. assert (W' := W). destruct W' as [O LE C B SO]. unfold near_end in N.
  unfold compute_T_index. rewrite t_min_ok, t_max_ok by exact W. cbn [obind].
  rewrite rleb_true by exact L. rewrite (rltb_false (Rabs (hi b - t))) by lra. cbv zeta.
  rewrite rleb_true by exact H.
  destruct (Req_EM_T t (hi b)) as [E | E].
  { exfalso. apply N. rewrite E, Rminus_eq_0, Rabs_R0. lra. }
  rewrite upper_bound_ok by exact SO. cbn [obind].
  destruct (upper_pos_spec (knots b) t) as [H1 [H2 H3]].
  set (p := upper_pos (knots b) t) in *.
  assert (P1 : (order b <= p)%nat).
  { destruct (le_lt_dec (order b) p) as [G | G]; [ exact G | ].
    assert (t < knot (knots b) p) by (apply H3; lia).
    assert (knot (knots b) p <= lo b) by (apply SO; unfold lo; lia). lra. }
  assert (P2 : (p <= ncols b)%nat).
  { destruct (le_lt_dec p (ncols b)) as [G | G]; [ exact G | ].
    assert (hi b <= t) by (apply H2; exact G). lra. }
  exists (p - 1)%nat. split; [ lia | ].
  replace (p - 1 + 1)%nat with p by lia.
  split; [ split; [ apply H2; lia | apply H3; lia ] | ].
  rewrite isub_ok by lia. cbn [obind]. rewrite !vat_knot by lia. reflexivity.
Qed.

Lemma T_index_end b t : wf b -> lo b <= t -> near_end b t ->
  compute_T_index b t = Ok (hi b - last_start b, (ncols b - 1)%nat).
Proof.
  intros W L N. assert (W' := W). destruct W' as [O LE C B SO]. unfold near_end in N.
  unfold compute_T_index. rewrite t_min_ok, t_max_ok by exact W. cbn [obind].
  rewrite rleb_true by exact L. rewrite (rltb_true (Rabs (hi b - t))) by lra. cbv zeta.
  rewrite rleb_true by lra.
  destruct (Req_EM_T (hi b) (hi b)) as [_ | E]; [ | contradiction ].
  rewrite isub_ok by lia. cbn [obind].
  replace (length (knots b) - order b)%nat with (ncols b) by lia.
  rewrite isub_ok by lia. cbn [obind]. rewrite !vat_knot by lia. reflexivity.
Qed.

Lemma T_index_throw b t : wf b -> t < lo b \/ (hi b < t /\ ~ near_end b t) -> compute_T_index b t = Throw.
Proof.
  intros W H. unfold compute_T_index. rewrite t_min_ok, t_max_ok by exact W. cbn [obind].
  destruct (Rle_dec (lo b) t) as [L | L].
  - rewrite rleb_true by exact L. destruct H as [H | [H N]]; [ lra | ]. unfold near_end in N.
    rewrite (rltb_false (Rabs (hi b - t))) by lra. cbv zeta. rewrite rleb_false by exact H. reflexivity.
  - rewrite rleb_false by lra. reflexivity.
Qed.

(** Which segment a time is put in. *)
Definition located (b : bspline) (t : R) (s : nat) : Prop :=
  (order b - 1 <= s < ncols b)%nat /\
  compute_T_index b t = Ok (knot (knots b) (s + 1) - knot (knots b) s, s).

Lemma located_end b t : wf b -> lo b <= t -> near_end b t -> located b t (ncols b - 1).
Proof.
  intros W L N. assert (W' := W). destruct W' as [O LE C B SO].
  split; [ lia | ]. rewrite T_index_end by assumption.
  replace (ncols b - 1 + 1)%nat with (ncols b) by lia. reflexivity.
Qed.

Lemma located_exists b t : wf b -> lo b <= t <= hi b -> exists s, located b t s.
Proof.
  intros W L. destruct (Rlt_dec (Rabs (hi b - t)) (/ 10000000000)) as [N | N].
  - exists (ncols b - 1)%nat. apply located_end; [ exact W | lra | exact N ].
  - destruct (T_index_inner b t W) as [s [S1 [_ E]]]; [ lra | lra | exact N | ]. exists s. split; assumption.
Qed.

(** The segment contains the time when the time is not within 1e-10 of the
    end of a shorter last segment. *)
Definition resolved (b : bspline) (t : R) : Prop :=
  t <= hi b - / 10000000000 \/ last_start b <= t.

Lemma located_seg b t : wf b -> lo b <= t < hi b -> resolved b t ->
  exists s, located b t s /\ knot (knots b) s <= t < knot (knots b) (s + 1).
Proof.
  intros W L Q. assert (W' := W). destruct W' as [O LE C B SO].
  destruct (Rlt_dec (Rabs (hi b - t)) (/ 10000000000)) as [N | N].
  - exists (ncols b - 1)%nat. split; [ apply located_end; [ exact W | lra | exact N ] | ].
    replace (ncols b - 1 + 1)%nat with (ncols b) by lia.
    fold (hi b). fold (last_start b). rewrite Rabs_pos_eq in N by lra.
    destruct Q as [Q | Q]; lra.
  - destruct (T_index_inner b t W) as [s [S1 [I E]]]; [ lra | lra | exact N | ].
    exists s. split; [ split; assumption | exact I ].
Qed.

(** ** Basis matrices of a spline *)
Lemma basis_loop_nth l k n : forall s r, basis_loop l k s n = Ok r ->
  length r = n /\ forall i, (i < n)%nat -> exists m, nth_error r i = Some m /\ basis_M l k (s + i + k - 1) = Ok m.
Proof.
  induction n as [ | n IH ]; intros s r E; cbn [basis_loop] in E.
  - assert (r = []) by congruence. subst r. split; [ reflexivity | intros; lia ].
  - destruct (basis_M l k (s + k - 1)) as [m | | | ] eqn:EM; cbn [obind] in E; try discriminate.
    destruct (basis_loop l k (S s) n) as [r' | | | ] eqn:ER; cbn [obind] in E; try discriminate.
    assert (r = m :: r') by congruence. subst r. destruct (IH _ _ ER) as [L N].
    split; [ cbn [length]; lia | ]. intros i Hi. destruct i as [ | i ].
    + exists m. split; [ reflexivity | ]. replace (s + 0 + k - 1)%nat with (s + k - 1)%nat by lia. exact EM.
    + destruct (N i) as [m' [E1 E2]]; [ lia | ]. exists m'. split; [ exact E1 | ].
      replace (s + S i + k - 1)%nat with (S s + i + k - 1)%nat by lia. exact E2.
Qed.

Lemma basis_loop_exists l k n : forall s, (1 <= k)%nat ->
  (s + n + 2 * k - 1 <= length l + (if n =? 0 then length l + s + 2 * k else 0))%nat ->
  (1 < k)%nat -> exists r, basis_loop l k s n = Ok r.
Proof.
  induction n as [ | n IH ]; intros s K L K2; [ eexists; reflexivity | ].
  cbn [basis_loop]. change (S n =? 0)%nat with false in L. cbv iota in L.
  destruct (basis_M_exists l (s + k - 1) k) as [m ->]; [ lia | lia | lia | ]. cbn [obind].
  destruct (IH (S s)) as [r ->]; [ lia | | lia | ].
  - destruct (n =? 0)%nat; lia.
  - eexists. reflexivity.
Qed.

Lemma bases_nth b : wf b -> forall i, (i + order b <= ncols b)%nat ->
  exists m, nth_error (bases b) i = Some m /\ basis_M (knots b) (order b) (i + order b - 1) = Ok m.
Proof.
  intros [O LE C B SO] i Hi. unfold init_bases in B. destruct (basis_loop_nth _ _ _ _ _ B) as [L N].
  destruct (N i) as [m [E1 E2]]; [ unfold num_segments_of; lia | ]. exists m. split; [ exact E1 | exact E2 ].
Qed.

Lemma init_bases_exists l k : (2 <= k)%nat -> exists bs, init_bases l k = Ok bs.
Proof.
  intros K. unfold init_bases. apply basis_loop_exists; [ lia | | lia ].
  unfold num_segments_of. destruct (Nat.eqb_spec (length l + 1 - 2 * k) 0); lia.
Qed.

Lemma verify_loop_ok l n : forall i, nondecreasing l -> (1 <= i)%nat -> (i + n <= length l \/ n = 0)%nat ->
  verify_loop l i n = Ok tt.
Proof.
  induction n as [ | n IH ]; intros i ND I L; [ reflexivity | ]. cbn [verify_loop].
  rewrite !vat_knot by lia. cbn [obind]. rewrite rleb_true by (apply ND; lia). apply IH; [ exact ND | lia | lia ].
Qed.

(** Setting a valid knot sequence gives a well-formed spline, if the spline
    did not have more knots before. *)
Lemma set_knots_wf b l D C c : (2 <= order b)%nat -> nondecreasing l -> (2 * order b <= length l)%nat ->
  (C + order b = length l)%nat -> (length (knots b) <= length l)%nat ->
  exists b', set_knots_and_coefs b l D C c = Ok b' /\ wf b' /\
    order b' = order b /\ knots b' = l /\ dim b' = D /\ ncols b' = C /\ coef b' = c.
Proof.
  intros O ND L CC OLD. unfold set_knots_and_coefs, verify_knots. rewrite min_knots_eq by lia.
  destruct (Nat.ltb_spec (length l) (2 * order b)) as [F | F]; [ lia | ].
  rewrite verify_loop_ok by (first [ exact ND | lia ]). cbn [obind].
  destruct (Nat.eqb_spec (num_coefs_required (order b) (num_segments_of (order b) (length l))) C) as [E | E].
  - destruct (init_bases_exists l (order b) O) as [bs EB]. rewrite EB. cbn [obind].
    eexists. split; [ reflexivity | ].
    split; [ constructor; cbn [order knots ncols bases]; first [ lia | assumption ] | ].
    cbn [order knots dim ncols coef]. split; [ reflexivity | ]. split; [ reflexivity | ]. split; [ reflexivity | ].
    split; reflexivity.
  - exfalso. apply E. unfold num_coefs_required, num_segments_of. lia.
Qed.

(** ** Weights and evaluation *)
Definition upar (b : bspline) (s : nat) (t : R) : R :=
  (t - knot (knots b) s) / (knot (knots b) (s + 1) - knot (knots b) s).

Lemma U_index_ok b t s : wf b -> located b t s -> knot (knots b) s < knot (knots b) (s + 1) ->
  compute_U_index b t = Ok (upar b s t, s).
Proof.
  intros W [S1 E] P. unfold compute_U_index. rewrite E. cbn [obind].
  rewrite rleb_false by lra. assert (W' := W). destruct W'. rewrite vat_knot by lia. reflexivity.
Qed.

Lemma compute_U_ok b u s d : wf b -> (s + 1 < length (knots b))%nat -> knot (knots b) s < knot (knots b) (s + 1) ->
  compute_U b u s d = Ok (fun i => if (d <=? i)%nat && (i <? order b)%nat
     then 1 / (knot (knots b) (s + 1) - knot (knots b) s) ^ d * u ^ (i - d) * IZR (dmul (Z.of_nat i) d) else 0).
Proof.
  intros W L P. unfold compute_U. rewrite !vat_knot by lia. cbn [obind]. rewrite rltb_true by lra. reflexivity.
Qed.

(** Weight of column c of the local coefficients for derivative d. *)
Definition wgt (b : bspline) (m : mat) (s d : nat) (t : R) (c : nat) : R :=
  bsum (order b) (fun r => m r c * (if (d <=? r)%nat && (r <? order b)%nat
     then 1 / (knot (knots b) (s + 1) - knot (knots b) s) ^ d * upar b s t ^ (r - d) * IZR (dmul (Z.of_nat r) d) else 0)).

Lemma weights_ok b t s d : wf b -> located b t s -> knot (knots b) s < knot (knots b) (s + 1) -> (0 <= d)%Z ->
  exists m, basis_M (knots b) (order b) s = Ok m /\
    weights b t d = Ok ((s + 1 - order b)%nat, wgt b m s (Z.to_nat d) t).
Proof.
  intros W LO P D. assert (W' := W). destruct W' as [O LE C B SO]. destruct LO as [S1 E].
  destruct (bases_nth b W (s + 1 - order b)) as [m [E1 E2]]; [ lia | ].
  replace (s + 1 - order b + order b - 1)%nat with s in E2 by lia.
  exists m. split; [ exact E2 | ]. unfold weights. destruct (Z.ltb_spec d 0); [ lia | ].
  rewrite (U_index_ok b t s W (conj S1 E) P). cbn [obind].
  rewrite compute_U_ok by (first [ assumption | lia ]). cbn [obind]. rewrite isub_ok by lia. cbn [obind].
  rewrite E1. reflexivity.
Qed.

Lemma wgt_0 b m s t c : wgt b m s 0 t c = urow (upar b s t) (order b) m c.
Proof.
  unfold wgt, urow. apply bsum_ext. intros r L.
  change (0 <=? r)%nat with true. destruct (Nat.ltb_spec r (order b)); [ | lia ]. cbn [andb].
  rewrite Nat.sub_0_r. cbn [pow dmul]. field.
Qed.

Lemma wgt_0_pc b m s t c : wf b -> (order b - 1 <= s < ncols b)%nat ->
  knot (knots b) s < knot (knots b) (s + 1) -> basis_M (knots b) (order b) s = Ok m -> (c < order b)%nat ->
  wgt b m s 0 t c = pc (knot (knots b)) s (order b) (s + 1 + c - order b) t.
Proof.
  intros W S1 P E Lc. assert (W' := W). destruct W' as [O LE C B SO]. rewrite wgt_0. unfold upar.
  apply basis_row; first [ assumption | lia ].
Qed.

(** A sum over all the basis polynomials has only [order] terms. *)
Lemma sum_all_local kn s k n c t : (1 <= k)%nat -> (k - 1 <= s < n)%nat ->
  total n (fun j => c j * pc kn s k j t) = bsum k (fun i => c (s + 1 - k + i)%nat * pc kn s k (s + 1 + i - k) t).
Proof.
  intros K S1. rewrite <- bsum_total.
  replace n with ((s + 1 - k) + (k + (n - s - 1)))%nat by lia.
  rewrite bsum_app, bsum_app. rewrite bsum_zero.
  2: { intros i Hi. rewrite pc_support by lia. ring. }
  rewrite (bsum_zero (n - s - 1)).
  2: { intros i Hi. rewrite pc_support by lia. ring. }
  rewrite Rplus_0_l, Rplus_0_r. apply bsum_ext. intros i Hi.
  replace (s + 1 + i - k)%nat with (s + 1 - k + i)%nat by lia. reflexivity.
Qed.

(** The value and derivatives at a located time. *)
Definition piece (b : bspline) (m : mat) (s d : nat) (r : nat) (t : R) : R :=
  bsum (order b) (fun c => coef b r (s + 1 - order b + c)%nat * wgt b m s d t c).

Lemma eval_D_ok b t s d : wf b -> located b t s -> knot (knots b) s < knot (knots b) (s + 1) -> (0 <= d)%Z ->
  exists m v, basis_M (knots b) (order b) s = Ok m /\ eval_D b t d = Ok v /\
    forall r, v r = piece b m s (Z.to_nat d) r t.
Proof.
  intros W LO P D. destruct (weights_ok b t s d W LO P D) as [m [EM EW]].
  assert (W' := W). destruct W' as [O LE C B SO]. destruct LO as [S1 E].
  exists m. unfold eval_D. rewrite EW. cbn [obind]. unfold coef_block.
  destruct (Nat.leb_spec (s + 1 - order b + order b) (ncols b)) as [G | G]; [ | lia ]. cbn [obind].
  eexists. split; [ exact EM | ]. split; [ reflexivity | ]. intros r. reflexivity.
Qed.

Lemma piece_curve left b m s r t : wf b -> (order b - 1 <= s < ncols b)%nat ->
  basis_M (knots b) (order b) s = Ok m -> in_seg left (knot (knots b) s) (knot (knots b) (s + 1)) t ->
  piece b m s 0 r t = curve left (knot (knots b)) (order b) (ncols b) (coef b r) t.
Proof.
  intros W S1 EM I. assert (W' := W). destruct W' as [O LE C B SO].
  assert (P : knot (knots b) s < knot (knots b) (s + 1)) by (destruct left; cbn [in_seg] in I; lra).
  unfold curve. transitivity (total (ncols b) (fun j => coef b r j * pc (knot (knots b)) s (order b) j t)).
  - rewrite sum_all_local by lia. unfold piece. apply bsum_ext. intros c Lc.
    rewrite wgt_0_pc by (first [ assumption | lia ]). reflexivity.
  - rewrite <- !bsum_total. apply bsum_ext. intros j Lj.
    rewrite (cox_local left (knots b) s (order b)) by (first [ assumption | lia ]). reflexivity.
Qed.

(** ** The weights are non-negative and sum to one *)
Lemma M_step_sum u k m d0 d1 :
  bsum (S (S k)) (urow u (S (S k)) (M_step (S (S k)) m d0 d1)) = bsum (S k) (urow u (S k) m).
Proof.
  set (p := urow u (S k) m). set (w := fun c => d0 c + u * d1 c).
  transitivity (bsum (S (S k)) (fun c => if (c <? S k)%nat then p c * (1 - w c) else 0)
                + bsum (S (S k)) (fun c => if (0 <? c)%nat then p (c - 1)%nat * w (c - 1)%nat else 0)).
  { rewrite <- bsum_plus. apply bsum_ext. intros c Lc. exact (M_step_row u k m d0 d1 c Lc). }
  assert (E1 : bsum (S (S k)) (fun c => if (c <? S k)%nat then p c * (1 - w c) else 0)
               = bsum (S k) (fun c => p c * (1 - w c))).
  { change (bsum (S (S k)) (fun c => if (c <? S k)%nat then p c * (1 - w c) else 0)) with
      (bsum (S k) (fun c => if (c <? S k)%nat then p c * (1 - w c) else 0)
       + (if (S k <? S k)%nat then p (S k) * (1 - w (S k)) else 0)).
    destruct (Nat.ltb_spec (S k) (S k)) as [F | F]; [ lia | ]. rewrite Rplus_0_r.
    apply bsum_ext. intros i Hi. destruct (Nat.ltb_spec i (S k)); [ reflexivity | lia ]. }
  assert (E2 : bsum (S (S k)) (fun c => if (0 <? c)%nat then p (c - 1)%nat * w (c - 1)%nat else 0)
               = bsum (S k) (fun c => p c * w c)).
  { rewrite bsum_first. change (0 <? 0)%nat with false. cbv iota. rewrite Rplus_0_l.
    apply bsum_ext. intros i Hi. change (0 <? S i)%nat with true. cbv iota.
    replace (S i - 1)%nat with i by lia. reflexivity. }
  rewrite E1, E2, <- bsum_plus. apply bsum_ext. intros; ring.
Qed.

Lemma urow_sum l s u : forall k m, (1 <= k)%nat -> basis_M l k s = Ok m -> bsum k (urow u k m) = 1.
Proof.
  induction k as [ | k IH ]; intros m K E; [ lia | ]. destruct k as [ | k ].
  - cbn [basis_M] in E. assert (m = (fun _ _ => 1)) by congruence. subst m. unfold urow. cbn [bsum pow]. ring.
  - destruct (basis_M_succ _ _ _ _ E) as [m' [d0 [d1 [E' [_ [_ ->]]]]]].
    rewrite M_step_sum. apply IH; [ lia | exact E' ].
Qed.

Lemma ratio_nonneg a b : 0 <= a -> 0 <= b -> 0 <= ratio a b.
Proof.
  intros A B. unfold ratio. destruct (Req_EM_T b 0) as [E | E]; [ lra | ].
  apply Rle_mult_inv_pos; lra.
Qed.

Lemma pc_nonneg l s t : nondecreasing l -> (s + 1 < length l)%nat -> knot l s <= t <= knot l (s + 1) ->
  forall k j, (j + k < length l)%nat -> 0 <= pc (knot l) s k j t.
Proof.
  intros ND LS I. induction k as [ | k IH ]; intros j Lj; [ cbn [pc]; lra | ].
  destruct k as [ | k ].
  - cbn [pc]. destruct (j =? s)%nat; lra.
  - rewrite pc_succ. apply Rplus_le_le_0_compat.
    + destruct (le_lt_dec j s) as [A | A]; [ destruct (le_lt_dec (j + S k) s) as [B | B] | ].
      * rewrite (pc_support _ _ _ j) by lia. rewrite Rmult_0_r. lra.
      * apply Rmult_le_pos; [ | apply IH; lia ].
        assert (knot l j <= knot l s) by (apply ND; lia).
        assert (knot l j <= knot l (j + S k)) by (apply ND; lia).
        apply ratio_nonneg; lra.
      * rewrite (pc_support _ _ _ j) by lia. rewrite Rmult_0_r. lra.
    + destruct (le_lt_dec (j + 1) s) as [A | A]; [ destruct (le_lt_dec (j + 1 + S k) s) as [B | B] | ].
      * rewrite (pc_support _ _ _ (j + 1)) by lia. rewrite Rmult_0_r. lra.
      * apply Rmult_le_pos; [ | apply IH; lia ].
        assert (knot l (s + 1) <= knot l (j + S (S k))) by (apply ND; lia).
        assert (knot l (j + 1) <= knot l (j + S (S k))) by (apply ND; lia).
        apply ratio_nonneg; lra.
      * rewrite (pc_support _ _ _ (j + 1)) by lia. rewrite Rmult_0_r. lra.
Qed.

Lemma wgt_nonneg b m s t c : wf b -> (order b - 1 <= s < ncols b)%nat ->
  knot (knots b) s < knot (knots b) (s + 1) -> basis_M (knots b) (order b) s = Ok m -> (c < order b)%nat ->
  knot (knots b) s <= t <= knot (knots b) (s + 1) -> 0 <= wgt b m s 0 t c.
Proof.
  intros W S1 P E Lc I. assert (W' := W). destruct W' as [O LE C B SO].
  rewrite wgt_0_pc by assumption. apply pc_nonneg; first [ assumption | lia ].
Qed.

Lemma wgt_sum b m s t : wf b -> basis_M (knots b) (order b) s = Ok m ->
  bsum (order b) (wgt b m s 0 t) = 1.
Proof.
  intros W E. destruct W as [O LE C B SO].
  rewrite (bsum_ext _ _ (urow (upar b s t) (order b) m)) by (intros; apply wgt_0).
  apply (urow_sum (knots b) s); [ lia | exact E ].
Qed.

(** Weighted means lie between bounds of the values. *)
Lemma weighted_between n (w f : nat -> R) lo hi :
  (forall i, (i < n)%nat -> 0 <= w i) -> bsum n w = 1 -> (forall i, (i < n)%nat -> lo <= f i <= hi) ->
  lo <= bsum n (fun i => f i * w i) <= hi.
Proof.
  intros W S F. split.
  - apply Rle_trans with (bsum n (fun i => lo * w i)); [ rewrite bsum_scal, S; lra | ].
    apply bsum_le. intros i Hi. apply Rmult_le_compat_r; [ apply W; exact Hi | apply F; exact Hi ].
  - apply Rle_trans with (bsum n (fun i => hi * w i)); [ | rewrite bsum_scal, S; lra ].
    apply bsum_le. intros i Hi. apply Rmult_le_compat_r; [ apply W; exact Hi | apply F; exact Hi ].
Qed.

(** Every time of the interval lands in a segment with distinct ends that
    contains it. *)
Lemma located_closed b t : wf b -> lo b <= t <= hi b -> resolved b t -> last_start b < hi b ->
  exists s, located b t s /\ knot (knots b) s < knot (knots b) (s + 1) /\
    knot (knots b) s <= t <= knot (knots b) (s + 1) /\ (t < hi b -> t < knot (knots b) (s + 1)).
Proof.
  intros W L Q P. assert (W' := W). destruct W' as [O LE C B SO].
  destruct (Req_dec t (hi b)) as [-> | N].
  - exists (ncols b - 1)%nat. split.
    + apply located_end; [ exact W | lra | ]. unfold near_end. rewrite Rminus_eq_0, Rabs_R0. lra.
    + replace (ncols b - 1 + 1)%nat with (ncols b) by lia. fold (hi b) (last_start b). lra.
  - destruct (located_seg b t W) as [s [LO I]]; [ lra | exact Q | ]. exists s. split; [ exact LO | ]. lra.
Qed.

Lemma located_unique b t s s' : located b t s -> located b t s' -> s = s'.
Proof. intros [_ E] [_ E']. congruence. Qed.

Lemma eval_local b b' t : wf b -> wf b' -> lo b <= t <= hi b -> resolved b t -> last_start b < hi b ->
  order b' = order b -> knots b' = knots b -> bases b' = bases b -> ncols b' = ncols b ->
  forall s, located b t s ->
  (forall r c, (s + 1 - order b <= c < s + 1)%nat -> coef b' r c = coef b r c) ->
  forall d v v', eval_D b t d = Ok v -> eval_D b' t d = Ok v' -> forall r, v r = v' r.
Proof.
  intros W W' L Q P EO EK EB EC s LO EQ d v v' E E' r.
  assert (SW : weights b' t d = weights b t d).
  { unfold weights, compute_U_index, compute_T_index, t_min, t_max, compute_U. rewrite EO, EK, EB. reflexivity. }
  destruct (Z.ltb_spec d 0) as [D | D].
  { unfold eval_D, weights in E. destruct (Z.ltb_spec d 0); [ discriminate | lia ]. }
  destruct (located_closed b t W L Q P) as [s0 [LO0 [P0 _]]].
  rewrite (located_unique _ _ _ _ LO0 LO) in P0.
  destruct (weights_ok b t s d W LO P0 D) as [m [EM EW]].
  unfold eval_D in E, E'. rewrite SW, EW in E'. rewrite EW in E. cbn [obind] in E, E'.
  unfold coef_block in E, E'. rewrite EO, EC in E'.
  destruct (s + 1 - order b + order b <=? ncols b)%nat; [ | discriminate ].
  cbn [obind] in E, E'.
  assert (V : v r = bsum (order b) (fun c => coef b r (s + 1 - order b + c)%nat * wgt b m s (Z.to_nat d) t c)).
  { assert (X : v = fun r => bsum (order b) (fun c => coef b r (s + 1 - order b + c)%nat * wgt b m s (Z.to_nat d) t c))
      by congruence. rewrite X. reflexivity. }
  assert (V' : v' r = bsum (order b) (fun c => coef b' r (s + 1 - order b + c)%nat * wgt b m s (Z.to_nat d) t c)).
  { assert (X : v' = fun r => bsum (order b) (fun c => coef b' r (s + 1 - order b + c)%nat * wgt b m s (Z.to_nat d) t c))
      by congruence. rewrite X. reflexivity. }
  rewrite V, V'. apply bsum_ext. intros c Lc. destruct LO as [S1 _].
  rewrite EQ by (destruct W; lia). reflexivity.
Qed.

(** ** Local basis vectors *)
Lemma local_Bi_ok b t s : wf b -> located b t s -> knot (knots b) s < knot (knots b) (s + 1) ->
  exists m v, basis_M (knots b) (order b) s = Ok m /\ local_Bi b t = Ok v /\
    segment_index b t = Ok (s + 1 - order b)%nat /\
    forall j, (j < order b)%nat -> v j = wgt b m s 0 t j.
Proof.
  intros W LO P. assert (W' := W). destruct W' as [O LE C B SO]. assert (LO' := LO). destruct LO' as [S1 E].
  destruct (bases_nth b W (s + 1 - order b)) as [m [E1 E2]]; [ lia | ].
  replace (s + 1 - order b + order b - 1)%nat with s in E2 by lia.
  exists m. unfold local_Bi, segment_index. rewrite E. cbn [obind]. rewrite isub_ok by lia. cbn [obind].
  rewrite (U_index_ok b t s W LO P). cbn [obind]. rewrite compute_U_ok by (first [ assumption | lia ]). cbn [obind].
  rewrite E1. eexists. split; [ exact E2 | ]. split; [ reflexivity | ]. split; [ reflexivity | ].
  intros j Lj. cbn beta. destruct (Nat.ltb_spec j (order b)); [ | lia ].
  unfold wgt. apply bsum_ext. intros r Lr. ring.
Qed.

Lemma sum_down_tail bi n : forall lo, sum_down bi lo n = bsum n (fun i => bi (lo + i)%nat).
Proof.
  induction n as [ | n IH ]; intros lo; [ reflexivity | ].
  cbn [sum_down]. rewrite IH, bsum_first, Nat.add_0_r.
  rewrite (bsum_ext n (fun i => bi (S lo + i)%nat) (fun i => bi (lo + S i)%nat)) by (intros; f_equal; lia). ring.
Qed.
