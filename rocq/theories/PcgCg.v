(** * Conjugate gradients in exact arithmetic *)
From Coq Require Import Reals List Arith Bool Lra Lia.
From Verif Require Import BsplModel BsplProofs PcgModel.
Import ListNotations.
Local Open Scope R_scope.

Lemma vdot_ext n x y x' y' : (forall i, (i < n)%nat -> x i = x' i) -> (forall i, (i < n)%nat -> y i = y' i) -> vdot n x y = vdot n x' y'.
Proof. intros X Y. apply bsum_ext. intros i L. rewrite X, Y by exact L. reflexivity. Qed.
Lemma vdot_sym n x y : vdot n x y = vdot n y x.
Proof. apply bsum_ext. intros. ring. Qed.
Lemma vdot_lin_r n z x a y : vdot n z (fun i => x i + a * y i) = vdot n z x + a * vdot n z y.
Proof. unfold vdot. rewrite <- bsum_scal, <- bsum_plus. apply bsum_ext. intros. ring. Qed.
Lemma vdot_lin_l n z x a y : vdot n (fun i => x i + a * y i) z = vdot n x z + a * vdot n y z.
Proof. rewrite vdot_sym, vdot_lin_r, (vdot_sym n z x), (vdot_sym n z y). reflexivity. Qed.

(** ** More vectors than coordinates are dependent *)
Definition skip (p k : nat) : nat := if Nat.ltb k p then k else S k.
Lemma bsum_skip m p f : (p <= m)%nat -> bsum (S m) f = f p + bsum m (fun k => f (skip p k)).
Proof.
  intros L. replace m with (p + (m - p))%nat by lia. replace (S (p + (m - p))) with (p + S (m - p))%nat by lia. rewrite !bsum_app, bsum_first.
  rewrite (bsum_ext p (fun k => f (skip p k)) f) by (intros i I; unfold skip; destruct (Nat.ltb_spec i p); [ reflexivity | lia ]).
  rewrite (bsum_ext (m - p) (fun i => f (skip p (p + i))) (fun i => f (p + S i)%nat)) by (intros i I; unfold skip; destruct (Nat.ltb_spec (p + i) p); [ lia | f_equal; lia ]).
  rewrite Nat.add_0_r. ring.
Qed.
Lemma dependent : forall n m (v : nat -> vec), (n < m)%nat ->
  exists c : vec, (exists k, (k < m)%nat /\ c k <> 0) /\ forall i, (i < n)%nat -> bsum m (fun k => c k * v k i) = 0.
Proof.
  induction n as [ | n IH]; intros m v L.
  - exists (fun _ => 1). split; [ exists 0%nat; split; [ lia | lra ] | intros i I; lia ].
  - assert (DEC : (exists p, (p < m)%nat /\ v p n <> 0) \/ (forall p, (p < m)%nat -> v p n = 0)).
    { clear L IH. induction m as [ | m IHm]; [ right; intros p P; lia | ]. destruct IHm as [(p & P & N) | A]; [ left; exists p; split; [ lia | exact N ] | ].
      destruct (Req_dec (v m n) 0) as [E | N]; [ | left; exists m; split; [ lia | exact N ] ].
      right. intros p P. destruct (Nat.eq_dec p m) as [-> | N]; [ exact E | apply A; lia ]. }
    destruct DEC as [(p & P & N) | A].
    + destruct m as [ | m]; [ lia | ].
      destruct (IH m (fun k i => v (skip p k) i - v (skip p k) n / v p n * v p i) ltac:(lia)) as (c & (k0 & K0 & C0) & Z).
      set (t := bsum m (fun k => c k * (v (skip p k) n / v p n))).
      set (e := fun k => if Nat.eqb k p then - t else if Nat.ltb k p then c k else c (k - 1)%nat).
      assert (ES : forall k, e (skip p k) = c k).
      { intros k. unfold e, skip. destruct (Nat.ltb_spec k p).
        - destruct (Nat.eqb_spec k p); [ lia | ]. destruct (Nat.ltb_spec k p); [ reflexivity | lia ].
        - destruct (Nat.eqb_spec (S k) p); [ lia | ]. destruct (Nat.ltb_spec (S k) p); [ lia | ]. f_equal. lia. }
      assert (EP : e p = - t) by (unfold e; rewrite Nat.eqb_refl; reflexivity).
      exists e. split.
      { exists (skip p k0). split; [ unfold skip; destruct (Nat.ltb_spec k0 p); lia | rewrite ES; exact C0 ]. }
      assert (SUM : forall i, bsum (S m) (fun k => e k * v k i) = bsum m (fun k => c k * (v (skip p k) i - v (skip p k) n / v p n * v p i))).
      { intros i. rewrite (bsum_skip m p) by lia. rewrite EP.
        rewrite (bsum_ext m (fun k => e (skip p k) * v (skip p k) i) (fun k => c k * v (skip p k) i)) by (intros k _; rewrite ES; reflexivity).
        transitivity (bsum m (fun k => c k * v (skip p k) i) - t * v p i); [ ring | ]. unfold t. rewrite <- bsum_scal_r, <- bsum_minus. apply bsum_ext. intros k _. ring. }
      intros i I. rewrite SUM. destruct (Nat.eq_dec i n) as [-> | NI].
      * apply bsum_zero. intros k _. field. exact N.
      * apply Z. lia.
    + destruct (IH m v ltac:(lia)) as (c & C & Z). exists c. split; [ exact C | ]. intros i I. destruct (Nat.eq_dec i n) as [-> | NI]; [ | apply Z; lia ].
      apply bsum_zero. intros k K. rewrite A by exact K. ring.
Qed.

(** ** The iteration *)
Section CG.
Variable n : nat.
Variables M J : vec -> vec.
Definition respects (F : vec -> vec) : Prop := forall x y, (forall i, (i < n)%nat -> x i = y i) -> forall i, (i < n)%nat -> F x i = F y i.
Definition linear (F : vec -> vec) : Prop := forall x a y i, (i < n)%nat -> F (fun j => x j + a * y j) i = F x i + a * F y i.
Definition symmetric (F : vec -> vec) : Prop := forall x y, vdot n (F x) y = vdot n x (F y).
Definition positive (F : vec -> vec) : Prop := forall x, (exists i, (i < n)%nat /\ x i <> 0) -> 0 < vdot n x (F x).
Hypotheses (Mr : respects M) (Ml : linear M) (Ms : symmetric M) (Mp : positive M).
Hypotheses (Jr : respects J) (Jl : linear J) (Js : symmetric J) (Jp : positive J).

Variable m : nat.
Variables xs rs ds : nat -> vec.
Variable b : vec.
Definition dnk k := vdot n (rs k) (J (rs k)).
Definition ak k := dnk k / vdot n (ds k) (M (ds k)).
Hypothesis going : forall k, (k < m)%nat -> 0 < dnk k.
Hypothesis r_0 : forall i, (i < n)%nat -> rs 0%nat i = b i.
Hypothesis x_0 : forall i, (i < n)%nat -> xs 0%nat i = 0.
Hypothesis d_0 : forall i, (i < n)%nat -> ds 0%nat i = J (rs 0%nat) i.
Hypothesis x_next : forall k i, (k < m)%nat -> (i < n)%nat -> xs (S k) i = xs k i + ak k * ds k i.
Hypothesis r_next : forall k i, (k < m)%nat -> (i < n)%nat -> rs (S k) i = rs k i - ak k * M (ds k) i.
Hypothesis d_next : forall k i, (k < m)%nat -> (i < n)%nat -> ds (S k) i = J (rs (S k)) i + dnk (S k) / dnk k * ds k i.

Lemma zero_not x : vdot n x x <> 0 -> exists i, (i < n)%nat /\ x i <> 0.
Proof.
  unfold vdot. generalize n as N. induction N as [ | N IH]; cbn [bsum]; [ lra | ]. intros H. destruct (Req_dec (x N) 0) as [E | E].
  - destruct IH as (i & I & X); [ rewrite E in H; lra | ]. exists i. split; [ lia | exact X ].
  - exists N. split; [ lia | exact E ].
Qed.
Lemma pairing_nonzero x y : vdot n x y <> 0 -> exists i, (i < n)%nat /\ y i <> 0.
Proof.
  unfold vdot. generalize n as N. induction N as [ | N IH]; cbn [bsum]; [ lra | ]. intros H. destruct (Req_dec (y N) 0) as [E | E].
  - destruct IH as (i & I & X); [ rewrite E in H; lra | ]. exists i. split; [ lia | exact X ].
  - exists N. split; [ lia | exact E ].
Qed.
Lemma residual_is k : (k <= m)%nat -> forall i, (i < n)%nat -> rs k i = b i - M (xs k) i.
Proof.
  induction k as [ | k IH]; intros K i I.
  - rewrite r_0 by exact I. assert (Z : M (xs 0%nat) i = 0).
    { rewrite (Mr (xs 0%nat) (fun j => 0 + -1 * 0)) by (first [ exact I | intros j L; rewrite x_0 by exact L; ring ]).
      rewrite (Ml (fun _ => 0) (-1) (fun _ => 0) i I). ring. }
    rewrite Z. ring.
  - rewrite r_next by lia. rewrite (Mr (xs (S k)) (fun j => xs k j + ak k * ds k j)) by (first [ exact I | intros j L; apply x_next; lia ]).
    rewrite Ml by exact I. rewrite IH by lia. ring.
Qed.

(** Residuals, directions and conjugacy. *)
Definition inv (k : nat) : Prop :=
  vdot n (rs k) (ds k) = dnk k /\
  (forall j, (j < k)%nat -> vdot n (rs k) (ds j) = 0) /\
  (forall j, (j < k)%nat -> vdot n (ds k) (M (ds j)) = 0) /\
  (forall j, (j < k)%nat -> vdot n (rs k) (J (rs j)) = 0).
Lemma curvature k : (k < m)%nat -> vdot n (rs k) (ds k) = dnk k -> 0 < vdot n (ds k) (M (ds k)).
Proof. intros K E. apply Mp. apply (pairing_nonzero (rs k)). rewrite E. pose proof (going k K). lra. Qed.
Lemma rs_step k y : (k < m)%nat -> vdot n (rs (S k)) y = vdot n (rs k) y - ak k * vdot n (M (ds k)) y.
Proof.
  intros K. rewrite (vdot_ext n (rs (S k)) y (fun i => rs k i + - ak k * M (ds k) i) y) by (intros i I; first [ reflexivity | rewrite r_next by lia; ring ]).
  rewrite vdot_lin_l. ring.
Qed.
Lemma ds_step k y : (k < m)%nat -> vdot n (ds (S k)) y = vdot n (J (rs (S k))) y + dnk (S k) / dnk k * vdot n (ds k) y.
Proof.
  intros K. rewrite (vdot_ext n (ds (S k)) y (fun i => J (rs (S k)) i + dnk (S k) / dnk k * ds k i) y) by (intros i I; first [ reflexivity | apply d_next; lia ]).
  apply vdot_lin_l.
Qed.
Lemma inv_all k : (k <= m)%nat -> forall j, (j <= k)%nat -> inv j.
Proof.
  induction k as [ | k IH]; intros K.
  - intros j Lj. replace j with 0%nat by lia. split; [ | split; [ | split ]; intros i I; lia ].
    unfold dnk. apply vdot_ext; [ reflexivity | exact d_0 ].
  - specialize (IH ltac:(lia)). intros j Lj. destruct (Nat.eq_dec j (S k)) as [-> | N]; [ | apply IH; lia ].
    assert (A1 : forall j, (j <= k)%nat -> vdot n (rs (S k)) (ds j) = 0).
    { intros i I. destruct (IH k (le_n k)) as (E0 & E1 & E2 & E3). rewrite rs_step by lia. rewrite (Ms (ds k) (ds i)). destruct (Nat.eq_dec i k) as [-> | N].
      - rewrite E0. unfold ak. pose proof (curvature k ltac:(lia) E0) as C. field. lra.
      - rewrite E1, E2 by lia. ring. }
    assert (A3 : forall j, (j <= k)%nat -> vdot n (rs (S k)) (J (rs j)) = 0).
    { intros i I. destruct i as [ | i].
      - rewrite <- (A1 0%nat ltac:(lia)). apply vdot_ext; [ reflexivity | intros l L; symmetry; apply d_0; exact L ].
      - rewrite (vdot_ext n (rs (S k)) (J (rs (S i))) (rs (S k)) (fun l => ds (S i) l + - (dnk (S i) / dnk i) * ds i l)) by (intros l L; first [ reflexivity | rewrite (d_next i l) by lia; ring ]).
        rewrite vdot_lin_r, A1, A1 by lia. ring. }
    assert (A0 : vdot n (rs (S k)) (ds (S k)) = dnk (S k)).
    { rewrite vdot_sym, ds_step by lia. rewrite (vdot_sym n (ds k)), A1 by lia. rewrite (vdot_sym n (J (rs (S k)))). fold (dnk (S k)). ring. }
    split; [ exact A0 | ]. split; [ intros i I; apply A1; lia | ]. split; [ | intros i I; apply A3; lia ].
    intros i I. rewrite ds_step by lia.
    assert (Ei : vdot n (rs i) (ds i) = dnk i) by (apply IH; lia).
    pose proof (curvature i ltac:(lia) Ei) as C. pose proof (going i ltac:(lia)) as G.
    assert (AI : ak i * vdot n (J (rs (S k))) (M (ds i)) = vdot n (rs i) (J (rs (S k))) - vdot n (rs (S i)) (J (rs (S k)))).
    { rewrite (rs_step i (J (rs (S k)))) by lia. rewrite (vdot_sym n (M (ds i))). ring. }
    rewrite <- (Js (rs i)), (vdot_sym n (J (rs i))), A3 in AI by lia.
    assert (APOS : 0 < ak i) by (apply Rmult_lt_0_compat; [ exact G | apply Rinv_0_lt_compat; exact C ]).
    destruct (Nat.eq_dec i k) as [-> | N].
    + assert (V : vdot n (J (rs (S k))) (M (ds k)) = - dnk (S k) / ak k).
      { apply (Rmult_eq_reg_l (ak k)); [ | lra ]. rewrite AI. fold (dnk (S k)). field. lra. }
      rewrite V. unfold ak. field. split; lra.
    + rewrite <- (Js (rs (S i))), (vdot_sym n (J (rs (S i)))), A3 in AI by lia.
      destruct (IH k (le_n k)) as (_ & _ & E2 & _). rewrite E2 by lia.
      assert (V : vdot n (J (rs (S k))) (M (ds i)) = 0) by (apply (Rmult_eq_reg_l (ak i)); lra). rewrite V. ring.
Qed.

(** The residual vanishes after at most n steps. *)
Lemma finite : m = n -> dnk n <= 0.
Proof.
  intros E. apply Rnot_lt_le. intros P. destruct (dependent n (S n) rs (Nat.lt_succ_diag_r n)) as (c & (j & Lj & C) & Z).
  assert (PJ : 0 < dnk j). { destruct (Nat.eq_dec j n) as [-> | N]; [ exact P | apply going; lia ]. }
  apply C. assert (S0 : bsum (S n) (fun k => c k * vdot n (rs k) (J (rs j))) = 0).
  { transitivity (bsum n (fun i => bsum (S n) (fun k => c k * rs k i) * J (rs j) i)).
    - rewrite (bsum_ext n _ (fun i => bsum (S n) (fun k => c k * (rs k i * J (rs j) i)))) by (intros i I; rewrite <- bsum_scal_r; apply bsum_ext; intros; ring).
      rewrite bsum_swap. apply bsum_ext. intros k K. unfold vdot. rewrite bsum_scal. reflexivity.
    - apply bsum_zero. intros i I. rewrite Z by exact I. ring. }
  rewrite (bsum_single (S n) j) in S0.
  - fold (dnk j) in S0. apply (Rmult_eq_reg_r (dnk j)); lra.
  - exact Lj.
  - intros k K N. assert (O : vdot n (rs k) (J (rs j)) = 0).
    { destruct (Nat.lt_ge_cases j k) as [L | G].
      - destruct (inv_all k ltac:(lia) k (le_n k)) as (_ & _ & _ & I3). apply I3. exact L.
      - rewrite <- (Js (rs k)), vdot_sym. destruct (inv_all j ltac:(lia) j (le_n j)) as (_ & _ & _ & I3). apply I3. lia. }
    rewrite O. ring.
Qed.

(** Every step lowers the energy. *)
Definition energy (x : vec) : R := 1 / 2 * vdot n x (M x) - vdot n b x.
Lemma descent k : (k < m)%nat -> energy (xs (S k)) < energy (xs k).
Proof.
  intros K. destruct (inv_all k ltac:(lia) k (le_n k)) as (E0 & _). pose proof (curvature k K E0) as C. pose proof (going k K) as G.
  assert (X : vdot n (xs (S k)) (M (xs (S k))) = vdot n (xs k) (M (xs k)) + 2 * ak k * vdot n (ds k) (M (xs k)) + ak k * ak k * vdot n (ds k) (M (ds k))).
  { rewrite (vdot_ext n (xs (S k)) (M (xs (S k))) (fun i => xs k i + ak k * ds k i) (fun i => M (xs k) i + ak k * M (ds k) i)).
    - rewrite vdot_lin_l, !vdot_lin_r. rewrite <- (Ms (xs k) (ds k)), (vdot_sym n (M (xs k))). ring.
    - intros i I. apply x_next; assumption.
    - intros i I. rewrite (Mr (xs (S k)) (fun j => xs k j + ak k * ds k j)) by (first [ exact I | intros j L; apply x_next; assumption ]). apply Ml. exact I. }
  assert (B : vdot n b (xs (S k)) = vdot n b (xs k) + ak k * vdot n b (ds k)).
  { rewrite (vdot_ext n b (xs (S k)) b (fun i => xs k i + ak k * ds k i)) by (intros i I; first [ reflexivity | apply x_next; assumption ]). apply vdot_lin_r. }
  assert (RD : dnk k = vdot n b (ds k) - vdot n (ds k) (M (xs k))).
  { rewrite <- E0 at 1. rewrite (vdot_ext n (rs k) (ds k) (fun i => b i + -1 * M (xs k) i) (ds k)); [ | intros i I; rewrite (residual_is k ltac:(lia) i I); ring | reflexivity ].
    rewrite vdot_lin_l, (vdot_sym n (M (xs k))). ring. }
  unfold energy. rewrite X, B. assert (A : ak k * vdot n (ds k) (M (ds k)) = dnk k) by (unfold ak; field; lra).
  assert (P : 0 < ak k) by (apply Rmult_lt_0_compat; [ exact G | apply Rinv_0_lt_compat; exact C ]).
  assert (P2 : 0 < ak k * dnk k) by (apply Rmult_lt_0_compat; assumption).
  replace (1 / 2 * (vdot n (xs k) (M (xs k)) + 2 * ak k * vdot n (ds k) (M (xs k)) + ak k * ak k * vdot n (ds k) (M (ds k))) - (vdot n b (xs k) + ak k * vdot n b (ds k)))
    with (1 / 2 * vdot n (xs k) (M (xs k)) - vdot n b (xs k) - ak k * (vdot n b (ds k) - vdot n (ds k) (M (xs k))) + 1 / 2 * ak k * (ak k * vdot n (ds k) (M (ds k)))) by field.
  rewrite A, <- RD. lra.
Qed.
End CG.
