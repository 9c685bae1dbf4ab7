(** * The step as a least squares solution *)
From Coq Require Import Reals List Arith ZArith Bool Lia Lra.
From Verif Require Import Base BsplModel BsplSpec BsplProofs SvModel SvSpec SvProofs SvMain.
Import ListNotations.
Local Open Scope R_scope.

Section Rows.
Variables (m n j r : nat) (B Q : mat) (back : vec -> vec) (b : vec).
Hypothesis Hq : qr_exact m j B Q back r.
Hypothesis Hn : (j <= n)%nat.
Hypothesis Hm : (j < m)%nat.
Definition row (y : vec) (i : nat) : R := dot m (fun k => Q k i) (misfit n B b y).
Definition Wr (i c : nat) : R := dot m (fun k => Q k i) (fun k => B k (j + c)%nat).
Definition Lr (i c : nat) : R := dot m (fun k => Q k i) (fun k => B k c).
Definition q_blind (k : nat) : vec := fun i => Q i (r + k)%nat.

Lemma dot_apply k (M : mat) (i : nat) (y : vec) :
  dot m (fun l => Q l i) (fun l => bsum k (fun c => M l c * y c)) = bsum k (fun c => dot m (fun l => Q l i) (fun l => M l c) * y c).
Proof. apply dot_columns. Qed.
Lemma row_eq y i : row y i = bsum j (fun c => Lr i c * y c) + bsum (n - j) (fun c => Wr i c * from j y c) - dot m (fun k => Q k i) b.
Proof.
  unfold row, misfit. rewrite dot_minus_r. f_equal.
  change (fun i0 => total n (fun c => B i0 c * y c)) with (fun i0 => bsum n (fun c => B i0 c * y c)). rewrite dot_apply.
  replace n with (j + (n - j))%nat at 1 by lia. rewrite bsum_app. reflexivity.
Qed.
Lemma row_low y i : (r <= i < m)%nat -> row y i = bsum (n - j) (fun c => Wr i c * from j y c) - dot m (fun k => Q k i) b.
Proof.
  intros Hi. rewrite row_eq. rewrite (bsum_zero j); [ ring | ]. intros c Hc. destruct Hq as (_ & _ & _ & Z & _).
  unfold Lr, dot. rewrite (bsum_total m), Z by assumption. ring.
Qed.
Lemma cost_split y : cost_without q_blind (S j - r) m n B b y =
  bsum r (fun i => row y i * row y i) + bsum (m - S j) (fun i => row y (S j + i)%nat * row y (S j + i)%nat).
Proof.
  unfold cost_without, cost. rewrite inner_dot, <- (dot_rotated m Q _ _ (proj1 (proj2 (proj2 Hq)))).
  change (bsum m (fun i => dot m (fun k => Q k i) (misfit n B b y) * dot m (fun k => Q k i) (misfit n B b y))) with (bsum m (fun i => row y i * row y i)).
  change (total (S j - r) (fun k => inner m (q_blind k) (misfit n B b y) * inner m (q_blind k) (misfit n B b y)))
    with (bsum (S j - r) (fun k => row y (r + k)%nat * row y (r + k)%nat)).
  destruct Hq as (R1 & R2 & _).
  replace m with (r + ((S j - r) + (m - S j)))%nat at 1 by lia. rewrite !bsum_app.
  replace (bsum (m - S j) (fun i => row y (r + (S j - r + i))%nat * row y (r + (S j - r + i))%nat)) with (bsum (m - S j) (fun i => row y (S j + i)%nat * row y (S j + i)%nat)); [ ring | ].
  apply bsum_ext. intros i _. replace (r + (S j - r + i))%nat with (S j + i)%nat by lia. reflexivity.
Qed.
Lemma blind_ok : blind q_blind (S j - r) m j B.
Proof.
  destruct Hq as (R1 & R2 & (O & _) & Z & _). split.
  - intros k l Hk Hl. unfold inner, q_blind. rewrite O by lia. unfold unit_entry.
    destruct (Nat.eqb_spec (r + k) (r + l)), (Nat.eqb_spec k l); try reflexivity; lia.
  - intros k c Hk Hc. unfold inner, q_blind. apply Z; lia.
Qed.
(** The rows of the left block are met *)
Lemma row_met xr : let xl := back (fun i => dot m (fun k => Q k i) (fun i => b i - bsum (n - j) (fun c => B i (j + c)%nat * xr c))) in
  forall i, (i < r)%nat -> row (joined j xl xr) i = 0.
Proof.
  intros xl i Hi. rewrite row_eq.
  assert (E1 : bsum j (fun c => Lr i c * joined j xl xr c) = dot m (fun k => Q k i) (fun i => b i - bsum (n - j) (fun c => B i (j + c)%nat * xr c))).
  { destruct Hq as (_ & _ & _ & _ & Sol). rewrite <- (Sol (fun i => dot m (fun k => Q k i) (fun i => b i - bsum (n - j) (fun c => B i (j + c)%nat * xr c))) i Hi).
    change (total j) with (bsum j). apply bsum_ext. intros c Hc. unfold joined. rewrite (proj2 (Nat.ltb_lt c j) Hc). reflexivity. }
  rewrite E1, dot_minus_r, (dot_apply (n - j) (fun i c => B i (j + c)%nat) i xr).
  rewrite (bsum_ext (n - j) (fun c => Wr i c * from j (joined j xl xr) c) (fun c => dot m (fun l => Q l i) (fun l => B l (j + c)%nat) * xr c)); [ ring | ].
  intros c _. unfold Wr, from, joined. rewrite (proj2 (Nat.ltb_ge (j + c) j)) by lia. replace (j + c - j)%nat with c by lia. reflexivity.
Qed.
End Rows.

(** All of it *)
Section Step.
Variables (qr : R -> sparse -> mat * (vec -> vec)) (svd : nat -> mat -> mat * vec * mat) (o : options) (s : state) (A : sparse) (b : vec) (j r : nat) (s' : state) (x : vec).
Let m := nrow A.
Let n := ncol A.
Let B := scaled o A.
Hypothesis Hj : (0 < j < ncol A)%nat.
Hypothesis Hm : (j < nrow A)%nat.
Hypothesis Hqr : forall t, qr_exact m j B (fst (qr t (Sparse m j B (stored A)))) (snd (qr t (Sparse m j B (stored A)))) r.
Hypothesis Hsvd : svd_correct svd (n - j).
Hypothesis Run : solve qr svd o s A m b (Z.of_nat j) = (s', Ok (Some x)).

Definition Qs : mat := f_Q (fac qr o A j).
Lemma fac_exact : qr_exact m j B Qs (f_solve (fac qr o A j)) r.
Proof. unfold Qs. rewrite fac_eq. cbn [f_Q f_solve]. apply (Hqr (tol_used o A j)). Qed.
(** The step in scaled variables and the facts about it *)
Lemma step_facts : exists z rk,
  (forall c, (c < n)%nat -> x c = column_factor o A c * z c) /\
  nsv s' = (n - j)%nat /\ rank s' = Z.of_nat rk /\ (0 < rk <= n - j)%nat /\ (forall k, (k < rk)%nat -> sv s' k <> 0) /\
  (exists Om, (forall c d, Om c d = bsum (m - S j) (fun i => Wr m j B Qs (S j + i) c * Wr m j B Qs (S j + i) d)) /\ svd_exact (n - j) Om (matU s') (sv s') (matV s')) /\
  (forall k, (rk <= k < n - j)%nat -> dot (n - j) (fun c => matV s' c k) (from j z) = 0) /\
  (forall i, (i < r)%nat -> row m n B Qs b z i = 0) /\
  forall y, (forall k, (rk <= k < n - j)%nat -> dot (n - j) (fun c => matV s' c k) (from j y) = 0) ->
    cost_without (q_blind r Qs) (S j - r) m n B b y =
    cost_without (q_blind r Qs) (S j - r) m n B b z + bsum r (fun i => row m n B Qs b y i * row m n B Qs b y i) +
    bsum (m - S j) (fun i => bsum (n - j) (fun c => Wr m j B Qs (S j + i) c * (from j y c - from j z c)) * bsum (n - j) (fun c => Wr m j B Qs (S j + i) c * (from j y c - from j z c))).
Proof.
  pose proof fac_exact as FE.
  destruct (solve_ok qr svd o A j Hj s b (proj1 (proj2 (proj2 FE))) Hm) as (Om & br & HO & HB & K). cbv zeta in K.
  destruct K as (HR & s1 & N1 & R1 & S1 & U1 & V1 & _ & _ & _ & [ (_ & E) | (Kept & x1 & E & X) ]); fold m in E; rewrite Run in E; [ discriminate | ].
  assert (s1 = s') by congruence. assert (x1 = x) by congruence. subst s1 x1. clear E.
  fold n in HO, HB, HR, N1, R1, S1, U1, V1, Kept, X. set (D := snd (fst (svd (n - j) Om))) in *. set (U := fst (fst (svd (n - j) Om))) in *. set (V := snd (svd (n - j) Om)) in *.
  set (t := tol_of o (n - j) D) in *. set (rk := estimate_rank (n - j) D t) in *. set (xr := zr (n - j) U V D rk br) in *.
  set (xl := f_solve (fac qr o A j) _) in X.
  assert (SE : svd_exact (n - j) Om U D V).
  { pose proof (Hsvd Om) as C. unfold U, D, V. destruct (svd (n - j) Om) as [[U0 D0] V0]. apply C. exists (m - S j)%nat, (fun i c => Wr m j B Qs (S j + i) c).
    intros c d _ _. rewrite HO. reflexivity. }
  exists (joined j xl xr), rk. split; [ exact X | ]. split; [ exact N1 | ]. split; [ exact R1 | ]. split; [ exact HR | ].
  rewrite S1, U1, V1. split; [ exact Kept | ]. split; [ exists Om; split; [ exact HO | exact SE ] | ].
  assert (FR : forall c, from j (joined j xl xr) c = xr c).
  { intros c. unfold from, joined. rewrite (proj2 (Nat.ltb_ge (j + c) j)) by lia. replace (j + c - j)%nat with c by lia. reflexivity. }
  split.
  { intros k Hk. rewrite (dot_ext (n - j) _ _ (fun c => V c k) xr); [ | reflexivity | intros c _; apply FR ].
    unfold xr. rewrite (v_zr (n - j) Om U V D SE rk br (proj2 HR) k) by lia. rewrite (proj2 (Nat.ltb_ge k rk)) by lia. reflexivity. }
  assert (RM : forall i, (i < r)%nat -> row m n B Qs b (joined j xl xr) i = 0)
    by (intros i Hi; exact (row_met m n j r B Qs (f_solve (fac qr o A j)) b FE ltac:(lia) Hm xr i Hi)).
  split; [ exact RM | ].
  intros y Hy. rewrite !(cost_split m n j r B Qs (f_solve (fac qr o A j)) b FE) by lia.
  rewrite (bsum_zero r (fun i => row m n B Qs b (joined j xl xr) i * row m n B Qs b (joined j xl xr) i)).
  2:{ intros i Hi. rewrite (RM i Hi). ring. }
  set (C := fun i c => Wr m j B Qs (S j + i) c). set (d := fun i => dot m (fun k => Qs k (S j + i)%nat) b).
  assert (RW : forall y i, (i < m - S j)%nat -> row m n B Qs b y (S j + i) = Cx (n - j) C (from j y) i - d i).
  { intros y' i Hi. rewrite (row_low m n j r B Qs (f_solve (fac qr o A j)) b FE ltac:(lia) Hm y' (S j + i)); [ reflexivity | ]. destruct FE as (F1 & F2 & _). lia. }
  assert (L := zr_least (n - j) (m - S j) C Om U V D (fun c e _ _ => HO c e) SE rk br (proj2 HR) Kept d (fun c _ => HB c) (from j y) Hy).
  fold xr in L. unfold dot in L.
  rewrite (bsum_ext (m - S j) (fun i => row m n B Qs b y (S j + i)%nat * row m n B Qs b y (S j + i)%nat) (fun i => (Cx (n - j) C (from j y) i - d i) * (Cx (n - j) C (from j y) i - d i))) by (intros i Hi; rewrite RW by exact Hi; reflexivity).
  rewrite L.
  rewrite (bsum_ext (m - S j) (fun i => row m n B Qs b (joined j xl xr) (S j + i)%nat * row m n B Qs b (joined j xl xr) (S j + i)%nat) (fun i => (Cx (n - j) C xr i - d i) * (Cx (n - j) C xr i - d i))).
  2:{ intros i Hi. rewrite RW by exact Hi. replace (Cx (n - j) C (from j (joined j xl xr)) i) with (Cx (n - j) C xr i); [ reflexivity | ].
      apply bsum_ext. intros c _. rewrite FR. reflexivity. }
  rewrite (bsum_ext (m - S j) (fun i => bsum (n - j) (fun c => Wr m j B Qs (S j + i) c * (from j y c - from j (joined j xl xr) c)) * bsum (n - j) (fun c => Wr m j B Qs (S j + i) c * (from j y c - from j (joined j xl xr) c)))
    (fun i => Cx (n - j) C (fun c => from j y c - xr c) i * Cx (n - j) C (fun c => from j y c - xr c) i)).
  - ring.
  - intros i _. assert (E : bsum (n - j) (fun c => Wr m j B Qs (S j + i) c * (from j y c - from j (joined j xl xr) c)) = Cx (n - j) C (fun c => from j y c - xr c) i)
      by (apply bsum_ext; intros c _; rewrite FR; reflexivity). rewrite E. reflexivity.
Qed.
End Step.
