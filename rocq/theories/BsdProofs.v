(** * Derivatives and smoothness of B-spline curves *)
From Coquelicot Require Import Coquelicot.
From Coq Require Import Reals List Arith ZArith Bool Lia Lra.
From Verif Require Import Base BsplModel BsplSpec BsplProofs.
Import ListNotations.
Local Open Scope R_scope.

(** ** Derivatives of sums *)
Lemma bsum_derive n (f : nat -> R -> R) (df : nat -> R) t :
  (forall i, (i < n)%nat -> is_derive (f i) t (df i)) ->
  is_derive (fun s => bsum n (fun i => f i s)) t (bsum n df).
Proof.
  induction n as [ | n IH ]; intros H; cbn [bsum].
  - apply (@is_derive_const R_AbsRing R_NormedModule 0 t).
  - apply (is_derive_plus (fun s => bsum n (fun i => f i s)) (f n) t).
    + apply IH. intros; apply H; lia.
    + apply H. lia.
Qed.

Lemma derive_scal_const c f df t : is_derive f t df -> is_derive (fun s => c * f s) t (c * df).
Proof. intros H. apply (is_derive_scal f t c df). exact H. Qed.

(** ** computeU: the falling factorials *)
Lemma dmul_S i d : dmul i (S d) = (i * dmul (i - 1) d)%Z.
Proof. destruct d; [ cbn [dmul]; lia | reflexivity ]. Qed.

Lemma dmul_last d : forall i, dmul i (S d) = (dmul i d * (i - Z.of_nat d))%Z.
Proof.
  induction d as [ | d IH ]; intros i.
  - cbn [dmul]. lia.
  - rewrite dmul_S, IH, (dmul_S i d). lia.
Qed.

Definition uterm (u : R) (dt : R) (k d r : nat) : R :=
  if (d <=? r)%nat && (r <? k)%nat then 1 / dt ^ d * u ^ (r - d) * IZR (dmul (Z.of_nat r) d) else 0.

Lemma uterm_derive a dt k d r t : dt <> 0 ->
  is_derive (fun s => uterm ((s - a) / dt) dt k d r) t (uterm ((t - a) / dt) dt k (S d) r).
Proof.
  intros D. unfold uterm.
  destruct (Nat.leb_spec d r) as [L | L]; destruct (Nat.ltb_spec r k) as [K | K]; cbn [andb].
  - destruct (Nat.leb_spec (S d) r) as [L1 | L1]; cbn [andb].
    + rewrite dmul_last, mult_IZR, minus_IZR, <- !INR_IZR_INZ.
      replace (r - d)%nat with (S (r - S d)) by lia.
      replace (INR r - INR d) with (INR (S (r - S d))) by (rewrite <- minus_INR by lia; f_equal; lia).
      set (n := (r - S d)%nat). set (z := IZR (dmul (Z.of_nat r) d)).
      assert (G : is_derive (fun s => (s - a) / dt) t (/ dt)) by (auto_derive; [ tauto | unfold Rdiv; ring ]).
      assert (GP := is_derive_pow (fun s => (s - a) / dt) (S n) t (/ dt) G).
      apply (is_derive_ext (fun s => (1 / dt ^ d * z) * ((s - a) / dt) ^ S n)).
      { intros x. match goal with |- ?a = ?b => change (@eq R a b) end. unfold Rdiv. ring. }
      assert (GS := derive_scal_const (1 / dt ^ d * z) _ _ _ GP).
      match type of GS with is_derive _ _ ?v => match goal with |- is_derive _ _ ?w => replace w with v; [ exact GS | ] end end.
      change (Init.Nat.pred (S n)) with n. set (p := ((t - a) / dt) ^ n). cbn [pow]. field.
      split; [ apply pow_nonzero; exact D | exact D ].
    + replace (r - d)%nat with 0%nat by lia. cbn [pow].
      apply (@is_derive_const R_AbsRing R_NormedModule).
  - destruct (Nat.leb_spec (S d) r); cbn [andb]; apply (@is_derive_const R_AbsRing R_NormedModule 0 t).
  - destruct (Nat.leb_spec (S d) r); [ lia | ]. apply (@is_derive_const R_AbsRing R_NormedModule 0 t).
  - destruct (Nat.leb_spec (S d) r); cbn [andb]; apply (@is_derive_const R_AbsRing R_NormedModule 0 t).
Qed.

Lemma wgt_derive b m s d c t : knot (knots b) s < knot (knots b) (s + 1) ->
  is_derive (fun x => wgt b m s d x c) t (wgt b m s (S d) t c).
Proof.
  intros P. unfold wgt.
  apply (bsum_derive (order b)
    (fun r x => m r c * uterm ((x - knot (knots b) s) / (knot (knots b) (s + 1) - knot (knots b) s))
       (knot (knots b) (s + 1) - knot (knots b) s) (order b) d r)
    (fun r => m r c * uterm ((t - knot (knots b) s) / (knot (knots b) (s + 1) - knot (knots b) s))
       (knot (knots b) (s + 1) - knot (knots b) s) (order b) (S d) r)).
  intros r _. apply derive_scal_const. apply uterm_derive. lra.
Qed.

Lemma piece_derive b m s d r t : knot (knots b) s < knot (knots b) (s + 1) ->
  is_derive (piece b m s d r) t (piece b m s (S d) r t).
Proof.
  intros P. unfold piece.
  apply (bsum_derive (order b) (fun c x => coef b r (s + 1 - order b + c)%nat * wgt b m s d x c)
     (fun c => coef b r (s + 1 - order b + c)%nat * wgt b m s (S d) t c)).
  intros c _. apply derive_scal_const. apply wgt_derive. exact P.
Qed.

(** Derivatives of order k or more vanish. *)
Lemma wgt_high b m s d t c : (order b <= d)%nat -> wgt b m s d t c = 0.
Proof.
  intros H. unfold wgt. apply bsum_zero. intros r Lr. destruct (Nat.leb_spec d r); [ lia | ]. cbn [andb]. ring.
Qed.

(** ** Derivatives of the basis polynomials *)
Fixpoint pcD (kn : nat -> R) (s d k j : nat) (t : R) : R :=
  match d with
  | O => pc kn s k j t
  | S d' => INR (k - 1) * (pcD kn s d' (k - 1) j t / (kn (j + (k - 1))%nat - kn j)
                           - pcD kn s d' (k - 1) (j + 1) t / (kn (j + k)%nat - kn (j + 1)%nat))
  end.

Lemma pc_derive l s : increasing l -> forall k j t, (1 <= k)%nat -> (j + k < length l)%nat ->
  is_derive (pc (knot l) s k j) t (pcD (knot l) s 1 k j t).
Proof.
  intros INC. induction k as [ | k IH ]; intros j t K L; [ lia | ].
  destruct k as [ | k ].
  - cbn [pcD Nat.sub INR]. rewrite Rmult_0_l.
    apply (is_derive_ext (fun _ => if (j =? s)%nat then 1 else 0)); [ reflexivity | ].
    apply (@is_derive_const R_AbsRing R_NormedModule).
  - assert (A : 0 < knot l (j + S k) - knot l j) by (assert (X := INC j (j + S k)%nat ltac:(lia)); lra).
    assert (B : 0 < knot l (j + S (S k)) - knot l (j + 1)) by (assert (X := INC (j + 1)%nat (j + S (S k))%nat ltac:(lia)); lra).
    apply (is_derive_ext (fun x => (x - knot l j) / (knot l (j + S k) - knot l j) * pc (knot l) s (S k) j x
       + (knot l (j + S (S k)) - x) / (knot l (j + S (S k)) - knot l (j + 1)) * pc (knot l) s (S k) (j + 1) x)).
    { intros x. rewrite pc_succ, !ratio_pos by lra. reflexivity. }
    assert (H0 := IH j t ltac:(lia) ltac:(lia)). assert (H1 := IH (j + 1)%nat t ltac:(lia) ltac:(lia)).
    set (d0 := pcD (knot l) s 1 (S k) j t) in *. set (d1 := pcD (knot l) s 1 (S k) (j + 1) t) in *.
    assert (G0 : is_derive (fun x => (x - knot l j) / (knot l (j + S k) - knot l j)) t (/ (knot l (j + S k) - knot l j))).
    { auto_derive; [ tauto | ]. unfold Rdiv. ring. }
    assert (G1 : is_derive (fun x => (knot l (j + S (S k)) - x) / (knot l (j + S (S k)) - knot l (j + 1))) t
                   (- / (knot l (j + S (S k)) - knot l (j + 1)))).
    { auto_derive; [ tauto | ]. unfold Rdiv. ring. }
    assert (M0 := is_derive_mult _ _ t _ _ G0 H0 Rmult_comm).
    assert (M1 := is_derive_mult _ _ t _ _ G1 H1 Rmult_comm).
    assert (P := is_derive_plus _ _ t _ _ M0 M1). cbn beta in P.
    match type of P with is_derive _ _ ?v => replace (pcD (knot l) s 1 (S (S k)) j t) with v; [ exact P | ] end.
    remember (pc (knot l) s (S k) j t) as X0 eqn:EX0. remember (pc (knot l) s (S k) (j + 1) t) as X1 eqn:EX1.
    unfold plus, mult; cbn - [pcD pow INR]. rewrite EX0, EX1. clear P M0 M1 EX0 EX1 X0 X1. subst d0 d1.
    cbn [pcD]. replace (S (S k) - 1)%nat with (S k) by lia. replace (S k - 1)%nat with k by lia.
    destruct k as [ | k ].
    + cbn [INR pc]. rewrite !Rmult_0_l, !Rmult_0_r, !Rplus_0_r. field. split; lra.
    + rewrite (pc_succ (knot l) s k j t), (pc_succ (knot l) s k (j + 1) t).
      replace (j + 1 + S k)%nat with (j + S (S k))%nat in * by lia.
      replace (j + 1 + S (S k))%nat with (j + S (S (S k)))%nat in * by lia.
      replace (j + 1 + 1)%nat with (j + 2)%nat in * by lia.
      assert (C0 : 0 < knot l (j + S k) - knot l j) by (assert (X := INC j (j + S k)%nat ltac:(lia)); lra).
      assert (C1 : 0 < knot l (j + S (S k)) - knot l (j + 1)) by (assert (X := INC (j + 1)%nat (j + S (S k))%nat ltac:(lia)); lra).
      assert (C2 : 0 < knot l (j + S (S (S k))) - knot l (j + 2)) by (assert (X := INC (j + 2)%nat (j + S (S (S k)))%nat ltac:(lia)); lra).
      rewrite !ratio_pos by lra.
      rewrite (S_INR (S k)). set (q := INR (S k)).
      set (N0 := pc (knot l) s (S k) j t). set (N1 := pc (knot l) s (S k) (j + 1) t). set (N2 := pc (knot l) s (S k) (j + 2) t).
      field. lra.
Qed.

Lemma pcD_support kn s d : forall k j t, (j + k <= s \/ s < j)%nat -> pcD kn s d k j t = 0.
Proof.
  induction d as [ | d IH ]; intros k j t H; cbn [pcD]; [ apply pc_support; exact H | ].
  destruct k as [ | k ]; [ cbn [Nat.sub INR]; ring | ].
  rewrite IH by lia. rewrite IH by lia. unfold Rdiv. ring.
Qed.

Lemma pcD_zero_order kn s d : forall j t, pcD kn s d 0 j t = 0.
Proof. intros j t. destruct d; [ reflexivity | cbn [pcD Nat.sub INR]; ring ]. Qed.

Lemma pcD_derive l s : increasing l -> forall d k j t, (j + k < length l)%nat ->
  is_derive (pcD (knot l) s d k j) t (pcD (knot l) s (S d) k j t).
Proof.
  intros INC. induction d as [ | d IH ]; intros k j t L.
  - destruct k as [ | k ].
    + replace (pcD (knot l) s 1 0 j t) with 0 by (cbn [pcD Nat.sub INR]; ring).
      apply (is_derive_ext (fun _ => 0)); [ reflexivity | ]. apply (@is_derive_const R_AbsRing R_NormedModule 0 t).
    + apply pc_derive; [ exact INC | lia | exact L ].
  - change (pcD (knot l) s (S (S d)) k j t) with (INR (k - 1) * (pcD (knot l) s (S d) (k - 1) j t / (knot l (j + (k - 1))%nat - knot l j)
                           - pcD (knot l) s (S d) (k - 1) (j + 1) t / (knot l (j + k)%nat - knot l (j + 1)%nat))).
    destruct k as [ | k ].
    + cbn [Nat.sub INR]. rewrite Rmult_0_l.
      apply (is_derive_ext (fun _ => 0)). { intros x. cbn [pcD Nat.sub INR]. match goal with |- ?a = ?b => change (@eq R a b) end. ring. }
      apply (@is_derive_const R_AbsRing R_NormedModule 0 t).
    + apply (is_derive_ext (fun x => INR (S k - 1) * (/ (knot l (j + (S k - 1)) - knot l j) * pcD (knot l) s d (S k - 1) j x
         - / (knot l (j + S k) - knot l (j + 1)) * pcD (knot l) s d (S k - 1) (j + 1) x))).
      { intros x. cbn [pcD]. match goal with |- ?a = ?b => change (@eq R a b) end. unfold Rdiv. ring. }
      apply derive_scal_const.
      replace (pcD (knot l) s (S d) (S k - 1) j t / (knot l (j + (S k - 1)) - knot l j))
        with (/ (knot l (j + (S k - 1)) - knot l j) * pcD (knot l) s (S d) (S k - 1) j t) by (unfold Rdiv; ring).
      replace (pcD (knot l) s (S d) (S k - 1) (j + 1) t / (knot l (j + S k) - knot l (j + 1)))
        with (/ (knot l (j + S k) - knot l (j + 1)) * pcD (knot l) s (S d) (S k - 1) (j + 1) t) by (unfold Rdiv; ring).
      apply (is_derive_minus (fun x => / (knot l (j + (S k - 1)) - knot l j) * pcD (knot l) s d (S k - 1) j x)
         (fun x => / (knot l (j + S k) - knot l (j + 1)) * pcD (knot l) s d (S k - 1) (j + 1) x) t);
        apply derive_scal_const; apply IH; lia.
Qed.

(** Neighbouring segments agree at their common knot, with all derivatives up
    to order k - 2. *)
Lemma pc_join l s : increasing l -> (s + 2 < length l)%nat -> forall k j, (2 <= k)%nat -> (j + k < length l)%nat ->
  pc (knot l) s k j (knot l (s + 1)) = pc (knot l) (s + 1) k j (knot l (s + 1)).
Proof.
  intros INC LS. induction k as [ | k IH ]; intros j K L; [ lia | ].
  destruct k as [ | k ]; [ lia | ]. destruct k as [ | k ].
  - rewrite !pc_succ. cbn [pc]. assert (W0 := INC s (s + 1)%nat ltac:(lia)). assert (W1 := INC (s + 1)%nat (s + 2)%nat ltac:(lia)).
    destruct (Nat.eqb_spec j s) as [-> | N0].
    + destruct (Nat.eqb_spec (s + 1) s); [ lia | ]. destruct (Nat.eqb_spec s (s + 1)); [ lia | ].
      rewrite Nat.eqb_refl. rewrite !ratio_pos by lra. field. lra.
    + destruct (Nat.eqb_spec (j + 1) s) as [E1 | N1].
      * destruct (Nat.eqb_spec j (s + 1)); [ lia | ]. destruct (Nat.eqb_spec (j + 1) (s + 1)); [ lia | ].
        replace (j + 2)%nat with (s + 1)%nat by lia. rewrite E1.
        rewrite (ratio_pos (knot l (s + 1) - knot l (s + 1))) by lra. unfold Rdiv. ring.
      * destruct (Nat.eqb_spec (j + 1) (s + 1)); [ lia | ].
        destruct (Nat.eqb_spec j (s + 1)) as [-> | N2]; [ | ring ].
        rewrite Rminus_eq_0. unfold ratio at 3. destruct (Req_EM_T _ 0); [ ring | ]. unfold Rdiv. ring.
  - rewrite (pc_succ _ s), (pc_succ _ (s + 1)). rewrite !IH by lia. reflexivity.
Qed.

Lemma pcD_join l s : increasing l -> (s + 2 < length l)%nat -> forall d k j, (d + 2 <= k)%nat -> (j + k < length l)%nat ->
  pcD (knot l) s d k j (knot l (s + 1)) = pcD (knot l) (s + 1) d k j (knot l (s + 1)).
Proof.
  intros INC LS. induction d as [ | d IH ]; intros k j K L; cbn [pcD].
  - apply pc_join; [ exact INC | exact LS | lia | exact L ].
  - rewrite !IH by lia. reflexivity.
Qed.

(** The weights are the derivatives of the basis polynomials. *)
Lemma increasing_nd l : increasing l -> nondecreasing l.
Proof.
  intros H i j L. destruct (Nat.eq_dec i j) as [-> | N]; [ lra | ]. assert (X := H i j ltac:(lia)). lra.
Qed.

Lemma wgt_pcD b m s : wf b -> increasing (knots b) -> (order b - 1 <= s < ncols b)%nat ->
  basis_M (knots b) (order b) s = Ok m -> forall d c t, (c < order b)%nat ->
  wgt b m s d t c = pcD (knot (knots b)) s d (order b) (s + 1 + c - order b) t.
Proof.
  intros W INC S1 EM. assert (W' := W). destruct W' as [O LE C B SO].
  assert (P := INC s (s + 1)%nat ltac:(lia)).
  induction d as [ | d IH ]; intros c t Lc.
  - cbn [pcD]. apply wgt_0_pc; assumption.
  - assert (H1 := wgt_derive b m s d c t P).
    assert (H2 := pcD_derive (knots b) s INC d (order b) (s + 1 + c - order b) t ltac:(lia)).
    apply (is_derive_ext _ (fun x => wgt b m s d x c)) in H2; [ | intros x; symmetry; apply IH; exact Lc ].
    apply is_derive_unique in H1. apply is_derive_unique in H2. congruence.
Qed.

Definition polyD (b : bspline) (s d r : nat) (t : R) : R :=
  bsum (ncols b) (fun j => coef b r j * pcD (knot (knots b)) s d (order b) j t).

Lemma piece_polyD b m s : wf b -> increasing (knots b) -> (order b - 1 <= s < ncols b)%nat ->
  basis_M (knots b) (order b) s = Ok m -> forall d r t, piece b m s d r t = polyD b s d r t.
Proof.
  intros W INC S1 EM d r t. assert (W' := W). destruct W' as [O LE C B SO]. unfold piece, polyD.
  replace (bsum (ncols b)) with (bsum ((s + 1 - order b) + (order b + (ncols b - s - 1)))) by (f_equal; lia).
  rewrite bsum_app, bsum_app. rewrite (bsum_zero (s + 1 - order b)).
  2: { intros i Hi. rewrite pcD_support by lia. ring. }
  rewrite (bsum_zero (ncols b - s - 1)).
  2: { intros i Hi. rewrite pcD_support by lia. ring. }
  rewrite Rplus_0_l, Rplus_0_r. apply bsum_ext. intros c Lc.
  rewrite (wgt_pcD b m s) by assumption.
  replace (s + 1 + c - order b)%nat with (s + 1 - order b + c)%nat by lia. reflexivity.
Qed.

Lemma polyD_derive b s d r t : wf b -> increasing (knots b) ->
  is_derive (polyD b s d r) t (polyD b s (S d) r t).
Proof.
  intros W INC. destruct W as [O LE C B SO]. unfold polyD.
  apply (bsum_derive (ncols b) (fun j x => coef b r j * pcD (knot (knots b)) s d (order b) j x)
    (fun j => coef b r j * pcD (knot (knots b)) s (S d) (order b) j t)).
  intros j Lj. apply derive_scal_const. apply pcD_derive; [ exact INC | lia ].
Qed.

Lemma polyD_join b s d r : wf b -> increasing (knots b) -> (s + 2 < length (knots b))%nat -> (d + 2 <= order b)%nat ->
  polyD b s d r (knot (knots b) (s + 1)) = polyD b (s + 1) d r (knot (knots b) (s + 1)).
Proof.
  intros W INC LS D. destruct W as [O LE C B SO]. unfold polyD. apply bsum_ext. intros j Lj.
  rewrite (pcD_join (knots b) s) by (first [ assumption | lia ]). reflexivity.
Qed.

(** ** Gluing two functions at a point *)
Lemma glue_derive (f p q : R -> R) x e L : 0 < e ->
  (forall y, x - e < y < x -> f y = p y) -> (forall y, x <= y < x + e -> f y = q y) ->
  p x = q x -> is_derive p x L -> is_derive q x L -> is_derive f x L.
Proof.
  intros E FP FQ PQ DP DQ. apply is_derive_Reals in DP. apply is_derive_Reals in DQ. apply is_derive_Reals.
  intros eps He. destruct (DP eps He) as [d1 H1]. destruct (DQ eps He) as [d2 H2].
  assert (PM : 0 < Rmin e (Rmin d1 d2)).
  { apply Rmin_glb_lt; [ exact E | ]. apply Rmin_glb_lt; [ apply (cond_pos d1) | apply (cond_pos d2) ]. }
  exists (mkposreal _ PM). intros h Hh Lh. cbn [pos] in Lh.
  assert (B0 : Rmin e (Rmin d1 d2) <= e) by apply Rmin_l.
  assert (B1 : Rmin e (Rmin d1 d2) <= Rmin d1 d2) by apply Rmin_r.
  assert (B2 : Rmin d1 d2 <= d1) by apply Rmin_l. assert (B3 : Rmin d1 d2 <= d2) by apply Rmin_r.
  rewrite (FQ x) by lra.
  destruct (Rlt_dec h 0) as [N | N].
  - rewrite Rabs_left in Lh by exact N. rewrite (FP (x + h)) by lra. rewrite <- PQ. apply H1; [ exact Hh | ].
    rewrite Rabs_left by exact N. lra.
  - rewrite Rabs_pos_eq in Lh by lra. rewrite (FQ (x + h)) by lra. apply H2; [ exact Hh | ].
    rewrite Rabs_pos_eq by lra. lra.
Qed.

Lemma glue_continuous (f p q : R -> R) x e : 0 < e ->
  (forall y, x - e < y < x -> f y = p y) -> (forall y, x <= y < x + e -> f y = q y) ->
  p x = q x -> continuous p x -> continuous q x -> continuous f x.
Proof.
  intros E FP FQ PQ CP CQ. apply continuity_pt_filterlim in CP. apply continuity_pt_filterlim in CQ.
  apply continuity_pt_filterlim. intros eps He. destruct (CP eps He) as [d1 [P1 H1]]. destruct (CQ eps He) as [d2 [P2 H2]].
  exists (Rmin e (Rmin d1 d2)). split.
  { apply Rmin_glb_lt; [ exact E | ]. apply Rmin_glb_lt; assumption. }
  assert (B0 : Rmin e (Rmin d1 d2) <= e) by apply Rmin_l.
  assert (B1 : Rmin e (Rmin d1 d2) <= Rmin d1 d2) by apply Rmin_r.
  assert (B2 : Rmin d1 d2 <= d1) by apply Rmin_l. assert (B3 : Rmin d1 d2 <= d2) by apply Rmin_r.
  intros y [Dx Hy]. cbn [dist R_met] in *. unfold R_dist in *. rewrite (FQ x) by lra.
  destruct (Rlt_dec y x) as [N | N].
  - assert (Hy' := Hy). rewrite Rabs_left in Hy' by lra. rewrite (FP y) by lra. rewrite <- PQ.
    apply (H1 y). split; [ exact Dx | ]. cbn [dist R_met]. unfold R_dist. lra.
  - assert (Hy' := Hy). rewrite Rabs_pos_eq in Hy' by lra. rewrite (FQ y) by lra.
    apply (H2 y). split; [ exact Dx | ]. cbn [dist R_met]. unfold R_dist. lra.
Qed.

(** ** The curve as a function *)
Section CURVE.
Variable b : bspline.
Hypothesis W : wf b.
Hypothesis INC : increasing (knots b).
Hypothesis END : / 10000000000 <= hi b - last_start b.

Lemma eval_polyD t s d : (order b - 1 <= s < ncols b)%nat -> knot (knots b) s <= t < knot (knots b) (s + 1) ->
  (0 <= d)%Z -> exists v, eval_D b t d = Ok v /\ forall r, v r = polyD b s (Z.to_nat d) r t.
Proof using W INC END.
  intros S1 I D. assert (W' := W). destruct W' as [O LE C B SO].
  assert (A1 : lo b <= t < hi b).
  { unfold lo, hi. split.
    - apply Rle_trans with (knot (knots b) s); [ apply SO; lia | lra ].
    - apply Rlt_le_trans with (knot (knots b) (s + 1)); [ lra | apply SO; lia ]. }
  assert (A2 : resolved b t).
  { unfold resolved. destruct (Rle_dec (last_start b) t) as [L | L]; [ right; exact L | left; lra ]. }
  destruct (located_seg b t W A1 A2) as [s' [LO I']].
  assert (s' = s).
  { destruct (lt_eq_lt_dec s s') as [[L | L] | L]; [ | symmetry; exact L | ].
    - assert (knot (knots b) (s + 1) <= knot (knots b) s') by (apply SO; destruct LO; lia). lra.
    - assert (knot (knots b) (s' + 1) <= knot (knots b) s) by (apply SO; destruct LO; lia). lra. }
  subst s'. destruct (eval_D_ok b t s d W LO ltac:(lra) D) as [m [v [EM [EV V]]]].
  exists v. split; [ exact EV | ]. intros r. rewrite V. apply piece_polyD; assumption.
Qed.

Lemma eval_polyD_end d : (0 <= d)%Z ->
  exists v, eval_D b (hi b) d = Ok v /\ forall r, v r = polyD b (ncols b - 1) (Z.to_nat d) r (hi b).
Proof using W INC END.
  intros D. assert (W' := W). destruct W' as [O LE C B SO].
  assert (A1 : lo b <= hi b) by (apply SO; lia).
  assert (N : near_end b (hi b)) by (unfold near_end; rewrite Rminus_eq_0, Rabs_R0; lra).
  assert (LO := located_end b (hi b) W A1 N).
  assert (P := INC (ncols b - 1)%nat (ncols b - 1 + 1)%nat ltac:(lia)).
  destruct (eval_D_ok b (hi b) _ d W LO P D) as [m [v [EM [EV V]]]].
  exists v. split; [ exact EV | ]. intros r. rewrite V. destruct LO as [LO _]. apply piece_polyD; assumption.
Qed.

Lemma find_segment t : lo b <= t < hi b ->
  exists s, (order b - 1 <= s < ncols b)%nat /\ knot (knots b) s <= t < knot (knots b) (s + 1).
Proof using W INC END.
  intros I. destruct (located_seg b t W I) as [s [[S1 _] S2]]; [ | exists s; split; assumption ].
  unfold resolved. destruct (Rle_dec (last_start b) t) as [L | L]; [ right; exact L | left; lra ].
Qed.

(** [agrees d r f]: f is coordinate r of the curve's derivative d. *)
Definition agrees (d r : nat) (f : R -> R) : Prop :=
  forall t, lo b <= t <= hi b -> exists v, eval_D b t (Z.of_nat d) = Ok v /\ v r = f t.

Lemma agrees_poly d r f s t : agrees d r f -> (order b - 1 <= s < ncols b)%nat ->
  knot (knots b) s <= t < knot (knots b) (s + 1) -> f t = polyD b s d r t.
Proof using W INC END.
  intros A S1 I. assert (W' := W). destruct W' as [O LE C B SO].
  destruct (eval_polyD t s (Z.of_nat d) S1 I ltac:(lia)) as [v [E V]].
  destruct (A t) as [v' [E' V']].
  { unfold lo, hi. split.
    - apply Rle_trans with (knot (knots b) s); [ apply SO; lia | lra ].
    - apply Rle_trans with (knot (knots b) (s + 1)); [ lra | apply SO; lia ]. }
  assert (v' = v) by congruence. subst v'. rewrite <- V', V, Nat2Z.id. reflexivity.
Qed.

(** Away from the knots every derivative is the derivative of the one before. *)
Lemma derive_inside d r f g t s : agrees d r f -> agrees (S d) r g -> (order b - 1 <= s < ncols b)%nat ->
  knot (knots b) s < t < knot (knots b) (s + 1) -> is_derive f t (g t).
Proof using W INC END.
  intros AF AG S1 I. rewrite (agrees_poly (S d) r g s t AG S1) by lra.
  apply (is_derive_ext_loc (polyD b s d r)).
  - assert (PM : 0 < Rmin (t - knot (knots b) s) (knot (knots b) (s + 1) - t)) by (apply Rmin_glb_lt; lra).
    exists (mkposreal _ PM). intros y Hy. symmetry. apply (agrees_poly d r f s y AF S1).
    change (Rabs (y - t) < Rmin (t - knot (knots b) s) (knot (knots b) (s + 1) - t)) in Hy.
    assert (B1 := Rmin_l (t - knot (knots b) s) (knot (knots b) (s + 1) - t)).
    assert (B2 := Rmin_r (t - knot (knots b) s) (knot (knots b) (s + 1) - t)).
    apply Rabs_def2 in Hy. lra.
  - apply polyD_derive; assumption.
Qed.

Lemma at_knot_pieces d r f s : agrees d r f -> (order b - 1 <= s)%nat -> (s + 1 < ncols b)%nat ->
  exists e, 0 < e /\
    (forall y, knot (knots b) (s + 1) - e < y < knot (knots b) (s + 1) -> f y = polyD b s d r y) /\
    (forall y, knot (knots b) (s + 1) <= y < knot (knots b) (s + 1) + e -> f y = polyD b (s + 1) d r y).
Proof using W INC END.
  intros A S1 S2. assert (W' := W). destruct W' as [O LE C B SO].
  assert (P1 := INC s (s + 1)%nat ltac:(lia)). assert (P2 := INC (s + 1)%nat (s + 1 + 1)%nat ltac:(lia)).
  exists (Rmin (knot (knots b) (s + 1) - knot (knots b) s) (knot (knots b) (s + 1 + 1) - knot (knots b) (s + 1))).
  assert (B1 := Rmin_l (knot (knots b) (s + 1) - knot (knots b) s) (knot (knots b) (s + 1 + 1) - knot (knots b) (s + 1))).
  assert (B2 := Rmin_r (knot (knots b) (s + 1) - knot (knots b) s) (knot (knots b) (s + 1 + 1) - knot (knots b) (s + 1))).
  split; [ apply Rmin_glb_lt; lra | ].
  split; intros y Hy; apply (agrees_poly d r f _ y A); first [ lia | lra ].
Qed.

(** A time strictly inside the interval is inside a segment or an inner knot. *)
Lemma inside_or_knot t : lo b < t < hi b ->
  (exists s, (order b - 1 <= s < ncols b)%nat /\ knot (knots b) s < t < knot (knots b) (s + 1)) \/
  (exists s, (order b - 1 <= s)%nat /\ (s + 1 < ncols b)%nat /\ t = knot (knots b) (s + 1)).
Proof using W INC END.
  intros I. destruct (find_segment t ltac:(lra)) as [s [S1 S2]].
  destruct (Req_dec t (knot (knots b) s)) as [E | E].
  - right. assert (NE : s <> (order b - 1)%nat) by (intros ->; unfold lo in I; lra).
    exists (s - 1)%nat. replace (s - 1 + 1)%nat with s by lia. split; [ lia | ]. split; [ lia | exact E ].
  - left. exists s. split; [ exact S1 | lra ].
Qed.

Lemma smooth_derive d r f g t : agrees d r f -> agrees (S d) r g -> (S d + 2 <= order b)%nat -> lo b < t < hi b ->
  is_derive f t (g t).
Proof using W INC END.
  intros AF AG D I. destruct (inside_or_knot t I) as [[s [S1 S2]] | [s [S1 [S2 ->]]]].
  - apply (derive_inside d r f g t s AF AG S1 S2).
  - assert (W' := W). destruct W' as [O LE C B SO].
    destruct (at_knot_pieces d r f s AF S1 S2) as [e [E [FP FQ]]].
    assert (P2 := INC (s + 1)%nat (s + 1 + 1)%nat ltac:(lia)).
    rewrite (agrees_poly (S d) r g (s + 1) (knot (knots b) (s + 1)) AG) by (first [ lia | lra ]).
    apply (glue_derive f (polyD b s d r) (polyD b (s + 1) d r) _ e); try assumption.
    + apply polyD_join; [ exact W | exact INC | lia | lia ].
    + rewrite <- (polyD_join b s (S d) r) by (first [ assumption | lia ]). apply polyD_derive; assumption.
    + apply polyD_derive; assumption.
Qed.

Lemma smooth_continuous d r f t : agrees d r f -> (d + 2 <= order b)%nat -> lo b < t < hi b -> continuous f t.
Proof using W INC END.
  intros AF D I. assert (W' := W). destruct W' as [O LE C B SO].
  assert (CP : forall s x, continuous (polyD b s d r) x).
  { intros s x. apply (ex_derive_continuous (V := R_NormedModule)). exists (polyD b s (S d) r x). apply polyD_derive; assumption. }
  destruct (inside_or_knot t I) as [[s [S1 S2]] | [s [S1 [S2 ->]]]].
  - apply (continuous_ext_loc _ (polyD b s d r)); [ | apply CP ].
    assert (PM : 0 < Rmin (t - knot (knots b) s) (knot (knots b) (s + 1) - t)) by (apply Rmin_glb_lt; lra).
    exists (mkposreal _ PM). intros y Hy. symmetry. apply (agrees_poly d r f s y AF S1).
    change (Rabs (y - t) < Rmin (t - knot (knots b) s) (knot (knots b) (s + 1) - t)) in Hy.
    assert (B1 := Rmin_l (t - knot (knots b) s) (knot (knots b) (s + 1) - t)).
    assert (B2 := Rmin_r (t - knot (knots b) s) (knot (knots b) (s + 1) - t)).
    apply Rabs_def2 in Hy. lra.
  - destruct (at_knot_pieces d r f s AF S1 S2) as [e [E [FP FQ]]].
    apply (glue_continuous f (polyD b s d r) (polyD b (s + 1) d r) _ e); try assumption.
    + apply polyD_join; [ exact W | exact INC | lia | lia ].
    + apply CP.
    + apply CP.
Qed.

End CURVE.

(** Inside a segment, for knots that may repeat elsewhere. *)
Lemma agrees_piece b d r f s m : wf b -> / 10000000000 <= hi b - last_start b -> agrees b d r f ->
  (order b - 1 <= s < ncols b)%nat -> knot (knots b) s < knot (knots b) (s + 1) ->
  basis_M (knots b) (order b) s = Ok m ->
  forall t, knot (knots b) s <= t < knot (knots b) (s + 1) -> f t = piece b m s d r t.
Proof.
  intros W EN A S1 P EM. assert (W' := W). destruct W' as [O LE C B SO].
  intros t I.
  assert (A1 : lo b <= t < hi b).
  { unfold lo, hi. split.
    - apply Rle_trans with (knot (knots b) s); [ apply SO; lia | lra ].
    - apply Rlt_le_trans with (knot (knots b) (s + 1)); [ lra | apply SO; lia ]. }
  assert (A2 : resolved b t).
  { unfold resolved. destruct (Rle_dec (last_start b) t) as [G | G]; [ right; exact G | left; lra ]. }
  destruct (located_seg b t W A1 A2) as [s' [LO I']].
  assert (s' = s).
  { destruct (lt_eq_lt_dec s s') as [[G | G] | G]; [ | symmetry; exact G | ].
    - assert (knot (knots b) (s + 1) <= knot (knots b) s') by (apply SO; destruct LO; lia). lra.
    - assert (knot (knots b) (s' + 1) <= knot (knots b) s) by (apply SO; destruct LO; lia). lra. }
  subst s'. destruct (eval_D_ok b t s (Z.of_nat d) W LO P) as [m' [v [EM' [EV V]]]]; [ lia | ].
  assert (m' = m) by congruence. subst m'.
  destruct (A t ltac:(lra)) as [v' [E' V']]. assert (v' = v) by congruence. subst v'.
  rewrite <- V', V, Nat2Z.id. reflexivity.
Qed.

Lemma derive_in_segment b d r f g t s : wf b -> / 10000000000 <= hi b - last_start b ->
  agrees b d r f -> agrees b (S d) r g -> (order b - 1 <= s < ncols b)%nat ->
  knot (knots b) s < t < knot (knots b) (s + 1) -> is_derive f t (g t).
Proof.
  intros W EN AF AG S1 I. assert (P : knot (knots b) s < knot (knots b) (s + 1)) by lra.
  assert (W' := W). destruct W' as [O LE C B SO].
  destruct (basis_M_exists (knots b) s (order b)) as [m EM]; [ lia | lia | lia | ].
  rewrite (agrees_piece b (S d) r g s m W EN AG S1 P EM t) by lra.
  apply (is_derive_ext_loc (piece b m s d r)); [ | apply piece_derive; exact P ].
  assert (PM : 0 < Rmin (t - knot (knots b) s) (knot (knots b) (s + 1) - t)) by (apply Rmin_glb_lt; lra).
  exists (mkposreal _ PM). intros y Hy. symmetry. apply (agrees_piece b d r f s m W EN AF S1 P EM).
  change (Rabs (y - t) < Rmin (t - knot (knots b) s) (knot (knots b) (s + 1) - t)) in Hy.
  assert (B1 := Rmin_l (t - knot (knots b) s) (knot (knots b) (s + 1) - t)).
  assert (B2 := Rmin_r (t - knot (knots b) s) (knot (knots b) (s + 1) - t)).
  apply Rabs_def2 in Hy. lra.
Qed.

(** ** The Jacobian with respect to the coefficients *)
Lemma bsum_blocks D f : forall k, bsum (k * D) f = bsum k (fun c => bsum D (fun a => f (c * D + a)%nat)).
Proof.
  induction k as [ | k IH ]; [ reflexivity | ].
  replace (S k * D)%nat with (k * D + D)%nat by lia. rewrite bsum_app, IH. reflexivity.
Qed.

Lemma scaled_identities_apply D w x k r : (r < D)%nat ->
  bsum (k * D) (fun m => scaled_identities D w r m * x m) = bsum k (fun c => w c * x (c * D + r)%nat).
Proof.
  intros L. rewrite bsum_blocks. apply bsum_ext. intros c _.
  assert (MD : forall a, (a < D)%nat -> ((c * D + a) mod D = a)%nat /\ ((c * D + a) / D = c)%nat).
  { intros a La. split.
    - rewrite Nat.add_comm, Nat.mod_add by lia. apply Nat.mod_small. exact La.
    - rewrite Nat.add_comm, Nat.div_add by lia. rewrite Nat.div_small by exact La. lia. }
  rewrite (bsum_single D r); [ | exact L | ].
  - unfold scaled_identities. destruct (MD r L) as [-> ->]. rewrite Nat.eqb_refl. reflexivity.
  - intros a La N. unfold scaled_identities. destruct (MD a La) as [-> ->].
    destruct (Nat.eqb_spec a r); [ contradiction | ring ].
Qed.
