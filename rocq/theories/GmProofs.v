(** * Proofs about reading the cells of a tag *)
From Coq Require Import Reals List Arith ZArith NArith Bool Lia Lra.
From Verif Require Import Base LutModel LutProofs GfModel GfSpec GfProofs TagModel TagSpec TdModel GmModel GmSpec.
Import ListNotations.
Local Open Scope R_scope.

(** ** The gray model *)
Lemma sum_app l k f : sum_over (l ++ k) f = sum_over l f + sum_over k f.
Proof. unfold sum_over. induction l as [ | o l IH ]; cbn [app fold_right]; [ ring | rewrite IH; ring ]. Qed.
Definition normal_rhs (l : list observation) : vec :=
  Vec (sum_over l (fun x _ v => x * v)) (sum_over l (fun _ y v => y * v)) (sum_over l (fun x y v => x * y * v)) (sum_over l (fun _ _ v => v)).
Section Gray.
Variable inverse : sym -> option (nat -> nat -> R).
(** The coefficients the observations lead to *)
Definition fitted (l : list observation) : vec :=
  match l with
  | [] => Vec 0 0 0 0
  | _ => let mean := Vec 0 0 0 (sum_over l (fun _ _ v => v) / INR (length l)) in
         if (6 <=? length l)%nat then match inverse (normal_matrix l) with Some M => times_vec M (normal_rhs l) | None => mean end else mean
  end.
Record follows_obs (l : list observation) (g : gray) : Prop := {
  f_A : g_A g = normal_matrix l; f_b : g_b g = normal_rhs l; f_n : nobs g = length l;
  f_v : dirty g = false -> g_v g = fitted l; f_d : l = [] -> dirty g = false }.
Lemma no_gray_follows : follows_obs [] no_gray.
Proof. constructor; reflexivity. Qed.
Lemma add_follows l g x y v : follows_obs l g -> follows_obs (l ++ [(x, y, v)]) (add_observation g x y v).
Proof.
  intros [A B N V D]. constructor; cbn [add_observation g_A g_b g_v nobs dirty].
  - rewrite A. unfold normal_matrix. cbn [a00 a01 a02 a03 a11 a12 a13 a22 a23 a33]. rewrite !sum_app. cbn [sum_over fold_right fst snd]. f_equal; ring.
  - rewrite B. unfold normal_rhs. cbn [v0 v1 v2 v3]. rewrite !sum_app. cbn [sum_over fold_right fst snd]. f_equal; ring.
  - rewrite N, app_length. cbn [length]. lia.
  - discriminate.
  - intros E. destruct l; discriminate.
Qed.
Lemma gray_at_follows l g x y : follows_obs l g -> follows_obs l (fst (gray_at inverse g x y)) /\ snd (gray_at inverse g x y) = bilinear (fitted l) x y.
Proof.
  intros F. assert (G : exists g', gray_at inverse g x y = (g', v0 (g_v g') * x + v1 (g_v g') * y + v2 (g_v g') * x * y + v3 (g_v g')) /\ follows_obs l g' /\ dirty g' = false).
  { unfold gray_at. destruct (dirty g) eqn:Dg.
    - exists (compute inverse g). split; [ reflexivity | ]. split; [ | reflexivity ]. destruct F as [A B N V D]. constructor; cbn [compute g_A g_b g_v nobs dirty].
      + exact A.
      + exact B.
      + exact N.
      + intros _. destruct l as [ | o l ]; [ rewrite (D eq_refl) in Dg; discriminate | ]. unfold fitted. rewrite A, B, N. reflexivity.
      + intros E. reflexivity.
    - exists g. split; [ reflexivity | ]. split; [ exact F | exact Dg ]. }
  destruct G as (g' & -> & F' & D'). cbn [fst snd]. split; [ exact F' | ]. rewrite (f_v _ _ F' D'). unfold bilinear. ring.
Qed.

(** ** Least squares *)
Lemma normal_eq l c d : sum_over l (fun x y v => bilinear d x y * (bilinear c x y - v)) =
  let A := normal_matrix l in let b := normal_rhs l in
  v0 d * (a00 A * v0 c + a01 A * v1 c + a02 A * v2 c + a03 A * v3 c - v0 b) + v1 d * (a01 A * v0 c + a11 A * v1 c + a12 A * v2 c + a13 A * v3 c - v1 b) +
  v2 d * (a02 A * v0 c + a12 A * v1 c + a22 A * v2 c + a23 A * v3 c - v2 b) + v3 d * (a03 A * v0 c + a13 A * v1 c + a23 A * v2 c + a33 A * v3 c - v3 b).
Proof.
  cbv zeta. unfold normal_matrix, normal_rhs. cbn [a00 a01 a02 a03 a11 a12 a13 a22 a23 a33 v0 v1 v2 v3]. unfold sum_over, bilinear.
  induction l as [ | [[x y] v] l IH ]; cbn [fold_right fst snd]; [ ring | ]. rewrite IH. ring.
Qed.
Lemma error_split l c d : squared_error (Vec (v0 c + v0 d) (v1 c + v1 d) (v2 c + v2 d) (v3 c + v3 d)) l =
  squared_error c l + 2 * sum_over l (fun x y v => bilinear d x y * (bilinear c x y - v)) + sum_over l (fun x y v => bilinear d x y * bilinear d x y).
Proof.
  unfold squared_error, sum_over, bilinear. cbn [v0 v1 v2 v3]. induction l as [ | [[x y] v] l IH ]; cbn [fold_right fst snd]; [ ring | ]. rewrite IH. ring.
Qed.
Lemma sum_nonneg l f : (forall x y v, 0 <= f x y v) -> 0 <= sum_over l f.
Proof. intros H. unfold sum_over. induction l as [ | o l IH ]; cbn [fold_right]; [ lra | ]. pose proof (H (fst (fst o)) (snd (fst o)) (snd o)). lra. Qed.
Hypothesis INV : gives_inverses inverse.
Lemma apply_inverse (A M : nat -> nat -> R) (b : vec) i : (i < 4)%nat -> (forall j, (j < 4)%nat -> times4 A M i j = identity i j) ->
  A i 0%nat * v0 (times_vec M b) + A i 1%nat * v1 (times_vec M b) + A i 2%nat * v2 (times_vec M b) + A i 3%nat * v3 (times_vec M b) =
  identity i 0 * v0 b + identity i 1 * v1 b + identity i 2 * v2 b + identity i 3 * v3 b.
Proof.
  intros Hi H. rewrite <- (H 0%nat), <- (H 1%nat), <- (H 2%nat), <- (H 3%nat) by lia. unfold times4, times_vec. cbn [v0 v1 v2 v3]. ring.
Qed.
Lemma solves l M : inverse (normal_matrix l) = Some M -> let A := normal_matrix l in let b := normal_rhs l in let c := times_vec M b in
  a00 A * v0 c + a01 A * v1 c + a02 A * v2 c + a03 A * v3 c = v0 b /\ a01 A * v0 c + a11 A * v1 c + a12 A * v2 c + a13 A * v3 c = v1 b /\
  a02 A * v0 c + a12 A * v1 c + a22 A * v2 c + a23 A * v3 c = v2 b /\ a03 A * v0 c + a13 A * v1 c + a23 A * v2 c + a33 A * v3 c = v3 b.
Proof.
  intros H. cbv zeta. pose proof (INV _ _ H) as J. set (A := normal_matrix l) in *. set (b := normal_rhs l).
  pose proof (apply_inverse (entry A) M b 0 ltac:(lia) (fun j Hj => proj1 (J 0%nat j ltac:(lia) Hj))) as E0.
  pose proof (apply_inverse (entry A) M b 1 ltac:(lia) (fun j Hj => proj1 (J 1%nat j ltac:(lia) Hj))) as E1.
  pose proof (apply_inverse (entry A) M b 2 ltac:(lia) (fun j Hj => proj1 (J 2%nat j ltac:(lia) Hj))) as E2.
  pose proof (apply_inverse (entry A) M b 3 ltac:(lia) (fun j Hj => proj1 (J 3%nat j ltac:(lia) Hj))) as E3.
  unfold entry, identity in E0, E1, E2, E3. cbn [Nat.min Nat.max Nat.eqb] in E0, E1, E2, E3. lra.
Qed.
Lemma fitted_best l c : determined inverse l -> squared_error (fitted l) l <= squared_error c l.
Proof.
  intros [N D]. destruct (inverse (normal_matrix l)) as [M | ] eqn:E; [ | contradiction ].
  assert (F : fitted l = times_vec M (normal_rhs l)). { unfold fitted. destruct l as [ | o l ]; [ cbn in N; lia | ]. cbv zeta. rewrite (proj2 (Nat.leb_le _ _) N), E. reflexivity. }
  set (f := fitted l) in *. set (d := Vec (v0 c - v0 f) (v1 c - v1 f) (v2 c - v2 f) (v3 c - v3 f)).
  assert (C : c = Vec (v0 f + v0 d) (v1 f + v1 d) (v2 f + v2 d) (v3 f + v3 d)) by (destruct c as [c0 c1 c2 c3]; unfold d; cbn [v0 v1 v2 v3]; f_equal; ring).
  rewrite C, error_split, normal_eq. cbv zeta. destruct (solves l M E) as (S0 & S1 & S2 & S3). rewrite <- F in S0, S1, S2, S3. rewrite S0, S1, S2, S3.
  pose proof (sum_nonneg l (fun x y _ => bilinear d x y * bilinear d x y) ltac:(intros; apply Rle_0_sqr)). lra.
Qed.
Lemma sum_ext l f g : (forall x y v, In (x, y, v) l -> f x y v = g x y v) -> sum_over l f = sum_over l g.
Proof.
  unfold sum_over. induction l as [ | [[x y] v] l IH ]; intros H; cbn [fold_right fst snd]; [ reflexivity | ]. rewrite (H x y v) by (left; reflexivity). rewrite IH; [ reflexivity | ]. intros. apply H. right. assumption.
Qed.
Lemma fitted_exact l c : shows inverse l c -> forall x y, bilinear (fitted l) x y = bilinear c x y.
Proof.
  intros (NE & EX & D).
  assert (MEAN : v0 c = 0 /\ v1 c = 0 /\ v2 c = 0 -> forall x y, bilinear (Vec 0 0 0 (sum_over l (fun _ _ v => v) / INR (length l))) x y = bilinear c x y).
  { intros (Z0 & Z1 & Z2) x y. unfold bilinear. rewrite Z0, Z1, Z2. cbn [v0 v1 v2 v3].
    assert (S : sum_over l (fun _ _ v => v) = INR (length l) * v3 c).
    { rewrite (sum_ext l _ (fun _ _ _ => v3 c)) by (intros x0 y0 v I; rewrite (EX x0 y0 v I); unfold bilinear; rewrite Z0, Z1, Z2; ring).
      unfold sum_over. clear. induction l as [ | o l IH ]; [ cbn; ring | ]. cbn [fold_right]. rewrite IH. change (length (o :: l)) with (S (length l)). rewrite S_INR. ring. }
    rewrite S. field. apply not_0_INR. destruct l; [ contradiction | discriminate ]. }
  assert (SOLVE : forall M, inverse (normal_matrix l) = Some M -> forall x y, bilinear (times_vec M (normal_rhs l)) x y = bilinear c x y).
  { intros M E x y. pose proof (INV _ _ E) as J. set (A := normal_matrix l) in *.
    assert (B : normal_rhs l = times_vec (entry A) c).
    { unfold normal_rhs, times_vec. unfold entry. cbn [Nat.min Nat.max]. unfold A, normal_matrix. cbn [a00 a01 a02 a03 a11 a12 a13 a22 a23 a33].
      assert (LIN : forall (m : R -> R -> R), sum_over l (fun x y v => m x y * v) = sum_over l (fun x y _ => m x y * x) * v0 c + sum_over l (fun x y _ => m x y * y) * v1 c + sum_over l (fun x y _ => m x y * (x * y)) * v2 c + sum_over l (fun x y _ => m x y) * v3 c).
      { intros m. rewrite (sum_ext l _ (fun x y _ => m x y * bilinear c x y)) by (intros x0 y0 v I; rewrite (EX x0 y0 v I); reflexivity).
        unfold sum_over, bilinear. clear. induction l as [ | o l IH ]; cbn [fold_right]; [ ring | ]. rewrite IH. ring. }
      f_equal.
      - rewrite (LIN (fun x _ => x)). reflexivity.
      - rewrite (LIN (fun _ y => y)). f_equal. f_equal. f_equal. f_equal. apply sum_ext. intros; ring.
      - rewrite (LIN (fun x y => x * y)). f_equal. f_equal. f_equal.
        + f_equal. apply sum_ext. intros; ring.
        + f_equal. apply sum_ext. intros; ring.
      - rewrite (sum_ext l (fun _ _ v => v) (fun _ _ v => 1 * v)) by (intros; ring). rewrite (LIN (fun _ _ => 1)).
        f_equal. f_equal; [ f_equal | ]; f_equal; apply sum_ext; intros; ring. }
    rewrite B. clear - J.
    assert (R : times_vec M (times_vec (entry A) c) = c).
    { pose proof (apply_inverse M (entry A) c 0 ltac:(lia) (fun j Hj => proj2 (J 0%nat j ltac:(lia) Hj))) as E0.
      pose proof (apply_inverse M (entry A) c 1 ltac:(lia) (fun j Hj => proj2 (J 1%nat j ltac:(lia) Hj))) as E1.
      pose proof (apply_inverse M (entry A) c 2 ltac:(lia) (fun j Hj => proj2 (J 2%nat j ltac:(lia) Hj))) as E2.
      pose proof (apply_inverse M (entry A) c 3 ltac:(lia) (fun j Hj => proj2 (J 3%nat j ltac:(lia) Hj))) as E3.
      unfold identity in E0, E1, E2, E3. cbn [Nat.eqb] in E0, E1, E2, E3. generalize dependent (times_vec (entry A) c). intros b E0 E1 E2 E3.
      unfold times_vec. destruct c as [c0 c1 c2 c3]. cbn [v0 v1 v2 v3] in *. f_equal; lra. }
    rewrite R. reflexivity. }
  intros x y. unfold fitted. destruct l as [ | o l' ]; [ contradiction | ]. cbv zeta.
  destruct (Nat.leb_spec 6 (length (o :: l'))) as [L | L].
  - destruct (inverse (normal_matrix (o :: l'))) as [M | ] eqn:E; [ apply SOLVE; reflexivity | ]. apply MEAN. destruct D as [[_ D] | D]; [ contradiction | exact D ].
  - apply MEAN. destruct D as [[D _] | D]; [ lia | exact D ].
Qed.
End Gray.

(** ** Pixels *)
Lemma pixel_at_seen fim p : complete fim -> (0 < width fim)%nat -> (0 < height fim)%nat -> Rabs (fst p) < 2147483647 -> Rabs (snd p) < 2147483647 -> pixel_at fim p = Ok (seen fim p).
Proof.
  intros C PW PH X Y. apply Rabs_def2 in X, Y. unfold pixel_at. rewrite !to_int_fits by lra. cbn [obind].
  assert (IN : forall (r : R) (n : nat), (0 < n)%nat -> (trunc (r + / 2) <? 0)%Z || (Z.of_nat n <=? trunc (r + / 2))%Z = false <-> -3 / 2 < r < INR n - / 2).
  { intros r n Pn. rewrite INR_IZR_INZ. rewrite orb_false_iff, Z.ltb_ge, Z.leb_gt. rewrite (trunc_in (r + / 2) (Z.of_nat n)) by lia. split; intros; lra. }
  unfold seen. pose proof (IN (fst p) (width fim) PW) as IX. pose proof (IN (snd p) (height fim) PH) as IY.
  set (tx := trunc (fst p + / 2)) in *. set (ty := trunc (snd p + / 2)) in *.
  rewrite <- orb_assoc. destruct ((tx <? 0)%Z || (Z.of_nat (width fim) <=? tx)%Z) eqn:EX.
  - cbn [orb]. destruct (Rlt_dec (-3 / 2) (fst p)); [ | reflexivity ]. destruct (Rlt_dec (fst p) (INR (width fim) - / 2)); [ | reflexivity ]. exfalso. assert (true = false) by (apply IX; split; assumption). discriminate.
  - destruct (proj1 IX eq_refl) as [X1 X2]. destruct (Rlt_dec (-3 / 2) (fst p)); [ | lra ]. destruct (Rlt_dec (fst p) (INR (width fim) - / 2)); [ | lra ]. cbn [orb].
    destruct ((ty <? 0)%Z || (Z.of_nat (height fim) <=? ty)%Z) eqn:EY.
    + destruct (Rlt_dec (-3 / 2) (snd p)); [ | reflexivity ]. destruct (Rlt_dec (snd p) (INR (height fim) - / 2)); [ | reflexivity ]. exfalso. assert (true = false) by (apply IY; split; assumption). discriminate.
    + destruct (proj1 IY eq_refl) as [Y1 Y2]. destruct (Rlt_dec (-3 / 2) (snd p)); [ | lra ]. destruct (Rlt_dec (snd p) (INR (height fim) - / 2)); [ | lra ].
      apply orb_false_iff in EX, EY. destruct EX as [A1 A2], EY as [B1 B2]. apply Z.ltb_ge in A1, B1. apply Z.leb_gt in A2, B2.
      unfold get. rewrite read_ok; [ reflexivity | ]. rewrite C. assert (Z.to_nat tx < width fim)%nat by lia. assert (Z.to_nat ty < height fim)%nat by lia. nia.
Qed.

(** ** Observing *)
Section Quad.
Variables (inverse : sym -> option (nat -> nat -> R)) (fim : image) (q : nat -> point) (dd : Z).
Hypothesis C : complete fim.
Hypothesis PW : (0 < width fim)%nat.
Hypothesis PH : (0 < height fim)%nat.
Hypothesis RP : representable q dd.
Definition cell_obs (ring : Z -> Z -> bool) (c : Z * Z) : list observation :=
  let '(iy, ix) := c in if ring iy ix then match seen fim (cell_place q dd iy ix) with Some v => [((IZR ix + / 2) / IZR dd, (IZR iy + / 2) / IZR dd, v)] | None => [] end else [].
Lemma observe_ok iy ix lw lb w b : (-1 <= iy <= dd)%Z -> (-1 <= ix <= dd)%Z -> follows_obs inverse lw w -> follows_obs inverse lb b ->
  exists w' b', observe fim q dd (w, b) iy ix = Ok (w', b') /\
    follows_obs inverse (lw ++ cell_obs (outside_ring dd) (iy, ix)) w' /\ follows_obs inverse (lb ++ cell_obs (border_ring dd) (iy, ix)) b'.
Proof.
  intros Y X Fw Fb. unfold observe. destruct (RP iy ix Y X) as [R1 R2]. fold (cell_place q dd iy ix). unfold cell_place, place in *. rewrite pixel_at_seen by assumption. cbn [obind].
  unfold cell_obs, border_ring. fold (outside_ring dd iy ix). fold (cell_place q dd iy ix). unfold cell_place.
  destruct (seen fim _) as [v | ].
  - destruct (outside_ring dd iy ix); cbn [negb andb].
    + eexists _, _. split; [ reflexivity | ]. split; [ apply add_follows; exact Fw | rewrite app_nil_r; exact Fb ].
    + destruct ((iy =? 0) || (iy =? dd - 1) || (ix =? 0) || (ix =? dd - 1))%Z.
      * eexists _, _. split; [ reflexivity | ]. split; [ rewrite app_nil_r; exact Fw | apply add_follows; exact Fb ].
      * eexists _, _. split; [ reflexivity | ]. rewrite !app_nil_r. split; assumption.
  - exists w, b. split; [ reflexivity | ].
    assert (Z1 : (if outside_ring dd iy ix then [] else []) = @nil observation) by (destruct (outside_ring dd iy ix); reflexivity).
    rewrite Z1, app_nil_r. split; [ exact Fw | ]. destruct (negb _ && _); rewrite app_nil_r; exact Fb.
Qed.
Lemma observe_all_ok : forall cs lw lb w b, (forall iy ix, In (iy, ix) cs -> (-1 <= iy <= dd)%Z /\ (-1 <= ix <= dd)%Z) -> follows_obs inverse lw w -> follows_obs inverse lb b ->
  exists w' b', observe_all fim q dd cs (w, b) = Ok (w', b') /\
    follows_obs inverse (lw ++ flat_map (cell_obs (outside_ring dd)) cs) w' /\ follows_obs inverse (lb ++ flat_map (cell_obs (border_ring dd)) cs) b'.
Proof.
  induction cs as [ | [iy ix] cs IH ]; intros lw lb w b H Fw Fb.
  - exists w, b. cbn [flat_map]. rewrite !app_nil_r. split; [ reflexivity | split; assumption ].
  - destruct (H iy ix (or_introl eq_refl)) as [Y X]. destruct (observe_ok iy ix lw lb w b Y X Fw Fb) as (w1 & b1 & E & F1 & F2).
    destruct (IH _ _ w1 b1 ltac:(intros; apply H; right; assumption) F1 F2) as (w2 & b2 & E2 & G1 & G2). exists w2, b2. cbn [observe_all]. rewrite E. cbn [obind]. split; [ exact E2 | ].
    cbn [flat_map]. rewrite !app_assoc. split; assumption.
Qed.
Lemma in_from k : (0 <= dd)%Z -> (In k (from_minus_one dd) <-> (-1 <= k <= dd)%Z).
Proof.
  intros D. unfold from_minus_one. rewrite in_map_iff. split.
  - intros (j & <- & J). apply in_seq in J. lia.
  - intros H. exists (Z.to_nat (k + 1)). split; [ lia | ]. apply in_seq. lia.
Qed.
Lemma in_around iy ix : (0 <= dd)%Z -> (In (iy, ix) (around dd) <-> (-1 <= iy <= dd)%Z /\ (-1 <= ix <= dd)%Z).
Proof.
  intros D. unfold around. rewrite in_flat_map. split.
  - intros (y & Y & H). apply in_map_iff in H. destruct H as (x & E & X). injection E as <- <-. apply in_from in X; [ | exact D ]. apply in_from in Y; [ | exact D ]. tauto.
  - intros [Y X]. exists iy. split; [ apply in_from; assumption | ]. apply in_map_iff. exists ix. split; [ reflexivity | apply in_from; assumption ].
Qed.
Lemma observations_around ring : flat_map (cell_obs ring) (around dd) = observations fim q dd ring.
Proof.
  unfold around, observations. fold (from_minus_one dd). generalize (from_minus_one dd) at 2 4. intros ys. induction ys as [ | y ys IH ]; [ reflexivity | ]. cbn [flat_map]. rewrite flat_map_app, IH. f_equal.
  generalize (from_minus_one dd). intros xs. induction xs as [ | x xs IHx ]; [ reflexivity | ]. cbn [map flat_map cell_obs]. rewrite IHx. reflexivity.
Qed.

(** ** Reading the cells *)
Variable border : Z.
Variables lw lb : list observation.
Definition bit_at (iy ix : nat) : option bool :=
  let x := (IZR (border + Z.of_nat ix) + / 2) / IZR dd in let y := (IZR (border + Z.of_nat iy) + / 2) / IZR dd in
  match seen fim (interpolate01 q x y) with
  | None => None
  | Some v => Some (if Rlt_dec ((bilinear (fitted inverse lb) x y + bilinear (fitted inverse lw) x y) / 2) v then true else false)
  end.
Definition step_bits (s : N * bool) (c : nat * nat) : N * bool :=
  match bit_at (fst c) (snd c) with
  | None => (fst s, true)
  | Some v => let k := (N.shiftl (fst s) 1 mod word64)%N in (if v then N.lor k 1 else k, snd s)
  end.
Lemma read_cells_ok : forall cs w b code bad, follows_obs inverse lw w -> follows_obs inverse lb b ->
  (forall iy ix, In (iy, ix) cs -> (-1 <= border + Z.of_nat iy <= dd)%Z /\ (-1 <= border + Z.of_nat ix <= dd)%Z) ->
  exists w' b', let s := fold_left step_bits cs (code, bad) in read_cells inverse fim q border dd cs (w, b, code, bad) = Ok (w', b', fst s, snd s).
Proof.
  induction cs as [ | [iy ix] cs IH ]; intros w b code bad Fw Fb H; [ exists w, b; reflexivity | ].
  destruct (H iy ix (or_introl eq_refl)) as [Y X]. cbn [read_cells fold_left]. unfold read_cell. cbv zeta.
  destruct (RP _ _ Y X) as [R1 R2]. unfold cell_place in R1, R2. unfold place. rewrite pixel_at_seen by assumption. cbn [obind].
  unfold step_bits at 2 4. unfold bit_at. cbn [fst snd]. cbv zeta.
  set (x := (IZR (border + Z.of_nat ix) + / 2) / IZR dd) in *. set (y := (IZR (border + Z.of_nat iy) + / 2) / IZR dd) in *.
  destruct (seen fim (interpolate01 q x y)) as [v | ].
  - destruct (gray_at_follows inverse lb b x y Fb) as [Fb' Vb]. destruct (gray_at_follows inverse lw w x y Fw) as [Fw' Vw].
    destruct (gray_at inverse b x y) as [b1 tb]. destruct (gray_at inverse w x y) as [w1 tw]. cbn [fst snd] in *. cbn [obind]. rewrite Vb, Vw.
    replace ((bilinear (fitted inverse lb) x y + bilinear (fitted inverse lw) x y) * / 2) with ((bilinear (fitted inverse lb) x y + bilinear (fitted inverse lw) x y) / 2) by (unfold Rdiv; ring).
    destruct (Rlt_dec _ v); apply IH; try assumption; intros; apply H; right; assumption.
  - cbn [obind]. apply IH; try assumption. intros; apply H; right; assumption.
Qed.
Lemma fold_row iy : forall n ix s, fold_left step_bits (map (fun k => (iy, k)) (seq ix n)) s = read_row bit_at iy ix n s.
Proof. induction n as [ | n IH ]; intros ix s; [ reflexivity | ]. cbn [seq map fold_left read_row]. rewrite IH. reflexivity. Qed.
Lemma fold_rows d : forall n s, fold_left step_bits (flat_map (fun iy => map (fun ix => (iy, ix)) (seq 0 d)) (rev (seq 0 n))) s = read_rows bit_at d n s.
Proof. induction n as [ | n IH ]; intros s; [ reflexivity | ]. rewrite seq_S, rev_app_distr. cbn [rev app flat_map Nat.add]. rewrite fold_left_app, fold_row, IH. reflexivity. Qed.
End Quad.
Lemma read_quad_ok inverse fim q border d : complete fim -> (0 < width fim)%nat -> (0 < height fim)%nat -> (1 <= d)%nat -> let dd := (2 * Z.of_nat border + Z.of_nat d)%Z in representable q dd ->
  read_quad inverse fim q border d = Ok (read_code (bit_at inverse fim q dd (Z.of_nat border) (observations fim q dd (outside_ring dd)) (observations fim q dd (border_ring dd))) d).
Proof.
  intros C PW PH D dd RP. unfold read_quad. cbv zeta. fold dd.
  destruct (observe_all_ok inverse fim q dd C PW PH RP (around dd) [] [] no_gray no_gray) as (w & b & E & Fw & Fb).
  - intros iy ix I. apply (in_around fim dd PW PH iy ix ltac:(unfold dd; lia)) in I. exact I.
  - apply no_gray_follows.
  - apply no_gray_follows.
  - rewrite E. cbn [obind]. cbn [app] in Fw, Fb. rewrite observations_around in Fw, Fb.
    destruct (read_cells_ok inverse fim q dd C PW PH RP (Z.of_nat border) _ _ (cells_of d) w b 0%N false Fw Fb) as (w' & b' & E2).
    + intros iy ix I. unfold cells_of in I. apply in_flat_map in I. destruct I as (y & Y & I). apply in_map_iff in I. destruct I as (x & Q & X). injection Q as <- <-.
      apply in_rev in Y. apply in_seq in X, Y. unfold dd. lia.
    + rewrite E2. cbn [obind]. unfold cells_of. rewrite fold_rows. unfold read_code. destruct (read_rows _ d d (0%N, false)) as [code bad]. cbn [fst snd]. destruct bad; reflexivity.
Qed.

(** ** The prediction *)
Section Predict.
Variable inverse : sym -> option (nat -> nat -> R).
Hypothesis INV : gives_inverses inverse.
Lemma zero_gray d : (forall x y, bilinear d x y = 0) -> d = Vec 0 0 0 0.
Proof.
  intros H. destruct d as [d0 d1 d2 d3]. pose proof (H 0 0) as A. pose proof (H 1 0) as B. pose proof (H 0 1) as C. pose proof (H 1 1) as D. unfold bilinear in *. cbn [v0 v1 v2 v3] in *. f_equal; lra.
Qed.
Lemma sum_zero l f : (forall x y v, 0 <= f x y v) -> sum_over l f <= 0 -> forall x y v, In (x, y, v) l -> f x y v = 0.
Proof.
  intros P. induction l as [ | [[x y] v] l IH ]; intros S x' y' v' I; [ destruct I | ]. unfold sum_over in S. cbn [fold_right fst snd] in S. fold (sum_over l f) in S.
  pose proof (sum_nonneg l f P). pose proof (P x y v). destruct I as [E | I]; [ injection E as <- <- <-; lra | apply IH; [ lra | exact I ] ].
Qed.
Definition blank (l : list observation) : list observation := map (fun o => (fst o, 0)) l.
Lemma blank_sum l (f : R -> R -> R) : sum_over (blank l) (fun x y _ => f x y) = sum_over l (fun x y _ => f x y).
Proof. unfold sum_over, blank. induction l as [ | [[x y] v] l IH ]; cbn [map fold_right fst snd]; [ reflexivity | ]. rewrite IH. reflexivity. Qed.
Lemma blank_matrix l : normal_matrix (blank l) = normal_matrix l.
Proof.
  unfold normal_matrix. f_equal; [ apply (blank_sum l (fun x _ => x * x)) | apply (blank_sum l (fun x y => x * y)) | apply (blank_sum l (fun x y => x * (x * y))) | apply (blank_sum l (fun x _ => x)) |
    apply (blank_sum l (fun _ y => y * y)) | apply (blank_sum l (fun x y => y * (x * y))) | apply (blank_sum l (fun _ y => y)) | apply (blank_sum l (fun x y => x * y * (x * y))) | apply (blank_sum l (fun x y => x * y)) | apply (blank_sum l (fun _ _ => 1)) ].
Qed.
Lemma fitted_only l c : determined inverse l -> squared_error c l <= squared_error (fitted inverse l) l -> c = fitted inverse l.
Proof.
  intros D LE. assert (DD := D). destruct D as [N D]. destruct (inverse (normal_matrix l)) as [M | ] eqn:E; [ | contradiction ].
  assert (F : fitted inverse l = times_vec M (normal_rhs l)). { unfold fitted. destruct l as [ | o l ]; [ cbn in N; lia | ]. cbv zeta. rewrite (proj2 (Nat.leb_le _ _) N), E. reflexivity. }
  set (f := fitted inverse l) in *. set (d := Vec (v0 c - v0 f) (v1 c - v1 f) (v2 c - v2 f) (v3 c - v3 f)).
  assert (C : c = Vec (v0 f + v0 d) (v1 f + v1 d) (v2 f + v2 d) (v3 f + v3 d)) by (destruct c as [c0 c1 c2 c3]; unfold d; cbn [v0 v1 v2 v3]; f_equal; ring).
  rewrite C in LE. rewrite error_split, normal_eq in LE. cbv zeta in LE. destruct (solves inverse INV l M E) as (S0 & S1 & S2 & S3). rewrite <- F in S0, S1, S2, S3. rewrite S0, S1, S2, S3 in LE.
  assert (Z : forall x y v, In (x, y, v) l -> bilinear d x y * bilinear d x y = 0).
  { apply (sum_zero l (fun x y _ => bilinear d x y * bilinear d x y)); [ intros; apply Rle_0_sqr | lra ]. }
  assert (B : forall z, (forall x y v, In (x, y, v) l -> bilinear z x y = 0) -> shows inverse (blank l) z).
  { intros z Hz. split; [ | split ].
    - destruct l; [ cbn in N; lia | discriminate ].
    - intros x y v I. unfold blank in I. apply in_map_iff in I. destruct I as ([[x' y'] v'] & Q & I). cbn [fst snd] in Q. injection Q as <- <- <-. symmetry. apply (Hz _ _ _ I).
    - left. split; [ unfold blank; rewrite map_length; exact N | rewrite blank_matrix, E; discriminate ]. }
  assert (d = Vec 0 0 0 0) as D0.
  { apply zero_gray. intros x y.
    rewrite <- (fitted_exact inverse INV (blank l) d (B d (fun x y v I => Rsqr_0_uniq _ (Z x y v I)))).
    rewrite (fitted_exact inverse INV (blank l) (Vec 0 0 0 0)); [ unfold bilinear; cbn [v0 v1 v2 v3]; ring | ]. apply B. intros. unfold bilinear. cbn [v0 v1 v2 v3]. ring. }
  rewrite C, D0. clear. destruct f as [f0 f1 f2 f3]. cbn [v0 v1 v2 v3]. f_equal; ring.
Qed.
Lemma fitted_predicted l : predicted inverse l (fitted inverse l).
Proof.
  split; [ | split ].
  - intros ->. reflexivity.
  - intros NE ND. unfold fitted. destruct l as [ | o l ]; [ contradiction | ]. cbv zeta. destruct (Nat.leb_spec 6 (length (o :: l))) as [L | L]; [ | reflexivity ].
    destruct (inverse (normal_matrix (o :: l))) eqn:E; [ | reflexivity ]. exfalso. apply ND. split; [ exact L | congruence ].
  - intros D c. split; [ apply fitted_best; assumption | apply fitted_only; exact D ].
Qed.
Lemma used_follows ops : follows_obs inverse (observed ops) (used inverse ops).
Proof.
  unfold used. assert (H : forall l g, follows_obs inverse l g -> follows_obs inverse (l ++ observed ops) (fold_left (use inverse) ops g)).
  { induction ops as [ | o ops IH ]; intros l g F; cbn [observed flat_map fold_left]; [ rewrite app_nil_r; exact F | ]. fold (observed ops). destruct o as [x y v | x y]; rewrite app_assoc; apply IH; cbn [use].
    - apply add_follows. exact F.
    - rewrite app_nil_r. apply (proj1 (gray_at_follows inverse l g x y F)). }
  apply (H [] no_gray). apply no_gray_follows.
Qed.
End Predict.
