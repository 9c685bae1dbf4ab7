(** * Fitting circles, intersecting them, and the median *)
From Coq Require Import Reals Lra Psatz List Arith Lia ZArith Bool Permutation Sorted.
From Verif Require Import Base DistModel IniModel IniSpec.
Import ListNotations.
Local Close Scope Z_scope.
Local Open Scope R_scope.

(** ** Sums *)
Lemma fold_shift f (l : list v2) : forall s, fold_left (fun s p => s + f p) l s = s + fold_left (fun s p => s + f p) l 0.
Proof.
  induction l as [ | a l IH]; intros s; cbn [fold_left]; [ lra | ].
  rewrite (IH (s + f a)), (IH (0 + f a)). lra.
Qed.
Lemma tally_nil f : tally f [] = 0. Proof. reflexivity. Qed.
Lemma tally_cons f p l : tally f (p :: l) = f p + tally f l.
Proof. unfold tally at 1; cbn [fold_left]. rewrite fold_shift. fold (tally f l). lra. Qed.
Lemma tally_ext f g l : (forall p, In p l -> f p = g p) -> tally f l = tally g l.
Proof.
  induction l as [ | a l IH]; intros H; [ reflexivity | ].
  rewrite !tally_cons, (H a (or_introl eq_refl)), IH; [ reflexivity | ]. intros p Hp; apply H; right; exact Hp.
Qed.
Lemma tally_plus f g l : tally (fun p => f p + g p) l = tally f l + tally g l.
Proof. induction l as [ | a l IH]; [ rewrite !tally_nil; lra | rewrite !tally_cons, IH; lra ]. Qed.
Lemma tally_scal k f l : tally (fun p => k * f p) l = k * tally f l.
Proof. induction l as [ | a l IH]; [ rewrite !tally_nil; lra | rewrite !tally_cons, IH; lra ]. Qed.
Lemma tally_const k l : tally (fun _ => k) l = INR (length l) * k.
Proof.
  induction l as [ | a l IH]; [ rewrite tally_nil; cbn [length INR]; lra | ].
  rewrite tally_cons, IH. cbn [length]. rewrite S_INR. lra.
Qed.
Lemma tally_nonneg f l : (forall p, In p l -> 0 <= f p) -> 0 <= tally f l.
Proof.
  induction l as [ | a l IH]; intros H; [ rewrite tally_nil; lra | ].
  rewrite tally_cons. pose proof (H a (or_introl eq_refl)).
  assert (0 <= tally f l) by (apply IH; intros p Hp; apply H; right; exact Hp). lra.
Qed.
Lemma tally_zero f l : (forall p, In p l -> 0 <= f p) -> tally f l = 0 -> forall p, In p l -> f p = 0.
Proof.
  induction l as [ | a l IH]; intros H E p Hp; [ destruct Hp | ].
  rewrite tally_cons in E. pose proof (H a (or_introl eq_refl)).
  assert (N : forall p, In p l -> 0 <= f p) by (intros q Hq; apply H; right; exact Hq).
  pose proof (tally_nonneg f l N). destruct Hp as [ <- | Hp ]; [ lra | ].
  apply (IH N); [ lra | exact Hp ].
Qed.
Lemma total_tally f l : total (map f l) = tally f l.
Proof. induction l as [ | a l IH]; [ reflexivity | cbn [map total]; rewrite tally_cons, IH; reflexivity ]. Qed.

(** n times the covariance of two functions of the points *)
Definition cov (pts : list v2) (f g : v2 -> R) : R :=
  INR (length pts) * tally (fun p => f p * g p) pts - tally f pts * tally g pts.
Lemma cov_sym pts f g : cov pts f g = cov pts g f.
Proof.
  unfold cov. rewrite (tally_ext (fun p => f p * g p) (fun p => g p * f p)); [ lra | ].
  intros; lra.
Qed.
Lemma cov_ext pts f f' g g' : (forall p, In p pts -> f p = f' p) -> (forall p, In p pts -> g p = g' p) -> cov pts f g = cov pts f' g'.
Proof.
  intros H1 H2. unfold cov.
  rewrite (tally_ext _ (fun p => f' p * g' p)), (tally_ext f f'), (tally_ext g g'); auto.
  intros p Hp. rewrite H1, H2 by exact Hp. reflexivity.
Qed.
Lemma cov_plus pts f g h : cov pts (fun p => f p + g p) h = cov pts f h + cov pts g h.
Proof.
  unfold cov. rewrite (tally_ext _ (fun p => f p * h p + g p * h p)) by (intros; ring).
  rewrite !tally_plus. ring.
Qed.
Lemma cov_scal pts k f h : cov pts (fun p => k * f p) h = k * cov pts f h.
Proof.
  unfold cov. rewrite (tally_ext _ (fun p => k * (f p * h p))) by (intros; ring).
  rewrite !tally_scal. ring.
Qed.
Lemma cov_const pts k h : cov pts (fun _ => k) h = 0.
Proof. unfold cov. rewrite tally_scal, tally_const. ring. Qed.
(** The sum over all pairs *)
Lemma pairs_cov pts f g :
  tally (fun p => tally (fun q => (f p - f q) * (g p - g q)) pts) pts = 2 * cov pts f g.
Proof.
  rewrite (tally_ext _ (fun p => INR (length pts) * (f p * g p) + ((- tally g pts) * f p + ((- tally f pts) * g p + tally (fun q => f q * g q) pts)))).
  - rewrite !tally_plus, !tally_scal, tally_const. unfold cov. ring.
  - intros p _.
    rewrite (tally_ext _ (fun q => f p * g p + ((- f p) * g q + ((- g p) * f q + f q * g q)))) by (intros; ring).
    rewrite !tally_plus, !tally_scal, tally_const. ring.
Qed.
Lemma cov_nonneg pts f : 0 <= cov pts f f.
Proof.
  assert (0 <= 2 * cov pts f f); [ | lra ].
  rewrite <- pairs_cov. apply tally_nonneg; intros p _. apply tally_nonneg; intros q _. apply Rle_0_sqr.
Qed.
Lemma cov_zero pts f : cov pts f f = 0 -> forall p q, In p pts -> In q pts -> f p = f q.
Proof.
  intros E p q Hp Hq.
  assert (Z : tally (fun p => tally (fun q => (f p - f q) * (f p - f q)) pts) pts = 0) by (rewrite pairs_cov; lra).
  assert (N : forall p, In p pts -> 0 <= tally (fun q => (f p - f q) * (f p - f q)) pts)
    by (intros; apply tally_nonneg; intros; apply Rle_0_sqr).
  pose proof (tally_zero _ _ N Z p Hp) as Zp. cbv beta in Zp.
  assert (N' : forall q, In q pts -> 0 <= (f p - f q) * (f p - f q)) by (intros; apply Rle_0_sqr).
  pose proof (tally_zero _ _ N' Zp q Hq) as Zq. cbv beta in Zq. nra.
Qed.

(** ** The fit *)
Definition nrm (p : v2) : R := u0 p * u0 p + u1 p * u1 p.
Definition cA pts := cov pts u0 u0.
Definition cB pts := cov pts u0 u1.
Definition cC pts := cov pts u1 u1.
Definition cD pts := / 2 * cov pts u0 nrm.
Definition cE pts := / 2 * cov pts u1 nrm.
Definition det pts := cA pts * cC pts - cB pts * cB pts.
Lemma fit_eq pts :
  fit_circle pts =
  match quot (cD pts * cC pts - cB pts * cE pts) (det pts), quot (cA pts * cE pts - cB pts * cD pts) (det pts) with
  | Fin cx, Fin cy => Some (V2 cx cy, tally (fun p => dist p (V2 cx cy)) pts / INR (length pts))
  | _, _ => None
  end.
Proof.
  unfold fit_circle; cbv zeta.
  assert (ED : / 2 * (INR (length pts) * tally (fun p => u0 p * u1 p * u1 p) pts - tally u0 pts * tally (fun p => u1 p * u1 p) pts
     + INR (length pts) * tally (fun p => u0 p * u0 p * u0 p) pts - tally u0 pts * tally (fun p => u0 p * u0 p) pts) = cD pts).
  { unfold cD, cov. rewrite (tally_ext (fun p => u0 p * nrm p) (fun p => u0 p * u0 p * u0 p + u0 p * u1 p * u1 p)) by (intros; unfold nrm; ring).
    rewrite (tally_ext nrm (fun p => u0 p * u0 p + u1 p * u1 p)) by reflexivity. rewrite !tally_plus. ring. }
  assert (EE : / 2 * (INR (length pts) * tally (fun p => u0 p * u0 p * u1 p) pts - tally u1 pts * tally (fun p => u0 p * u0 p) pts
     + INR (length pts) * tally (fun p => u1 p * u1 p * u1 p) pts - tally u1 pts * tally (fun p => u1 p * u1 p) pts) = cE pts).
  { unfold cE, cov. rewrite (tally_ext (fun p => u1 p * nrm p) (fun p => u0 p * u0 p * u1 p + u1 p * u1 p * u1 p)) by (intros; unfold nrm; ring).
    rewrite (tally_ext nrm (fun p => u0 p * u0 p + u1 p * u1 p)) by reflexivity. rewrite !tally_plus. ring. }
  rewrite ED, EE.
  change (INR (length pts) * tally (fun p => u0 p * u0 p) pts - square (tally u0 pts)) with (cA pts).
  change (INR (length pts) * tally (fun p => u0 p * u1 p) pts - tally u0 pts * tally u1 pts) with (cB pts).
  change (INR (length pts) * tally (fun p => u1 p * u1 p) pts - square (tally u1 pts)) with (cC pts).
  change (cA pts * cC pts - square (cB pts)) with (det pts). reflexivity.
Qed.

Lemma form_cov pts u v : cov pts (fun p => u * u0 p + v * u1 p) (fun p => u * u0 p + v * u1 p)
  = u * u * cA pts + 2 * (u * v) * cB pts + v * v * cC pts.
Proof.
  rewrite cov_plus, !cov_scal, (cov_sym pts u0), (cov_sym pts u1), !cov_plus, !cov_scal.
  unfold cA, cB, cC. rewrite (cov_sym pts u1 u0). ring.
Qed.
Lemma det_nonneg pts : 0 <= det pts.
Proof.
  unfold det. pose proof (cov_nonneg pts u0) as HA; fold (cA pts) in HA.
  pose proof (cov_nonneg pts u1) as HC; fold (cC pts) in HC.
  pose proof (form_cov pts (cC pts) (- cB pts)) as F1.
  pose proof (cov_nonneg pts (fun p => cC pts * u0 p + - cB pts * u1 p)) as N1.
  pose proof (form_cov pts 1 (- cB pts)) as F2.
  pose proof (cov_nonneg pts (fun p => 1 * u0 p + - cB pts * u1 p)) as N2.
  pose proof (form_cov pts (- cB pts) 1) as F3.
  pose proof (cov_nonneg pts (fun p => - cB pts * u0 p + 1 * u1 p)) as N3.
  destruct (Req_dec (cC pts) 0) as [E | E].
  - destruct (Req_dec (cB pts) 0) as [EB | EB]; [ rewrite E, EB; lra | exfalso ].
    set (b := cB pts) in *. set (a := cA pts) in *.
    pose proof (form_cov pts 1 (- (a + 1) / b)) as F4.
    pose proof (cov_nonneg pts (fun p => 1 * u0 p + - (a + 1) / b * u1 p)) as N4.
    fold a b in F4. rewrite E in F4. rewrite F4 in N4.
    replace (1 * 1 * a + 2 * (1 * (- (a + 1) / b)) * b + - (a + 1) / b * (- (a + 1) / b) * 0) with (- a - 2) in N4 by (field; exact EB). lra.
  - rewrite F1 in N1.
    replace (cC pts * cC pts * cA pts + 2 * (cC pts * - cB pts) * cB pts + - cB pts * - cB pts * cC pts)
      with (cC pts * (cA pts * cC pts - cB pts * cB pts)) in N1 by ring.
    apply Rnot_lt_le; intros L. assert (0 < cC pts) by lra.
    pose proof (Rmult_lt_compat_l (cC pts) _ _ H L). lra.
Qed.
Lemma flat_form pts u v : (u <> 0 \/ v <> 0) -> cov pts (fun p => u * u0 p + v * u1 p) (fun p => u * u0 p + v * u1 p) = 0 -> straight pts.
Proof.
  intros N Z. destruct pts as [ | a l].
  - exists u, v, 0. split; [ exact N | intros p [] ].
  - exists u, v, (u * u0 a + v * u1 a). split; [ exact N | ].
    intros p Hp. exact (cov_zero _ _ Z p a Hp (or_introl eq_refl)).
Qed.
Lemma det_straight pts : det pts = 0 -> straight pts.
Proof.
  intros Z. unfold det in Z.
  destruct (Req_dec (cC pts) 0) as [E | E].
  - apply (flat_form pts 0 1); [ right; lra | ]. rewrite form_cov, E. ring.
  - apply (flat_form pts (cC pts) (- cB pts)); [ left; exact E | ]. rewrite form_cov.
    replace (cC pts * cC pts * cA pts + 2 * (cC pts * - cB pts) * cB pts + - cB pts * - cB pts * cC pts)
      with (cC pts * (cA pts * cC pts - cB pts * cB pts)) by ring. rewrite Z. ring.
Qed.
Lemma straight_kill pts u v w h : (forall p, In p pts -> u * u0 p + v * u1 p = w) -> u * cov pts u0 h + v * cov pts u1 h = 0.
Proof.
  intros H. rewrite <- !cov_scal, <- cov_plus.
  rewrite (cov_ext pts _ (fun _ => w) h h H) by reflexivity. apply cov_const.
Qed.
Lemma cancel u v a : (u <> 0 \/ v <> 0) -> u * a = 0 -> v * a = 0 -> a = 0.
Proof.
  intros [N | N] H1 H2; [ apply Rmult_integral in H1; destruct H1; [ contradiction | assumption ] | apply Rmult_integral in H2; destruct H2; [ contradiction | assumption ] ].
Qed.
Lemma straight_det pts : straight pts -> det pts = 0 /\ cD pts * cC pts - cB pts * cE pts = 0 /\ cA pts * cE pts - cB pts * cD pts = 0.
Proof.
  intros (u & v & w & N & H).
  pose proof (straight_kill pts u v w u0 H) as K0. rewrite (cov_sym pts u1 u0) in K0. fold (cA pts) (cB pts) in K0.
  pose proof (straight_kill pts u v w u1 H) as K1. fold (cB pts) (cC pts) in K1.
  pose proof (straight_kill pts u v w nrm H) as K2.
  assert (K2' : u * cD pts + v * cE pts = 0) by (unfold cD, cE; lra). clear K2.
  set (a := cA pts) in *. set (b := cB pts) in *. set (c := cC pts) in *. set (d := cD pts) in *. set (e := cE pts) in *.
  split; [ unfold det; fold a b c | split ]; apply (cancel u v); try exact N.
  - replace (u * (a * c - b * b)) with (c * (u * a + v * b) - b * (u * b + v * c)) by ring. rewrite K0, K1; ring.
  - replace (v * (a * c - b * b)) with (a * (u * b + v * c) - b * (u * a + v * b)) by ring. rewrite K0, K1; ring.
  - replace (u * (d * c - b * e)) with (c * (u * d + v * e) - e * (u * b + v * c)) by ring. rewrite K1, K2'; ring.
  - replace (v * (d * c - b * e)) with (d * (u * b + v * c) - b * (u * d + v * e)) by ring. rewrite K1, K2'; ring.
  - replace (u * (a * e - b * d)) with (e * (u * a + v * b) - b * (u * d + v * e)) by ring. rewrite K0, K2'; ring.
  - replace (v * (a * e - b * d)) with (a * (u * d + v * e) - d * (u * a + v * b)) by ring. rewrite K0, K2'; ring.
Qed.
(** No infinite coordinates *)
Lemma fit_finite pts : quot (cD pts * cC pts - cB pts * cE pts) (det pts) <> Infinite /\ quot (cA pts * cE pts - cB pts * cD pts) (det pts) <> Infinite.
Proof.
  unfold quot. destruct (Req_EM_T (det pts) 0) as [E | E]; [ | split; discriminate ].
  destruct (straight_det pts (det_straight pts E)) as (_ & E1 & E2).
  destruct (Req_EM_T _ 0); [ | contradiction ]. destruct (Req_EM_T _ 0); [ | contradiction ]. split; discriminate.
Qed.
Lemma fit_none pts : straight pts -> fit_circle pts = None.
Proof.
  intros S. rewrite fit_eq. destruct (straight_det pts S) as (E0 & E1 & E2).
  unfold quot. destruct (Req_EM_T (det pts) 0); [ | contradiction ].
  destruct (Req_EM_T _ 0); [ reflexivity | contradiction ].
Qed.

(** The best centre *)
Lemma spread_cov pts c : spread pts c = 2 * cov pts (fun p => sq_dist p c) (fun p => sq_dist p c).
Proof.
  unfold spread. rewrite <- pairs_cov, total_tally. apply tally_ext; intros p _.
  rewrite total_tally. reflexivity.
Qed.
Lemma spread_shift pts c c' :
  spread pts c' = spread pts c
    - 8 * ((u0 c' - u0 c) * cov pts u0 (fun p => sq_dist p c) + (u1 c' - u1 c) * cov pts u1 (fun p => sq_dist p c))
    + 8 * cov pts (fun p => (u0 c' - u0 c) * u0 p + (u1 c' - u1 c) * u1 p) (fun p => (u0 c' - u0 c) * u0 p + (u1 c' - u1 c) * u1 p).
Proof.
  rewrite !spread_cov. set (z := fun p => sq_dist p c). set (a := u0 c' - u0 c). set (b := u1 c' - u1 c).
  set (k := nrm c' - nrm c).
  set (w := fun p => a * u0 p + b * u1 p).
  assert (X : forall p, In p pts -> sq_dist p c' = z p + ((-2) * w p + k)).
  { intros p _. unfold z, w, k, sq_dist, nrm, a, b. ring. }
  rewrite (cov_ext pts _ _ _ _ X X).
  assert (Y : forall h, cov pts (fun p => z p + ((-2) * w p + k)) h = cov pts z h - 2 * cov pts w h).
  { intros h. rewrite cov_plus. rewrite (cov_plus pts (fun p => -2 * w p) (fun _ => k)), cov_const, cov_scal. ring. }
  rewrite Y, (cov_sym pts z), (cov_sym pts w), !Y.
  assert (W : cov pts w z = a * cov pts u0 z + b * cov pts u1 z) by (unfold w; rewrite cov_plus, !cov_scal; reflexivity).
  rewrite (cov_sym pts z w), W. ring.
Qed.
Lemma grad_zero pts c : (forall h, h = u0 \/ h = u1 -> cov pts h nrm = 2 * (u0 c * cov pts h u0 + u1 c * cov pts h u1)) ->
  cov pts u0 (fun p => sq_dist p c) = 0 /\ cov pts u1 (fun p => sq_dist p c) = 0.
Proof.
  intros H.
  assert (G : forall h, h = u0 \/ h = u1 -> cov pts h (fun p => sq_dist p c) = 0).
  { intros h Hh. rewrite cov_sym.
    rewrite (cov_ext pts _ (fun p => nrm p + ((-2 * u0 c) * u0 p + ((-2 * u1 c) * u1 p + nrm c))) h h); [ | intros; unfold sq_dist, nrm; ring | reflexivity ].
    rewrite !cov_plus, cov_const, !cov_scal. rewrite (cov_sym pts nrm), (cov_sym pts u0 h), (cov_sym pts u1 h), (H h Hh). ring. }
  split; apply G; auto.
Qed.
Lemma fit_some pts : ~ straight pts -> exists c r, fit_circle pts = Some (c, r) /\ fitted pts c r /\ 0 <= r /\ pts <> [].
Proof.
  intros S. assert (ND : det pts <> 0) by (intros E; apply S, det_straight, E).
  rewrite fit_eq. unfold quot. destruct (Req_EM_T (det pts) 0); [ contradiction | ].
  set (c := V2 ((cD pts * cC pts - cB pts * cE pts) / det pts) ((cA pts * cE pts - cB pts * cD pts) / det pts)).
  exists c. exists (tally (fun p => dist p c) pts / INR (length pts)). split; [ reflexivity | ].
  assert (NE : pts <> []).
  { intros E. apply S. rewrite E. exists 1, 0, 0. split; [ left; lra | intros p [] ]. }
  split; [ | split; [ | exact NE ] ].
  - split.
    + intros c' NC. rewrite (spread_shift pts c c').
      destruct (grad_zero pts c) as [G0 G1].
      { assert (E0 : u0 c * cA pts + u1 c * cB pts = cD pts) by (unfold c, det in *; cbn [u0 u1]; field; exact ND).
        assert (E1 : u0 c * cB pts + u1 c * cC pts = cE pts) by (unfold c, det in *; cbn [u0 u1]; field; exact ND).
        intros h [ -> | -> ].
        - unfold cA, cB, cD in E0. lra.
        - unfold cB, cC, cE in E1. rewrite (cov_sym pts u1 u0). lra. }
      rewrite G0, G1.
      set (a := u0 c' - u0 c). set (b := u1 c' - u1 c).
      assert (AB : a <> 0 \/ b <> 0).
      { destruct (Req_dec a 0) as [Ea | Ea]; [ right | left; exact Ea ].
        intros Eb. apply NC. destruct c' as [c0 c1]. unfold a, b in *. cbn [u0 u1] in *.
        destruct c as [d0 d1]. cbn [u0 u1] in *. f_equal; lra. }
      pose proof (cov_nonneg pts (fun p => a * u0 p + b * u1 p)) as NN.
      destruct (Req_dec (cov pts (fun p => a * u0 p + b * u1 p) (fun p => a * u0 p + b * u1 p)) 0) as [Z | Z].
      * exfalso. apply S. exact (flat_form pts a b AB Z).
      * lra.
    + unfold mean. rewrite total_tally, map_length. reflexivity.
  - apply Rmult_le_pos; [ apply tally_nonneg; intros; apply sqrt_pos | ].
    left. apply Rinv_0_lt_compat. apply lt_0_INR. destruct pts; [ contradiction | cbn [length]; lia ].
Qed.
Lemma fitted_unique pts c r c' r' : fitted pts c r -> fitted pts c' r' -> c = c' /\ r = r'.
Proof.
  intros (M & E) (M' & E').
  assert (c = c').
  { destruct c as [a b], c' as [a' b'].
    destruct (Req_dec a a') as [Ea | Ea]; [ destruct (Req_dec b b') as [Eb | Eb]; [ subst; reflexivity | ] | ].
    - assert (X : V2 a' b' <> V2 a b) by congruence. pose proof (M _ X). assert (Y : V2 a b <> V2 a' b') by congruence.
      pose proof (M' _ Y). lra.
    - assert (X : V2 a' b' <> V2 a b) by congruence. pose proof (M _ X). assert (Y : V2 a b <> V2 a' b') by congruence.
      pose proof (M' _ Y). lra. }
  split; [ assumption | subst c'; congruence ].
Qed.
(** Points of a circle *)
Lemma spread_circle pts c r : (forall p, In p pts -> on_circle c r p) -> spread pts c = 0.
Proof.
  intros H. rewrite spread_cov.
  rewrite (cov_ext pts _ (fun _ => r * r) _ (fun p => sq_dist p c)).
  - rewrite cov_const; lra.
  - intros p Hp. specialize (H p Hp). unfold on_circle, dist in H. rewrite <- H. symmetry. apply sqrt_sqrt.
    unfold sq_dist. pose proof (Rle_0_sqr (u0 p - u0 c)); pose proof (Rle_0_sqr (u1 p - u1 c)). unfold Rsqr in *; lra.
  - reflexivity.
Qed.
Lemma sq_dist_nonneg p q : 0 <= sq_dist p q.
Proof. unfold sq_dist. pose proof (Rle_0_sqr (u0 p - u0 q)); pose proof (Rle_0_sqr (u1 p - u1 q)). unfold Rsqr in *; lra. Qed.
Lemma circle_three pts c r p q s : (forall x, In x pts -> on_circle c r x) -> In p pts -> In q pts -> In s pts ->
  p <> q -> p <> s -> q <> s -> ~ straight pts.
Proof.
  intros H Hp Hq Hs N1 N2 N3 (u & v & w & N & L).
  assert (Q : forall x, In x pts -> sq_dist x c = r * r).
  { intros x Hx. specialize (H x Hx). unfold on_circle, dist in H. rewrite <- H. symmetry; apply sqrt_sqrt, sq_dist_nonneg. }
  pose proof (Q p Hp) as Qp. pose proof (Q q Hq) as Qq. pose proof (Q s Hs) as Qs.
  pose proof (L p Hp) as Lp. pose proof (L q Hq) as Lq. pose proof (L s Hs) as Ls.
  (* positions along the line *)
  set (t := fun x : v2 => - v * (u0 x - u0 c) + u * (u1 x - u1 c)).
  set (k := u * u0 c + v * u1 c).
  assert (P : 0 < u * u + v * v).
  { pose proof (Rle_0_sqr u); pose proof (Rle_0_sqr v). unfold Rsqr in *.
    destruct N as [N | N]; [ assert (0 < u * u) by nra | assert (0 < v * v) by nra ]; lra. }
  assert (T : forall x, In x pts -> t x * t x = (u * u + v * v) * (r * r) - (w - k) * (w - k)).
  { intros x Hx. pose proof (Q x Hx) as Qx. pose proof (L x Hx) as Lx.
    assert (E : w - k = u * (u0 x - u0 c) + v * (u1 x - u1 c)) by (unfold k; lra).
    rewrite E, <- Qx. unfold t, sq_dist. ring. }
  assert (I : forall x y, In x pts -> In y pts -> t x = t y -> x = y).
  { intros [x0 x1] [y0 y1] Hx Hy E. pose proof (L _ Hx) as Lx. pose proof (L _ Hy) as Ly. unfold t in E. cbn [u0 u1] in *.
    assert (F1 : u * (x0 - y0) + v * (x1 - y1) = 0) by lra.
    assert (F2 : - v * (x0 - y0) + u * (x1 - y1) = 0) by lra.
    assert (E1 : (u * u + v * v) * (x0 - y0) = 0).
    { replace ((u * u + v * v) * (x0 - y0)) with (u * (u * (x0 - y0) + v * (x1 - y1)) - v * (- v * (x0 - y0) + u * (x1 - y1))) by ring. rewrite F1, F2; ring. }
    assert (E2 : (u * u + v * v) * (x1 - y1) = 0).
    { replace ((u * u + v * v) * (x1 - y1)) with (v * (u * (x0 - y0) + v * (x1 - y1)) + u * (- v * (x0 - y0) + u * (x1 - y1))) by ring. rewrite F1, F2; ring. }
    apply Rmult_integral in E1. apply Rmult_integral in E2.
    destruct E1; [ lra | ]. destruct E2; [ lra | ]. f_equal; lra. }
  pose proof (T p Hp) as Tp. pose proof (T q Hq) as Tq. pose proof (T s Hs) as Ts.
  assert (Z1 : (t p - t q) * (t p + t q) = 0) by nra.
  assert (Z2 : (t p - t s) * (t p + t s) = 0) by nra.
  apply Rmult_integral in Z1. apply Rmult_integral in Z2.
  destruct Z1 as [Z1 | Z1]; [ apply N1, I; [ assumption .. | lra ] | ].
  destruct Z2 as [Z2 | Z2]; [ apply N2, I; [ assumption .. | lra ] | ].
  apply N3, I; [ assumption .. | lra ].
Qed.
Lemma fit_circle_exact pts c r : (forall p, In p pts -> on_circle c r p) -> ~ straight pts -> fit_circle pts = Some (c, r).
Proof.
  intros H S. destruct (fit_some pts S) as (c' & r' & E & F & P & NE). rewrite E.
  assert (c' = c).
  { destruct F as [M _]. destruct c as [a b], c' as [a' b'].
    destruct (Req_dec a a') as [Ea | Ea]; [ destruct (Req_dec b b') as [Eb | Eb]; [ subst; reflexivity | ] | ];
      assert (X : V2 a b <> V2 a' b') by congruence; pose proof (M _ X) as Y; rewrite (spread_circle pts _ r H) in Y;
      pose proof (cov_nonneg pts (fun p => sq_dist p (V2 a' b'))) as NN; rewrite spread_cov in Y; lra. }
  subst c'. destruct F as [_ Er].
  assert (r' = r); [ | congruence ].
  rewrite Er. unfold mean. rewrite total_tally, map_length, (tally_ext _ (fun _ => r)) by exact H.
  rewrite tally_const. field. apply not_0_INR. destruct pts; [ contradiction | cbn [length]; lia ].
Qed.

(** ** Intersections *)
Lemma hypot_dist x1 y1 x2 y2 : hypot (x1 - x2) (y1 - y2) = dist (V2 x1 y1) (V2 x2 y2).
Proof. reflexivity. Qed.
Lemma on_circle_sq c r p : 0 <= r -> (on_circle c r p <-> sq_dist p c = r * r).
Proof.
  intros Hr. unfold on_circle, dist. split; intros H.
  - rewrite <- H. symmetry. apply sqrt_sqrt, sq_dist_nonneg.
  - rewrite H. apply sqrt_square, Hr.
Qed.
Lemma dist_sym p q : dist p q = dist q p.
Proof. unfold dist, sq_dist. f_equal; ring. Qed.
Lemma dist_sq p q : dist p q * dist p q = sq_dist p q.
Proof. apply sqrt_sqrt, sq_dist_nonneg. Qed.
Lemma dist_nonneg p q : 0 <= dist p q. Proof. apply sqrt_pos. Qed.
Lemma ltb_spec a b : (ltb a b = true /\ a < b) \/ (ltb a b = false /\ b <= a).
Proof. unfold ltb. destruct (Rlt_dec a b); [ left | right ]; split; auto; lra. Qed.
(** Cauchy-Schwarz in the plane *)
Lemma cs2 a b c d : (a * c + b * d) * (a * c + b * d) <= (a * a + b * b) * (c * c + d * d).
Proof. pose proof (Rle_0_sqr (a * d - b * c)). unfold Rsqr in *. nra. Qed.
Lemma dist_triangle p q s : dist p s <= dist p q + dist q s.
Proof.
  pose proof (dist_nonneg p q) as N1. pose proof (dist_nonneg q s) as N2. pose proof (dist_nonneg p s) as N3.
  pose proof (dist_sq p q) as S1. pose proof (dist_sq q s) as S2. pose proof (dist_sq p s) as S3.
  pose proof (cs2 (u0 p - u0 q) (u1 p - u1 q) (u0 q - u0 s) (u1 q - u1 s)) as CS.
  set (k := (u0 p - u0 q) * (u0 q - u0 s) + (u1 p - u1 q) * (u1 q - u1 s)) in *.
  assert (E : sq_dist p s = sq_dist p q + 2 * k + sq_dist q s) by (unfold sq_dist, k; ring).
  fold (sq_dist p q) in CS. fold (sq_dist q s) in CS. rewrite <- S1, <- S2 in CS.
  assert (K : k <= dist p q * dist q s).
  { assert (0 <= dist p q * dist q s) by (apply Rmult_le_pos; assumption).
    apply Rnot_lt_le; intros L.
    assert ((dist p q * dist q s) * (dist p q * dist q s) < k * k) by (apply Rmult_le_0_lt_compat; lra). nra. }
  apply Rnot_lt_le; intros L.
  assert ((dist p q + dist q s) * (dist p q + dist q s) < dist p s * dist p s) by (apply Rmult_le_0_lt_compat; lra). nra.
Qed.

Section Meet.
Variables (c1 c2 : v2) (r1 r2 : R).
Hypothesis N1 : 0 <= r1.
Hypothesis N2 : 0 <= r2.
Let d := dist c1 c2.
Definition common (q : v2) : Prop := on_circle c1 r1 q /\ on_circle c2 r2 q.
Lemma apart : r1 + r2 < d -> forall q, ~ common q.
Proof.
  intros L q [H1 H2]. unfold on_circle in *. pose proof (dist_triangle c1 q c2) as T. rewrite (dist_sym c1 q) in T. unfold d in L. lra.
Qed.
Lemma inside : d < Rabs (r1 - r2) -> forall q, ~ common q.
Proof.
  intros L q [H1 H2]. unfold on_circle in *. unfold d in L.
  pose proof (dist_triangle q c1 c2) as T1. pose proof (dist_triangle q c2 c1) as T2. rewrite (dist_sym c2 c1) in T2.
  unfold Rabs in L. destruct (Rcase_abs (r1 - r2)); lra.
Qed.
Hypothesis D : d <> 0.
Let dpos : 0 < d. Proof. pose proof (dist_nonneg c1 c2). unfold d in *. lra. Qed.
Let a := (r1 * r1 - r2 * r2 + d * d) / (2 * d).
Let ex := (u0 c2 - u0 c1) / d.
Let ey := (u1 c2 - u1 c1) / d.
Let unit_e : ex * ex + ey * ey = 1.
Proof.
  unfold ex, ey. pose proof (dist_sq c1 c2) as S. fold d in S. unfold sq_dist in S.
  replace ((u0 c2 - u0 c1) / d * ((u0 c2 - u0 c1) / d) + (u1 c2 - u1 c1) / d * ((u1 c2 - u1 c1) / d))
    with (((u0 c1 - u0 c2) * (u0 c1 - u0 c2) + (u1 c1 - u1 c2) * (u1 c1 - u1 c2)) / (d * d)) by (field; exact D).
  rewrite <- S. field; exact D.
Qed.
Let dx : u0 c2 - u0 c1 = d * ex. Proof. unfold ex; field; exact D. Qed.
Let dy : u1 c2 - u1 c1 = d * ey. Proof. unfold ey; field; exact D. Qed.
(** Coordinates along the line of the centres *)
Lemma common_eq q : common q <->
  let s := (u0 q - u0 c1) * ex + (u1 q - u1 c1) * ey in
  let t := (u0 q - u0 c1) * ey - (u1 q - u1 c1) * ex in
  s = a /\ t * t = r1 * r1 - a * a.
Proof.
  cbv zeta. unfold common. rewrite !on_circle_sq by assumption.
  set (X := u0 q - u0 c1). set (Y := u1 q - u1 c1).
  set (s := X * ex + Y * ey). set (t := X * ey - Y * ex).
  assert (E1 : sq_dist q c1 = s * s + t * t).
  { unfold sq_dist. fold X Y. transitivity ((X * X + Y * Y) * (ex * ex + ey * ey)); [ rewrite unit_e; ring | unfold s, t; ring ]. }
  assert (E2 : sq_dist q c2 = s * s + t * t - 2 * d * s + d * d).
  { transitivity ((X - d * ex) * (X - d * ex) + (Y - d * ey) * (Y - d * ey)).
    - unfold sq_dist. rewrite <- dx, <- dy. unfold X, Y. ring.
    - transitivity (sq_dist q c1 - 2 * d * s + d * d * (ex * ex + ey * ey)); [ unfold sq_dist; fold X Y; unfold s; ring | rewrite E1, unit_e; ring ]. }
  assert (A2 : 2 * d * a = r1 * r1 - r2 * r2 + d * d) by (unfold a; field; exact D).
  rewrite E1, E2. split.
  - intros [H1 H2]. assert (s = a) by (apply Rmult_eq_reg_l with (2 * d); lra). split; [ assumption | ]. rewrite <- H. lra.
  - intros [H1 H2]. rewrite H1. split; [ lra | ]. lra.
Qed.
Lemma height_nonneg : d <= r1 + r2 -> Rabs (r1 - r2) <= d -> 0 <= r1 * r1 - a * a.
Proof.
  intros L1 L2.
  assert (L3 : r1 - r2 <= d /\ r2 - r1 <= d) by (unfold Rabs in L2; destruct (Rcase_abs (r1 - r2)); lra).
  assert (A2 : 2 * d * a = r1 * r1 - r2 * r2 + d * d) by (unfold a; field; exact D).
  assert (P1 : 0 <= r1 - a).
  { apply Rmult_le_reg_l with (2 * d); [ lra | ]. rewrite Rmult_0_r.
    replace (2 * d * (r1 - a)) with ((r2 - (r1 - d)) * (r2 + (r1 - d))) by (replace (2 * d * (r1 - a)) with (2 * d * r1 - 2 * d * a) by ring; rewrite A2; ring).
    apply Rmult_le_pos; lra. }
  assert (P2 : 0 <= r1 + a).
  { apply Rmult_le_reg_l with (2 * d); [ lra | ]. rewrite Rmult_0_r.
    replace (2 * d * (r1 + a)) with ((r1 + d - r2) * (r1 + d + r2)) by (replace (2 * d * (r1 + a)) with (2 * d * r1 + 2 * d * a) by ring; rewrite A2; ring).
    apply Rmult_le_pos; lra. }
  replace (r1 * r1 - a * a) with ((r1 - a) * (r1 + a)) by ring. apply Rmult_le_pos; assumption.
Qed.
(** The point with given coordinates *)
Definition place (s t : R) : v2 := V2 (u0 c1 + s * ex + t * ey) (u1 c1 + s * ey - t * ex).
Lemma place_of q s t : (u0 q - u0 c1) * ex + (u1 q - u1 c1) * ey = s -> (u0 q - u0 c1) * ey - (u1 q - u1 c1) * ex = t -> q = place s t.
Proof.
  intros <- <-. unfold place. destruct q as [q0 q1]; cbn [u0 u1]. f_equal.
  - transitivity (u0 c1 + (q0 - u0 c1) * (ex * ex + ey * ey)); [ rewrite unit_e; ring | ring ].
  - transitivity (u1 c1 + (q1 - u1 c1) * (ex * ex + ey * ey)); [ rewrite unit_e; ring | ring ].
Qed.
Lemma place_s s t : (u0 (place s t) - u0 c1) * ex + (u1 (place s t) - u1 c1) * ey = s.
Proof. unfold place; cbn [u0 u1]. transitivity (s * (ex * ex + ey * ey)); [ ring | rewrite unit_e; ring ]. Qed.
Lemma place_t s t : (u0 (place s t) - u0 c1) * ey - (u1 (place s t) - u1 c1) * ex = t.
Proof. unfold place; cbn [u0 u1]. transitivity (t * (ex * ex + ey * ey)); [ ring | rewrite unit_e; ring ]. Qed.
Lemma place_dist s t t' : dist (place s t) (place s t') = Rabs (t - t').
Proof.
  unfold dist. replace (sq_dist (place s t) (place s t')) with ((t - t') * (t - t')).
  - apply sqrt_Rsqr_abs.
  - unfold sq_dist, place; cbn [u0 u1]. transitivity ((t - t') * (t - t') * (ex * ex + ey * ey)); [ rewrite unit_e; ring | ring ].
Qed.
Lemma common_place q h : 0 <= h -> h * h = r1 * r1 - a * a -> (common q <-> (q = place a h \/ q = place a (- h))).
Proof.
  intros Hh E. rewrite common_eq. cbv zeta. rewrite <- E. split.
  - intros [Hs Ht]. assert (Z : ((u0 q - u0 c1) * ey - (u1 q - u1 c1) * ex - h) * ((u0 q - u0 c1) * ey - (u1 q - u1 c1) * ex + h) = 0) by lra.
    apply Rmult_integral in Z. destruct Z as [Z | Z]; [ left | right ]; apply place_of; lra.
  - intros [ -> | -> ]; rewrite place_s, place_t; split; ring.
Qed.
End Meet.

(** What intersectCircles returns for circles with different centres *)
Lemma meet_cases c1 r1 c2 r2 : 0 <= r1 -> 0 <= r2 -> c1 <> c2 ->
  let l := meet (u0 c1) (u1 c1) r1 (u0 c2) (u1 c2) r2 in
  (l = [] /\ forall q, ~ (on_circle c1 r1 q /\ on_circle c2 r2 q)) \/
  (exists p, l = [Some p] /\ (exists q, on_circle c1 r1 q /\ on_circle c2 r2 q) /\
     forall q, on_circle c1 r1 q -> on_circle c2 r2 q -> dist q p < / 10 ^ 10) \/
  (exists a b, l = [Some a; Some b] /\ 2 / 10 ^ 10 <= dist a b /\
     forall q, (on_circle c1 r1 q /\ on_circle c2 r2 q) <-> (q = a \/ q = b)).
Proof.
  intros P1 P2 NE. cbv zeta. unfold meet. rewrite hypot_dist. cbv zeta.
  replace (V2 (u0 c1) (u1 c1)) with c1 by (destruct c1; reflexivity).
  replace (V2 (u0 c2) (u1 c2)) with c2 by (destruct c2; reflexivity).
  assert (D : dist c1 c2 <> 0).
  { intros Z. apply NE. pose proof (dist_sq c1 c2) as S. rewrite Z in S. unfold sq_dist in S.
    pose proof (Rle_0_sqr (u0 c1 - u0 c2)) as Q1; pose proof (Rle_0_sqr (u1 c1 - u1 c2)) as Q2. unfold Rsqr in *.
    assert (Z1 : u0 c1 - u0 c2 = 0) by (apply Rsqr_0_uniq; unfold Rsqr; lra).
    assert (Z2 : u1 c1 - u1 c2 = 0) by (apply Rsqr_0_uniq; unfold Rsqr; lra).
    destruct c1 as [a0 a1], c2 as [b0 b1]; cbn [u0 u1] in *; f_equal; lra. }
  set (d := dist c1 c2) in *.
  destruct (ltb_spec (r1 + r2) d) as [[-> L] | [-> L1]].
  { left. split; [ reflexivity | ]. apply apart; exact L. }
  destruct (ltb_spec d (Rabs (r1 - r2))) as [[-> L] | [-> L2]].
  { left. split; [ reflexivity | ]. apply inside; exact L. }
  unfold quot. destruct (Req_EM_T (2 * d) 0) as [Z | _]; [ exfalso; lra | ].
  set (a := (square r1 - square r2 + square d) / (2 * d)).
  pose proof (height_nonneg c1 c2 r1 r2 P1 P2 D L1 L2) as HN. change (0 <= square r1 - square a) in HN.
  destruct (ltb_spec (square r1 - square a) 0) as [[-> L] | [-> L3]]; [ lra | ].
  set (h := sqrt (square r1 - square a)).
  assert (Hh : 0 <= h) by apply sqrt_pos.
  assert (HH : h * h = r1 * r1 - a * a) by (apply sqrt_sqrt; exact HN).
  pose proof (fun q => common_place c1 c2 r1 r2 P1 P2 D q h Hh HH) as CP.
  assert (PL : forall t, place c1 c2 a t = V2 (u0 c1 + a * (u0 c2 - u0 c1) / d + t * (u1 c2 - u1 c1) / d) (u1 c1 + a * (u1 c2 - u1 c1) / d - t * (u0 c2 - u0 c1) / d)).
  { intros t. unfold place. fold d. f_equal; unfold Rdiv; ring. }
  destruct (ltb_spec h (/ 10 ^ 10)) as [[-> L] | [-> L4]].
  - right; left. exists (V2 (u0 c1 + a * (u0 c2 - u0 c1) / d) (u1 c1 + a * (u1 c2 - u1 c1) / d)). split; [ reflexivity | ].
    assert (E0 : V2 (u0 c1 + a * (u0 c2 - u0 c1) / d) (u1 c1 + a * (u1 c2 - u1 c1) / d) = place c1 c2 a 0).
    { rewrite PL. f_equal; unfold Rdiv; ring. }
    rewrite E0. split.
    + exists (place c1 c2 a h). apply CP. left; reflexivity.
    + intros q Q1 Q2. destruct (proj1 (CP q) (conj Q1 Q2)) as [-> | ->].
      * pose proof (place_dist c1 c2 D a h 0) as PD.
        eapply Rle_lt_trans; [ right; exact PD | ]. rewrite Rminus_0_r, Rabs_pos_eq by exact Hh. exact L.
      * pose proof (place_dist c1 c2 D a (- h) 0) as PD.
        eapply Rle_lt_trans; [ right; exact PD | ]. rewrite Rminus_0_r, Rabs_Ropp, Rabs_pos_eq by exact Hh. exact L.
  - right; right. exists (place c1 c2 a h), (place c1 c2 a (- h)). split; [ | split ].
    + rewrite !PL. f_equal. f_equal. f_equal. f_equal; unfold Rdiv; ring.
    + pose proof (place_dist c1 c2 D a h (- h)) as PD. eapply Rle_trans; [ | right; symmetry; exact PD ].
      rewrite Rabs_pos_eq by lra. lra.
    + exact CP.
Qed.
Lemma meet_same x y r : 0 <= r -> meet x y r x y r = [None; None].
Proof.
  intros Hr. unfold meet, hypot. cbv zeta.
  replace (square (x - x) + square (y - y)) with 0 by (unfold square; ring). rewrite sqrt_0.
  destruct (ltb_spec (r + r) 0) as [[-> L] | [-> _]]; [ lra | ].
  destruct (ltb_spec 0 (Rabs (r - r))) as [[-> L] | [-> _]].
  { rewrite Rminus_diag_eq in L by reflexivity. rewrite Rabs_R0 in L. lra. }
  unfold quot. destruct (Req_EM_T (2 * 0) 0) as [_ | N]; [ | exfalso; apply N; ring ].
  destruct (Req_EM_T _ 0); reflexivity.
Qed.
