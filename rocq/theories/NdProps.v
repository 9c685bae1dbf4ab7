(** * Properties of normal distributions and their maximum-likelihood estimators *)
From Coquelicot Require Import Coquelicot.
From Coq Require Import Reals List Bool Arith Lra Lia Permutation.
From Verif Require Import Base NdModel NdSpec NdProofs.
Import ListNotations.
Local Open Scope R_scope.

(** ** C109: the distribution *)

(** Built and changed only with positive variances, a distribution has the bell curve of its
    mean and variance as density; the logarithm fits and the only peak is at the mean. *)
Theorem C109_density : forall m v,
  (v <= 0 -> make m v = Throw) /\
  (0 < v -> exists d, make m v = Ok d /\ represents d m v) /\
  (forall d m' v', represents d m' v' -> represents (setMean d m) m v' /\
     (v <= 0 -> setVariance d v = Throw) /\
     (0 < v -> exists d', setVariance d v = Ok d' /\ represents d' m' v)) /\
  (forall d, represents d m v -> forall x,
     pdf d x = gauss m v x /\ 0 < pdf d x /\ logpdf d x = ln (gauss m v x) /\
     pdf d (m + x) = pdf d (m - x) /\
     pdf d x <= pdf d (peak d) /\ (pdf d x = pdf d (peak d) -> x = peak d)).
Proof.
  intros m v. split; [apply make_neg|]. split; [apply make_pos|]. split.
  - intros d m' v' (E & W & V & P & D & D' & N). split.
    + unfold represents, setMean. cbn [mean variance precision deviation normalizer].
      split; [reflexivity|]. split; [exact W|]. split; [exact V|]. split; [exact P|]. split; [exact D|].
      split; [exact D' | exact N].
    + split.
      * intros H. unfold setVariance. destruct (Rle_dec v 0); [reflexivity | lra].
      * intros H. exists (Normal m' v (1 / v) (sqrt v) (1 / 2 * ln (2 * PI * v))).
        split; [|exact (proj1 (built d m' v H))]. unfold setVariance. destruct (Rle_dec v 0); [lra|]. rewrite E. reflexivity.
  - intros d H x. pose proof (pdf_is d m v x H) as P.
    split; [exact P|]. split; [apply exp_pos|].
    split; [rewrite <- P; unfold pdf; rewrite ln_exp; reflexivity|].
    split; [unfold pdf; rewrite !(logpdf_is d m v _ H); f_equal; destruct H as (_ & _ & V & _); field; lra|].
    unfold peak. replace (mean d) with m by (destruct H as (E & _); symmetry; exact E).
    apply (pdf_peak d m v x H).
Qed.
Print Assumptions C109_density.

(** The cumulative function grows with the density and is one half at the median. *)
Theorem C109_cumulative : forall erf, error_function erf -> forall d m v, represents d m v ->
  (forall x, is_derive (cdf erf d) x (pdf d x)) /\ cdf erf d (median d) = 1 / 2.
Proof.
  intros erf E d m v H. split; [intros x; apply (cdf_rate erf d m v x E H)|].
  destruct E as [E _]. unfold cdf, median. replace ((mean d - mean d) / sqrt (2 * variance d)) with 0.
  - rewrite E. lra.
  - unfold Rdiv. ring.
Qed.
Print Assumptions C109_cumulative.

(** The divergence is never negative and vanishes exactly between equal distributions. *)
Theorem C109_divergence : forall d o m v m' v', represents d m v -> represents o m' v' ->
  0 <= divergence d o /\ (divergence d o = 0 <-> m = m' /\ v = v').
Proof.
  intros d o m v m' v' H H'. rewrite (divergence_is d o m v m' v' H H').
  destruct H as (_ & _ & V & _), H' as (_ & _ & V' & _).
  assert (T : 0 < v / v') by (apply Rmult_lt_0_compat; [exact V | apply Rinv_0_lt_compat, V']).
  pose proof (ln_below _ T) as L.
  assert (Q : 0 <= (m - m') * (m - m') / v').
  { apply Rmult_le_pos; [apply Rle_0_sqr | left; apply Rinv_0_lt_compat, V']. }
  split; [lra|]. split.
  - intros Z. assert (Z1 : ln (v / v') = v / v' - 1) by lra. assert (Z2 : (m - m') * (m - m') / v' = 0) by lra.
    apply (ln_below_eq _ T) in Z1. split.
    + assert (Z3 : (m - m') * (m - m') = 0).
      { replace ((m - m') * (m - m')) with ((m - m') * (m - m') / v' * v') by (field; lra). rewrite Z2. ring. }
      apply Rsqr_0_uniq in Z3. lra.
    + replace v with (v / v' * v') by (field; lra). rewrite Z1. ring.
  - intros [E F]. rewrite E, F. replace (v' / v') with 1 by (field; lra). rewrite ln_1. unfold Rdiv. ring.
Qed.
Print Assumptions C109_divergence.

(** There is an error function, a distribution with mean 1 and variance 4, and its
    divergence from the standard one is 2 - ln 2. *)
Example C109_ex :
  (exists erf, error_function erf) /\
  (exists d, make 1 4 = Ok d /\ represents d 1 4 /\ deviation d = 2 /\ divergence d standard = 2 - ln 2).
Proof.
  split.
  - exists (fun x => RInt (fun t => 2 / sqrt PI * exp (- (t * t))) 0 x). split; [exact (RInt_point 0 (fun t : R => 2 / sqrt PI * exp (- (t * t))))|].
    assert (C : forall z : R, continuous (fun t => 2 / sqrt PI * exp (- (t * t))) z).
    { intros z. apply (ex_derive_continuous (fun t => 2 / sqrt PI * exp (- (t * t)))). auto_derive. exact I. }
    intros x. apply (is_derive_RInt (fun t => 2 / sqrt PI * exp (- (t * t))) _ 0).
    + apply filter_forall. intros y. apply (RInt_correct (V := R_CompleteNormedModule)), (ex_RInt_continuous (V := R_CompleteNormedModule)). intros z _. apply C.
    + apply C.
  - destruct (make_pos 1 4 ltac:(lra)) as (d & E & H). exists d. split; [exact E|]. split; [exact H|].
    split.
    + destruct H as (_ & _ & _ & _ & P & Q & _). apply Rsqr_inj; [exact P | lra | unfold Rsqr; lra].
    + rewrite (divergence_is d standard 1 4 0 1 H (proj1 (built standard 0 1 Rlt_0_1))).
      replace (4 / 1) with (2 * 2) by field. rewrite ln_mult by lra. field.
Qed.

(** ** C110: the estimator *)

(** From the last reset on, whatever was done before: the points are counted, the mean is
    their average, and the estimate is valid exactly if two points differ, with the spread of
    the points as variance; before that the variance is left alone. *)
Theorem C110_estimate : forall e xs, xs <> [] ->
  let e' := addPoints (reset e) xs in
  count e' = length xs /\ mean (dist e') = average xs /\
  (valid e' = true <-> two_different xs) /\
  (valid e' = true -> represents (dist e') (average xs) (spread xs)) /\
  (valid e' = false -> dist e' = setMean (dist e) (average xs)).
Proof.
  intros e xs N e'. destruct (holds_adds (dist e) xs _ _ (holds_reset e)) as (C & _ & _ & H & _).
  cbn [app] in *. fold e' in C, H. destruct (H N) as [A B]. split; [exact C|].
  destruct (Rlt_dec 0 (spread xs)) as [P|P].
  - assert (D : two_different xs) by (apply spread_pos; assumption). destruct (A D) as [V W].
    split; [destruct W as (E & _); exact E|]. split; [tauto|]. split; [intros _; exact W | congruence].
  - assert (D : ~ two_different xs) by (intros D; apply P, spread_pos; assumption). destruct (B D) as [V W].
    split; [rewrite W; reflexivity|]. split; [split; [congruence | tauto]|]. split; [congruence | intros _; exact W].
Qed.
Print Assumptions C110_estimate.

(** A valid estimate is the most likely distribution. *)
Theorem C110_likelihood : forall e xs, let e' := addPoints (reset e) xs in valid e' = true ->
  forall d m v, represents d m v -> total (logpdf d) xs <= total (logpdf (dist e')) xs.
Proof.
  intros e xs e' V d m v H.
  destruct xs as [|x xs]; [cbn [total]; lra|].
  destruct (C110_estimate e (x :: xs) ltac:(discriminate)) as (_ & _ & _ & W & _). fold e' in W. specialize (W V).
  set (l := map (fun y => (y, 1)) (x :: xs)).
  assert (T : total snd l = INR (length (x :: xs))).
  { unfold l. rewrite total_map. cbn [snd]. rewrite total_const. ring. }
  pose proof (length_pos (x :: xs) ltac:(discriminate)) as P.
  assert (A : waverage l = average (x :: xs)).
  { unfold waverage, average. rewrite T. unfold l. rewrite total_map. f_equal. apply total_ext. intros y _. cbn [fst snd]. ring. }
  assert (S : wspread l = spread (x :: xs)).
  { unfold wspread, spread. rewrite T, A. unfold l. rewrite total_map. f_equal. apply total_ext. intros y _. cbn [fst snd]. ring. }
  assert (K : forall k, total (fun p => snd p * logpdf k (fst p)) l = total (logpdf k) (x :: xs)).
  { intros k. unfold l. rewrite total_map. apply total_ext. intros y _. cbn [fst snd]. ring. }
  rewrite <- !K. apply (likelihood _ l m v d); [rewrite T; exact P | rewrite A, S; exact W | exact H].
Qed.
Print Assumptions C110_likelihood.

(** The order of the points does not matter. *)
Theorem C110_order : forall e xs ys, Permutation xs ys ->
  let a := addPoints (reset e) xs in let b := addPoints (reset e) ys in
  count a = count b /\ valid a = valid b /\ mean (dist a) = mean (dist b) /\ variance (dist a) = variance (dist b).
Proof.
  intros e xs ys P a b.
  destruct xs as [|x xs].
  - apply Permutation_nil in P. unfold a, b. rewrite P. split; [reflexivity|]. split; [reflexivity|]. split; reflexivity.
  - assert (NY : ys <> []) by (intros E; rewrite E in P; apply Permutation_sym, Permutation_nil in P; discriminate P).
    destruct (C110_estimate e (x :: xs) ltac:(discriminate)) as (C & M & V & T & F).
    destruct (C110_estimate e ys NY) as (C' & M' & V' & T' & F'). fold a in C, M, V, T, F. fold b in C', M', V', T', F'.
    assert (L : length (x :: xs) = length ys) by (apply Permutation_length, P).
    assert (A : average (x :: xs) = average ys) by (unfold average; rewrite L, (total_perm _ _ _ P); reflexivity).
    assert (S : spread (x :: xs) = spread ys) by (unfold spread; rewrite A, L, (total_perm _ _ _ P); reflexivity).
    assert (D : two_different (x :: xs) <-> two_different ys).
    { rewrite <- (spread_pos (x :: xs)), <- (spread_pos ys), S by (assumption || discriminate). reflexivity. }
    assert (VV : valid a = valid b).
    { destruct (valid a) eqn:Ea, (valid b) eqn:Eb; try reflexivity; exfalso.
      - assert (false = true) by tauto. discriminate.
      - assert (false = true) by tauto. discriminate. }
    split; [congruence|]. split; [exact VV|]. split; [congruence|].
    destruct (valid a) eqn:Ea.
    + destruct (T eq_refl) as (_ & W & _). destruct (T' (eq_sym VV)) as (_ & W' & _). congruence.
    + rewrite (F eq_refl), (F' (eq_sym VV)). reflexivity.
Qed.
Print Assumptions C110_order.

(** With responsibilities: mean and variance are the weighted ones and the result is the most
    likely distribution for these weights; nothing is done when the numbers of weights and
    points differ. *)
Theorem C110_weighted : forall e xs ws,
  (length ws <> length xs -> addWeighted e xs ws = Some e) /\
  (length ws = length xs -> 0 < total (fun w => w) ws ->
   exists e', addWeighted e xs ws = Some e' /\
     mean (dist e') = waverage (combine xs ws) /\
     (valid e' = true <-> 0 < wspread (combine xs ws)) /\
     (valid e' = true ->
        represents (dist e') (waverage (combine xs ws)) (wspread (combine xs ws)) /\
        forall d m v, represents d m v ->
          total (fun p => snd p * logpdf d (fst p)) (combine xs ws) <=
          total (fun p => snd p * logpdf (dist e') (fst p)) (combine xs ws)) /\
     count e' = count e /\ vsum e' = vsum e /\ ssum e' = ssum e).
Proof.
  intros e xs ws. split.
  - intros L. unfold addWeighted. destruct (Nat.eqb_spec (length ws) (length xs)); [congruence | reflexivity].
  - intros L P. unfold addWeighted. rewrite L, Nat.eqb_refl. cbn [negb].
    assert (T : total snd (combine xs ws) = total (fun w => w) ws).
    { clear P e. revert ws L. induction xs as [|x xs IH]; intros [|w ws] L; try discriminate L; [reflexivity|].
      cbn [combine total snd]. injection L as L. rewrite IH by exact L. reflexivity. }
    replace (fold_left Rplus ws 0) with (total (fun w => w) ws)
      by (pose proof (total_fold (fun w : R => w) ws 0) as F; cbv beta in F; change (fold_left (fun a x => a + x) ws 0) with (fold_left Rplus ws 0) in F; lra).
    rewrite <- T in *. destruct (Req_EM_T (total snd (combine xs ws)) 0) as [Z|_]; [lra|]. cbv zeta.
    rewrite (total_fold (fun xw => snd xw * fst xw)), Rplus_0_l. fold (waverage (combine xs ws)).
    rewrite (total_fold (fun xw => snd xw * (fst xw - waverage (combine xs ws)) * (fst xw - waverage (combine xs ws)))), Rplus_0_l.
    rewrite (total_ext _ (fun p => snd p * ((fst p - waverage (combine xs ws)) * (fst p - waverage (combine xs ws))))) by (intros p _; ring).
    fold (wspread (combine xs ws)).
    destruct (Rlt_dec 0 (wspread (combine xs ws))) as [W|W].
    + rewrite (settled_pos _ _ _ W). eexists. split; [reflexivity|]. cbn [dist valid count vsum ssum].
      split; [reflexivity|]. split; [tauto|].
      pose proof (proj1 (built standard (waverage (combine xs ws)) _ W)) as B.
      split; [intros _; split; [exact B|]; intros d m v H; apply (likelihood _ _ m v d P B H)|].
      split; [reflexivity|]. split; reflexivity.
    + rewrite settled_neg by lra. eexists. split; [reflexivity|]. cbn [dist valid count vsum ssum].
      split; [reflexivity|]. split; [split; [discriminate | intros K; contradiction]|]. split; [discriminate|].
      split; [reflexivity|]. split; reflexivity.
Qed.
Print Assumptions C110_weighted.

(** Weighted points are not remembered: they are not counted and the next point added
    replaces them. *)
Theorem C110_weighted_refuted : exists xs ws e' e'',
  addWeighted fresh xs ws = Some e' /\ e'' = addPoint e' 7 /\ length xs = 2%nat /\ valid e' = true /\
  mean (dist e') = 2 /\ count e' = 0%nat /\ mean (dist e'') = 7 /\ valid e'' = false.
Proof.
  destruct (proj2 (C110_weighted fresh [1; 3] [1; 1])) as (e' & E & M & V & _ & C & S & Q).
  - reflexivity.
  - cbn [total]. lra.
  - exists [1; 3], [1; 1], e', (addPoint e' 7). split; [exact E|]. split; [reflexivity|]. split; [reflexivity|].
    assert (A : waverage (combine [1; 3] [1; 1]) = 2) by (unfold waverage; cbn [combine total fst snd]; field).
    split; [apply V; unfold wspread; rewrite A; cbn [combine total fst snd]; lra|].
    split; [rewrite M; exact A|]. split; [exact C|].
    cbn [fresh count vsum ssum] in C, S, Q.
    unfold addPoint. rewrite C, S, Q. cbv zeta. cbn [INR].
    rewrite settled_neg by lra. cbn [dist valid mean setMean]. split; [lra | reflexivity].
Qed.
Print Assumptions C110_weighted_refuted.

(** Several numbers: from the last reset on the means are the averages and, if accepted, the
    covariance is the symmetric positive semi-definite one of the points; it is accepted
    exactly if Eigen finds it positive. *)
Theorem C110_vectors : forall positive M e xs, xs <> [] ->
  let e' := addVectors positive M (resets e) xs in
  counts e' = length xs /\ valids e' = positive M (covariances xs) /\
  (forall i, means (dists e') i = averages xs i) /\
  (valids e' = true -> forall i j, covariance (dists e') i j = covariances xs i j) /\
  (forall i j, covariances xs i j = covariances xs j i) /\
  (forall z, 0 <= sum_below M (fun i => sum_below M (fun j => z i * covariances xs i j * z j))).
Proof.
  intros positive M e xs N e'.
  assert (H0 : holdv positive M (resets e) []).
  { unfold holdv. split; [reflexivity|]. split; intros K; congruence. }
  destruct (holdv_adds positive M xs _ _ H0) as (C & V & H). cbn [app] in *. fold e' in C, V, H.
  split; [exact C|]. split; [apply V, N|]. split; [intros i; apply (H N i i)|].
  split; [intros T i j; apply (H N i j), T|].
  split; [intros i j; unfold covariances; f_equal; apply total_ext; intros x _; ring|].
  intros z. apply covariances_psd, N.
Qed.
Print Assumptions C110_vectors.

(** Points 1, 3, 5 give mean 3 and variance 8/3; a single point is not enough. *)
Example C110_ex :
  let e := addPoints (reset (addPoint fresh 9)) [1; 3; 5] in
  valid e = true /\ mean (dist e) = 3 /\ variance (dist e) = 8 / 3 /\ count e = 3%nat /\
  valid (addPoints (reset fresh) [4]) = false.
Proof.
  intros e.
  destruct (C110_estimate (addPoint fresh 9) [1; 3; 5] ltac:(discriminate)) as (C & M & V & T & _). fold e in C, M, V, T.
  assert (A : average [1; 3; 5] = 3) by (unfold average; cbn [total length INR]; field).
  assert (V' : valid e = true).
  { apply V. exists 1, 3. split; [left; reflexivity|]. split; [right; left; reflexivity | lra]. }
  split; [exact V'|]. split; [rewrite M; exact A|].
  split; [destruct (T V') as (_ & W & _); rewrite W; unfold spread; rewrite A; cbn [total length INR]; field|].
  split; [exact C|].
  destruct (C110_estimate fresh [4] ltac:(discriminate)) as (_ & _ & V1 & _).
  destruct (valid (addPoints (reset fresh) [4])); [|reflexivity].
  destruct (proj1 V1 eq_refl) as (x & y & [Hx|[]] & [Hy|[]] & D). congruence.
Qed.
