(** * C113: gamma and chi-square distributions *)
From Coquelicot Require Import Coquelicot.
From Coq Require Import Reals List Lra.
From Verif Require Import Base GxModel GxSpec GxProofs.
Import ListNotations.
Local Open Scope R_scope.

(** A distribution is built exactly from positive parameters, whatever was in the memory
    before, and a setter refused leaves it alone; after any sequence of setters the
    parameters are positive and the normalizer belongs to them. *)
Theorem C113_parameters :
  forall lgamma : R -> R,
    (forall fresh k b, 0 < k -> 0 < b -> build lgamma fresh k b = Ok (Gamma k b (lgamma k - k * ln b))) /\
    (forall fresh k b, k <= 0 \/ b <= 0 -> build lgamma fresh k b = Throw) /\
    (forall d k, k <= 0 -> setShape lgamma d k = Throw) /\ (forall d b, b <= 0 -> setRate lgamma d b = Throw) /\
    (forall fresh k b d changes, build lgamma fresh k b = Ok d ->
       let d' := fold_left (apply lgamma) changes d in
       0 < shape d' /\ 0 < rate d' /\ normalizer d' = lgamma (shape d') - shape d' * ln (rate d')) /\
    (forall d k, 0 < k -> shape (apply lgamma d (Shape k)) = k /\ rate (apply lgamma d (Shape k)) = rate d) /\
    (forall d b, 0 < b -> shape (apply lgamma d (Rate b)) = shape d /\ rate (apply lgamma d (Rate b)) = b).
Proof.
  intros lgamma.
  assert (B : forall fresh k b, 0 < k -> 0 < b -> build lgamma fresh k b = Ok (Gamma k b (lgamma k - k * ln b))).
  { intros fresh k b K P. unfold build, setShape, setRate. destruct (Rle_dec k 0); [lra|]. cbn [obind]. destruct (Rle_dec b 0); [lra | reflexivity]. }
  assert (T : forall fresh k b, k <= 0 \/ b <= 0 -> build lgamma fresh k b = Throw).
  { intros fresh k b H. unfold build, setShape, setRate. destruct (Rle_dec k 0); [reflexivity|]. cbn [obind]. destruct (Rle_dec b 0); [reflexivity | lra]. }
  split; [exact B|]. split; [exact T|]. split; [|split; [|split; [|split]]].
  - intros d k H. unfold setShape. destruct (Rle_dec k 0); [reflexivity | lra].
  - intros d b H. unfold setRate. destruct (Rle_dec b 0); [reflexivity | lra].
  - intros fresh k b d changes H.
    assert (F : fits lgamma d).
    { destruct (Rlt_dec 0 k) as [K|K]; [|rewrite T in H by lra; discriminate H].
      destruct (Rlt_dec 0 b) as [P|P]; [|rewrite T in H by lra; discriminate H].
      rewrite (B fresh k b K P) in H. injection H as <-. split; [exact K|]. split; [exact P | reflexivity]. }
    clear H. revert d F. induction changes as [|c changes IH]; intros d F; [exact F|]. cbn [fold_left]. apply IH.
    destruct F as (K & P & N). destruct c as [k'|b']; unfold apply, setShape, setRate.
    + destruct (Rle_dec k' 0); [split; [exact K | split; assumption]|]. split; cbn [shape rate normalizer]; [lra|]. split; [exact P | reflexivity].
    + destruct (Rle_dec b' 0); [split; [exact K | split; assumption]|]. split; cbn [shape rate normalizer]; [exact K|]. split; [lra | reflexivity].
  - intros d k K. unfold apply, setShape. destruct (Rle_dec k 0); [lra|]. split; reflexivity.
  - intros d b P. unfold apply, setRate. destruct (Rle_dec b 0); [lra|]. split; reflexivity.
Qed.

(** The density is the gamma density: zero below zero, and the log-density its logarithm. *)
Theorem C113_density :
  forall lgamma fresh k b d, build lgamma fresh k b = Ok d ->
    (forall x, 0 < x -> pdf d x = gamma_density lgamma k b x /\ logpdf d x = ln (pdf d x)) /\
    (forall x, x < 0 -> pdf d x = 0).
Proof.
  intros lgamma fresh k b d H. pose proof (C113_parameters lgamma) as (B & T & _).
  destruct (Rlt_dec 0 k) as [K|K]; [|rewrite T in H by lra; discriminate H].
  destruct (Rlt_dec 0 b) as [P|P]; [|rewrite T in H by lra; discriminate H].
  rewrite (B fresh k b K P) in H. injection H as <-. split.
  - intros x X. unfold pdf, logpdf. cbn [shape rate normalizer]. destruct (Rlt_dec x 0); [lra|]. destruct (Req_EM_T x 0); [lra|].
    split; [|rewrite ln_exp; reflexivity]. unfold gamma_density, Rpower, Rdiv. rewrite <- exp_Ropp, <- !exp_plus. f_equal. ring.
  - intros x X. unfold pdf. destruct (Rlt_dec x 0); [reflexivity | lra].
Qed.

(** If the density integrates to one, that is if lgamma is right, mean and variance are the
    moments. *)
Theorem C113_moments :
  forall lgamma fresh k b d, build lgamma fresh k b = Ok d -> integral (pdf d) 1 ->
    getMean d = k / b /\ integral (fun x => x * pdf d x) (getMean d) /\
    integral (fun x => (x - getMean d) * (x - getMean d) * pdf d x) (getVariance d).
Proof.
  intros lgamma fresh k b d H I. pose proof (C113_parameters lgamma) as (B & T & _).
  destruct (Rlt_dec 0 k) as [K|K]; [|rewrite T in H by lra; discriminate H].
  destruct (Rlt_dec 0 b) as [P|P]; [|rewrite T in H by lra; discriminate H].
  rewrite (B fresh k b K P) in H. injection H as <-.
  assert (F : fits lgamma (Gamma k b (lgamma k - k * ln b))) by (split; [exact K | split; [exact P | reflexivity]]).
  split; [reflexivity|]. split; [exact (mean_integral lgamma _ F I) | exact (variance_integral lgamma _ F I)].
Qed.

(** The mode is the only place where the density is largest; below shape one there is none
    and the function throws. *)
Theorem C113_mode :
  forall lgamma fresh k b d, build lgamma fresh k b = Ok d ->
    (1 <= k -> exists m, getMode d = Ok m /\ 0 <= m /\ forall x, 0 < x -> x <> m -> pdf d x < pdf d m) /\
    (k < 1 -> getMode d = Throw /\ forall x y, 0 < x < y -> pdf d y < pdf d x).
Proof.
  intros lgamma fresh k b d H. pose proof (C113_parameters lgamma) as (B & T & _).
  destruct (Rlt_dec 0 k) as [K|K]; [|rewrite T in H by lra; discriminate H].
  destruct (Rlt_dec 0 b) as [P|P]; [|rewrite T in H by lra; discriminate H].
  rewrite (B fresh k b K P) in H. injection H as <-. split; intros L.
  - exists ((k - 1) / b). unfold getMode, pdf, logpdf. cbn [shape rate normalizer].
    assert (M : 0 <= (k - 1) / b) by (apply Rmult_le_pos; [lra | left; apply Rinv_0_lt_compat, P]).
    destruct (Rle_dec 1 k); [|lra]. split; [reflexivity|]. split; [exact M|].
    intros x X N. destruct (Rlt_dec x 0); [lra|]. destruct (Rlt_dec ((k - 1) / b) 0); [lra|]. destruct (Req_EM_T x 0); [lra|].
    apply exp_increasing. destruct (Req_EM_T ((k - 1) / b) 0) as [Z|Z].
    + assert (k - 1 = 0) as -> by (replace (k - 1) with ((k - 1) / b * b) by (field; lra); rewrite Z; ring).
      assert (0 < x * b) by (apply Rmult_lt_0_compat; lra). lra.
    + set (m := (k - 1) / b) in *. assert (M' : 0 < m) by lra.
      assert (E : k - 1 = m * b) by (unfold m; field; lra). rewrite E.
      assert (Q : 0 < x / m) by (apply Rmult_lt_0_compat; [lra | apply Rinv_0_lt_compat, M']).
      assert (Q1 : x / m <> 1) by (intros C; apply N; replace x with (x / m * m) by (field; lra); rewrite C; ring).
      pose proof (ln_less (x / m) Q Q1) as G. unfold Rdiv in G at 1. rewrite ln_mult, ln_Rinv in G; [|exact M' | exact X | apply Rinv_0_lt_compat, M'].
      assert (m * b * (ln x - ln m) < m * b * (x / m - 1)) by (apply Rmult_lt_compat_l; [apply Rmult_lt_0_compat; assumption | lra]).
      assert (m * b * (x / m - 1) = x * b - m * b) by (field; lra). lra.
  - split; [unfold getMode; cbn [shape]; destruct (Rle_dec 1 k); [lra | reflexivity]|].
    intros x y [X Y]. unfold pdf, logpdf. cbn [shape rate normalizer].
    destruct (Rlt_dec y 0); [lra|]. destruct (Rlt_dec x 0); [lra|]. destruct (Req_EM_T y 0); [lra|]. destruct (Req_EM_T x 0); [lra|].
    apply exp_increasing. pose proof (ln_increasing x y X Y). nra.
Qed.

(** The divergence is the expected logarithm of the ratio of the densities, given that the
    expectation of ln x is digamma(shape) - ln(rate), plus a term that is wrong ... *)
Theorem C113_divergence :
  forall lgamma digamma fresh k b k' b' d o,
    build lgamma fresh k b = Ok d -> build lgamma fresh k' b' = Ok o ->
    (forall x, 0 < x -> ln (pdf d x / pdf o x) = log_ratio lgamma k b k' b' (ln x) x) /\
    divergence lgamma digamma d o =
      log_ratio lgamma k b k' b' (digamma k - ln b) (k / b) + (k' - 1) * (digamma k - digamma k') /\
    (k = k' -> 0 <= divergence lgamma digamma d o /\ (divergence lgamma digamma d o = 0 <-> b = b')).
Proof.
  intros lgamma digamma fresh k b k' b' d o H H'. pose proof (C113_parameters lgamma) as (B & T & _).
  destruct (Rlt_dec 0 k) as [K|K]; [|rewrite T in H by lra; discriminate H].
  destruct (Rlt_dec 0 b) as [P|P]; [|rewrite T in H by lra; discriminate H].
  destruct (Rlt_dec 0 k') as [K'|K']; [|rewrite T in H' by lra; discriminate H'].
  destruct (Rlt_dec 0 b') as [P'|P']; [|rewrite T in H' by lra; discriminate H'].
  rewrite (B fresh k b K P) in H. injection H as <-. rewrite (B fresh k' b' K' P') in H'. injection H' as <-.
  split; [|split].
  - intros x X. unfold pdf, logpdf. cbn [shape rate normalizer]. destruct (Rlt_dec x 0); [lra|]. destruct (Req_EM_T x 0); [lra|].
    unfold Rdiv. rewrite <- exp_Ropp, <- exp_plus, ln_exp. unfold log_ratio. ring.
  - unfold divergence, log_ratio. cbn [shape rate]. field. lra.
  - intros E. subst k'.
    set (t := b' / b). assert (TP : 0 < t) by (apply Rmult_lt_0_compat; [exact P' | apply Rinv_0_lt_compat, P]).
    assert (V : divergence lgamma digamma (Gamma k b (lgamma k - k * ln b)) (Gamma k b' (lgamma k - k * ln b')) = k * (t - 1 - ln t)).
    { unfold divergence, t, Rdiv. cbn [shape rate]. rewrite ln_mult, ln_Rinv; [|exact P | exact P' | apply Rinv_0_lt_compat, P]. field. lra. }
    rewrite V. pose proof (ln_le_less t TP). split; [nra|]. split.
    + intros Z. destruct (Req_dec t 1) as [E|N].
      * unfold t in E. replace b' with (b' / b * b) by (field; lra). rewrite E. ring.
      * pose proof (ln_less t TP N). nra.
    + intros E. assert (t = 1) as -> by (unfold t; rewrite E; field; lra). rewrite ln_1. ring.
Qed.

(** ... and makes the divergence negative already between the shapes 1 and 2, if digamma is
    the increasing derivative of lgamma. *)
Theorem C113_divergence_refuted :
  forall lgamma digamma : R -> R, lgamma 1 = lgamma 2 ->
    (forall x, 1 <= x <= 2 -> is_derive lgamma x (digamma x)) ->
    (forall x y, 1 <= x < y -> y <= 2 -> digamma x < digamma y) ->
    forall fresh, exists d o, build lgamma fresh 1 1 = Ok d /\ build lgamma fresh 2 1 = Ok o /\
      divergence lgamma digamma d o < 0.
Proof.
  intros lgamma digamma E D M fresh. pose proof (C113_parameters lgamma) as (B & _).
  exists (Gamma 1 1 (lgamma 1 - 1 * ln 1)), (Gamma 2 1 (lgamma 2 - 2 * ln 1)).
  split; [apply B; lra|]. split; [apply B; lra|].
  destruct (MVT_gen lgamma 1 2 digamma) as (c & C & V).
  - intros x X. rewrite Rmin_left, Rmax_right in X by lra. apply D. lra.
  - intros x X. rewrite Rmin_left, Rmax_right in X by lra. apply derivable_continuous_pt.
    exists (digamma x). apply is_derive_Reals, D. lra.
  - rewrite Rmin_left, Rmax_right in C by lra.
    assert (Z : digamma c = 0) by lra.
    assert (Q : 0 < digamma 2).
    { destruct (Req_dec c 2) as [E2|N2]; [|pose proof (M c 2 ltac:(lra) ltac:(lra)); lra].
      (* the mean value at the end: take it between 1 and 3/2 and 3/2 and 2 *)
      exfalso. subst c.
      destruct (MVT_gen lgamma 1 (3 / 2) digamma) as (c1 & C1 & V1).
      { intros x X. rewrite Rmin_left, Rmax_right in X by lra. apply D. lra. }
      { intros x X. rewrite Rmin_left, Rmax_right in X by lra. apply derivable_continuous_pt. exists (digamma x). apply is_derive_Reals, D. lra. }
      destruct (MVT_gen lgamma (3 / 2) 2 digamma) as (c2 & C2 & V2).
      { intros x X. rewrite Rmin_left, Rmax_right in X by lra. apply D. lra. }
      { intros x X. rewrite Rmin_left, Rmax_right in X by lra. apply derivable_continuous_pt. exists (digamma x). apply is_derive_Reals, D. lra. }
      rewrite Rmin_left, Rmax_right in C1 by lra. rewrite Rmin_left, Rmax_right in C2 by lra.
      assert (digamma c1 < 0) by (rewrite <- Z; apply M; lra).
      assert (digamma c2 <= 0) by (destruct (Req_dec c2 2) as [->|N2]; [lra | left; rewrite <- Z; apply M; lra]).
      lra. }
    unfold divergence. cbn [shape rate]. rewrite E. lra.
Qed.

(** A chi-square distribution of positive degrees of freedom n has mean n and variance 2 n. *)
Theorem C113_chi_square :
  forall lgamma fresh n,
    (0 < n -> exists d, chiSquare lgamma fresh n = Ok d /\ getDegrees d = n /\ getMean d = n /\ getVariance d = 2 * n /\
       (2 <= n -> getMode d = Ok (n - 2)) /\
       forall m, 0 < m -> exists e, setDegrees lgamma d m = Ok e /\ chiSquare lgamma fresh m = Ok e) /\
    (n <= 0 -> chiSquare lgamma fresh n = Throw /\ forall d, setDegrees lgamma d n = Throw).
Proof.
  intros lgamma fresh n. pose proof (C113_parameters lgamma) as (B & T & S & _). split.
  - intros N. unfold chiSquare. rewrite (B fresh (1 / 2 * n) (1 / 2)) by lra.
    exists (Gamma (1 / 2 * n) (1 / 2) (lgamma (1 / 2 * n) - 1 / 2 * n * ln (1 / 2))). split; [reflexivity|].
    split; [unfold getDegrees; cbn [shape]; lra|]. split; [unfold getMean; cbn [shape rate]; field|].
    split; [unfold getVariance; cbn [shape rate]; field|]. split.
    + intros M. unfold getMode. cbn [shape rate]. destruct (Rle_dec 1 (1 / 2 * n)); [|lra]. f_equal. field.
    + intros m M. exists (Gamma (1 / 2 * m) (1 / 2) (lgamma (1 / 2 * m) - 1 / 2 * m * ln (1 / 2))). split.
      * unfold setDegrees, setShape, computeNormalizer. cbn [rate]. destruct (Rle_dec (m * (1 / 2)) 0); [lra|].
        replace (m * (1 / 2)) with (1 / 2 * m) by ring. reflexivity.
      * apply B; lra.
  - intros N. split; [apply T; lra | intros d; apply S; lra].
Qed.

(** The exponential law, shape 1: the density integrates to one, so mean and variance are
    its moments.  A quadratic meets the conditions on lgamma of the refutation. *)
Example C113_ex :
  (exists d, build (fun _ => 0) (Gamma 0 0 0) 1 2 = Ok d /\ integral (pdf d) 1 /\
     integral (fun x => x * pdf d x) (1 / 2) /\ getMode d = Ok 0 /\ getVariance d = 1 / 4) /\
  (exists d o, build (fun x => (x - 1) * (x - 2)) (Gamma 0 0 0) 1 1 = Ok d /\
     build (fun x => (x - 1) * (x - 2)) (Gamma 0 0 0) 2 1 = Ok o /\
     divergence (fun x => (x - 1) * (x - 2)) (fun x => 2 * x - 3) d o < 0) /\
  chiSquare (fun _ => 0) (Gamma 0 0 0) 0 = Throw.
Proof.
  split; [|split].
  - set (d := Gamma 1 2 (0 - 1 * ln 2)).
    assert (H : build (fun _ => 0) (Gamma 0 0 0) 1 2 = Ok d) by (apply (proj1 (C113_parameters (fun _ => 0))); lra).
    assert (F : forall x, 0 < x -> 2 * exp (- (2 * x)) = pdf d x).
    { intros x X. rewrite pdf_term by exact X. unfold d, term. cbn [shape rate normalizer].
      replace (- (0 - 1 * ln 2)) with (ln 2) by ring. rewrite exp_ln by lra. f_equal. f_equal. ring. }
    assert (I : integral (pdf d) 1).
    { apply (integral_ext (fun x => 2 * exp (- (2 * x)))); [exact F|]. intros eps E.
      set (u := Rmin (eps / 4) (1 / 4)).
      assert (U : 0 < u /\ u <= eps / 4 /\ u <= 1 / 4) by (unfold u; pose proof (Rmin_l (eps / 4) (1 / 4)); pose proof (Rmin_r (eps / 4) (1 / 4)); split; [apply Rmin_glb_lt; lra | lra]).
      destruct (term_at_infinity 2 1 (eps / 2) ltac:(lra) ltac:(lra) ltac:(lra)) as (c0 & C0 & C).
      exists u, (Rmax 1 c0). pose proof (Rmax_l 1 c0). pose proof (Rmax_r 1 c0). split; [lra|].
      intros a c HA HC. exists (exp (- (2 * a)) - exp (- (2 * c))). split.
      - replace (exp (- (2 * a)) - exp (- (2 * c))) with ((- exp (- (2 * c))) - (- exp (- (2 * a)))) by ring.
        apply (is_RInt_derive (fun x => - exp (- (2 * x)))).
        + intros x _. auto_derive; [exact Logic.I | ring].
        + intros x _. apply (ex_derive_continuous (fun x => 2 * exp (- (2 * x)))). auto_derive. exact Logic.I.
      - assert (N : - (2 * a) <> 0) by lra. pose proof (exp_ineq1 _ N) as A1.
        assert (A2 : exp (- (2 * a)) < 1) by (rewrite <- exp_0; apply exp_increasing; lra).
        pose proof (exp_pos (- (2 * c))) as A3. specialize (C c ltac:(lra)). unfold term in C.
        assert (A4 : exp (- (2 * c)) < eps / 2).
        { apply Rle_lt_trans with (exp (1 * ln c - 2 * c)); [|exact C]. left. apply exp_increasing.
          assert (0 < ln c) by (rewrite <- ln_1; apply ln_increasing; lra). lra. }
        apply Rabs_def1; lra. }
    exists d. split; [exact H|]. split; [exact I|].
    split; [exact (proj1 (proj2 (C113_moments _ _ _ _ _ H I)))|].
    split; [unfold getMode, d; cbn [shape rate]; destruct (Rle_dec 1 1); [f_equal; lra | lra]|].
    unfold getVariance, d. cbn [shape rate]. lra.
  - apply C113_divergence_refuted.
    + lra.
    + intros x _. auto_derive; [exact Logic.I | ring].
    + intros x y. lra.
  - apply (proj2 (C113_chi_square (fun _ => 0) (Gamma 0 0 0) 0)). lra.
Qed.

Print Assumptions C113_parameters. Print Assumptions C113_density. Print Assumptions C113_moments.
Print Assumptions C113_mode. Print Assumptions C113_divergence. Print Assumptions C113_divergence_refuted.
Print Assumptions C113_chi_square.
