(** * Lemmas on gamma distributions *)
From Coquelicot Require Import Coquelicot.
From Coq Require Import Reals Lra.
From Verif Require Import Base GxModel GxSpec.
Local Open Scope R_scope.

Lemma ln_less y : 0 < y -> y <> 1 -> ln y < y - 1.
Proof.
  intros P N. assert (L : ln y <> 0).
  { intros E. apply N. rewrite <- (exp_ln y P), E. apply exp_0. }
  pose proof (exp_ineq1 (ln y) L) as H. rewrite exp_ln in H by exact P. lra.
Qed.
Lemma ln_le_less y : 0 < y -> ln y <= y - 1.
Proof.
  intros P. destruct (Req_dec y 1) as [->|N]; [rewrite ln_1; lra | left; apply ln_less; assumption].
Qed.

(** ** Integrals from zero to infinity *)
Lemma integral_ext f g v : (forall x, 0 < x -> f x = g x) -> integral f v -> integral g v.
Proof.
  intros H I eps E. destruct (I eps E) as (a0 & c0 & P & K). exists a0, c0. split; [exact P|].
  intros a c A C. destruct (K a c A C) as (i & J & B). exists i. split; [|exact B].
  apply (is_RInt_ext f); [|exact J]. intros x X. rewrite Rmin_left in X by lra. apply H. lra.
Qed.
Lemma integral_plus f g v w : integral f v -> integral g w -> integral (fun x => f x + g x) (v + w).
Proof.
  intros I J eps E. destruct (I (eps / 2) ltac:(lra)) as (a0 & c0 & P & K). destruct (J (eps / 2) ltac:(lra)) as (a1 & c1 & Q & L).
  exists (Rmin a0 a1), (Rmax c0 c1).
  pose proof (Rmin_l a0 a1). pose proof (Rmin_r a0 a1). pose proof (Rmax_l c0 c1). pose proof (Rmax_r c0 c1).
  assert (0 < Rmin a0 a1) by (apply Rmin_glb_lt; lra).
  split; [lra|]. intros a c A C. destruct (K a c ltac:(lra) ltac:(lra)) as (i & KI & KB). destruct (L a c ltac:(lra) ltac:(lra)) as (j & LI & LB).
  exists (i + j). split; [exact (is_RInt_plus f g a c i j KI LI)|].
  replace (i + j - (v + w)) with ((i - v) + (j - w)) by ring. pose proof (Rabs_triang (i - v) (j - w)). lra.
Qed.
Lemma integral_scal l f v : integral f v -> integral (fun x => l * f x) (l * v).
Proof.
  intros I eps E. pose proof (Rabs_pos l) as L.
  assert (F : 0 < eps / (Rabs l + 1)) by (apply Rmult_lt_0_compat; [exact E | apply Rinv_0_lt_compat; lra]).
  destruct (I _ F) as (a0 & c0 & P & K). exists a0, c0. split; [exact P|]. intros a c A C. destruct (K a c A C) as (i & J & B).
  exists (l * i). split; [exact (is_RInt_scal f a c l i J)|].
  replace (l * i - l * v) with (l * (i - v)) by ring. rewrite Rabs_mult.
  apply Rle_lt_trans with ((Rabs l) * (eps / (Rabs l + 1))); [apply Rmult_le_compat_l; lra|].
  assert (eps = (Rabs l + 1) * (eps / (Rabs l + 1))) by (field; lra). nra.
Qed.

(** ** x^p e^(-b x) *)
Definition term (b p x : R) : R := exp (p * ln x - b * x).
Lemma term_pos b p x : 0 < term b p x.
Proof. apply exp_pos. Qed.
Lemma term_times b p x : 0 < x -> x * term b (p - 1) x = term b p x.
Proof.
  intros X. unfold term. rewrite <- (exp_ln x X) at 1. rewrite <- exp_plus. f_equal. ring.
Qed.
Lemma term_derive b p x : 0 < x -> is_derive (term b p) x (p * term b (p - 1) x - b * term b p x).
Proof.
  intros X. unfold term at 1. auto_derive; [exact X|]. fold (term b p x).
  rewrite <- (term_times b p x X).
  replace (p * ln x + - (b * x)) with (p * ln x - b * x) by ring. fold (term b p x).
  rewrite <- (term_times b p x X). field. lra.
Qed.
Lemma term_at_zero b p eps : 0 < b -> 0 < p -> 0 < eps -> exists a0, 0 < a0 /\ forall x, 0 < x < a0 -> term b p x < eps.
Proof.
  intros B P E. exists (exp (ln eps / p)). split; [apply exp_pos|]. intros x [X L].
  rewrite <- (exp_ln eps E). apply exp_increasing.
  apply ln_increasing in L; [|exact X]. rewrite ln_exp in L.
  assert (ln eps = p * (ln eps / p)) by (field; lra). nra.
Qed.
Lemma term_at_infinity b p eps : 0 < b -> 0 < p -> 0 < eps -> exists c0, 0 < c0 /\ forall x, c0 < x -> term b p x < eps.
Proof.
  intros B P E. set (c := 2 * p / b).
  assert (C : 0 < c) by (unfold c; apply Rmult_lt_0_compat; [lra | apply Rinv_0_lt_compat; exact B]).
  exists (Rmax 1 (2 * (p * ln c - ln eps) / b)). pose proof (Rmax_l 1 (2 * (p * ln c - ln eps) / b)). pose proof (Rmax_r 1 (2 * (p * ln c - ln eps) / b)) as M.
  split; [lra|]. intros x X. rewrite <- (exp_ln eps E). apply exp_increasing.
  assert (PX : 0 < x / c) by (apply Rmult_lt_0_compat; [lra | apply Rinv_0_lt_compat; exact C]).
  pose proof (ln_le_less (x / c) PX) as L. unfold Rdiv in L at 1. rewrite ln_mult, ln_Rinv in L; [|exact C | lra | apply Rinv_0_lt_compat; exact C].
  assert (Q : p * (x / c) = b * x / 2) by (unfold c; field; lra).
  assert (p * ln x <= p * (x / c) + p * ln c - p) by nra.
  assert (2 * (p * ln c - ln eps) < b * x).
  { replace (2 * (p * ln c - ln eps)) with (b * (2 * (p * ln c - ln eps) / b)) by (field; lra). apply Rmult_lt_compat_l; lra. }
  lra.
Qed.
Lemma term_integral b p : 0 < b -> 0 < p -> integral (fun x => p * term b (p - 1) x - b * term b p x) 0.
Proof.
  intros B P eps E. destruct (term_at_zero b p (eps / 2) B P ltac:(lra)) as (a0 & A0 & A). destruct (term_at_infinity b p (eps / 2) B P ltac:(lra)) as (c0 & C0 & C).
  exists a0, (Rmax c0 (a0 + 1)). pose proof (Rmax_l c0 (a0 + 1)). pose proof (Rmax_r c0 (a0 + 1)). split; [lra|].
  intros a c HA HC. exists (term b p c - term b p a). split.
  - apply (is_RInt_derive (term b p)).
    + intros x X. rewrite Rmin_left in X by lra. apply term_derive. lra.
    + intros x X. rewrite Rmin_left in X by lra. apply (ex_derive_continuous (fun x => p * term b (p - 1) x - b * term b p x)).
      unfold term. auto_derive. split; [lra | split; [lra | exact I]].
  - specialize (A a HA). specialize (C c ltac:(lra)). pose proof (term_pos b p a). pose proof (term_pos b p c).
    rewrite Rminus_0_r. apply Rabs_def1; lra.
Qed.

Section Functions.
  Variables lgamma digamma : R -> R.
  Definition fits (d : gamma) : Prop := 0 < shape d /\ 0 < rate d /\ normalizer d = lgamma (shape d) - shape d * ln (rate d).
  Lemma pdf_term d x : 0 < x -> pdf d x = exp (- normalizer d) * term (rate d) (shape d - 1) x.
  Proof.
    intros X. unfold pdf, logpdf, term. destruct (Rlt_dec x 0); [lra|]. destruct (Req_EM_T x 0); [lra|].
    rewrite <- exp_plus. f_equal. ring.
  Qed.
  Lemma mean_integral d : fits d -> integral (pdf d) 1 -> integral (fun x => x * pdf d x) (getMean d).
  Proof.
    intros (K & B & N) I. set (e := exp (- normalizer d)).
    assert (T := integral_plus _ _ _ _ (integral_scal (getMean d) _ _ I)
      (integral_scal (- (e / rate d)) _ _ (term_integral (rate d) (shape d) B K))).
    replace (getMean d) with (getMean d * 1 + - (e / rate d) * 0) at 1 by ring. revert T. apply integral_ext.
    intros x X. cbv beta. rewrite (pdf_term d x X). fold e. rewrite <- (term_times (rate d) (shape d) x X).
    unfold getMean. field. lra.
  Qed.
  Lemma variance_integral d : fits d -> integral (pdf d) 1 ->
    integral (fun x => (x - getMean d) * (x - getMean d) * pdf d x) (getVariance d).
  Proof.
    intros (K & B & N) I. set (e := exp (- normalizer d)).
    assert (T := integral_plus _ _ _ _ (integral_scal (getVariance d) _ _ I)
      (integral_plus _ _ _ _
        (integral_scal (- (e / rate d)) _ _ (term_integral (rate d) (shape d + 1) B ltac:(lra)))
        (integral_scal (- (e * (1 - shape d) / (rate d * rate d))) _ _ (term_integral (rate d) (shape d) B K)))).
    replace (getVariance d) with (getVariance d * 1 + (- (e / rate d) * 0 + - (e * (1 - shape d) / (rate d * rate d)) * 0)) by ring.
    revert T. apply integral_ext.
    intros x X. cbv beta. rewrite (pdf_term d x X). fold e. rewrite <- (term_times (rate d) (shape d + 1) x X).
    replace (shape d + 1 - 1) with (shape d) by ring. rewrite <- (term_times (rate d) (shape d) x X).
    unfold getMean, getVariance. field. lra.
  Qed.
End Functions.
