(** * Lemmas on normal distributions and their estimators *)
From Coquelicot Require Import Coquelicot.
From Coq Require Import Reals List Bool Arith Lra Lia Permutation FunctionalExtensionality.
From Verif Require Import Base NdModel NdSpec.
Import ListNotations.
Local Open Scope R_scope.

(** ** The distribution *)
Lemma ln_below x : 0 < x -> ln x <= x - 1.
Proof.
  intros H. destruct (Req_dec (ln x) 0) as [E|N].
  - assert (x = 1) by (rewrite <- (exp_ln x H), E; apply exp_0). rewrite E. lra.
  - pose proof (exp_ineq1 (ln x) N) as I. rewrite (exp_ln x H) in I. lra.
Qed.
Lemma ln_below_eq x : 0 < x -> ln x = x - 1 -> x = 1.
Proof.
  intros H E. destruct (Req_dec (ln x) 0) as [E'|N]; [lra|].
  pose proof (exp_ineq1 (ln x) N) as I. rewrite (exp_ln x H) in I. lra.
Qed.
Lemma two_pi_pos v : 0 < v -> 0 < 2 * PI * v.
Proof. intros H. pose proof PI_RGT_0. apply Rmult_lt_0_compat; lra. Qed.

Lemma built d m v : 0 < v -> represents (Normal m v (1 / v) (sqrt v) (1 / 2 * ln (2 * PI * v))) m v /\
  setVariance (setMean d m) v = Ok (Normal m v (1 / v) (sqrt v) (1 / 2 * ln (2 * PI * v))).
Proof.
  intros H. split.
  - unfold represents. cbn [mean variance precision deviation normalizer].
    split; [reflexivity|]. split; [reflexivity|]. split; [exact H|]. split; [field; lra|].
    split; [apply sqrt_pos|]. split; [apply sqrt_sqrt; lra|].
    replace (2 * (1 / 2 * ln (2 * PI * v))) with (ln (2 * PI * v)) by field.
    apply exp_ln, two_pi_pos, H.
  - unfold setVariance. destruct (Rle_dec v 0); [lra | reflexivity].
Qed.
Lemma make_pos m v : 0 < v -> exists d, make m v = Ok d /\ represents d m v.
Proof.
  intros H. destruct (built (Normal m 0 0 0 0) m v H) as [A B]. eexists. split; [exact B | exact A].
Qed.
Lemma make_neg m v : v <= 0 -> make m v = Throw.
Proof. intros H. unfold make, setVariance. destruct (Rle_dec v 0); [reflexivity | lra]. Qed.

Lemma normalizer_is d m v : represents d m v -> normalizer d = 1 / 2 * ln (2 * PI * v).
Proof. intros (_ & _ & _ & _ & _ & _ & E). rewrite <- E, ln_exp. field. Qed.
Lemma precision_is d m v : represents d m v -> precision d = / v.
Proof.
  intros (_ & _ & P & E & _). apply (Rmult_eq_reg_r v); [|lra]. rewrite E. symmetry. apply Rinv_l. lra.
Qed.
Lemma logpdf_is d m v x : represents d m v ->
  logpdf d x = - ((x - m) * (x - m) / (2 * v)) - 1 / 2 * ln (2 * PI * v).
Proof.
  intros H. pose proof (normalizer_is d m v H) as N. pose proof (precision_is d m v H) as P.
  destruct H as (E & _ & V & _). unfold logpdf, mahalanobis. rewrite N, P, E. field. lra.
Qed.
Lemma sqrt_as_exp y : 0 < y -> / sqrt y = exp (- (1 / 2 * ln y)).
Proof.
  intros H. rewrite exp_Ropp. f_equal. apply Rsqr_inj.
  - apply sqrt_pos.
  - left. apply exp_pos.
  - unfold Rsqr. rewrite sqrt_sqrt by lra. rewrite <- exp_plus.
    replace (1 / 2 * ln y + 1 / 2 * ln y) with (ln y) by field. symmetry. apply exp_ln, H.
Qed.
Lemma pdf_is d m v x : represents d m v -> pdf d x = gauss m v x.
Proof.
  intros H. unfold pdf, gauss. rewrite (logpdf_is d m v x H). destruct H as (_ & _ & V & _).
  rewrite sqrt_as_exp by (apply two_pi_pos, V). rewrite <- exp_plus. f_equal. ring.
Qed.
Lemma pdf_peak d m v x : represents d m v -> pdf d x <= pdf d m /\ (pdf d x = pdf d m -> x = m).
Proof.
  intros H. unfold pdf. rewrite !(logpdf_is d m v _ H). destruct H as (_ & _ & V & _).
  replace ((m - m) * (m - m) / (2 * v)) with 0 by (field; lra).
  assert (Q : 0 <= (x - m) * (x - m) / (2 * v)).
  { apply Rmult_le_pos; [apply Rle_0_sqr | left; apply Rinv_0_lt_compat; lra]. }
  split.
  - destruct (Rle_lt_or_eq_dec _ _ Q) as [L|E]; [left; apply exp_increasing; lra | rewrite <- E; lra].
  - intros E. apply exp_inv in E. assert (Z : (x - m) * (x - m) / (2 * v) = 0) by lra.
    assert (Z' : (x - m) * (x - m) = 0).
    { replace ((x - m) * (x - m)) with ((x - m) * (x - m) / (2 * v) * (2 * v)) by (field; lra). rewrite Z. ring. }
    apply Rsqr_0_uniq in Z'. lra.
Qed.
Lemma cdf_rate erf d m v x : error_function erf -> represents d m v -> is_derive (cdf erf d) x (pdf d x).
Proof.
  intros [_ E] H. rewrite (pdf_is d m v x H). destruct H as (M & W & V & _).
  unfold cdf. rewrite M, W.
  assert (S : 0 < sqrt (2 * v)) by (apply sqrt_lt_R0; lra).
  assert (D : is_derive (fun y => (y - m) / sqrt (2 * v)) x (/ sqrt (2 * v))).
  { auto_derive; [exact I|]. field. lra. }
  assert (C : is_derive (fun y => erf ((y - m) / sqrt (2 * v))) x
     (/ sqrt (2 * v) * (2 / sqrt PI * exp (- ((x - m) / sqrt (2 * v) * ((x - m) / sqrt (2 * v))))))).
  { apply (is_derive_comp erf (fun y => (y - m) / sqrt (2 * v)) x _ _ (E _) D). }
  assert (X : forall y : R, 1 / 2 + 1 / 2 * erf ((y - m) / sqrt (2 * v)) = 1 / 2 * (1 + erf ((y - m) / sqrt (2 * v))))
    by (intros y; ring).
  apply (is_derive_ext (fun y => 1 / 2 + 1 / 2 * erf ((y - m) / sqrt (2 * v))) _ _ _ X).
  assert (P : 0 < sqrt PI) by (apply sqrt_lt_R0, PI_RGT_0).
  assert (G : gauss m v x =
    0 + 1 / 2 * (/ sqrt (2 * v) * (2 / sqrt PI * exp (- ((x - m) / sqrt (2 * v) * ((x - m) / sqrt (2 * v))))))).
  { unfold gauss.
    replace ((x - m) / sqrt (2 * v) * ((x - m) / sqrt (2 * v))) with ((x - m) * (x - m) / (2 * v)).
    - replace (2 * PI * v) with (2 * v * PI) by ring. rewrite sqrt_mult by (pose proof PI_RGT_0; lra).
      generalize (exp (- ((x - m) * (x - m) / (2 * v)))). intros z. field. lra.
    - rewrite <- (sqrt_sqrt (2 * v)) at 1 by lra. field. lra. }
  rewrite G.
  apply (is_derive_plus (K := R_AbsRing) (V := R_NormedModule) (fun _ => 1 / 2)).
  - apply (@is_derive_const R_AbsRing R_NormedModule).
  - apply (is_derive_scal (fun y => erf ((y - m) / sqrt (2 * v))) x (1 / 2)). exact C.
Qed.
Lemma divergence_is d o m v m' v' : represents d m v -> represents o m' v' ->
  divergence d o = 1 / 2 * ((v / v' - 1 - ln (v / v')) + (m - m') * (m - m') / v').
Proof.
  intros H H'. pose proof (precision_is d m v H) as P. pose proof (precision_is o m' v' H') as P'.
  destruct H as (E & W & V & _), H' as (E' & W' & V' & _). unfold divergence. rewrite P, P', E, E', W, W'.
  replace (ln (v' * / v)) with (- ln (v / v')).
  - field. lra.
  - rewrite <- ln_Rinv by (apply Rmult_lt_0_compat; [lra | apply Rinv_0_lt_compat; lra]).
    f_equal. field. lra.
Qed.

(** ** Sums *)
Lemma total_app {A} (f : A -> R) l k : total f (l ++ k) = total f l + total f k.
Proof. induction l as [|x l IH]; cbn [total app]; [ring | rewrite IH; ring]. Qed.
Lemma total_ext {A} (f g : A -> R) l : (forall x, In x l -> f x = g x) -> total f l = total g l.
Proof.
  induction l as [|x l IH]; intros H; cbn [total]; [reflexivity|].
  rewrite H by (left; reflexivity). rewrite IH by (intros y Hy; apply H; right; exact Hy). reflexivity.
Qed.
Lemma total_plus {A} (f g : A -> R) l : total (fun x => f x + g x) l = total f l + total g l.
Proof. induction l as [|x l IH]; cbn [total]; [ring | rewrite IH; ring]. Qed.
Lemma total_scale {A} (f : A -> R) c l : total (fun x => c * f x) l = c * total f l.
Proof. induction l as [|x l IH]; cbn [total]; [ring | rewrite IH; ring]. Qed.
Lemma total_const {A} c (l : list A) : total (fun _ => c) l = INR (length l) * c.
Proof. induction l as [|x l IH]; cbn [total length]; [cbn; ring | rewrite IH, S_INR; ring]. Qed.
Lemma total_map {A B} (g : A -> B) (f : B -> R) l : total f (map g l) = total (fun x => f (g x)) l.
Proof. induction l as [|x l IH]; cbn [total map]; [reflexivity | rewrite IH; reflexivity]. Qed.
Lemma total_pos {A} (f : A -> R) l : (forall x, In x l -> 0 <= f x) -> 0 <= total f l.
Proof.
  induction l as [|x l IH]; intros H; cbn [total]; [lra|].
  pose proof (H x (or_introl eq_refl)). assert (0 <= total f l) by (apply IH; intros y Hy; apply H; right; exact Hy). lra.
Qed.
Lemma total_zero {A} (f : A -> R) l : (forall x, In x l -> 0 <= f x) -> total f l <= 0 -> forall x, In x l -> f x = 0.
Proof.
  induction l as [|x l IH]; intros H Z y Hy; [destruct Hy|]. cbn [total] in Z.
  pose proof (H x (or_introl eq_refl)) as P.
  assert (Q : 0 <= total f l) by (apply total_pos; intros z Hz; apply H; right; exact Hz).
  destruct Hy as [E|Hy].
  - rewrite <- E. lra.
  - apply IH; [intros z Hz; apply H; right; exact Hz | lra | exact Hy].
Qed.
Lemma total_fold {A} (f : A -> R) l a : fold_left (fun a x => a + f x) l a = a + total f l.
Proof. revert a. induction l as [|x l IH]; intros a; cbn [fold_left total]; [ring | rewrite IH; ring]. Qed.

(** ** Weighted samples *)
Lemma wsecond l c : 0 < total snd l ->
  total (fun p => snd p * ((fst p - c) * (fst p - c))) l =
  total snd l * (wspread l + (waverage l - c) * (waverage l - c)).
Proof.
  intros H. unfold wspread.
  assert (X : forall c, total (fun p => snd p * ((fst p - c) * (fst p - c))) l =
    total (fun p => snd p * (fst p * fst p)) l - 2 * c * total (fun p => snd p * fst p) l + c * c * total snd l).
  { intros k. replace (- 2 * k) with (-2 * k) by ring.
    rewrite (total_ext _ (fun p => (snd p * (fst p * fst p) + (-2 * k) * (snd p * fst p)) + (k * k) * snd p)) by (intros p _; ring).
    rewrite !total_plus, !total_scale. ring. }
  rewrite !X. assert (M : total (fun p => snd p * fst p) l = waverage l * total snd l) by (unfold waverage; field; lra).
  rewrite M. field. lra.
Qed.
Lemma likelihood d l m' v' d' : 0 < total snd l -> represents d (waverage l) (wspread l) ->
  represents d' m' v' ->
  total (fun p => snd p * logpdf d' (fst p)) l <= total (fun p => snd p * logpdf d (fst p)) l.
Proof.
  intros W H H'.
  assert (L : forall d m v, represents d m v -> total (fun p => snd p * logpdf d (fst p)) l =
    - (total snd l * (wspread l + (waverage l - m) * (waverage l - m))) / (2 * v) - total snd l * (1 / 2 * ln (2 * PI * v))).
  { intros k m v K. rewrite <- (wsecond l m W).
    rewrite (total_ext _ (fun p => - / (2 * v) * (snd p * ((fst p - m) * (fst p - m))) + - (1 / 2 * ln (2 * PI * v)) * snd p)).
    - rewrite total_plus, !total_scale. destruct K as (_ & _ & V & _). field. lra.
    - intros p _. rewrite (logpdf_is k m v _ K). destruct K as (_ & _ & V & _). field. lra. }
  rewrite (L _ _ _ H), (L _ _ _ H'). destruct H as (_ & _ & V & _), H' as (_ & _ & V' & _).
  set (T := total snd l) in *. set (a := waverage l) in *. set (v := wspread l) in *.
  assert (K : forall y, 0 < y -> ln (2 * PI * y) = ln (2 * PI) + ln y).
  { intros y Hy. apply ln_mult; [pose proof PI_RGT_0; lra | exact Hy]. }
  rewrite !K by assumption.
  assert (B : ln v - ln v' <= v / v' - 1).
  { replace (ln v - ln v') with (ln (v / v')).
    - apply ln_below, Rmult_lt_0_compat; [exact V | apply Rinv_0_lt_compat, V'].
    - unfold Rdiv. rewrite ln_mult, ln_Rinv; [ring | exact V' | exact V | apply Rinv_0_lt_compat, V']. }
  assert (Q : 0 <= (a - m') * (a - m') / v').
  { apply Rmult_le_pos; [apply Rle_0_sqr | left; apply Rinv_0_lt_compat, V']. }
  apply Rminus_le.
  replace (_ - _) with (- (T / 2 * ((v / v' - 1 - (ln v - ln v')) + (a - m') * (a - m') / v'))) by (field; lra).
  assert (0 <= T / 2 * ((v / v' - 1 - (ln v - ln v')) + (a - m') * (a - m') / v')).
  { apply Rmult_le_pos; lra. }
  lra.
Qed.

(** ** The estimator *)
Lemma settled_pos d m v : 0 < v ->
  settled d m v = (Normal m v (1 / v) (sqrt v) (1 / 2 * ln (2 * PI * v)), true).
Proof. intros H. unfold settled. rewrite (proj2 (built d m v H)). reflexivity. Qed.
Lemma settled_neg d m v : v <= 0 -> settled d m v = (setMean d m, false).
Proof. intros H. unfold settled, setVariance. destruct (Rle_dec v 0); [reflexivity | lra]. Qed.

Lemma length_pos {A} (l : list A) : l <> [] -> 0 < INR (length l).
Proof. intros N. destruct l as [|x l]; [congruence|]. apply lt_0_INR. cbn [length]. lia. Qed.
Lemma spread_is xs : xs <> [] ->
  total (fun x => x * x) xs / INR (length xs) -
  total (fun x => x) xs * total (fun x => x) xs * 2 / (INR (length xs) * INR (length xs)) +
  total (fun x => x) xs / INR (length xs) * (total (fun x => x) xs / INR (length xs)) = spread xs.
Proof.
  intros N. pose proof (length_pos xs N) as P. unfold spread.
  rewrite (total_ext (fun x => (x - average xs) * (x - average xs)) (fun x => (x * x + (-2 * average xs) * x) + average xs * average xs)) by (intros x _; ring).
  rewrite !total_plus, total_scale, total_const. unfold average. field. lra.
Qed.
Lemma spread_pos xs : xs <> [] -> (0 < spread xs <-> two_different xs).
Proof.
  intros N. pose proof (length_pos xs N) as P.
  assert (Q : forall x, In x xs -> 0 <= (x - average xs) * (x - average xs)) by (intros; apply Rle_0_sqr).
  split.
  - intros S. destruct xs as [|x xs]; [congruence|].
    destruct (Forall_dec (fun y => y = x) (fun y => Req_EM_T y x) xs) as [F|F].
    + exfalso. assert (E : forall y, In y (x :: xs) -> y = x).
      { intros y [Hy|Hy]; [congruence|]. rewrite Forall_forall in F. apply F, Hy. }
      assert (A : average (x :: xs) = x).
      { unfold average. rewrite (total_ext _ (fun _ => x)) by exact E. rewrite total_const. field. lra. }
      unfold spread in S. rewrite A in S.
      rewrite (total_ext _ (fun _ => 0)) in S by (intros y Hy; rewrite (E y Hy); ring).
      rewrite total_const in S. replace (INR (length (x :: xs)) * 0 / INR (length (x :: xs))) with 0 in S by (field; lra). lra.
    + apply neg_Forall_Exists_neg in F; [|intros y; apply Req_EM_T].
      apply Exists_exists in F. destruct F as (y & Hy & D). exists y, x.
      split; [right; exact Hy|]. split; [left; reflexivity | exact D].
  - intros (x & y & Hx & Hy & D). unfold spread.
    apply Rmult_lt_0_compat; [|apply Rinv_0_lt_compat, P].
    destruct (Rlt_dec 0 (total (fun x => (x - average xs) * (x - average xs)) xs)) as [L|L]; [exact L|].
    exfalso. apply D. apply Rnot_lt_le in L.
    pose proof (total_zero _ xs Q L x Hx) as Zx. pose proof (total_zero _ xs Q L y Hy) as Zy.
    cbv beta in Zx, Zy. apply Rsqr_0_uniq in Zx. apply Rsqr_0_uniq in Zy. lra.
Qed.
Lemma spread_nonneg xs : xs <> [] -> 0 <= spread xs.
Proof.
  intros N. pose proof (length_pos xs N). apply Rmult_le_pos; [apply total_pos; intros; apply Rle_0_sqr|].
  left. apply Rinv_0_lt_compat. assumption.
Qed.

Definition holds (d0 : normal) (e : estimator) (xs : list R) : Prop :=
  count e = length xs /\ vsum e = total (fun x => x) xs /\ ssum e = total (fun x => x * x) xs /\
  (xs <> [] ->
   (two_different xs -> valid e = true /\ represents (dist e) (average xs) (spread xs)) /\
   (~ two_different xs -> valid e = false /\ dist e = setMean d0 (average xs))) /\
  (xs = [] -> dist e = d0).
Lemma holds_add d0 e xs x : holds d0 e xs -> holds d0 (addPoint e x) (xs ++ [x]).
Proof.
  intros (C & S & Q & N & Z).
  assert (NN : xs ++ [x] <> []) by (destruct xs; discriminate).
  assert (S' : vsum e + x = total (fun x => x) (xs ++ [x])) by (rewrite S, total_app; cbn [total]; ring).
  assert (Q' : ssum e + x * x = total (fun x => x * x) (xs ++ [x])) by (rewrite Q, total_app; cbn [total]; ring).
  assert (C' : Datatypes.S (count e) = length (xs ++ [x])) by (rewrite C, app_length; cbn [length]; lia).
  unfold addPoint. cbv zeta. rewrite S', Q', C', (spread_is _ NN).
  fold (average (xs ++ [x])).
  destruct (Rlt_dec 0 (spread (xs ++ [x]))) as [P|P].
  - rewrite (settled_pos _ _ _ P). unfold holds. cbn [count vsum ssum valid dist].
    split; [reflexivity|]. split; [reflexivity|]. split; [reflexivity|]. split; [|intros K; congruence].
    intros _. split.
    + intros _. split; [reflexivity|]. exact (proj1 (built standard _ _ P)).
    + intros D. exfalso. apply D. apply spread_pos; assumption.
  - rewrite settled_neg by lra. unfold holds. cbn [count vsum ssum valid dist].
    split; [reflexivity|]. split; [reflexivity|]. split; [reflexivity|]. split; [|intros K; congruence].
    intros _. split.
    + intros D. exfalso. apply P. apply spread_pos; assumption.
    + intros D. split; [reflexivity|].
      destruct xs as [|y xs].
      * rewrite Z by reflexivity. reflexivity.
      * assert (D' : ~ two_different (y :: xs)).
        { intros (u & w & Hu & Hw & E). apply D. exists u, w.
          split; [apply in_or_app; left; exact Hu|]. split; [apply in_or_app; left; exact Hw | exact E]. }
        destruct (N ltac:(discriminate)) as [_ N']. destruct (N' D') as [_ E]. rewrite E. reflexivity.
Qed.
Lemma holds_adds d0 : forall ys e xs, holds d0 e xs -> holds d0 (addPoints e ys) (xs ++ ys).
Proof.
  induction ys as [|y ys IH]; intros e xs H.
  - rewrite app_nil_r. exact H.
  - cbn [addPoints fold_left]. replace (xs ++ y :: ys) with ((xs ++ [y]) ++ ys) by (rewrite <- app_assoc; reflexivity).
    apply IH, holds_add, H.
Qed.
Lemma holds_reset e : holds (dist e) (reset e) [].
Proof.
  unfold holds, reset. cbn [count vsum ssum dist length total].
  split; [reflexivity|]. split; [reflexivity|]. split; [reflexivity|]. split; [intros K; congruence | reflexivity].
Qed.

Lemma total_perm {A} (f : A -> R) l k : Permutation l k -> total f l = total f k.
Proof. induction 1; cbn [total]; [reflexivity | congruence | ring | congruence]. Qed.

(** ** Several numbers *)
Section Vectors.
Variable positive : nat -> (nat -> nat -> R) -> bool.
Variable M : nat.
Definition holdv (e : estimators) (xs : list (nat -> R)) : Prop :=
  counts e = length xs /\
  (xs <> [] -> valids e = positive M (covariances xs)) /\
  (xs <> [] -> forall i j, vsums e i = total (fun x => x i) xs /\ ssums e i j = total (fun x => x i * x j) xs /\
     means (dists e) i = averages xs i /\
     (valids e = true -> covariance (dists e) i j = covariances xs i j)).
Lemma covariances_is xs i j : xs <> [] ->
  total (fun x => x i * x j) xs / INR (length xs) -
  total (fun x => x i) xs * total (fun x => x j) xs * 2 / (INR (length xs) * INR (length xs)) +
  total (fun x => x i) xs / INR (length xs) * (total (fun x => x j) xs / INR (length xs)) = covariances xs i j.
Proof.
  intros N. pose proof (length_pos xs N) as P. unfold covariances.
  rewrite (total_ext (fun x => (x i - averages xs i) * (x j - averages xs j)) (fun x => ((x i * x j + (- averages xs j) * x i) + (- averages xs i) * x j) + averages xs i * averages xs j))
    by (intros x _; ring).
  rewrite !total_plus, !total_scale, total_const. unfold averages. field. lra.
Qed.
Lemma accept_covariances xs : xs <> [] -> acceptCovariance positive M (covariances xs) = positive M (covariances xs).
Proof.
  intros N. unfold acceptCovariance.
  assert (Y : symmetricb M (covariances xs) = true).
  { unfold symmetricb. apply forallb_forall. intros i _. apply forallb_forall. intros j _.
    destruct (Req_EM_T (covariances xs j i) (covariances xs i j)) as [E|E]; [reflexivity|].
    exfalso. apply E. unfold covariances. f_equal. apply total_ext. intros x _. ring. }
  assert (G : negativeb M (covariances xs) = false).
  { unfold negativeb. destruct (existsb _ _) eqn:E; [|reflexivity]. apply existsb_exists in E. destruct E as (i & _ & K).
    destruct (Rlt_dec (covariances xs i i) 0) as [L|L]; [|discriminate K]. exfalso.
    assert (0 <= covariances xs i i); [|lra]. unfold covariances.
    apply Rmult_le_pos; [apply total_pos; intros; apply Rle_0_sqr | left; apply Rinv_0_lt_compat, length_pos, N]. }
  rewrite Y, G. cbn [negb andb]. apply andb_true_r.
Qed.
Lemma holdv_add e xs x : holdv e xs -> holdv (addVector positive M e x) (xs ++ [x]).
Proof.
  intros (C & _ & H).
  assert (NN : xs ++ [x] <> []) by (destruct xs; discriminate).
  assert (C' : S (counts e) = length (xs ++ [x])) by (rewrite C, app_length; cbn [length]; lia).
  assert (S' : forall i, (if (counts e =? 0)%nat then (fun _ => 0) else vsums e) i + x i = total (fun x => x i) (xs ++ [x])).
  { intros i. rewrite total_app. cbn [total]. destruct xs as [|y xs].
    - rewrite C. cbn [length Nat.eqb total]. ring.
    - rewrite C. cbn [length Nat.eqb]. destruct (H ltac:(discriminate) i i) as [E _]. rewrite E. ring. }
  assert (Q' : forall i j, (if (counts e =? 0)%nat then (fun _ _ => 0) else ssums e) i j + x i * x j = total (fun x => x i * x j) (xs ++ [x])).
  { intros i j. rewrite total_app. cbn [total]. destruct xs as [|y xs].
    - rewrite C. cbn [length Nat.eqb total]. ring.
    - rewrite C. cbn [length Nat.eqb]. destruct (H ltac:(discriminate) i j) as (_ & E & _). rewrite E. ring. }
  unfold addVector. cbv zeta.
  match goal with |- context [acceptCovariance _ _ ?c] => assert (K : c = covariances (xs ++ [x])) end.
  { apply functional_extensionality. intros i. apply functional_extensionality. intros j.
    rewrite !S', !Q', C'. apply covariances_is, NN. }
  rewrite K, (accept_covariances _ NN).
  destruct (positive M (covariances (xs ++ [x]))) eqn:E;
    unfold holdv; cbn [counts vsums ssums valids dists means covariance];
    (split; [exact C'|]); (split; [intros _; symmetry; exact E|]); intros _ i j; rewrite !S', !Q', C';
    (split; [reflexivity|]); (split; [reflexivity|]); (split; [reflexivity|]); intros V; [reflexivity | discriminate V].
Qed.
Lemma holdv_adds : forall ys e xs, holdv e xs -> holdv (addVectors positive M e ys) (xs ++ ys).
Proof.
  induction ys as [|y ys IH]; intros e xs H.
  - rewrite app_nil_r. exact H.
  - cbn [addVectors fold_left]. replace (xs ++ y :: ys) with ((xs ++ [y]) ++ ys) by (rewrite <- app_assoc; reflexivity).
    apply IH, holdv_add, H.
Qed.
End Vectors.

Lemma below_total {A} n (f : A -> nat -> R) l :
  sum_below n (fun i => total (fun x => f x i) l) = total (fun x => sum_below n (f x)) l.
Proof.
  induction n as [|n IH]; cbn [sum_below].
  - rewrite total_const. ring.
  - rewrite IH, total_plus. reflexivity.
Qed.
Lemma below_ext n f g : (forall i, (i < n)%nat -> f i = g i) -> sum_below n f = sum_below n g.
Proof.
  induction n as [|n IH]; intros H; cbn [sum_below]; [reflexivity|].
  rewrite IH by (intros i Hi; apply H; lia). rewrite H by lia. reflexivity.
Qed.
Lemma below_scale n f c : sum_below n (fun i => c * f i) = c * sum_below n f.
Proof. induction n as [|n IH]; cbn [sum_below]; [ring | rewrite IH; ring]. Qed.
Lemma covariances_psd xs n z : xs <> [] ->
  0 <= sum_below n (fun i => sum_below n (fun j => z i * covariances xs i j * z j)).
Proof.
  intros N. pose proof (length_pos xs N) as P.
  rewrite (below_ext n _ (fun i => / INR (length xs) * sum_below n (fun j => total (fun x =>
    (z i * (x i - averages xs i)) * (z j * (x j - averages xs j))) xs))).
  - rewrite below_scale. apply Rmult_le_pos; [left; apply Rinv_0_lt_compat, P|].
    rewrite (below_ext n _ (fun i => total (fun x => sum_below n (fun j =>
      (z i * (x i - averages xs i)) * (z j * (x j - averages xs j)))) xs)) by (intros i _; apply below_total).
    rewrite (below_total n (fun x i => sum_below n (fun j => (z i * (x i - averages xs i)) * (z j * (x j - averages xs j))))).
    apply total_pos. intros x _.
    rewrite (below_ext n _ (fun i => sum_below n (fun j => z j * (x j - averages xs j)) * (z i * (x i - averages xs i)))).
    + rewrite below_scale. apply Rle_0_sqr.
    + intros i _. rewrite below_scale. ring.
  - intros i _. rewrite <- below_scale. apply below_ext. intros j _. unfold covariances, Rdiv.
    rewrite (total_ext (fun x => (z i * (x i - averages xs i)) * (z j * (x j - averages xs j))) (fun x => (z i * z j) * ((x i - averages xs i) * (x j - averages xs j))) xs) by (intros x _; ring).
    rewrite total_scale. ring.
Qed.
