(** * C111, C112: uniform distributions and random samples *)
From Coquelicot Require Import Coquelicot.
From Coq Require Import Reals List ZArith Bool Arith Lra Lia ZifyBool.
From Verif Require Import Base RzModel RzSpec RzProofs.
Import ListNotations.
Local Open Scope R_scope.

(** The support can be set exactly when the bounds are in order, also one bound at a time. *)
Theorem C111_support :
  (forall lo hi d, supportR lo hi = Ok d <-> lo < hi /\ d = Uniform lo hi (hi - lo)) /\
  (forall lo hi, supportR lo hi = Throw <-> hi <= lo) /\
  (forall lo hi d, supportZ lo hi = Ok d <-> (lo < hi)%Z /\ d = Uniform lo hi (hi - lo + 1)%Z) /\
  (forall lo hi, supportZ lo hi = Throw <-> (hi <= lo)%Z) /\
  (forall d x, setLeast d x = supportR x (greatest d) /\ setGreatest d x = supportR (least d) x) /\
  (forall b, (exists b', supportM b = Ok b') <-> forall lo hi, In (lo, hi) b -> lo < hi).
Proof.
  split; [|split; [|split; [|split; [|split]]]].
  - intros lo hi d. unfold supportR. destruct (Rle_dec hi lo) as [H|H]; split.
    + discriminate.
    + intros [L _]. lra.
    + intros E. injection E as E. split; [lra | symmetry; exact E].
    + intros [_ ->]. reflexivity.
  - intros lo hi. unfold supportR. destruct (Rle_dec hi lo) as [H|H]; split; intros K; try assumption; try reflexivity; try discriminate K. lra.
  - intros lo hi d. unfold supportZ. destruct (hi <=? lo)%Z eqn:H; split.
    + discriminate.
    + intros [L _]. lia.
    + intros E. injection E as E. split; [lia | symmetry; exact E].
    + intros [_ ->]. reflexivity.
  - intros lo hi. unfold supportZ. destruct (hi <=? lo)%Z eqn:H; split; intros K; try reflexivity; try discriminate K; lia.
  - intros d x. split; reflexivity.
  - exact supportM_ok.
Qed.

(** On real numbers: the density is zero outside the support, one over its length inside,
    and integrates to one; the variance is the second moment about the middle. *)
Theorem C111_real :
  forall lo hi d, supportR lo hi = Ok d ->
    let m := (lo + hi) / 2 in
    (forall x, lo <= x <= hi -> densityR d x = / (hi - lo)) /\
    (forall x, x < lo \/ hi < x -> densityR d x = 0) /\
    is_RInt (densityR d) lo hi 1 /\
    is_RInt (fun x => x * densityR d x) lo hi m /\
    is_RInt (fun x => (x - m) * (x - m) * densityR d x) lo hi (varianceR d).
Proof.
  intros lo hi d E m. apply (proj1 C111_support) in E. destruct E as [L ->].
  pose proof (inside (Uniform lo hi (hi - lo)) L eq_refl) as I. cbn [least greatest] in I.
  destruct (moments lo hi L) as (A & B & C). cbv zeta in A, B, C. fold m in B, C.
  split; [|split; [|split; [|split]]].
  - intros x H. unfold densityR. cbn [least greatest area]. destruct (Rle_dec lo x); [|lra]. destruct (Rle_dec x hi); [|lra]. field. lra.
  - intros x H. unfold densityR. cbn [least greatest area]. destruct (Rle_dec lo x); [|reflexivity]. destruct (Rle_dec x hi); [lra | reflexivity].
  - apply (is_RInt_ext (fun _ => / (hi - lo))); [|exact A]. intros x H. symmetry. apply I, H.
  - apply (is_RInt_ext (fun x => x * / (hi - lo))); [|exact B]. intros x H. rewrite (I x H). reflexivity.
  - apply (is_RInt_ext (fun x => (x - m) * (x - m) * / (hi - lo))); [|exact C]. intros x H. rewrite (I x H). reflexivity.
Qed.

(** The same on the integers. *)
Theorem C111_integer :
  forall lo hi d, supportZ lo hi = Ok d ->
    let m := (IZR lo + IZR hi) / 2 in let n := Z.to_nat (hi - lo + 1) in
    (forall k, (lo <= k <= hi)%Z -> massZ d k = / INR n) /\
    (forall k, (k < lo \/ hi < k)%Z -> massZ d k = 0) /\
    sum_from (massZ d) lo n = 1 /\
    sum_from (fun k => IZR k * massZ d k) lo n = m /\
    sum_from (fun k => (IZR k - m) * (IZR k - m) * massZ d k) lo n = varianceZ d.
Proof.
  intros lo hi d E m n. apply (proj1 (proj2 (proj2 C111_support))) in E. destruct E as [L ->].
  split; [|split; [|exact (momentsZ lo hi L)]].
  - intros k H. replace k with (lo + (k - lo))%Z by lia. rewrite massZ_inside by lia.
    unfold n. rewrite INR_IZR_INZ, Z2Nat.id by lia. reflexivity.
  - intros k H. unfold massZ. cbn [least greatest].
    replace ((lo <=? k) && (k <=? hi))%Z%bool with false by lia. reflexivity.
Qed.

(** Several numbers are independent of each other, each with the density above. *)
Theorem C111_box :
  forall b, (exists b', supportM b = Ok b') -> forall x, length x = length b ->
    densityM b x = independent b x.
Proof. intros b H. apply densityM_product, supportM_ok, H. Qed.

(** getMean and getMedian return half the length of the support, which is the middle only
    of a support that starts at zero and may even lie outside the support. *)
Theorem C111_mean_refuted :
  (forall lo hi d, supportR lo hi = Ok d -> (meanR d = (lo + hi) / 2 <-> lo = 0)) /\
  (forall lo hi d, supportZ lo hi = Ok d -> (meanZ d = (IZR lo + IZR hi) / 2 <-> lo = 0%Z)) /\
  exists d, supportR 2 3 = Ok d /\ meanR d = 1 / 2 /\ densityR d (meanR d) = 0.
Proof.
  split; [|split].
  - intros lo hi d E. apply (proj1 C111_support) in E. destruct E as [L ->]. unfold meanR. cbn [least greatest]. split; intros; lra.
  - intros lo hi d E. apply (proj1 (proj2 (proj2 C111_support))) in E. destruct E as [L ->]. unfold meanZ. cbn [least greatest].
    rewrite minus_IZR. split; intros H.
    + apply eq_IZR. lra.
    + rewrite H. lra.
  - exists (Uniform 2 3 (3 - 2)). split; [unfold supportR; destruct (Rle_dec 3 2); [lra | reflexivity]|].
    split; [unfold meanR; cbn [least greatest]; lra|].
    unfold densityR, meanR. cbn [least greatest]. destruct (Rle_dec 2 (1 / 2 * (3 - 2))); [lra | reflexivity].
Qed.

(** The covariance of several numbers has the volume of the support where the length of
    each side belongs: in two dimensions it is right only for the unit square and
    otherwise wrong in at least one number. *)
Theorem C111_covariance_refuted :
  (forall b i j, i <> j -> covarianceM b i j = 0) /\
  (forall b i, covarianceM b i i = volume b * volume b / 12) /\
  (forall l1 h1 l2 h2, l1 < h1 -> l2 < h2 ->
     ((covarianceM [(l1, h1); (l2, h2)] 0 0 = (h1 - l1) * (h1 - l1) / 12 /\
       covarianceM [(l1, h1); (l2, h2)] 1 1 = (h2 - l2) * (h2 - l2) / 12) <->
      h1 - l1 = 1 /\ h2 - l2 = 1)).
Proof.
  split; [|split].
  - intros b i j H. unfold covarianceM. destruct (Nat.eqb_spec i j); [congruence | ring].
  - intros b i. unfold covarianceM. rewrite Nat.eqb_refl. ring.
  - intros l1 h1 l2 h2 A B. unfold covarianceM. cbn [Nat.eqb].
    replace (volume [(l1, h1); (l2, h2)]) with ((h1 - l1) * (h2 - l2)) by (unfold volume; cbn; ring).
    assert (P : 0 < h1 - l1) by lra. assert (Q : 0 < h2 - l2) by lra.
    set (a := h1 - l1) in *. set (b := h2 - l2) in *. split.
    + intros [E F].
      assert (b * b = 1) by (apply (Rmult_eq_reg_l (a * a)); [lra | nra]).
      assert (a * a = 1) by (apply (Rmult_eq_reg_l (b * b)); [lra | nra]).
      split; nra.
    + intros [-> ->]. split; field.
Qed.

Example C111_ex :
  exists d e, supportR 2 3 = Ok d /\ densityR d (5 / 2) = 1 /\ varianceR d = 1 / 12 /\
    supportZ 1 6 = Ok e /\ massZ e 4 = 1 / 6 /\ massZ e 7 = 0 /\ varianceZ e = 35 / 12 /\
    (exists b, supportM [(0, 1); (0, 2)] = Ok b /\ densityM b [1 / 2; 1] = 1 / 2 /\
       covarianceM b 0 0 = 4 / 12).
Proof.
  assert (D : supportR 2 3 = Ok (Uniform 2 3 (3 - 2))) by (unfold supportR; destruct (Rle_dec 3 2); [lra | reflexivity]).
  exists (Uniform 2 3 (3 - 2)), (Uniform 1 6 6)%Z.
  split; [exact D|].
  split; [rewrite (proj1 (C111_real 2 3 _ D)) by lra; field|].
  split; [unfold varianceR; cbn; lra|].
  split; [reflexivity|].
  split; [reflexivity|]. split; [reflexivity|].
  split; [unfold varianceZ; cbn; lra|].
  exists [(0, 1); (0, 2)].
  assert (S : supportM [(0, 1); (0, 2)] = Ok [(0, 1); (0, 2)]).
  { unfold supportM. cbn [existsb fst snd]. destruct (Rle_dec 1 0); [lra|]. destruct (Rle_dec 2 0); [lra | reflexivity]. }
  split; [exact S|]. split.
  - rewrite C111_box; [|exists [(0, 1); (0, 2)]; exact S | reflexivity]. cbn [independent].
    destruct (Rle_dec 0 (1 / 2)); [|lra]. destruct (Rle_dec (1 / 2) 1); [|lra].
    destruct (Rle_dec 0 1); [|lra]. destruct (Rle_dec 1 2); [field | lra].
  - rewrite (proj1 (proj2 C111_covariance_refuted)). unfold volume. cbn. field.
Qed.

(** A uniform sample lies between the bounds and follows the number drawn; the ends are
    reached. *)
Theorem C112_uniform :
  forall lo hi,
    (lo < hi ->
     (forall r, drawn r -> exists x, uniformR lo hi r = Ok x /\ lo <= x <= hi /\
        (x - lo) * IZR rmax = IZR r * (hi - lo)) /\
     uniformR lo hi 0 = Ok lo /\ uniformR lo hi rmax = Ok hi) /\
    (hi <= lo -> forall r, uniformR lo hi r = Throw).
Proof.
  intros lo hi. pose proof rmax_pos as P. split.
  - intros L. unfold uniformR. destruct (Rle_dec hi lo); [lra|]. split; [|split].
    + intros r D. pose proof (fraction r D) as F. exists (lo + IZR r / IZR rmax * (hi - lo)).
      split; [reflexivity|]. split; [nra|]. field. lra.
    + f_equal. field. lra.
    + f_equal. field. lra.
  - intros L r. unfold uniformR. destruct (Rle_dec hi lo); [reflexivity | lra].
Qed.

(** A uniform integer lies between the bounds, and which draws give which integer is
    known: those nearest to it when the draws are spread over the range. *)
Theorem C112_uniform_integer :
  forall lo hi, ((lo < hi)%Z ->
     forall r, drawn r -> exists x, uniformZ lo hi r = Ok x /\ (lo <= x <= hi)%Z /\
       forall k, x = (lo + k)%Z <-> ((2 * k - 1) * rmax <= 2 * r * (hi - lo) < (2 * k + 1) * rmax)%Z) /\
    ((hi <= lo)%Z -> forall r, uniformZ lo hi r = Throw).
Proof.
  intros lo hi. pose proof rmax_pos as P. split.
  - intros L r D. pose proof (fraction r D) as F. unfold uniformZ. replace (hi <=? lo)%Z with false by lia.
    assert (W : 0 < IZR (hi - lo)) by (apply IZR_lt; lia).
    assert (B : 0 <= IZR r / IZR rmax * IZR (hi - lo) <= IZR (hi - lo)) by nra.
    exists (lo + round_away (IZR r / IZR rmax * IZR (hi - lo)))%Z. split; [reflexivity|].
    split; [pose proof (round_away_range _ _ B); lia|].
    intros k. transitivity (round_away (IZR r / IZR rmax * IZR (hi - lo)) = k); [lia|].
    rewrite (round_away_pos _ k (proj1 B)).
    assert (E : forall a b, (a <= b)%Z <-> IZR a <= IZR b) by (intros; split; [apply IZR_le | apply le_IZR]).
    assert (E' : forall a b, (a < b)%Z <-> IZR a < IZR b) by (intros; split; [apply IZR_lt | apply lt_IZR]).
    rewrite E, E', (mult_IZR (2 * k - 1)%Z), (mult_IZR (2 * k + 1)%Z), (mult_IZR (2 * r)%Z), (minus_IZR (2 * k) 1), (plus_IZR (2 * k) 1), !mult_IZR.
    set (y := IZR r / IZR rmax * IZR (hi - lo)).
    assert (Y : 2 * IZR r * IZR (hi - lo) = 2 * y * IZR rmax) by (unfold y; field; lra). rewrite Y.
    set (M := IZR rmax) in *. split; intros [U V]; split; nra.
  - intros L r. unfold uniformZ. replace (hi <=? lo)%Z with true by lia. reflexivity.
Qed.

(** So the integers are not equally likely: the two at the ends get half as many of the
    possible draws as those between. *)
Theorem C112_uniform_refuted :
  forall r, drawn r ->
    (uniformZ 0 2 r = Ok 0%Z <-> (0 <= r <= 536870911)%Z) /\
    (uniformZ 0 2 r = Ok 1%Z <-> (536870912 <= r <= 1610612735)%Z) /\
    (uniformZ 0 2 r = Ok 2%Z <-> (1610612736 <= r <= rmax)%Z).
Proof.
  intros r D. destruct (proj1 (C112_uniform_integer 0 2) ltac:(lia) r D) as (x & E & B & K). rewrite E.
  pose proof (K 0%Z) as K0. pose proof (K 1%Z) as K1. pose proof (K 2%Z) as K2. unfold rmax, drawn in *.
  split; [|split].
  - split; [intros H; injection H as ->; lia | intros H; f_equal; lia].
  - split; [intros H; injection H as ->; unfold rmax in *; lia | intros H; f_equal; lia].
  - split; [intros H; injection H as ->; unfold rmax in *; lia | intros H; f_equal; lia].
Qed.

(** A category is drawn when the fraction drawn falls into its share of the unit interval,
    closed above; the last takes what is left. *)
Theorem C112_categorical :
  (forall ps r k, sampleCategorical ps r = Ok k ->
     let u := IZR r / IZR rmax in
     (k < length ps)%nat /\ (forall p, In p ps -> 0 <= p) /\
     Rabs (before (length ps) ps - 1) <= 1 / 1000000000000 /\
     (k <> O -> before k ps < u) /\ (S k <> length ps -> u <= before (S k) ps)) /\
  (forall ps r k, sampleCategorical ps r = Ok k -> forall i, (i < length ps)%nat ->
     before i ps < IZR r / IZR rmax <= before (S i) ps -> k = i) /\
  (forall ps r, (exists p, In p ps /\ p < 0) \/ 1 / 1000000000000 < Rabs (before (length ps) ps - 1) ->
     sampleCategorical ps r = Throw) /\
  (forall ps r, (forall p, In p ps -> 0 <= p) -> before (length ps) ps = 1 ->
     exists k, sampleCategorical ps r = Ok k).
Proof.
  assert (F : forall ps r k, sampleCategorical ps r = Ok k ->
     let u := IZR r / IZR rmax in
     (k < length ps)%nat /\ (forall p, In p ps -> 0 <= p) /\
     Rabs (before (length ps) ps - 1) <= 1 / 1000000000000 /\
     (k <> O -> before k ps < u) /\ (S k <> length ps -> u <= before (S k) ps)).
  { intros ps r k E u. unfold sampleCategorical in E. rewrite sum_fold, Rplus_0_l in E.
    destruct (Rlt_dec _ _) as [SS|SS] in E; [discriminate E|].
    destruct (existsb _ ps) eqn:N in E; [discriminate E|].
    assert (P : forall p, In p ps -> 0 <= p).
    { intros p K. destruct (Rlt_dec p 0) as [Q|Q]; [exfalso | lra].
      assert (existsb (fun p => if Rlt_dec p 0 then true else false) ps = true); [|congruence].
      apply existsb_exists. exists p. split; [exact K|]. destruct (Rlt_dec p 0); [reflexivity | lra]. }
    destruct ps as [|p ps]; [discriminate E|]. injection E as E. cbn [unit] in E. fold u in E.
    pose proof (categorical_loop u ps p 0) as H. cbv zeta in H. rewrite E in H. destruct H as (A & B & C).
    split; [cbn [length]; lia|]. split; [exact P|]. split; [lra|]. split.
    - intros K. destruct k as [|k]; [congruence|]. cbn [before]. replace (S k - 0 - 1)%nat with k in B by lia. apply B. lia.
    - intros K. cbn [before]. replace (k - 0)%nat with k in C by lia. apply C. cbn [length] in K. lia. }
  split; [exact F|]. split; [|split].
  - intros ps r k E i L [U V]. destruct (F ps r k E) as (A & P & _ & B & C). cbv zeta in B, C.
    destruct (lt_eq_lt_dec k i) as [[K|K]|K]; [exfalso | exact K | exfalso].
    + pose proof (before_le ps P (S k) i K). specialize (C ltac:(lia)). lra.
    + pose proof (before_le ps P (S i) k K). specialize (B ltac:(lia)). lra.
  - intros ps r H. unfold sampleCategorical. rewrite sum_fold, Rplus_0_l. destruct (Rlt_dec _ _) as [SS|SS]; [reflexivity|].
    destruct H as [(p & K & N)|H]; [|contradiction].
    replace (existsb _ ps) with true; [reflexivity|]. symmetry. apply existsb_exists. exists p. split; [exact K|].
    destruct (Rlt_dec p 0); [reflexivity | contradiction].
  - intros ps r P H. unfold sampleCategorical. rewrite sum_fold, Rplus_0_l, H.
    replace (1 - 1) with 0 by ring. rewrite Rabs_R0. destruct (Rlt_dec _ _) as [SS|SS]; [lra|].
    destruct (existsb _ ps) eqn:N.
    + apply existsb_exists in N. destruct N as (p & K & N). pose proof (P p K). destruct (Rlt_dec p 0); [lra | discriminate N].
    + destruct ps as [|p ps]; [cbn in H; lra|]. eexists. reflexivity.
Qed.

(** A first category of probability zero is drawn all the same, with the number 0. *)
Theorem C112_zero_category_refuted :
  forall ps, sampleCategorical (0 :: ps) 0 = Throw \/ sampleCategorical (0 :: ps) 0 = Ok 0%nat.
Proof.
  intros ps. unfold sampleCategorical.
  destruct (Rlt_dec _ _); [left; reflexivity|]. destruct (existsb _ _); [left; reflexivity|]. right. cbn [unit].
  replace (IZR 0 / IZR rmax) with 0 by (unfold Rdiv; ring).
  destruct ps; cbn [categoricalLoop]; [reflexivity|]. destruct (Rlt_dec 0 0); [lra | reflexivity].
Qed.

(** A Poisson sample is the number of draws whose fractions can be multiplied before the
    product falls to exp(-mean). *)
Theorem C112_poisson :
  forall mean draws,
    (0 < mean ->
     (forall k rest, samplePoisson mean draws = Ok (Some (k, rest)) ->
        (k < length draws)%nat /\ rest = skipn (S k) draws /\
        product (S k) draws <= exp (- mean) /\ (forall j, (j <= k)%nat -> exp (- mean) < product j draws)) /\
     (samplePoisson mean draws = Ok None ->
        forall j, (j <= length draws)%nat -> exp (- mean) < product j draws)) /\
    (mean <= 0 -> samplePoisson mean draws = Throw).
Proof.
  intros mean draws. unfold samplePoisson. destruct (Rle_dec mean 0) as [M|M].
  { split; [lra | reflexivity]. }
  assert (E : exp (- mean) < 1) by (rewrite <- exp_0; apply exp_increasing; lra).
  split; [|intros; lra]. intros _. split.
  - intros k rest H. injection H as H. destruct (poisson_loop _ _ _ _ _ _ H) as (m & A & B & C & D & F).
    cbn [Nat.add] in A. rewrite A. split; [exact B|]. split; [exact C|]. split; [lra|].
    intros j L. destruct j as [|j]; [cbn [product]; destruct draws; lra|].
    specialize (F (S j) ltac:(lia)). lra.
  - intros H j L. injection H as H. destruct j as [|j]; [cbn [product]; destruct draws; lra|].
    pose proof (poisson_none _ _ _ _ H (S j) ltac:(lia)). lra.
Qed.

(** Exponential and geometric samples invert the probability of a larger value at the first
    fraction drawn that is not zero. *)
Theorem C112_exponential :
  forall rate draws, (forall r, In r draws -> drawn r) ->
    (0 < rate -> forall x rest, sampleExponential rate draws = Ok (Some (x, rest)) ->
       exists zeros r, draws = zeros ++ r :: rest /\ Forall (fun z => z = 0%Z) zeros /\
         0 <= x /\ exp (- (rate * x)) = IZR r / IZR rmax) /\
    (rate <= 0 -> sampleExponential rate draws = Throw).
Proof.
  intros rate draws H. unfold sampleExponential. destruct (Rle_dec rate 0) as [M|M].
  { split; [lra | reflexivity]. }
  split; [|intros; lra]. intros _ x rest E. injection E as E.
  destruct (nonzero draws) as [[u rest']|] eqn:N; [|discriminate E]. injection E as E E'. subst rest'.
  destruct (nonzero_pos draws u rest H N) as (U & zeros & r & A & B & C).
  exists zeros, r. split; [exact A|]. split; [exact C|]. rewrite <- E, <- B. split.
  - apply Rmult_le_pos; [|left; apply Rinv_0_lt_compat; lra].
    assert (ln u <= 0) by (destruct (Req_dec u 1) as [->|Q]; [rewrite ln_1; lra | left; rewrite <- ln_1; apply ln_increasing; lra]). lra.
  - replace (- (rate * (- ln u / rate))) with (ln u) by (field; lra). apply exp_ln. lra.
Qed.

Theorem C112_geometric :
  forall p draws, (forall r, In r draws -> drawn r) ->
    (0 < p <= 1 -> forall k rest, sampleGeometric p draws = Ok (Some (k, rest)) ->
       exists zeros r, draws = zeros ++ r :: rest /\ Forall (fun z => z = 0%Z) zeros /\
         (0 <= k)%Z /\ (1 - p) ^ S (Z.to_nat k) < IZR r / IZR rmax <= (1 - p) ^ Z.to_nat k) /\
    (p <= 0 \/ 1 < p -> sampleGeometric p draws = Throw).
Proof.
  intros p draws H. unfold sampleGeometric. destruct (Rle_dec p 0) as [M|M].
  { split; [lra | reflexivity]. }
  destruct (Rlt_dec 1 p) as [M'|M'].
  { split; [lra | reflexivity]. }
  split; [|intros; lra]. intros _ k rest E. injection E as E.
  destruct (nonzero draws) as [[u rest']|] eqn:N; [|discriminate E]. injection E as E E'. subst rest'.
  destruct (nonzero_pos draws u rest H N) as (U & zeros & r & A & B & C).
  exists zeros, r. split; [exact A|]. split; [exact C|]. rewrite <- B.
  destruct (Req_EM_T p 1) as [Q|Q].
  - rewrite <- E, Q. split; [lia|]. cbn [Z.to_nat pow]. lra.
  - rewrite <- E. apply geometric_bounds; lra.
Qed.

(** A normal sample is Box and Muller's, in Marsaglia's form: the first point (u, v) inside
    the unit circle gives the radius sqrt(-2 ln s) and the cosine u / sqrt s. *)
Theorem C112_normal :
  forall mean variance draws,
    (0 < variance -> forall x rest, sampleNormal Real mean variance draws = Ok (Some (x, rest)) ->
       exists used r1 r2 s c c', draws = paired used ++ r1 :: r2 :: rest /\
         Forall (fun p => ~ in_disc p) used /\ 0 < s < 1 /\ c * c + c' * c' = 1 /\
         side r1 = c * sqrt s /\ side r2 = c' * sqrt s /\
         x = mean + sqrt variance * (sqrt ((-2) * ln s) * c)) /\
    (forall T, variance <= 0 -> sampleNormal T mean variance draws = Throw).
Proof.
  intros mean variance draws. split.
  - intros V x rest E. unfold sampleNormal in E. destruct (Rle_dec variance 0); [lra|]. injection E as E.
    destruct (normal_form mean variance x (length draws) draws rest (le_n _) E) as (used & r1 & r2 & A & O & B).
    cbv zeta in B. set (u := side r1) in *. set (v := side r2) in *.
    set (s := u * u + v * v) in *. destruct B as [B X].
    assert (S : 0 < sqrt s) by (apply sqrt_lt_R0; lra).
    assert (SS : sqrt s * sqrt s = s) by (apply sqrt_sqrt; lra).
    exists used, r1, r2, s, (u / sqrt s), (v / sqrt s). split; [exact A|]. split; [exact O|]. split; [exact B|]. split.
    { replace (u / sqrt s * (u / sqrt s) + v / sqrt s * (v / sqrt s)) with (s / (sqrt s * sqrt s)) by (unfold s at 1; field; lra).
      rewrite SS. field. lra. }
    fold u v. split; [field; lra|]. split; [field; lra|]. rewrite X.
    assert (LS : ln s < 0) by (rewrite <- ln_1; apply ln_increasing; lra).
    rewrite sqrt_div_alt by lra. field. lra.
  - intros T V. unfold sampleNormal. destruct (Rle_dec variance 0); [reflexivity | lra].
Qed.

(** With an integer type the fractions are rounded to 0 or 1, the points all lie outside
    the circle, and the sampler never returns. *)
Theorem C112_normal_integer_refuted :
  forall mean variance draws, 0 < variance -> (forall r, In r draws -> drawn r) ->
    sampleNormal Integer mean variance draws = Ok None.
Proof.
  intros mean variance draws V H. unfold sampleNormal. destruct (Rle_dec variance 0); [lra|]. f_equal.
  exact (integer_normal mean variance (length draws) draws (le_n _) H).
Qed.

Example C112_ex :
  drawn 0 /\ drawn rmax /\ uniformR 2 5 rmax = Ok 5 /\
  sampleCategorical [1; 0] rmax = Ok 0%nat /\
  (exists x, sampleExponential 2 [0; rmax; 7]%Z = Ok (Some (x, [7%Z])) /\ x = 0) /\
  sampleGeometric 1 [rmax] = Ok (Some (0%Z, [])) /\
  samplePoisson 1 [rmax; 0; 5]%Z = Ok (Some (1%nat, [5%Z])) /\
  sampleNormal Integer 0 1 [0; 0; rmax; 0]%Z = Ok None.
Proof.
  pose proof rmax_pos as P.
  assert (U : IZR rmax / IZR rmax = 1) by (field; lra).
  assert (Z0 : IZR 0 / IZR rmax = 0) by (unfold Rdiv; ring).
  assert (D0 : drawn 0) by (unfold drawn, rmax; lia). assert (D1 : drawn rmax) by (unfold drawn, rmax; lia).
  split; [exact D0|]. split; [exact D1|].
  split; [apply (proj2 (proj2 (proj1 (C112_uniform 2 5) ltac:(lra))))|].
  split.
  { destruct (proj2 (proj2 (proj2 C112_categorical)) [1; 0] rmax) as (k & K).
    - intros p [<- | [<- | []]]; lra.
    - cbn. lra.
    - rewrite K. f_equal. apply (proj1 (proj2 C112_categorical) _ _ _ K 0%nat); [cbn; lia|]. rewrite U. cbn [before]. lra. }
  split.
  { exists (- ln 1 / 2). split; [|rewrite ln_1; lra].
    unfold sampleExponential. destruct (Rle_dec 2 0); [lra|]. cbn [nonzero unit]. rewrite Z0, U.
    destruct (Req_EM_T 0 0); [|lra]. destruct (Req_EM_T 1 0); [lra | reflexivity]. }
  split.
  { unfold sampleGeometric. destruct (Rle_dec 1 0); [lra|]. destruct (Rlt_dec 1 1); [lra|]. cbn [nonzero unit]. rewrite U.
    destruct (Req_EM_T 1 0); [lra|]. destruct (Req_EM_T 1 1); [reflexivity | lra]. }
  split.
  { unfold samplePoisson. destruct (Rle_dec 1 0); [lra|]. cbn [poissonLoop unit]. rewrite U, Z0.
    assert (E : exp (- (1)) < 1) by (apply Rlt_le_trans with (exp 0); [apply exp_increasing; lra | rewrite exp_0; lra]). pose proof (exp_pos (- (1))).
    destruct (Rlt_dec (exp (- (1))) (1 * 1)); [|lra]. destruct (Rlt_dec (exp (- (1))) (1 * 1 * 0)); [lra | reflexivity]. }
  apply C112_normal_integer_refuted; [lra|]. intros r [<- | [<- | [<- | [<- | []]]]]; assumption.
Qed.

Print Assumptions C111_support. Print Assumptions C111_real. Print Assumptions C111_integer.
Print Assumptions C111_box. Print Assumptions C111_mean_refuted. Print Assumptions C111_covariance_refuted.
Print Assumptions C112_uniform. Print Assumptions C112_uniform_integer. Print Assumptions C112_uniform_refuted.
Print Assumptions C112_categorical. Print Assumptions C112_zero_category_refuted. Print Assumptions C112_poisson.
Print Assumptions C112_exponential. Print Assumptions C112_geometric. Print Assumptions C112_normal.
Print Assumptions C112_normal_integer_refuted.
