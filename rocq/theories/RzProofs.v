(** * Lemmas on uniform distributions and samples *)
From Coquelicot Require Import Coquelicot.
From Coq Require Import Reals List ZArith Bool Arith Lra Lia ZifyBool.
From Verif Require Import Base RzModel RzSpec.
Import ListNotations.
Local Open Scope R_scope.

(** ** Distributions *)
Lemma inside d : least d < greatest d -> area d = greatest d - least d ->
  forall x, Rmin (least d) (greatest d) < x < Rmax (least d) (greatest d) -> densityR d x = / (greatest d - least d).
Proof.
  intros L A x H. rewrite Rmin_left, Rmax_right in H by lra. unfold densityR.
  destruct (Rle_dec (least d) x); [|lra]. destruct (Rle_dec x (greatest d)); [|lra]. rewrite A. field. lra.
Qed.
Lemma poly_integral (a b c : R) (F f : R -> R) :
  (forall x, is_derive F x (f x)) -> (forall x, continuous f x) -> F b - F a = c -> is_RInt f a b c.
Proof.
  intros D C E. rewrite <- E. apply (is_RInt_derive F f).
  - intros x _. apply D.
  - intros x _. apply C.
Qed.
Lemma moments lo hi : lo < hi ->
  let m := (lo + hi) / 2 in let w := / (hi - lo) in
  is_RInt (fun _ => w) lo hi 1 /\ is_RInt (fun x => x * w) lo hi m /\
  is_RInt (fun x => (x - m) * (x - m) * w) lo hi ((hi - lo) * (hi - lo) / 12).
Proof.
  intros L m w. split; [|split].
  - apply (poly_integral lo hi 1 (fun x => x * w)).
    + intros x. auto_derive; [exact I | ring].
    + intros x. apply continuous_const.
    + unfold w. field. lra.
  - apply (poly_integral lo hi m (fun x => x * x / 2 * w)).
    + intros x. auto_derive; [exact I | field; unfold w; lra].
    + intros x. apply (ex_derive_continuous (fun x => x * w)). auto_derive. exact I.
    + unfold w, m. field. lra.
  - apply (poly_integral lo hi _ (fun x => (x - m) * (x - m) * (x - m) / 3 * w)).
    + intros x. auto_derive; [exact I | field; unfold w; lra].
    + intros x. apply (ex_derive_continuous (fun x => (x - m) * (x - m) * w)). auto_derive. exact I.
    + unfold w, m. field. lra.
Qed.

Lemma sum_ext f g lo n : (forall k, (0 <= k < Z.of_nat n)%Z -> f (lo + k)%Z = g (lo + k)%Z) -> sum_from f lo n = sum_from g lo n.
Proof.
  induction n as [|n IH]; intros H; cbn [sum_from]; [reflexivity|].
  rewrite IH by (intros k Hk; apply H; lia). rewrite H by lia. reflexivity.
Qed.
Lemma sum_const c lo n : sum_from (fun _ => c) lo n = INR n * c.
Proof. induction n as [|n IH]; cbn [sum_from]; [cbn; ring | rewrite IH, S_INR; ring]. Qed.
Lemma sum_first c lo n : sum_from (fun k => IZR k * c) lo n = (INR n * IZR lo + INR n * (INR n - 1) / 2) * c.
Proof.
  induction n as [|n IH]; cbn [sum_from]; [cbn; field|].
  rewrite IH, S_INR, plus_IZR, <- INR_IZR_INZ. field.
Qed.
Lemma sum_second a c lo n : sum_from (fun k => (IZR k - a) * (IZR k - a) * c) lo n =
  (INR n * (IZR lo - a) * (IZR lo - a) + (IZR lo - a) * INR n * (INR n - 1) + INR n * (INR n - 1) * (2 * INR n - 1) / 6) * c.
Proof.
  induction n as [|n IH]; cbn [sum_from]; [cbn; field|].
  rewrite IH, S_INR, plus_IZR, <- INR_IZR_INZ. field.
Qed.
Lemma massZ_inside lo hi k : (lo < hi)%Z -> (0 <= k < Z.of_nat (Z.to_nat (hi - lo + 1)))%Z ->
  massZ (Uniform lo hi (hi - lo + 1)%Z) (lo + k) = / IZR (hi - lo + 1).
Proof.
  intros L H. unfold massZ. cbn [least greatest area].
  replace ((lo <=? lo + k) && (lo + k <=? hi))%Z%bool with true by lia.
  assert (IZR (hi - lo + 1) <> 0) by (apply not_0_IZR; lia). field. assumption.
Qed.
Lemma momentsZ lo hi : (lo < hi)%Z ->
  let d := Uniform lo hi (hi - lo + 1)%Z in let n := Z.to_nat (hi - lo + 1) in
  let m := (IZR lo + IZR hi) / 2 in
  sum_from (massZ d) lo n = 1 /\ sum_from (fun k => IZR k * massZ d k) lo n = m /\
  sum_from (fun k => (IZR k - m) * (IZR k - m) * massZ d k) lo n = varianceZ d.
Proof.
  intros L d n m.
  assert (N : INR n = IZR hi - IZR lo + 1).
  { unfold n. rewrite INR_IZR_INZ, Z2Nat.id by lia. rewrite plus_IZR, minus_IZR. reflexivity. }
  assert (LR : IZR lo < IZR hi) by (apply IZR_lt, L).
  assert (W : IZR (hi - lo + 1) = IZR hi - IZR lo + 1) by (rewrite plus_IZR, minus_IZR; reflexivity).
  split; [|split].
  - rewrite (sum_ext _ (fun _ => / IZR (hi - lo + 1))) by (intros k Hk; apply massZ_inside; assumption).
    rewrite sum_const, N, W. field. lra.
  - rewrite (sum_ext _ (fun k => IZR k * / IZR (hi - lo + 1))) by (intros k Hk; unfold d; rewrite massZ_inside by assumption; reflexivity).
    rewrite sum_first, N, W. unfold m. field. lra.
  - rewrite (sum_ext _ (fun k => (IZR k - m) * (IZR k - m) * / IZR (hi - lo + 1))) by (intros k Hk; unfold d; rewrite massZ_inside by assumption; reflexivity).
    rewrite sum_second, N. unfold varianceZ, d, m. cbn [greatest least]. rewrite W. field. lra.
Qed.

(** ** Boxes *)
Lemma volume_from b : forall a, fold_left (fun a (p : R * R) => a * (snd p - fst p)) b a = a * volume b.
Proof.
  unfold volume. induction b as [|(lo, hi) b IH]; intros a; cbn [fold_left]; [ring|].
  rewrite IH, (IH (1 * _)). cbn [fst snd]. ring.
Qed.
Lemma volume_cons lo hi b : volume ((lo, hi) :: b) = (hi - lo) * volume b.
Proof. unfold volume at 1. cbn [fold_left fst snd]. rewrite volume_from. ring. Qed.
Lemma volume_pos b : (forall lo hi, In (lo, hi) b -> lo < hi) -> 0 < volume b.
Proof.
  induction b as [|(lo, hi) b IH]; intros H; [unfold volume; cbn; lra|]. rewrite volume_cons.
  apply Rmult_lt_0_compat.
  - pose proof (H lo hi (or_introl eq_refl)). lra.
  - apply IH. intros l h K. apply H. right. exact K.
Qed.
Lemma supportM_ok b : (exists b', supportM b = Ok b') <-> (forall lo hi, In (lo, hi) b -> lo < hi).
Proof.
  unfold supportM. split.
  - intros (b' & E). destruct (existsb _ b) eqn:X; [discriminate E|]. intros lo hi K.
    destruct (Rlt_dec lo hi) as [L|L]; [exact L|]. exfalso.
    assert (existsb (fun p : R * R => if Rle_dec (snd p) (fst p) then true else false) b = true); [|congruence].
    apply existsb_exists. exists (lo, hi). split; [exact K|]. cbn [fst snd]. destruct (Rle_dec hi lo); [reflexivity | lra].
  - intros H. exists b. destruct (existsb _ b) eqn:X; [|reflexivity]. apply existsb_exists in X.
    destruct X as ((lo, hi) & K & Z). cbn [fst snd] in Z. pose proof (H lo hi K). destruct (Rle_dec hi lo); [lra | discriminate Z].
Qed.
Lemma densityM_product b : (forall lo hi, In (lo, hi) b -> lo < hi) -> forall x, length x = length b ->
  densityM b x = independent b x.
Proof.
  induction b as [|(lo, hi) b IH]; intros H x L.
  - destruct x; [|discriminate L]. unfold densityM, volume. cbn. field.
  - destruct x as [|y x]; [discriminate L|]. injection L as L.
    assert (H' : forall l h, In (l, h) b -> l < h) by (intros l h K; apply H; right; exact K).
    specialize (IH H' x L). pose proof (H lo hi (or_introl eq_refl)) as P. pose proof (volume_pos b H') as V.
    cbn [independent]. rewrite <- IH. unfold densityM. cbn [combine forallb fst snd]. rewrite volume_cons.
    destruct (Rle_dec y hi) as [A|A], (Rle_dec lo y) as [B|B]; cbn [andb];
      repeat match goal with |- context [forallb ?f ?l] => destruct (forallb f l) end; cbn [andb]; try ring; field; lra.
Qed.

(** ** Samples *)
Lemma rmax_pos : 0 < IZR rmax.
Proof. unfold rmax. apply IZR_lt. lia. Qed.
Lemma fraction r : drawn r -> 0 <= IZR r / IZR rmax <= 1.
Proof.
  intros [A B]. pose proof rmax_pos as P. apply IZR_le in A. apply IZR_le in B. split.
  - apply Rmult_le_pos; [exact A | left; apply Rinv_0_lt_compat, P].
  - apply (Rmult_le_reg_r (IZR rmax)); [exact P|]. replace (IZR r / IZR rmax * IZR rmax) with (IZR r) by (field; lra). lra.
Qed.
Lemma int_part x k : Int_part x = k <-> IZR k <= x < IZR k + 1.
Proof.
  split.
  - intros E. pose proof (base_Int_part x) as [A B]. rewrite E in A, B. lra.
  - intros H. pose proof (base_Int_part x) as [A B].
    assert (IZR (Int_part x) < IZR (k + 1)) as P by (rewrite plus_IZR; lra). apply lt_IZR in P.
    assert (IZR k < IZR (Int_part x + 1)) as Q by (rewrite plus_IZR; lra). apply lt_IZR in Q. lia.
Qed.
Lemma round_away_pos x k : 0 <= x -> (round_away x = k <-> IZR k - 1 / 2 <= x < IZR k + 1 / 2).
Proof.
  intros H. unfold round_away. destruct (Rle_dec 0 x); [|lra]. rewrite int_part. lra.
Qed.
Lemma round_away_range x n : 0 <= x <= IZR n -> (0 <= round_away x <= n)%Z.
Proof.
  intros H. destruct (proj1 (round_away_pos x (round_away x) (proj1 H)) eq_refl) as [A B]. split.
  - assert (IZR (-1) < IZR (round_away x)) by lra. apply lt_IZR in H0. lia.
  - assert (IZR (round_away x) < IZR (n + 1)) by (rewrite plus_IZR; lra). apply lt_IZR in H0. lia.
Qed.
Lemma integer_unit r : drawn r -> unit Integer r = 0 \/ unit Integer r = 1.
Proof.
  intros D. pose proof (fraction r D) as F. cbn [unit].
  destruct (round_away_range (IZR r / IZR rmax) 1) as [A B]; [exact F|].
  assert (round_away (IZR r / IZR rmax) = 0 \/ round_away (IZR r / IZR rmax) = 1)%Z as [E|E] by lia; rewrite E; [left | right]; reflexivity.
Qed.
Lemma integer_normal mean variance : forall n draws, (length draws <= n)%nat -> (forall r, In r draws -> drawn r) ->
  normalLoop Integer mean variance draws = None.
Proof.
  induction n as [|n IH]; intros draws L H.
  - destruct draws as [|r draws]; [reflexivity | cbn in L; lia].
  - destruct draws as [|r1 [|r2 draws]]; [reflexivity | reflexivity|]. cbn [normalLoop].
    pose proof (integer_unit r1 (H r1 (or_introl eq_refl))) as U.
    pose proof (integer_unit r2 (H r2 (or_intror (or_introl eq_refl)))) as V.
    assert (E : (2 * unit Integer r1 - 1) * (2 * unit Integer r1 - 1) + (2 * unit Integer r2 - 1) * (2 * unit Integer r2 - 1) = 2)
      by (destruct U as [-> | ->], V as [-> | ->]; ring).
    rewrite E. destruct (Rle_dec 1 2); [|lra].
    apply IH; [cbn [length] in L; lia | intros x K; apply H; right; right; exact K].
Qed.
Lemma normal_form mean variance x : forall n draws rest, (length draws <= n)%nat ->
  normalLoop Real mean variance draws = Some (x, rest) ->
  exists used r1 r2, draws = paired used ++ r1 :: r2 :: rest /\ Forall (fun p => ~ in_disc p) used /\
    let u := side r1 in let v := side r2 in
    let s := u * u + v * v in 0 < s < 1 /\ x = mean + sqrt variance * u * sqrt ((-2) * ln s / s).
Proof.
  induction n as [|n IH]; intros draws rest L E.
  - destruct draws as [|r draws]; [discriminate E | cbn in L; lia].
  - destruct draws as [|r1 [|r2 draws]]; try discriminate E. cbn [normalLoop unit] in E.
    assert (L' : (length draws <= n)%nat) by (cbn [length] in L; lia).
    fold (side r1) in E. fold (side r2) in E.
    set (s := side r1 * side r1 + side r2 * side r2) in E.
    assert (P : 0 <= s) by (unfold s; pose proof (Rle_0_sqr (side r1)) as A; pose proof (Rle_0_sqr (side r2)) as B; unfold Rsqr in A, B; lra).
    destruct (Rle_dec 1 s) as [A|A].
    { destruct (IH draws rest L' E) as (used & a & b & K & O & M). exists ((r1, r2) :: used), a, b.
      split; [rewrite K; reflexivity|]. split; [|exact M]. constructor; [|exact O]. unfold in_disc. cbn [fst snd]. fold s. lra. }
    destruct (Req_EM_T s 0) as [B|B].
    { destruct (IH draws rest L' E) as (used & a & b & K & O & M). exists ((r1, r2) :: used), a, b.
      split; [rewrite K; reflexivity|]. split; [|exact M]. constructor; [|exact O]. unfold in_disc. cbn [fst snd]. fold s. lra. }
    injection E as E E'. exists [], r1, r2. split; [rewrite E'; reflexivity|]. split; [constructor|].
    cbv zeta. fold s. split; [lra | symmetry; exact E].
Qed.

Lemma before_step : forall i ps, before (S i) ps = before i ps + nth i ps 0.
Proof.
  induction i as [|i IH]; intros [|p ps].
  - cbn. ring.
  - cbn. ring.
  - cbn. ring.
  - change (before (S (S i)) (p :: ps)) with (p + before (S i) ps). rewrite IH. cbn [before nth]. ring.
Qed.
Lemma before_le ps : (forall p, In p ps -> 0 <= p) -> forall i j, (i <= j)%nat -> before i ps <= before j ps.
Proof.
  intros H i j L. induction L as [|j L IH]; [lra|]. rewrite before_step.
  assert (0 <= nth j ps 0); [|lra]. destruct (nth_in_or_default j ps 0) as [K|K]; [apply H, K | rewrite K; lra].
Qed.
Lemma categorical_loop u : forall ps sum i,
  let k := categoricalLoop u sum i ps in
  (i <= k <= i + length ps)%nat /\
  ((i < k)%nat -> sum + before (k - i - 1) ps < u) /\
  ((k < i + length ps)%nat -> u <= sum + before (k - i) ps).
Proof.
  induction ps as [|p ps IH]; intros sum i; cbn [categoricalLoop length]; cbv zeta.
  - split; [lia|]. split; intros; lia.
  - destruct (Rlt_dec sum u) as [L|L].
    + specialize (IH (sum + p) (S i)). cbv zeta in IH. destruct IH as (A & B & C).
      set (k := categoricalLoop u (sum + p) (S i) ps) in *. split; [lia|]. split.
      * intros _. destruct (Nat.eq_dec k (S i)) as [E|E].
        { replace (k - i - 1)%nat with 0%nat by lia. cbn [before]. lra. }
        replace (k - i - 1)%nat with (S (k - S i - 1)) by lia. cbn [before].
        assert (sum + p + before (k - S i - 1) ps < u) by (apply B; lia). lra.
      * intros K. replace (k - i)%nat with (S (k - S i)) by lia. cbn [before].
        assert (u <= sum + p + before (k - S i) ps) by (apply C; lia). lra.
    + split; [lia|]. split; [intros; lia|]. intros _. replace (i - i)%nat with 0%nat by lia. cbn [before]. lra.
Qed.
Lemma sum_fold ps : forall a, fold_left Rplus ps a = a + before (length ps) ps.
Proof.
  induction ps as [|p ps IH]; intros a; cbn [fold_left length before]; [ring|]. rewrite IH. ring.
Qed.

Lemma poisson_loop l : forall draws p k n rest,
  poissonLoop l p k draws = Some (n, rest) ->
  exists m, n = (k + m)%nat /\ (m < length draws)%nat /\ rest = skipn (S m) draws /\
    p * product (S m) draws <= l /\ (forall j, (1 <= j <= m)%nat -> l < p * product j draws).
Proof.
  induction draws as [|r draws IH]; intros p k n rest E; [discriminate E|]. cbn [poissonLoop unit] in E.
  destruct (Rlt_dec l (p * (IZR r / IZR rmax))) as [L|L].
  - destruct (IH _ _ _ _ E) as (m & A & B & C & D & F). exists (S m).
    split; [lia|]. split; [cbn [length]; lia|]. split; [rewrite C; reflexivity|].
    split; [cbn [product] in *; rewrite <- Rmult_assoc; exact D|].
    intros j Hj. destruct j as [|j]; [lia|]. cbn [product]. rewrite <- Rmult_assoc.
    destruct j as [|j]; [cbn [product]; lra|]. apply F. lia.
  - injection E as E E'. exists 0%nat. split; [lia|]. split; [cbn [length]; lia|].
    split; [rewrite E'; reflexivity|]. split; [cbn [product]; destruct draws; lra|]. intros j Hj. lia.
Qed.
Lemma poisson_none l : forall draws p k, poissonLoop l p k draws = None ->
  forall j, (1 <= j <= length draws)%nat -> l < p * product j draws.
Proof.
  induction draws as [|r draws IH]; intros p k E j Hj; [cbn [length] in Hj; lia|]. cbn [poissonLoop unit] in E.
  destruct (Rlt_dec l (p * (IZR r / IZR rmax))) as [L|L]; [|discriminate E].
  destruct j as [|j]; [lia|]. cbn [product]. rewrite <- Rmult_assoc.
  destruct j as [|j]; [cbn [product]; destruct draws; lra|]. apply (IH _ _ E). cbn [length] in Hj. lia.
Qed.

Lemma nonzero_pos : forall draws u rest, (forall r, In r draws -> drawn r) -> nonzero draws = Some (u, rest) ->
  0 < u <= 1 /\ exists zeros r, draws = zeros ++ r :: rest /\ u = IZR r / IZR rmax /\ Forall (fun z => z = 0%Z) zeros.
Proof.
  induction draws as [|r draws IH]; intros u rest H E; [discriminate E|]. cbn [nonzero unit] in E.
  pose proof (fraction r (H r (or_introl eq_refl))) as F. pose proof rmax_pos as P.
  destruct (Req_EM_T (IZR r / IZR rmax) 0) as [Z|Z].
  - destruct (IH u rest (fun x K => H x (or_intror K)) E) as (U & zeros & x & K & M & G). split; [exact U|].
    exists (r :: zeros), x. split; [rewrite K; reflexivity|]. split; [exact M|]. constructor; [|exact G].
    assert (IZR r = 0) by (replace (IZR r) with (IZR r / IZR rmax * IZR rmax) by (field; lra); rewrite Z; ring).
    apply eq_IZR. exact H0.
  - injection E as E E'. rewrite <- E. split; [lra|]. exists [], r. split; [rewrite E'; reflexivity|].
    split; [reflexivity | constructor].
Qed.
Lemma geometric_bounds u q : 0 < u <= 1 -> 0 < q < 1 ->
  let k := Int_part (ln u / ln q) in (0 <= k)%Z /\ q ^ (S (Z.to_nat k)) < u <= q ^ Z.to_nat k.
Proof.
  intros U Q k. assert (LU : ln u <= 0) by (destruct (Req_dec u 1) as [->|N]; [rewrite ln_1; lra | left; rewrite <- ln_1; apply ln_increasing; lra]).
  assert (LQ : ln q < 0) by (rewrite <- ln_1; apply ln_increasing; lra).
  assert (T : 0 <= ln u / ln q).
  { replace (ln u / ln q) with (- ln u * / - ln q) by (field; lra). apply Rmult_le_pos; [lra | left; apply Rinv_0_lt_compat; lra]. }
  destruct (proj1 (int_part (ln u / ln q) k) eq_refl) as [A B].
  assert (K : (0 <= k)%Z).
  { assert (IZR (-1) < IZR k) by lra. apply lt_IZR in H. lia. }
  split; [exact K|].
  assert (I : INR (Z.to_nat k) = IZR k) by (rewrite INR_IZR_INZ, Z2Nat.id by exact K; reflexivity).
  rewrite <- !Rpower_pow by lra. unfold Rpower. rewrite S_INR, I.
  assert (E : ln u = ln u / ln q * ln q) by (field; lra).
  split.
  - rewrite <- (exp_ln u) by lra. apply exp_increasing. rewrite E at 1. nra.
  - rewrite <- (exp_ln u) at 1 by lra.
    assert (ln u <= IZR k * ln q) by (rewrite E; nra).
    destruct H as [H|H]; [left; apply exp_increasing, H | right; rewrite H; reflexivity].
Qed.
