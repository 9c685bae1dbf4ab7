(** * Lemmas on dog-leg steps *)
From Coq Require Import Reals ZArith List Bool Lra Lia Psatz.
From Verif Require Import Base OdlModel OdlSpec.
Import ListNotations.
Local Open Scope R_scope.

Lemma inner_nonneg v : 0 <= inner v v.
Proof. induction v as [|x v IH]; cbn [inner]; [lra | nra]. Qed.
Lemma norm_nonneg v : 0 <= norm v. Proof. apply sqrt_pos. Qed.
Lemma norm_sqr v : norm v * norm v = inner v v.
Proof. apply sqrt_sqrt, inner_nonneg. Qed.
Lemma norm_of v r : 0 <= r -> inner v v = r * r -> norm v = r.
Proof. intros P E. unfold norm. rewrite E. now apply sqrt_square. Qed.
Lemma inner_zero u : forall d, inner d d = 0 -> inner u d = 0.
Proof.
  induction u as [|x u IH]; intros [|y d] H; try reflexivity. cbn [inner] in *. assert (P := inner_nonneg d).
  assert (Y : y = 0) by nra. rewrite Y in *. rewrite IH; lra.
Qed.
Lemma inner_scaled a v : inner (scaled a v) (scaled a v) = a * a * inner v v.
Proof. induction v as [|x v IH]; unfold scaled in *; cbn [map inner]; [ring | rewrite IH; ring]. Qed.
Lemma inner_line b u : forall d, length u = length d ->
  inner (plus u (scaled b d)) (plus u (scaled b d)) = inner u u + 2 * b * inner u d + b * b * inner d d.
Proof.
  induction u as [|x u IH]; intros [|y d] L; try discriminate L; unfold scaled in *; cbn [map plus inner]; [ring|].
  injection L as L. rewrite (IH d L). ring.
Qed.
Lemma minus_length u : forall v, length u = length v -> length (minus u v) = length u.
Proof. unfold minus, scaled. induction u as [|x u IH]; intros [|y v] L; try discriminate L; cbn [map plus length]; [reflexivity|]. f_equal. apply IH. now injection L. Qed.
Lemma minus_back u : forall v, length u = length v -> plus v (scaled 1 (minus u v)) = u.
Proof.
  unfold minus, scaled. induction u as [|x u IH]; intros [|y v] L; try discriminate L; cbn [map plus]; [reflexivity|].
  f_equal; [ring|]. apply IH. now injection L.
Qed.

Lemma root_line b c q : 0 < b -> 0 <= c * c + b * q ->
  let beta := if Rle_dec c 0 then (- c + sqrt (c * c + b * q)) / b else q / (c + sqrt (c * c + b * q)) in
  b * beta * beta + 2 * c * beta = q.
Proof.
  intros B D beta. set (w := sqrt (c * c + b * q)) in *. assert (W : w * w = c * c + b * q) by (apply sqrt_sqrt; exact D).
  assert (W0 : 0 <= w) by apply sqrt_pos.
  assert (E : beta = (w - c) / b).
  { unfold beta. destruct (Rle_dec c 0) as [C|C]; [field; lra|]. apply Rmult_eq_reg_r with (b * (c + w)); [|nra]. field_simplify; [nra | lra | lra]. }
  rewrite E. apply Rmult_eq_reg_r with b; [|lra]. replace ((b * ((w - c) / b) * ((w - c) / b) + 2 * c * ((w - c) / b)) * b) with ((w - c) * (w - c) + 2 * c * (w - c)) by (field; lra).
  nra.
Qed.
Lemma root_range b c q : 0 < b -> 0 < q -> 0 < b + 2 * c - q ->
  let beta := if Rle_dec c 0 then (- c + sqrt (c * c + b * q)) / b else q / (c + sqrt (c * c + b * q)) in
  0 < beta < 1.
Proof.
  intros B Q F beta. assert (D : 0 <= c * c + b * q) by nra. assert (E := root_line b c q B D). fold beta in E. cbv zeta in E.
  assert (P : 0 < beta).
  { unfold beta. destruct (Rle_dec c 0) as [C|C].
    - apply Rdiv_lt_0_compat; [|exact B]. assert (0 < sqrt (c * c + b * q)) by (apply sqrt_lt_R0; nra). lra.
    - apply Rdiv_lt_0_compat; [exact Q|]. assert (0 <= sqrt (c * c + b * q)) by apply sqrt_pos. lra. }
  split; [exact P|]. destruct (Rlt_dec beta 1) as [L|L]; [exact L|]. exfalso. apply Rnot_lt_le in L.
  assert (H : (b + 2 * c - q) * beta <= - (beta - 1) * q).
  { replace ((b + 2 * c - q) * beta) with (- (beta - 1) * q + (b * beta * beta + 2 * c * beta - q) + b * beta * (1 - beta)) by ring. rewrite E.
    assert (0 <= b * beta * (beta - 1)) by (apply Rmult_le_pos; [nra | lra]). nra. }
  assert (0 < (b + 2 * c - q) * beta) by (apply Rmult_lt_0_compat; assumption). nra.
Qed.

Section Step.
Variables sd gn : vec.
Hypothesis L : length gn = length sd.
Let d := minus gn sd.
Let a := inner sd sd.
Let b := inner d d.
Let c := inner sd d.
Lemma gn_line : inner gn gn = a + 2 * c + b.
Proof.
  rewrite <- (minus_back gn sd L) at 1 2. fold d.
  rewrite (inner_line 1 sd d) by (unfold d; rewrite minus_length; lia). fold a b c. ring.
Qed.
Lemma middle_line : inner (plus sd (scaled (1 / 2) d)) (plus sd (scaled (1 / 2) d)) = a + c + b / 4.
Proof. rewrite (inner_line (1 / 2) sd d) by (unfold d; rewrite minus_length; lia). fold a b c. field. Qed.
Lemma between_norm r : 0 <= r -> r < norm gn -> (a < r * r \/ r * r = a + c + b / 4) ->
  norm (plus sd (scaled (interpolation r sd gn) d)) = r.
Proof.
  intros Hr G O. assert (B0 : 0 <= b) by apply inner_nonneg.
  assert (G2 : r * r < a + 2 * c + b) by (rewrite <- gn_line, <- norm_sqr; nra).
  assert (B : 0 < b).
  { destruct (Req_dec b 0) as [Z|Z]; [|lra]. assert (C : c = 0) by (apply inner_zero; exact Z). exfalso. rewrite Z, C in G2, O. destruct O; lra. }
  assert (D : 0 <= c * c + b * (r * r - a)).
  { destruct O as [O|O]; [nra|]. rewrite O. replace (c * c + b * (a + c + b / 4 - a)) with ((c + b / 2) * (c + b / 2)) by field. exact (Rle_0_sqr (c + b / 2)). }
  apply norm_of; [exact Hr|]. rewrite inner_line by (unfold d; rewrite minus_length; lia). fold a b c.
  assert (E := root_line b c (r * r - a) B D). cbv zeta in E. unfold interpolation. cbv zeta. rewrite norm_sqr. fold d. fold a b c.
  set (beta := if Rle_dec c 0 then _ else _) in *. nra.
Qed.
Lemma between_range r : 0 < r -> r < norm gn -> a < r * r -> 0 < interpolation r sd gn < 1.
Proof.
  intros Hr G O. assert (B0 : 0 <= b) by apply inner_nonneg.
  assert (G2 : r * r < a + 2 * c + b) by (rewrite <- gn_line, <- norm_sqr; nra).
  assert (B : 0 < b).
  { destruct (Req_dec b 0) as [Z|Z]; [|lra]. assert (C : c = 0) by (apply inner_zero; exact Z). exfalso. rewrite Z, C in G2. lra. }
  unfold interpolation. cbv zeta. rewrite norm_sqr. fold d. fold a b c. apply root_range; lra.
Qed.
Lemma scaled_norm t v : 0 <= t -> norm (scaled t v) = t * norm v.
Proof.
  intros T. apply norm_of; [assert (H := norm_nonneg v); nra|]. rewrite inner_scaled, <- norm_sqr. ring.
Qed.
Lemma radius_pos r : 0 < r -> radius r sd gn = r.
Proof. intros H. unfold radius. destruct (Req_EM_T r 0); lra. Qed.
Lemma sd_below r : 0 < r -> descends r sd = false -> a < r * r.
Proof.
  intros Hr. unfold descends. destruct (Rle_dec r (norm sd)) as [H|H].
  - destruct (Req_EM_T r 0); [lra | discriminate].
  - intros _. unfold a. rewrite <- norm_sqr. assert (P := norm_nonneg sd). nra.
Qed.
Lemma descends_pos r : descends r sd = true -> r <= norm sd /\ r <> 0.
Proof. unfold descends. destruct (Rle_dec r (norm sd)), (Req_EM_T r 0); try discriminate. now split. Qed.

Lemma choose_norm r J scale g2 dx k l0 : 0 < r -> choose r J scale g2 sd gn = (dx, k, l0) ->
  norm dx <= r /\ (k = Newton -> dx = gn) /\ (k <> Newton -> norm dx = r).
Proof.
  intros Hr. unfold choose. destruct (descends r sd) eqn:D.
  - intros [= <- <- <-]. apply descends_pos in D.
    assert (E : norm (scaled (r / norm sd) sd) = r).
    { rewrite scaled_norm; [field; lra|]. apply Rlt_le, Rdiv_lt_0_compat; lra. }
    split; [lra|]. split; [discriminate | intros _; exact E].
  - rewrite (radius_pos r Hr). cbv zeta. destruct (Rle_dec (norm gn) r) as [G|G]; intros [= <- <- <-].
    + split; [exact G|]. split; [reflexivity | intros H; now destruct H].
    + assert (E := between_norm r ltac:(lra) ltac:(lra) (or_introl (sd_below r Hr D))). fold d.
      split; [lra|]. split; [discriminate | intros _; exact E].
Qed.
Lemma choose_first J scale g2 dx k l0 : choose 0 J scale g2 sd gn = (dx, k, l0) ->
  norm dx <= norm (plus sd (scaled (1 / 2) d)).
Proof.
  unfold choose. destruct (descends 0 sd) eqn:D; [apply descends_pos in D; lra|].
  unfold radius. destruct (Req_EM_T 0 0) as [_|N]; [|lra]. fold d. set (r := norm (plus sd (scaled (1 / 2) d))).
  destruct (Rle_dec (norm gn) r) as [G|G]; intros [= <- <- <-]; [exact G|].
  assert (E := between_norm r (norm_nonneg _) ltac:(lra)). rewrite E; [lra|]. right. unfold r. rewrite norm_sqr. apply middle_line.
Qed.
Lemma choose_gain r J scale g2 dx k l0 : 0 < r -> 0 < J -> 0 < scale -> choose r J scale g2 sd gn = (dx, k, l0) -> 0 < l0.
Proof.
  intros Hr J0 S0. unfold choose. destruct (descends r sd) eqn:D.
  - intros [= <- <- <-]. apply descends_pos in D. apply Rdiv_lt_0_compat; nra.
  - rewrite (radius_pos r Hr). cbv zeta. destruct (Rle_dec (norm gn) r) as [G|G]; intros [= <- <- <-]; [exact J0|].
    assert (E := between_range r Hr ltac:(lra) (sd_below r Hr D)). set (beta := interpolation r sd gn) in *.
    change (1 / 2)%Z with 0%Z. assert (0 < beta * (2 - beta)) by (apply Rmult_lt_0_compat; lra). nra.
Qed.

Variable X : Type.
Variable cost : X -> R.
Variable move : X -> vec -> X.
Variables scale g2 : R.
Hypothesis S0 : 0 < scale.
Notation pass := (pass cost move scale g2 sd gn).
Notation passes := (passes cost move scale g2 sd gn).

Lemma quot_sign u p : 0 < p -> (0 < u / p <-> 0 < u) /\ (u / p < 0 <-> u < 0).
Proof.
  intros P. assert (I : 0 < / p) by (apply Rinv_0_lt_compat; exact P).
  assert (E : u = u / p * p) by (field; lra). unfold Rdiv in *. split; split; intros H.
  - rewrite E. now apply Rmult_lt_0_compat.
  - now apply Rmult_lt_0_compat.
  - rewrite E. nra.
  - nra.
Qed.
Lemma pass_facts s : honest cost s -> 0 < delta s -> 0 < cost (at_x s) ->
  honest cost (pass s) /\ norm (step (pass s)) <= delta s /\
  (cost (move (at_x s) (step (pass s))) < cost (at_x s) /\ 0 < rho (pass s) /\ at_x (pass s) = move (at_x s) (step (pass s)) \/
   cost (at_x s) <= cost (move (at_x s) (step (pass s))) /\ rho (pass s) <= 0 /\ at_x (pass s) = at_x s /\ delta (pass s) <= delta s / 2).
Proof.
  intros [H1 H2] D0 C0. unfold OdlModel.pass.
  assert (R : (if descends (delta s) sd then delta s else radius (delta s) sd gn) = delta s) by (destruct (descends _ _); [reflexivity | now apply radius_pos]).
  rewrite R. destruct (choose (delta s) (j s) scale g2 sd gn) as [[dx k] l0] eqn:E.
  destruct (choose_norm _ _ _ _ _ _ _ D0 E) as [N1 [N2 N3]].
  assert (J0 : 0 < j s) by (rewrite H1; exact C0). assert (P := choose_gain _ _ _ _ _ _ _ D0 J0 S0 E).
  destruct (quot_sign (best s - cost (move (at_x s) dx)) l0 P) as [Q1 Q2]. cbv zeta.
  set (rh := (best s - cost (move (at_x s) dx)) / l0) in *. cbn [at_x j best delta rho step].
  unfold honest. cbn [at_x j best]. destruct (Rlt_dec 0 rh) as [K|K].
  - assert (A : cost (move (at_x s) dx) < best s) by (apply Q1 in K; lra).
    destruct (Rlt_dec (cost (move (at_x s) dx)) (best s)) as [_|A']; [|contradiction].
    split; [split; reflexivity|]. split; [exact N1|]. left. split; [lra|]. split; [exact K | reflexivity].
  - assert (A : best s <= cost (move (at_x s) dx)) by (apply Rnot_lt_le; intros H; apply K, Q1; lra).
    destruct (Rlt_dec (cost (at_x s)) (best s)) as [B|B]; [lra|].
    split; [split; exact H2|]. split; [exact N1|]. right. split; [lra|]. split; [lra|]. split; [reflexivity|].
    unfold next_radius. destruct (Rlt_dec (3 / 4) rh); [lra|]. destruct (Rle_dec rh 0); [|lra].
    destruct k; try lra. rewrite (N2 eq_refl) in N1. lra.
Qed.
Lemma passes_end least : 0 < least -> forall k s, honest cost s -> 0 < delta s -> 0 < cost (at_x s) -> delta s <= least * 2 ^ k ->
  snd (passes k least s) = true /\ honest cost (fst (passes k least s)) /\ cost (at_x (fst (passes k least s))) <= cost (at_x s).
Proof.
  intros L0. induction k as [|k IH]; intros s H D0 C0 B.
  - cbn [OdlModel.passes]. destruct (pass_facts s H D0 C0) as [F1 [_ F2]]. unfold again.
    destruct (Rlt_dec (rho (pass s)) 0) as [N|N]; cbn [andb].
    + destruct (Rlt_dec least (delta (pass s))) as [M|M].
      * exfalso. cbn [pow] in B. destruct F2 as [[_ [F2 _]]|[_ [_ [_ F2]]]]; lra.
      * cbn [fst snd]. split; [reflexivity|]. split; [exact F1|]. destruct F2 as [[F2 [_ F4]]|[_ [_ [F4 _]]]]; rewrite F4; lra.
    + cbn [fst snd]. split; [reflexivity|]. split; [exact F1|]. destruct F2 as [[F2 [_ F4]]|[_ [_ [F4 _]]]]; rewrite F4; lra.
  - cbn [OdlModel.passes]. destruct (pass_facts s H D0 C0) as [F1 [_ F2]]. unfold again.
    destruct (Rlt_dec (rho (pass s)) 0) as [N|N]; cbn [andb].
    + destruct (Rlt_dec least (delta (pass s))) as [M|M].
      * destruct F2 as [[_ [F2 _]]|[_ [_ [F2 F3]]]]; [lra|]. cbn [pow] in B. rewrite <- F2. apply IH; [exact F1 | lra | rewrite F2; exact C0 | lra].
      * cbn [fst snd]. split; [reflexivity|]. split; [exact F1|]. destruct F2 as [[F2 [_ F4]]|[_ [_ [F4 _]]]]; rewrite F4; lra.
    + cbn [fst snd]. split; [reflexivity|]. split; [exact F1|]. destruct F2 as [[F2 [_ F4]]|[_ [_ [F4 _]]]]; rewrite F4; lra.
Qed.
End Step.
