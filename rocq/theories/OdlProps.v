(** * C118: dog-leg steps of the first optimizer *)
From Coq Require Import Reals ZArith List Bool Lra Lia Psatz.
From Verif Require Import Base OdlModel OdlSpec OdlProofs.
Import ListNotations.
Local Open Scope R_scope.

(** The step stays in the trust region, and reaches its border unless it is the Gauss-Newton
    step. *)
Theorem C118_region sd gn delta J scale g2 dx k gain : length gn = length sd -> 0 < delta ->
  choose delta J scale g2 sd gn = (dx, k, gain) ->
  norm dx <= delta /\ (k = Newton -> dx = gn) /\ (k <> Newton -> norm dx = delta).
Proof. intros L D E. exact (choose_norm sd gn L delta J scale g2 dx k gain D E). Qed.
Print Assumptions C118_region.
Example C118_region_ex : choose 1 1 1 1 [3; 4] [6; 8] = (scaled (1 / norm [3; 4]) [3; 4], Steepest, 1 * (2 * norm [3; 4] - 1) / (2 * 1)) /\ norm [3; 4] = 5.
Proof.
  assert (N : norm [3; 4] = 5) by (apply norm_of; [lra|]; cbn [inner]; ring).
  split; [|exact N]. unfold choose, descends. destruct (Rle_dec 1 (norm [3; 4])) as [H|H]; [|rewrite N in H; lra].
  destruct (Req_EM_T 1 0) as [K|K]; [lra|]. reflexivity.
Qed.
(** In the first round, without a radius yet, the step is no longer than half the way from the
    steepest-descent step to the Gauss-Newton step. *)
Theorem C118_first sd gn J scale g2 dx k gain : length gn = length sd ->
  choose 0 J scale g2 sd gn = (dx, k, gain) -> norm dx <= norm (plus sd (scaled (1 / 2) (minus gn sd))).
Proof. intros L E. exact (choose_first sd gn L J scale g2 dx k gain E). Qed.
Print Assumptions C118_first.

(** A round keeps its step exactly if that decreases the cost; otherwise the state is as before
    and the radius at least halved.  The cost it keeps is that of its state. *)
Theorem C118_round X (cost : X -> R) move scale g2 sd gn s : length gn = length sd -> 0 < scale ->
  honest cost s -> 0 < delta s -> 0 < cost (at_x s) ->
  let t := pass cost move scale g2 sd gn s in
  honest cost t /\ norm (step t) <= delta s /\
  (cost (move (at_x s) (step t)) < cost (at_x s) /\ 0 < rho t /\ at_x t = move (at_x s) (step t) \/
   cost (at_x s) <= cost (move (at_x s) (step t)) /\ rho t <= 0 /\ at_x t = at_x s /\ delta t <= delta s / 2).
Proof. intros L S0 H D C t. exact (pass_facts sd gn L X cost move scale g2 S0 s H D C). Qed.
Print Assumptions C118_round.
(** The rounds of an iteration end after at most as many halvings as take the radius to the
    threshold, with a state that is not worse. *)
Theorem C118_rounds X (cost : X -> R) move scale g2 sd gn least k s : length gn = length sd -> 0 < scale -> 0 < least ->
  honest cost s -> 0 < delta s -> 0 < cost (at_x s) -> delta s <= least * 2 ^ k ->
  let r := passes cost move scale g2 sd gn k least s in
  snd r = true /\ honest cost (fst r) /\ cost (at_x (fst r)) <= cost (at_x s).
Proof. intros L S0 L0 H D C B r. exact (passes_end sd gn L X cost move scale g2 S0 least L0 k s H D C B). Qed.
Print Assumptions C118_rounds.
Example C118_rounds_ex : let cost := fun x : R => x * x + 1 in
  honest cost (Round 3 (3 * 3 + 1) (3 * 3 + 1) 4 0 [] Newton) /\ 0 < cost 3 /\ 4 <= 1 * 2 ^ 2.
Proof. split; [split; reflexivity|]. split; [cbn; lra | lra]. Qed.

(** The steepest-descent step divides by the squared norm of the Hessian times the gradient and
    not by its product with the gradient: for one parameter of curvature below one half it
    increases the quadratic model, which the step of the right length decreases most. *)
Theorem C118_descent_refuted h g : 0 < h < 1 / 2 -> g <> 0 ->
  exists s, descent [g] [h * g] = [s] /\ s = g / (h * h) /\ 0 < quadratic h g s /\
  quadratic h g (g / h) < 0 /\ forall t, quadratic h g (g / h) <= quadratic h g t.
Proof.
  intros H G. unfold descent, descent_scale, scaled. cbn [inner map].
  assert (G2 : 0 < g * g) by nra.
  eexists. split; [reflexivity|]. assert (E : (g * g + 0) / (h * g * (h * g) + 0) * g = g / (h * h)) by (field; split; lra).
  split; [exact E|]. rewrite E. unfold quadratic. split; [|split].
  - replace (h * (g / (h * h)) * (g / (h * h)) / 2 - g * (g / (h * h))) with (g * g * (1 / 2 - h) / (h * h * h)) by (field; lra).
    apply Rdiv_lt_0_compat; [apply Rmult_lt_0_compat; lra|]. apply Rmult_lt_0_compat; [nra | lra].
  - replace (h * (g / h) * (g / h) / 2 - g * (g / h)) with (- (g * g / (2 * h))) by (field; lra).
    assert (0 < g * g / (2 * h)) by (apply Rdiv_lt_0_compat; lra). lra.
  - intros t. assert (Q : h * t * t / 2 - g * t - (h * (g / h) * (g / h) / 2 - g * (g / h)) = h / 2 * ((t - g / h) * (t - g / h))) by (field; lra).
    assert (0 <= (t - g / h) * (t - g / h)) by (exact (Rle_0_sqr (t - g / h))). nra.
Qed.
Print Assumptions C118_descent_refuted.
(** On the way between the two steps the predicted decrease ignores the gradient. *)
Theorem C118_prediction_refuted sd gn delta J scale scale' g2 g2' dx gain : choose delta J scale g2 sd gn = (dx, Between, gain) ->
  choose delta J scale' g2' sd gn = (dx, Between, gain).
Proof.
  unfold choose. destruct (descends delta sd); [discriminate|]. cbv zeta. destruct (Rle_dec (norm gn) (radius delta sd gn)); [discriminate|].
  change (1 / 2)%Z with 0%Z. intros [= <- <-]. f_equal. ring.
Qed.
Print Assumptions C118_prediction_refuted.
Example C118_prediction_ex : exists dx gain, choose 2 1 1 1 [1] [3] = (dx, Between, gain).
Proof.
  assert (N1 : norm [1] = 1) by (apply norm_of; [lra|]; cbn [inner]; ring). assert (N3 : norm [3] = 3) by (apply norm_of; [lra|]; cbn [inner]; ring).
  unfold choose, descends, radius. rewrite N1, N3. destruct (Rle_dec 2 1) as [H|H]; [lra|]. destruct (Req_EM_T 2 0) as [K|K]; [lra|]. cbn [andb].
  destruct (Rle_dec 3 2) as [M|M]; [lra|]. eexists _, _. reflexivity.
Qed.
