(** Weighting of error terms: cost, stacked error and Jacobians agree. *)
From Coquelicot Require Import Coquelicot.
From Coq Require Import ZArith List Bool Lia Reals Lra.
From Verif Require Import Base Arith RArith MatReal OMap JacModel JacSpec JacDiffSpec JacProofs JacReal JacProps
  MEstModel MEstProps WgtProofs.
Import ListNotations.
Open Scope R_scope.

(** The cost an error term reports is the squared length of the weighted error it
    contributes to the linear system, when the M-estimator is used there too. *)
Theorem C45_cost : forall (t : eterm RA), 0 <= (eweight t (chi_squared RA t) : R) ->
  let '(c, t') := evaluate RA t in
  rdot (weighted_error RA true t') (weighted_error RA true t') = c.
Proof.
  intros t H. unfold evaluate. cbv zeta. rewrite !weighted_error_eq, rdot_scale_both.
  unfold sqrt_weight. cbn [eerror esqrt_t eweight estored root RA].
  rewrite sqrt_sqrt by exact H. rewrite <- chi_squared_eq. reflexivity.
Qed.
Print Assumptions C45_cost.

Example C45_ex_cost : exists t : eterm RA,
  eweight t (chi_squared RA t) = / 2 /\ fst (evaluate RA t) = / 2.
Proof.
  exists (ETerm (A := RA) [1] [[1]] (cauchy 1) 0).
  assert (E : chi_squared RA (ETerm (A := RA) [1] [[1]] (cauchy 1) 0) = 1).
  { unfold chi_squared, mat_vec. cbn. rring. }
  unfold evaluate. cbn [fst eweight]. rewrite E.
  assert (X : cauchy 1 1 = / 2) by (unfold cauchy, cauchy_weight; cbn; field).
  rewrite X. split; [reflexivity | ]. cbn [mul RA]. rring.
Qed.

(** With the M-estimator switched off in the linear system the cost is weighted
    all the same, so the two disagree. *)
Theorem C45_without_mestimator_refuted : exists t : eterm RA,
  let '(c, t') := evaluate RA t in
  c < rdot (weighted_error RA false t') (weighted_error RA false t').
Proof.
  exists (ETerm (A := RA) [1] [[1]] (cauchy 1) 0).
  unfold evaluate, weighted_error, sqrt_weight, chi_squared, mat_vec, cauchy, cauchy_weight. cbn. lra.
Qed.
Print Assumptions C45_without_mestimator_refuted.

(** They agree for the default policy. *)
Theorem C45_no_mestimator : forall (e : list R) M s useM,
  let '(c, t') := evaluate RA (ETerm (A := RA) e M none s) in
  rdot (weighted_error RA useM t') (weighted_error RA useM t') = c.
Proof.
  intros e M s useM. unfold evaluate. cbv zeta. rewrite !weighted_error_eq, rdot_scale_both.
  assert (E : forall t : eterm RA, eweight t = none -> sqrt_weight RA useM t = 1).
  { intros t Ht. unfold sqrt_weight. rewrite Ht. destruct useM; [apply sqrt_1 | reflexivity]. }
  rewrite E by reflexivity. cbn [esqrt_t eerror eweight].
  rewrite (chi_squared_eq (ETerm (A := RA) e M none s)). cbn [esqrt_t eerror].
  cbn [mul RA]. unfold none, none_weight. cbn [of_Z RA]. rring.
Qed.
Print Assumptions C45_no_mestimator.

(** The weighted Jacobians are the square root of the weight, times the square
    root of the inverse covariance, times the Jacobians of the error, taken with
    respect to the scaled design variables. *)
Theorem C45_jacobians : forall lay useM (scale : dvref -> R) (sc : Z -> R) (t : eterm RA) (c : container RA),
  container_ok c -> laid_out lay c -> crows c = length (eerror t) ->
  Forall (fun e => scale (fst (snd e)) = sc (fst e)) (cmap c) ->
  exists c', weighted_jacobians RA useM scale t c = Ok c' /\ crows c' = length (esqrt_t t) /\
    forall delta, differential delta c' =
      vscale RA (sqrt_weight RA useM t)
        (mv (esqrt_t t) (differential (fun b => vscale RA (sc b) (delta b)) c)).
Proof.
  intros lay useM scale sc t c H1 H2 H3 F. unfold weighted_jacobians.
  assert (E : exists c1, chain_rule RA (length (eerror t)) (esqrt_t t) c = Ok c1 /\ crows c1 = length (esqrt_t t)).
  { unfold chain_rule. rewrite H3, Nat.eqb_refl. eexists. split; reflexivity. }
  destruct E as (c1 & E & R1). rewrite E. cbn [obind]. eexists. split; [reflexivity | ].
  split; [exact R1 | ]. intro delta.
  rewrite <- (diff_chain lay (fun b => vscale RA (sc b) (delta b)) _ _ c c1 (conj H1 H2) E).
  assert (F1 := chain_owner _ _ c c1 (fun b d => scale d = sc b) E F).
  destruct c1 as [rows m]. exact (diff_scaled (sqrt_weight RA useM t) scale sc delta rows m F1).
Qed.
Print Assumptions C45_jacobians.

Example C45_ex_jacobians :
  weighted_jacobians ZA false (fun _ => 2%Z) (ETerm (A := ZA) [7%Z; 8%Z] [[1; 0]; [1; 3]]%Z (fun _ => 1%Z) 0%Z)
    (Container (A := ZA) 2 [(4%Z, (ex_dv 4 1, [[5]; [6]]%Z))])
  = Ok (Container (A := ZA) 2 [(4%Z, (ex_dv 4 1, [[10]; [46]]%Z))]).
Proof. reflexivity. Qed.

(** The right-hand side of the normal equations is a gradient: if the weight is
    the derivative of a loss [rho], the derivative of the loss of the term along
    any curve on which the error changes at rate [de] is twice the inner product
    of the weighted error with the weighted change. *)
Theorem C45_gradient : forall (rho w : R -> R) (M : rmat) (es : list (R -> R)) (de : list R) x s0,
  Forall2 (fun f d => is_derive f x d) es de ->
  let t u := ETerm (A := RA) (map (fun f => f u) es) M w s0 in
  let s := chi_squared RA (t x) : R in
  0 <= w s -> is_derive rho s (w s) ->
  let t' := snd (evaluate RA (t x)) in
  is_derive (fun u => rho (chi_squared RA (t u) : R)) x
    (2 * rdot (weighted_error RA true t') (vscale RA (sqrt_weight RA true t') (mv M de))).
Proof.
  intros rho w M es de x s0 F t s Hw Hr t'.
  assert (C : forall u, chi_squared RA (t u) = rdot (mv M (at_ es u)) (mv M (at_ es u))).
  { intro u. apply (chi_squared_eq (t u)). }
  apply (is_derive_ext (fun u => rho (rdot (mv M (at_ es u)) (mv M (at_ es u))))).
  { intro u. now rewrite (C u). }
  assert (Es : s = rdot (mv M (at_ es x)) (mv M (at_ es x))) by exact (C x).
  assert (D := derive_square x M es de F).
  rewrite Es in Hr.
  assert (K := is_derive_comp rho (fun u => rdot (mv M (at_ es u)) (mv M (at_ es u))) x _ _ Hr D).
  assert (V : 2 * rdot (weighted_error RA true t') (vscale RA (sqrt_weight RA true t') (mv M de)) =
              scal (2 * rdot (mv M (at_ es x)) (mv M de)) (w (rdot (mv M (at_ es x)) (mv M (at_ es x))))).
  { rewrite weighted_error_eq, rdot_scale_l, rdot_scale_r.
    assert (W : sqrt_weight RA true t' = sqrt (w s)) by reflexivity. rewrite W.
    change (mv (esqrt_t t') (eerror t')) with (mv M (at_ es x)). rewrite <- Es.
    assert (Q := sqrt_sqrt (w s) Hw).
    change (2 * (sqrt (w s) * (sqrt (w s) * rdot (mv M (at_ es x)) (mv M de))) =
            2 * rdot (mv M (at_ es x)) (mv M de) * w s).
    rewrite <- Q at 3. ring. }
  rewrite V. exact K.
Qed.
Print Assumptions C45_gradient.

(** One scalar error, the identity at 3, with a Cauchy weight. *)
Example C45_ex_gradient :
  let s := 9 in 0 <= cauchy 1 s /\ is_derive (fun x => 1 * ln (1 + x / 1)) s (cauchy 1 s) /\
  Forall2 (fun f d => is_derive f 3 d) [fun u => u] [1].
Proof.
  cbv zeta. destruct (C30_cauchy 1 ltac:(lra)) as ((P & _) & _). split; [ | split].
  - left. apply P. lra.
  - apply (C30_derivatives 1 1 1 9); lra.
  - constructor; [ | constructor]. auto_derive; [exact I | reflexivity].
Qed.

(** The cost that decides whether a step is kept is not that loss: under the
    Geman-McClure policy, moving a scalar error part of the way towards zero, as
    the linear system asks, can raise the reported cost. *)
Theorem C45_descent_refuted : exists (e e' : R),
  0 < e' < e /\ fst (evaluate RA (ETerm (A := RA) [e] [[1]] (geman 1) 0))
              < fst (evaluate RA (ETerm (A := RA) [e'] [[1]] (geman 1) 0)).
Proof.
  exists 2, 1. split; [lra | ].
  unfold evaluate, chi_squared, mat_vec, geman, geman_weight. cbn.
  replace ((0 + (0 + 1 * 2) * (0 + 1 * 2))) with 4 by rring.
  replace ((0 + (0 + 1 * 1) * (0 + 1 * 1))) with 1 by rring. lra.
Qed.
Print Assumptions C45_descent_refuted.
