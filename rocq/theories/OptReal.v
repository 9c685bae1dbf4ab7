(** The optimiser model over exact real arithmetic: the damping of the
    Levenberg-Marquardt policy and the trust region of the dog-leg policy. *)
From Coq Require Import ZArith Reals List Bool Lra Lia.
From Verif Require Import Base Arith RArith OptModel OptSpec OptProofs.
Import ListNotations.
Set Implicit Arguments.
Open Scope R_scope.

(** Parameters that make sense: all positive, and growth factors of at least
    one. *)
Definition sane (c : lm_cfg RA) : Prop :=
  0 < lambda0 c /\ 0 < gamma0 c /\ 1 <= beta0 c /\ 1 <= mu0 c.

(** Every step the solver delivered so far, none failed. *)
Definition never_failed (A : Arith) (V : Type) (l : list (event A V)) : Prop :=
  Forall (fun e => solved e = true) l.

Section R.
Variable V : Type.
Variable w : World RA V.
Variable k : solver_kind.

(** *** Levenberg-Marquardt *)
Lemma damp_cases : forall c (s : lm RA) rho f lam m r,
  sane c -> 0 < lambda s -> 1 <= mu s ->
  lm_damp w c s rho f = (lam, m, r) ->
  0 < lam /\ 1 <= m /\
  (f = true -> lam = lambda s * (mu s * 2) /\ m = mu s * 2).
Proof.
  intros c s rho f lam m r (S1 & S2 & S3 & S4) Hl Hm H. unfold lm_damp in H.
  cbn [mul sub div lt le of_Z RA] in H.
  destruct f.
  { injection H as <- <- <-. split; [ | split]; [nra | lra | ].
    intros _. split; reflexivity. }
  destruct (rle rho 0).
  { injection H as <- <- <-. split; [ | split]; [nra | lra | discriminate]. }
  destruct (rlt _ (lambda s)).
  - injection H as <- <- <-. split; [ | split]; [ | lra | discriminate].
    assert (P : 0 < 1 / gamma0 c)
      by (apply Rdiv_lt_0_compat; [lra | assumption]).
    destruct (rlt _ (1 / gamma0 c)) eqn:E.
    + apply Rmult_lt_0_compat; assumption.
    + apply rlt_false in E. apply Rmult_lt_0_compat; lra.
  - injection H as <- <- <-. split; [ | split]; [ | lra | discriminate].
    unfold lambda_reset. cbn [div of_Z RA].
    apply Rdiv_lt_0_compat; [lra | apply IZR_lt; reflexivity].
Qed.

Definition lm_sane (c : lm_cfg RA) (s : ost RA V) : Prop :=
  exists m : lm RA, snd (pol s) = PLM c m /\ 0 < lambda m /\ 1 <= mu m /\
            (first (fst (pol s)) = true <-> log s = []) /\
            (prev_failed s = true -> log s <> []) /\
            prev_failed s = negb (last_accepted (log s)).

Lemma lm_solve_cases : forall J f x b0 c (m : lm RA) l b p l1 qs g r,
  sane c -> 0 < lambda m -> 1 <= mu m ->
  policy_solve w k J f x (b0, PLM c m) l = Ok (b, p, l1, qs, g, r) ->
  first b = false /\
  exists m' : lm RA, p = PLM c m' /\ 0 < lambda m' /\ 1 <= mu m' /\
    (f = true -> first b0 = false ->
       lambda m' = lambda m * (mu m * 2) /\ mu m' = mu m * 2).
Proof.
  intros J f x b0 c m l b p l1 qs g r Hc Hl Hm H.
  unfold policy_solve in H. cbn [fst snd] in H. unfold lm_solve in H.
  assert (Hf : first (base_solve J f b0) = first b0) by (destruct f; reflexivity).
  rewrite Hf in H.
  destruct (first b0) eqn:Ef; cbn [obind] in H.
  - destruct (lin_solve w k _) as [[l2 q] [ok dx]]. cbn [obind] in H.
    injection H as <- <- <- <- <- <-. split; [reflexivity | ].
    eexists. split; [reflexivity | ]. cbn [lambda mu].
    split; [assumption | split; [assumption | discriminate]].
  - unfold lm_rho in H.
    destruct (Nat.eqb _ _); cbn [obind] in H; [ | discriminate].
    destruct (lm_damp w c m _ f) as [[lam mm] rb] eqn:Ed. cbn [obind] in H.
    destruct (lin_solve w k _) as [[l2 q] [ok dx]]. cbn [obind] in H.
    injection H as <- <- <- <- <- <-. split; [reflexivity | ].
    apply damp_cases in Ed; [ | assumption ..].
    destruct Ed as (E1 & E2 & E3).
    eexists. split; [reflexivity | ]. cbn [lambda mu].
    split; [assumption | split; [assumption | ]]. intros F _. exact (E3 F).
Qed.

Lemma pass_policy : forall s s' e, pass_result w k s s' e ->
  exists b p l1 qs g r,
    policy_solve w k (oJ s) (prev_failed s) (values (dvs s)) (pol s) (ls s)
    = Ok (b, p, l1, qs, g, r) /\ pol s' = (b, p) /\ ev_step e = r /\
    log s' = log s ++ [e].
Proof.
  intros s s' e [b p l1 qs g Q E | b p l1 qs g dx ds1 m Q U M R L E
                | b p l1 qs g dx ds1 m Q U M L E];
    do 6 eexists; (split; [exact Q | ]); subst s'; cbn [pol log ev_step];
    repeat split.
Qed.

Lemma lm_sane_step : forall c s s' e, sane c ->
  lm_sane c s -> pass_result w k s s' e ->
  lm_sane c s' /\
  (prev_failed s = true -> exists m m' : lm RA,
     snd (pol s) = PLM c m /\ snd (pol s') = PLM c m' /\
     lambda m' = 2 * mu m * lambda m /\ mu m' = 2 * mu m).
Proof.
  intros c s s' e Hc (m & P & Hl & Hm & Hf & Hp & _) R.
  destruct (pass_policy R) as (b & p & l1 & qs & g & r & Q & Ep & Es & El).
  destruct (pol s) as [b0 p0'] eqn:Epol. cbn [fst snd] in P, Hf. subst p0'.
  apply lm_solve_cases in Q; [ | assumption ..].
  destruct Q as (Q1 & m' & -> & Q2 & Q3 & Q4).
  split.
  - exists m'. rewrite Ep, El. cbn [fst snd].
    split; [reflexivity | split; [assumption | split; [assumption | ]]].
    split.
    + rewrite Q1. split; intro X; [discriminate X | ].
      destruct (log s); discriminate X.
    + split.
      * intros _ X. destruct (log s); discriminate X.
      * rewrite last_accepted_app. clear - R Ep.
        destruct R as [b1 p1 ? ? ? ? E | b1 p1 ? ? ? ? ? ? ? ? ? ? ? E
                      | b1 p1 ? ? ? ? ? ? ? ? ? ? E]; subst s';
          cbn [pol] in Ep; injection Ep as -> ->; reflexivity.
  - intro F. exists m, m'. rewrite Ep. cbn [snd].
    split; [reflexivity | split; [reflexivity | ]].
    assert (Fb : first b0 = false).
    { destruct (first b0); [ | reflexivity].
      exfalso. apply (Hp F), Hf. reflexivity. }
    destruct (Q4 F Fb) as (-> & ->). split; lra.
Qed.

Lemma lm_sane_start : forall o c m n ds s, sane c -> k <> SparseQr ->
  start w k o (PLM c m) n ds = Ok s -> lm_sane c s.
Proof.
  intros o c m n ds s Hc Hk H. apply start_cases in H.
  destruct H as (-> & _ & _).
  assert (E : effective_policy k (PLM c m) = PLM c m)
    by (destruct k; try reflexivity; congruence).
  rewrite E. cbn [policy_start]. eexists. cbn [pol snd fst log prev_failed].
  split; [reflexivity | ]. cbn [lambda mu].
  destruct Hc as (H1 & H2 & H3 & H4).
  split; [assumption | split; [assumption | ]].
  split; [split; reflexivity | ]. split; [discriminate | reflexivity].
Qed.

Lemma lm_sane_reached : forall o c m n ds s, sane c -> k <> SparseQr ->
  reached w k o (PLM c m) n ds s -> lm_sane c s.
Proof.
  intros o c m n ds s Hc Hk.
  apply (reached_inv (lm_sane c)).
  - intros s0 H. eapply lm_sane_start; eassumption.
  - intros s0 s' e _ H R. exact (proj1 (lm_sane_step Hc H R)).
Qed.

(** *** Dog leg *)

(** The root of [n2 t^2 + 2 c t = room] the code computes. *)
Lemma position_root : forall sd gn sdn rad,
  let d := vsub RA gn sd in
  let n2 := rdot d d in
  let c := rdot sd d in
  0 < n2 -> 0 <= c * c + n2 * (rad * rad - sdn * sdn) ->
  let t := dl_position RA sd gn sdn rad in
  n2 * (t * t) + 2 * c * t = rad * rad - sdn * sdn.
Proof.
  intros sd gn sdn rad d n2 c Hn Hd. unfold dl_position. cbv zeta.
  unfold sqnorm. rewrite !dot_rdot. cbn [add sub mul div root le of_Z RA].
  fold d. fold c. fold n2.
  set (room := rad * rad - sdn * sdn) in *.
  set (q := sqrt (c * c + n2 * room)).
  assert (Hq : q * q = c * c + n2 * room) by (apply sqrt_sqrt; exact Hd).
  assert (Hq0 : 0 <= q) by apply sqrt_pos.
  destruct (rle c 0) eqn:Ec.
  - apply rle_true in Ec.
    assert (T : n2 * ((0 - c + q) / n2) = q - c) by (field; lra).
    set (t := (0 - c + q) / n2) in *.
    assert (n2 * (n2 * (t * t) + 2 * c * t) = n2 * room).
    { replace (n2 * (n2 * (t * t) + 2 * c * t))
        with ((n2 * t) * (n2 * t) + 2 * c * (n2 * t)) by ring.
      rewrite T. nra. }
    nra.
  - apply rle_false in Ec.
    assert (Hs : 0 < c + q) by lra.
    assert (T : (c + q) * (room / (c + q)) = room) by (field; lra).
    set (t := room / (c + q)) in *.
    (* n2 t = q - c *)
    assert (T2 : n2 * t = q - c).
    { apply Rmult_eq_reg_l with (c + q); [ | lra].
      replace ((c + q) * (n2 * t)) with (n2 * ((c + q) * t)) by ring.
      rewrite T. nra. }
    replace (n2 * (t * t) + 2 * c * t) with ((n2 * t + 2 * c) * t) by ring.
    rewrite T2. replace (q - c + 2 * c) with (c + q) by ring. exact T.
Qed.

(** The point is on the boundary of the trust region. *)
Lemma position_norm : forall sd gn rad,
  length sd = length gn -> 0 <= rad ->
  let d := vsub RA gn sd in
  0 < rdot d d ->
  0 <= rdot sd d * rdot sd d
       + rdot d d * (rad * rad - norm RA sd * norm RA sd) ->
  norm RA (vadd RA sd (vscale RA (dl_position RA sd gn (norm RA sd) rad) d))
  = rad.
Proof.
  intros sd gn rad HL Hr d Hn Hd.
  apply norm_of_square; [assumption | ].
  rewrite rdot_line.
  2:{ symmetry. unfold d. etransitivity; [ | symmetry; exact (eq_refl (length sd))].
      apply vsub_length. symmetry. exact HL. }
  assert (P := @position_root sd gn (norm RA sd) rad Hn Hd). cbv zeta in P.
  fold d in P.
  set (t := dl_position RA sd gn (norm RA sd) rad) in *.
  assert (E := norm_square sd).
  replace (rdot sd sd) with (norm RA sd * norm RA sd).
  replace (2 * t * rdot sd d) with (2 * rdot sd d * t) by ring.
  replace (t * t * rdot d d) with (rdot d d * (t * t)) by ring.
  rewrite Rplus_assoc, (Rplus_comm (2 * rdot sd d * t)), P. ring.
Qed.

Lemma gn_is_line : forall sd gn : list R, length sd = length gn ->
  rdot gn gn = rdot sd sd + 2 * rdot sd (vsub RA gn sd)
               + rdot (vsub RA gn sd) (vsub RA gn sd).
Proof.
  intros sd gn H.
  assert (A1 := rdot_vsub_l gn sd gn (eq_sym H)).
  assert (A2 := rdot_vsub_l gn sd sd (eq_sym H)).
  assert (A3 := rdot_vsub_l gn sd (vsub RA gn sd) (eq_sym H)).
  rewrite (rdot_sym gn (vsub RA gn sd)), (rdot_sym sd (vsub RA gn sd)) in A3.
  rewrite (rdot_sym sd (vsub RA gn sd)).
  rewrite (rdot_sym gn sd) in A2. lra.
Qed.

(** Between the two points when the radius is between their norms. *)
Lemma position_range : forall sd gn rad,
  length sd = length gn -> norm RA sd <= rad -> rad < norm RA gn ->
  let t := dl_position RA sd gn (norm RA sd) rad in
  0 <= t <= 1.
Proof.
  intros sd gn rad HL H1 H2 t.
  set (d := vsub RA gn sd).
  assert (N1 := norm_nonneg sd). assert (N2 := norm_nonneg gn).
  assert (E1 := norm_square sd). assert (E2 := norm_square gn).
  assert (EG := @gn_is_line sd gn HL). fold d in EG.
  assert (P0 := rdot_nonneg d).
  set (n2 := rdot d d) in *. set (c := rdot sd d) in *.
  set (sdn := norm RA sd) in *. set (gnn := norm RA gn) in *.
  assert (Hr0 : 0 <= rad * rad - sdn * sdn) by nra.
  assert (Hlt : rad * rad - sdn * sdn < 2 * c + n2) by nra.
  assert (Hn : 0 < n2).
  { destruct P0 as [P0 | P0]; [assumption | exfalso].
    (* d = 0, so c = 0 *)
    assert (C : c = 0).
    { assert (Q : rdot (vadd RA sd (vscale RA (- c - 1) d))
                       (vadd RA sd (vscale RA (- c - 1) d)) >= 0)
        by (apply Rle_ge, rdot_nonneg).
      assert (HLd : length sd = length d).
      { symmetry. unfold d. apply vsub_length. symmetry. exact HL. }
      (* Cauchy-Schwarz through the discriminant *)
      assert (Q1 := rdot_nonneg (vadd RA sd (vscale RA (- (rdot sd sd + 1) * c) d))).
      rewrite (rdot_line sd d _ HLd) in Q1. fold c n2 in Q1.
      rewrite <- P0 in Q1.
      assert (S0 := rdot_nonneg sd).
      destruct (Req_dec c 0) as [ | Hc]; [assumption | exfalso].
      assert (0 < c * c) by nra.
      (* rdot sd sd - 2 (rdot sd sd + 1) c^2 *)
      assert (Q2 := rdot_nonneg (vadd RA sd (vscale RA (- (rdot sd sd + 1) / (2 * c)) d))).
      rewrite (rdot_line sd d _ HLd) in Q2. fold c n2 in Q2. rewrite <- P0 in Q2.
      assert (X : 2 * (- (rdot sd sd + 1) / (2 * c)) * c = - (rdot sd sd + 1))
        by (field; assumption).
      rewrite X in Q2. lra. }
    lra. }
  assert (Hd : 0 <= c * c + n2 * (rad * rad - sdn * sdn)).
  { assert (0 <= n2 * (rad * rad - sdn * sdn)) by (apply Rmult_le_pos; lra). nra. }
  assert (P := @position_root sd gn sdn rad Hn Hd). cbv zeta in P.
  fold d c n2 in P. fold t in P.
  assert (T0 : 0 <= t).
  { unfold t, dl_position. cbv zeta. unfold sqnorm. rewrite !dot_rdot.
    fold d. fold c n2. cbn [add sub mul div root le of_Z RA].
    assert (Hq := sqrt_pos (c * c + n2 * (rad * rad - sdn * sdn))).
    destruct (rle c 0) eqn:Ec.
    - apply rle_true in Ec.
      apply Rmult_le_pos; [lra | left; apply Rinv_0_lt_compat; assumption].
    - apply rle_false in Ec.
      apply Rmult_le_pos; [lra | left; apply Rinv_0_lt_compat; lra]. }
  split; [assumption | ].
  destruct (Rle_dec t 1) as [ | Ht]; [assumption | exfalso].
  assert (1 < t) by lra.
  (* n2 t^2 + 2 c t = room < 2c + n2, with the product of the roots <= 0 *)
  assert (n2 * t + 2 * c >= 0).
  { assert ((n2 * t + 2 * c) * t >= 0) by nra.
    destruct (Rge_dec (n2 * t + 2 * c) 0); [assumption | exfalso; nra]. }
  nra.
Qed.

(** What the stored vectors and norms satisfy once a pass has been made. *)
Definition dl_consistent (s : dl RA) : Prop :=
  sd_norm s = norm RA (dx_sd s) /\ gn_norm s = norm RA (dx_gn s) /\
  0 <= delta s.

Lemma radius_nonneg : forall b (s : dl RA),
  0 <= delta s -> 0 <= gn_norm s -> 0 <= dl_radius (A := RA) b s.
Proof.
  intros b s H1 H2. unfold dl_radius.
  cbn [div mul sub lt le of_Z RA].
  assert (N := norm_nonneg (dl_dx s)).
  destruct (first b); [assumption | ].
  destruct (rlt _ _).
  { destruct (rlt _ _); [assumption | nra]. }
  destruct (rlt 0 _ && _)%bool; [lra | ].
  destruct (rle _ 0); [ | assumption].
  destruct (stype s); lra.
Qed.

Lemma choose_norm : forall J s l s',
  sd_norm s = norm RA (dx_sd s) -> gn_norm s = norm RA (dx_gn s) ->
  0 <= delta s -> (delta s <> 0 -> norm RA (dx_sd s) <= delta s) ->
  dl_choose w J s l = Ok s' ->
  dl_consistent s' /\ norm RA (dl_dx s') <= delta s' /\
  (stype s' = DL -> norm RA (dl_dx s') = delta s').
Proof.
  intros J s l s' H1 H2 H3 H4 H. unfold dl_choose in H.
  destruct (Nat.eqb _ _) eqn:HL; [ | discriminate H].
  apply Nat.eqb_eq in HL.
  set (rad := if eqn RA (delta s) (of_Z RA 0) then _ else _) in H.
  assert (Hr : 0 <= rad).
  { unfold rad. destruct (eqn RA _ _); [apply norm_nonneg | assumption]. }
  destruct (le RA (gn_norm s) rad) eqn:EG.
  - injection H as <-. cbn [dl_dx delta stype].
    apply rle_true in EG.
    split; [ | split; [ | discriminate]].
    + unfold dl_consistent. cbn [sd_norm dx_sd gn_norm dx_gn delta]. auto.
    + rewrite <- H2. exact EG.
  - injection H as <-. cbn [dl_dx delta stype].
    apply rle_false in EG.
    split.
    { unfold dl_consistent. cbn [sd_norm dx_sd gn_norm dx_gn delta]. auto. }
    enough (X : norm RA (vadd RA (dx_sd s)
                 (vscale RA (dl_position RA (dx_sd s) (dx_gn s) (sd_norm s) rad)
                    (vsub RA (dx_gn s) (dx_sd s)))) = rad)
      by (rewrite X; split; [lra | reflexivity]).
    rewrite H1.
    set (sd := dx_sd s) in *. set (gn := dx_gn s) in *.
    set (d := vsub RA gn sd) in *.
    assert (HLd : length sd = length d).
    { symmetry. unfold d. apply vsub_length. symmetry. exact HL. }
    assert (EL := @gn_is_line sd gn HL). fold d in EL.
    rewrite H2 in EG.
    assert (E1 := norm_square sd). assert (E2 := norm_square gn).
    assert (N1 := norm_nonneg sd). assert (N2 := norm_nonneg gn).
    assert (D0 := rdot_nonneg d).
    (* the radius squared as a point of the line, or beyond the first point *)
    assert (K : norm RA sd <= rad \/
                rad * rad = rdot sd sd + 2 * (1 / 2) * rdot sd d
                            + (1 / 2) * (1 / 2) * rdot d d).
    { unfold rad. destruct (eqn RA (delta s) (of_Z RA 0)) eqn:Ez.
      - right.
        change (div RA (of_Z RA 1) (of_Z RA 2)) with (1 / 2).
        rewrite norm_square. apply rdot_line. exact HLd.
      - left. apply H4. apply req_false in Ez. exact Ez. }
    assert (CS : rdot d d = 0 -> rdot sd d = 0).
    { intro Z. destruct (Req_dec (rdot sd d) 0) as [ | Hc]; [assumption | exfalso].
      assert (Q := rdot_nonneg
        (vadd RA sd (vscale RA (- (rdot sd sd + 1) / (2 * rdot sd d)) d))).
      rewrite (rdot_line sd d _ HLd), Z in Q.
      assert (X : 2 * (- (rdot sd sd + 1) / (2 * rdot sd d)) * rdot sd d
                  = - (rdot sd sd + 1)) by (field; assumption).
      rewrite X in Q. lra. }
    apply position_norm; try assumption; fold d.
    + destruct D0 as [D0 | D0]; [assumption | exfalso].
      symmetry in D0. specialize (CS D0). rewrite D0, CS in EL.
      destruct K as [K | K]; [nra | ].
      rewrite D0, CS in K. nra.
    + destruct K as [K | K].
      * assert (0 <= rdot d d * (rad * rad - norm RA sd * norm RA sd))
          by (apply Rmult_le_pos; nra).
        nra.
      * rewrite K, E1.
        replace (rdot sd d * rdot sd d + rdot d d *
          (rdot sd sd + 2 * (1 / 2) * rdot sd d + 1 / 2 * (1 / 2) * rdot d d
           - rdot sd sd))
          with ((rdot sd d + rdot d d / 2) * (rdot sd d + rdot d d / 2))
          by field.
        exact (Rle_0_sqr _).
Qed.

Definition dl_inv (s : ost RA V) : Prop :=
  exists t : dl RA, snd (pol s) = PDL t /\
    (never_failed (log s) ->
     (log s = [] /\ prev_failed s = false /\ delta t = 0 /\ gn_norm t = 0 /\
        first (fst (pol s)) = true \/
      log s <> [] /\ dl_consistent t /\ norm RA (dl_dx t) <= delta t)).

Lemma dl_solve_norm : forall J b f x (s : dl RA) l s' l' qs dx,
  (f = false /\ delta s = 0 /\ gn_norm s = 0 /\ first b = true \/
   dl_consistent s) ->
  dl_solve w k J b f x s l = Ok (s', l', qs, Some dx) ->
  dl_dx s' = dx /\ dl_consistent s' /\ norm RA dx <= delta s'.
Proof.
  intros J b f x s l s' l' qs dx HS H. unfold dl_solve in H.
  set (rad := dl_radius b s) in H.
  assert (HD : 0 <= delta s) by (destruct HS as [(_ & -> & _) | (_ & _ & ?)]; lra).
  assert (HG : 0 <= gn_norm s).
  { destruct HS as [(_ & _ & -> & _) | (_ & -> & _)]; [lra | apply norm_nonneg]. }
  assert (Hr : 0 <= rad) by (apply radius_nonneg; assumption).
  set (s0 := Dl RA (dl_dx s) (dx_sd s) (dx_gn s) (sd_norm s) (gn_norm s) (L0 s)
               (sd_scale s) (dl_beta s) rad (stype s)) in *.
  set (l1 := if f then l else lin_build x l) in *.
  set (s1 := if f then s0 else dl_cauchy w s0 l1) in *.
  assert (S1 : sd_norm s1 = norm RA (dx_sd s1)).
  { unfold s1. destruct f; [ | reflexivity].
    destruct HS as [(X & _) | (X & _)]; [discriminate X | exact X]. }
  assert (D1 : delta s1 = rad) by (unfold s1; destruct f; reflexivity).
  destruct (le RA rad (sd_norm s1) && negb (eqn RA rad (of_Z RA 0)))%bool eqn:E1.
  - (* steepest descent *)
    assert (NF : ~ (f = false /\ delta s = 0 /\ gn_norm s = 0 /\ first b = true)).
    { intros (_ & Z & _ & Fb). apply andb_prop in E1. destruct E1 as (_ & E1).
      apply negb_true_iff, req_false in E1. apply E1.
      unfold rad, dl_radius. rewrite Fb. exact Z. }
    destruct HS as [HS | (G1 & G2 & G3)]; [contradiction | ].
    assert (GN1 : gn_norm s1 = norm RA (dx_gn s1))
      by (unfold s1; destruct f; exact G2).
    injection H as <- <- <- <-. cbn [dl_dx].
    apply andb_prop in E1. destruct E1 as (E1 & E2).
    apply rle_true in E1. apply negb_true_iff, req_false in E2.
    cbn [of_Z RA] in E2.
    split; [reflexivity | ]. split.
    { unfold dl_consistent. cbn [sd_norm dx_sd gn_norm dx_gn delta]. auto. }
    cbn [delta]. rewrite norm_scale, <- S1.
    change (div RA rad (sd_norm s1)) with (rad / sd_norm s1).
    assert (Hs : 0 < sd_norm s1) by lra.
    rewrite Rabs_pos_eq.
    2:{ apply Rmult_le_pos; [assumption | left; apply Rinv_0_lt_compat; assumption]. }
    right. field. lra.
  - assert (K : rad <> 0 -> norm RA (dx_sd s1) <= rad).
    { intro Hz. apply andb_false_iff in E1. destruct E1 as [E1 | E1].
      - apply rle_false in E1. rewrite S1 in E1. lra.
      - apply negb_false_iff, req_true in E1. contradiction. }
    destruct f.
    + destruct (dl_choose w J s1 l1) as [s2 | | | ] eqn:EC; try discriminate H.
      cbn [obind] in H. injection H as <- <- <- <-.
      destruct HS as [(X & _) | (G1 & G2 & G3)]; [discriminate X | ].
      apply choose_norm in EC; [ | exact S1 | exact G2 | | ].
      * destruct EC as (C1 & C2 & _). auto.
      * rewrite D1. exact Hr.
      * rewrite D1. exact K.
    + destruct (lin_solve w k l1) as [[l2 q] [ok v]].
      destruct ok; [ | discriminate H].
      match type of H with context [dl_choose w J ?S l2] =>
        destruct (dl_choose w J S l2) as [s2 | | | ] eqn:EC end;
        try discriminate H.
      cbn [obind] in H. injection H as <- <- <- <-.
      apply choose_norm in EC; cbn [sd_norm dx_sd gn_norm dx_gn delta];
        [ | exact S1 | reflexivity | exact Hr | exact K].
      destruct EC as (C1 & C2 & _). auto.
Qed.

Lemma dl_inv_step : forall s s' e,
  dl_inv s -> pass_result w k s s' e -> dl_inv s' /\
  (never_failed (log s') -> exists t dx, snd (pol s') = PDL t /\
     ev_step e = Some dx /\ dl_dx t = dx /\ norm RA dx <= delta t).
Proof.
  intros s s' e (t & P & HI) R.
  destruct (pass_policy R) as (b & p & l1 & qs & g & r & Q & Ep & Es & El).
  destruct (pol s) as [b0 q0] eqn:Epol. cbn [fst snd] in P, HI. subst q0.
  unfold policy_solve in Q. cbn [fst snd] in Q.
  destruct (dl_solve w k (oJ s) _ (prev_failed s) (values (dvs s)) t (ls s))
    as [[[[t' l1'] qs'] r'] | | | ] eqn:ES; try discriminate Q.
  cbn [obind] in Q. injection Q as <- <- <- <- <- <-.
  assert (X : never_failed (log s') -> exists dx, r' = Some dx /\
     dl_dx t' = dx /\ dl_consistent t' /\ norm RA dx <= delta t').
  { intro NF. rewrite El in NF. unfold never_failed in NF.
    apply Forall_app in NF. destruct NF as (NF & NE).
    apply Forall_inv in NE. unfold solved in NE. rewrite Es in NE.
    destruct r' as [dx | ]; [ | discriminate NE].
    exists dx. split; [reflexivity | ].
    eapply dl_solve_norm; [ | exact ES].
    destruct (HI NF) as [(Z1 & Z2 & Z3 & Z4 & Z5) | (_ & Z1 & _)];
      [left | right; exact Z1].
    rewrite Z2. unfold base_solve. cbn [first]. auto. }
  split.
  - exists t'. rewrite Ep. cbn [snd fst]. split; [reflexivity | ].
    intro NF. right. destruct (X NF) as (dx & -> & <- & C1 & C2).
    split; [ | split; assumption].
    rewrite El. destruct (log s); discriminate.
  - intro NF. destruct (X NF) as (dx & E & D & _ & C2).
    exists t', dx. rewrite Ep, Es. cbn [snd].
    split; [reflexivity | split; [exact E | split; assumption]].
Qed.

Lemma dl_inv_start : forall o p n ds s,
  kind (effective_policy k p) = 2%nat ->
  start w k o p n ds = Ok s -> dl_inv s.
Proof.
  intros o p n ds s Hk H. apply start_cases in H. destruct H as (-> & _ & _).
  destruct (effective_policy k p) as [ | c m | t] eqn:E; try discriminate Hk.
  cbn [policy_start]. eexists. cbn [pol snd fst log prev_failed].
  split; [reflexivity | ]. intros _. left. cbn. repeat split; reflexivity.
Qed.

Lemma dl_inv_reached : forall o p n ds s,
  kind (effective_policy k p) = 2%nat ->
  reached w k o p n ds s -> dl_inv s.
Proof.
  intros o p n ds s Hk.
  apply (reached_inv dl_inv).
  - intros s0 H. eapply dl_inv_start; eassumption.
  - intros s0 s' e _ H R. exact (proj1 (dl_inv_step H R)).
Qed.

End R.
