From Coq Require Import ZArith List Bool Lia.
From Verif Require Import Base Arith OptModel OptSpec.
Import ListNotations.
Set Implicit Arguments.

Section Proofs.
Variable A : Arith.
Variable V : Type.
Variable w : World A V.
Variable k : solver_kind.
Notation num := (num A).
Notation cst := (of_Z A).
Notation event := (event A V).
Notation ost := (ost A V).

(** *** Updates and their reversal *)
Lemma apply_values : forall ds st dx ds1,
  apply_update w st ds dx = Some ds1 -> settled ds ->
  values (revert ds1) = values ds /\ settled ds1 /\ length ds1 = length ds.
Proof.
  induction ds as [ | d r IH]; intros st dx ds1 H Hs.
  - injection H as <-. repeat split. constructor.
  - pose proof (Forall_inv Hs) as Hd. pose proof (Forall_inv_tail Hs) as Hr.
    cbn [apply_update] in H.
    destruct (active d) eqn:Ea.
    + destruct (Nat.leb (st + dim d) (length dx)); [ | discriminate].
      destruct (apply_update w (st + dim d) r dx) as [r1 | ] eqn:Er;
        [ | discriminate].
      injection H as <-.
      destruct (IH _ _ _ Er Hr) as (IH1 & IH2 & IH3).
      unfold values, revert in *. cbn [map length].
      destruct (Nat.ltb 0 (dim d)) eqn:Ed.
      * cbn [active old cur]. rewrite ?Ea. cbn [cur]. rewrite IH1, IH3.
        repeat split. constructor; [ | assumption].
        cbn [active old cur dim]. intros _ Z.
        apply Nat.ltb_lt in Ed. lia.
      * rewrite Ea. cbn [cur]. rewrite IH1, IH3.
        apply Nat.ltb_ge in Ed.
        rewrite Hd; [ | assumption | lia].
        repeat split. constructor; assumption.
    + destruct (apply_update w st r dx) as [r1 | ] eqn:Er; [ | discriminate].
      injection H as <-.
      destruct (IH _ _ _ Er Hr) as (IH1 & IH2 & IH3).
      unfold values, revert in *. cbn [map length]. rewrite Ea.
      rewrite IH1, IH3. repeat split. constructor; assumption.
Qed.

Lemma revert_settled : forall ds : list (dvar A V), settled (revert ds).
Proof.
  intro ds. unfold settled, revert. apply Forall_forall. intros d Hin.
  apply in_map_iff in Hin. destruct Hin as (d0 & <- & _).
  destruct (active d0) eqn:Ea; cbn [active dim old cur]; congruence.
Qed.

(** *** One pass *)
Inductive pass_result (s s' : ost) : event -> Prop :=
| Pass_unsolved b p l1 qs g
    (S : policy_solve w k (oJ s) (prev_failed s) (values (dvs s)) (pol s) (ls s)
         = Ok (b, p, l1, qs, g, None))
    (E : s' = Ost (dvs s) l1 (b, p) (oJ s) (opJ s) (dX s) (dJ s) true true
              (iterations s) (failures s + 1)
              (log s ++ [Event (values (dvs s)) qs g None (values (dvs s)) (oJ s) true])) :
    pass_result s s' (Event (values (dvs s)) qs g None (values (dvs s)) (oJ s) true)
| Pass_rejected b p l1 qs g dx ds1 m
    (S : policy_solve w k (oJ s) (prev_failed s) (values (dvs s)) (pol s) (ls s)
         = Ok (b, p, l1, qs, g, Some dx))
    (U : apply_update w 0 (dvs s) dx = Some ds1)
    (M : maxabs A dx = Some m)
    (R : reverts p = true)
    (L : lt A (sub A (opJ s) (cost w (values ds1))) (cst 0) = true)
    (E : s' = Ost (revert ds1) (fst (lin_error w (values ds1) l1)) (b, p)
              (cost w (values ds1)) (opJ s) m
              (sub A (opJ s) (cost w (values ds1))) true (solver_failed s)
              (iterations s + 1) (failures s + 1)
              (log s ++ [Event (values (dvs s)) qs g (Some dx) (values ds1)
                           (cost w (values ds1)) false])) :
    pass_result s s' (Event (values (dvs s)) qs g (Some dx) (values ds1)
                        (cost w (values ds1)) false)
| Pass_accepted b p l1 qs g dx ds1 m
    (S : policy_solve w k (oJ s) (prev_failed s) (values (dvs s)) (pol s) (ls s)
         = Ok (b, p, l1, qs, g, Some dx))
    (U : apply_update w 0 (dvs s) dx = Some ds1)
    (M : maxabs A dx = Some m)
    (L : reverts p = true ->
         lt A (sub A (opJ s) (cost w (values ds1))) (cst 0) = false)
    (E : s' = Ost ds1 (fst (lin_error w (values ds1) l1)) (b, p)
              (cost w (values ds1)) (cost w (values ds1)) m
              (sub A (opJ s) (cost w (values ds1)))
              (if reverts p then false else prev_failed s) (solver_failed s)
              (iterations s + 1) (failures s)
              (log s ++ [Event (values (dvs s)) qs g (Some dx) (values ds1)
                           (cost w (values ds1)) true])) :
    pass_result s s' (Event (values (dvs s)) qs g (Some dx) (values ds1)
                        (cost w (values ds1)) true).

Lemma pass_cases : forall s s',
  pass w k s = Ok s' -> exists e, pass_result s s' e.
Proof.
  intros s s' H. unfold pass in H.
  destruct (policy_solve w k (oJ s) (prev_failed s) (values (dvs s)) (pol s) (ls s))
    as [[[[[[b p] l1] qs] g] r] | | | ] eqn:E; try discriminate.
  cbn [obind] in H.
  destruct r as [dx | ].
  - destruct (apply_update w 0 (dvs s) dx) as [ds1 | ] eqn:EU; [ | discriminate].
    destruct (maxabs A dx) as [m | ] eqn:EM; [ | discriminate].
    cbn [lin_error] in H.
    destruct (reverts p) eqn:ER.
    + destruct (lt A (sub A (opJ s) (cost w (values ds1))) (cst 0)) eqn:EL;
        injection H as <-.
      * eexists. eapply Pass_rejected; try eassumption. reflexivity.
      * eexists. eapply Pass_accepted; try eassumption.
        -- intros _. exact EL.
        -- rewrite ER. reflexivity.
    + injection H as <-. eexists. eapply Pass_accepted; try eassumption.
      * congruence.
      * rewrite ER. reflexivity.
  - injection H as <-. eexists. eapply Pass_unsolved; [eassumption | reflexivity].
Qed.

Lemma pass_log : forall s s' e, pass_result s s' e -> log s' = log s ++ [e].
Proof. intros s s' e H. destruct H; subst s'; reflexivity. Qed.

(** *** Loop induction *)
Lemma loop_inv : forall (P : ost -> Prop) o,
  (forall s s' e, continues o s = true -> P s -> pass_result s s' e -> P s') ->
  forall f s s', P s -> loop w f k o s = Ok s' -> P s' /\ continues o s' = false.
Proof.
  intros P o step. induction f as [ | f IH]; intros s s' HP H; cbn [loop] in H.
  - destruct (continues o s) eqn:E; [discriminate | ].
    injection H as <-. now split.
  - destruct (continues o s) eqn:E.
    + destruct (pass w k s) as [s1 | | | ] eqn:E1; try discriminate.
      cbn [obind] in H. destruct (pass_cases _ E1) as [e He].
      apply (IH s1); [ | assumption]. eapply step; eassumption.
    + injection H as <-. now split.
Qed.

(** *** Counting *)
Lemma count_app : forall p (l1 l2 : list event),
  count p (l1 ++ l2) = (count p l1 + count p l2)%Z.
Proof.
  induction l1 as [ | e r IH]; intros l2; cbn [app count]; [lia | ].
  rewrite IH. lia.
Qed.

Lemma count_nonneg : forall p (l : list event), (0 <= count p l)%Z.
Proof.
  induction l as [ | e r IH]; cbn [count]; [lia | destruct (p e); lia].
Qed.

Lemma kept_cost_app : forall l1 l2 (J : num),
  kept_cost J (l1 ++ l2) = kept_cost (V := V) (kept_cost J l1) l2.
Proof. induction l1 as [ | e r IH]; intros; cbn [app kept_cost]; auto. Qed.

Lemma kept_values_app : forall (l1 l2 : list event) x,
  kept_values x (l1 ++ l2) = kept_values (kept_values x l1) l2.
Proof. induction l1 as [ | e r IH]; intros; cbn [app kept_values]; auto. Qed.

(** Counters and flags are functions of the log. *)
Definition counted (o : options A) (s : ost) : Prop :=
  iterations s = count (@solved A V) (log s) /\
  failures s = count (fun e => negb (accepted e)) (log s) /\
  solver_failed s = existsb (fun e => negb (solved e)) (log s) /\
  (iterations s <= Z.max 0 (max_iter o))%Z /\
  (failures s <= Z.max 0 (max_iter o))%Z /\
  (log s <> [] -> Z.of_nat (length (log s)) < 2 * max_iter o)%Z.

Lemma existsb_app1 : forall p (l : list event) e,
  existsb p (l ++ [e]) = existsb p l || p e.
Proof.
  intros. rewrite existsb_app. cbn [existsb]. now rewrite orb_false_r.
Qed.

Lemma continues_limits : forall (o : options A) (s : ost),
  continues o s = true ->
  (iterations s < max_iter o)%Z /\ (failures s < max_iter o)%Z.
Proof.
  intros o s H. unfold continues in H.
  apply andb_true_iff in H. destruct H as [H _].
  apply andb_true_iff in H. destruct H as [H1 H2].
  apply Z.ltb_lt in H1, H2. auto.
Qed.

Lemma total_le : forall l : list event,
  (Z.of_nat (length l) <= count (@solved A V) l +
     count (fun e => negb (accepted e)) l)%Z.
Proof.
  induction l as [ | e r IH]; [reflexivity | ].
  cbn [length count]. rewrite Nat2Z.inj_succ.
  replace (accepted e) with (solved e && ev_kept e) by reflexivity.
  destruct (solved e), (ev_kept e); cbn [andb negb]; lia.
Qed.

Lemma counted_step : forall o s s' e,
  continues o s = true -> counted o s -> pass_result s s' e -> counted o s'.
Proof.
  intros o s s' e Hc (H1 & H2 & H3 & H4 & H5 & H6) He.
  destruct (continues_limits _ _ Hc) as [B1 B2].
  pose proof (pass_log He) as HL.
  assert (T := total_le (log s)).
  unfold counted. rewrite HL, !count_app, existsb_app1, <- H1, <- H2, <- H3.
  rewrite app_length, Nat2Z.inj_add. cbn [count length].
  destruct He; subst s'; cbn [solver_failed iterations failures];
    unfold accepted, solved; cbn [ev_step ev_kept andb negb];
    rewrite ?orb_true_r, ?orb_false_r;
    (split; [lia | split; [lia | split; [reflexivity | ]]]);
    (split; [lia | split; [lia | intros _; lia]]).
Qed.

Lemma start_cases : forall o p n ds s,
  start w k o p n ds = Ok s ->
  s = Ost ds (fst (lin_error w (values ds)
                     (lin_init w k (wants_diagonal (effective_policy k p)))))
        (base_start A (cost w (values ds)), policy_start (effective_policy k p))
        (cost w (values ds)) (cost w (values ds))
        (add A (conv_dX o) (cst 1)) (add A (conv_dJ o) (cst 1))
        false false 0 0 [] /\
  existsb (@active A V) ds = true /\ n <> 0%nat.
Proof.
  intros o p n ds s H. unfold start in H.
  destruct (existsb (@active A V) ds); cbn [negb] in H; [ | discriminate].
  destruct n as [ | n]; cbn [Nat.eqb] in H; [discriminate | ].
  cbn [lin_error] in H. injection H as <-. repeat split. discriminate.
Qed.

Lemma counted_start : forall o p n ds s,
  start w k o p n ds = Ok s -> counted o s.
Proof.
  intros o p n ds s H. apply start_cases in H. destruct H as (-> & _).
  unfold counted. cbn [iterations failures log solver_failed count existsb].
  repeat split; try lia. congruence.
Qed.

(** *** The loop ends *)
Lemma loop_total : forall o f s,
  counted o s ->
  (2 * max_iter o - iterations s - failures s <= Z.of_nat f)%Z ->
  loop w f k o s <> Hang.
Proof.
  intros o. induction f as [ | f IH]; intros s HC Hf H; cbn [loop] in H.
  - destruct (continues o s) eqn:E; [ | discriminate].
    destruct (continues_limits _ _ E). lia.
  - destruct (continues o s) eqn:E; [ | discriminate].
    destruct (pass w k s) as [s1 | | | ] eqn:E1; cbn [obind] in H; try discriminate.
    + destruct (pass_cases _ E1) as [e He].
      apply (IH s1); [eapply counted_step; eassumption | | assumption].
      destruct He; subst s1; cbn [iterations failures]; lia.
    + unfold pass in E1.
      destruct (policy_solve w k (oJ s) (prev_failed s) (values (dvs s)) (pol s) (ls s))
        as [[[[[[b p] l1] qs] g] r] | | | ] eqn:EP; cbn [obind] in E1;
        try discriminate.
      * destruct r as [dx | ]; [ | discriminate].
        destruct (apply_update w 0 (dvs s) dx); [ | discriminate].
        destruct (maxabs A dx); [ | discriminate].
        cbn [lin_error] in E1.
        destruct (reverts p); [ | discriminate].
        destruct (lt A _ _); discriminate.
      * unfold policy_solve in EP.
        destruct (snd (pol s)) as [ | c m | d].
        -- unfold gn_solve in EP.
           destruct (lin_solve w k _) as [[? ?] [? ?]]. discriminate.
        -- unfold lm_solve, lm_rho in EP.
           destruct (first _); cbn [obind] in EP.
           ++ destruct (lin_solve w k _) as [[? ?] [? ?]]. discriminate.
           ++ destruct (Nat.eqb _ _); cbn [obind] in EP; [ | discriminate].
              destruct (lm_damp _ _ _ _ _) as [[? ?] ?]. cbn [obind] in EP.
              destruct (lin_solve w k _) as [[? ?] [? ?]]. discriminate.
        -- unfold dl_solve, dl_choose in EP.
           repeat (match goal with
                   | H : context [if ?c then _ else _] |- _ => destruct c
                   | H : context [lin_solve ?a ?b ?c] |- _ =>
                       destruct (lin_solve a b c) as [[? ?] [? ?]]
                   end; cbn [obind] in EP; try discriminate).
Qed.

(** *** Cost bookkeeping *)
Definition tracked (x0 : list V) (s : ost) : Prop :=
  settled (dvs s) /\
  opJ s = cost w (values (dvs s)) /\
  opJ s = kept_cost (cost w x0) (log s) /\
  values (dvs s) = kept_values x0 (log s).

Lemma tracked_step : forall x0 s s' e,
  tracked x0 s -> pass_result s s' e -> tracked x0 s'.
Proof.
  intros x0 s s' e (H1 & H2 & H3 & H4) He.
  pose proof (pass_log He) as HL.
  unfold tracked. rewrite HL, kept_cost_app, kept_values_app, <- H3, <- H4.
  destruct He; subst s';
    cbn [dvs opJ kept_cost kept_values]; unfold accepted, solved;
    cbn [ev_step ev_kept andb ev_cost ev_tried].
  - auto.
  - edestruct apply_values as (E1 & E2 & _); [exact U | exact H1 | ].
    rewrite E1. repeat split; auto. apply revert_settled.
  - edestruct apply_values as (E1 & E2 & _); [exact U | exact H1 | ].
    repeat split; auto.
Qed.

(** *** The policy never changes its kind *)
Definition kind (p : policy A) : nat :=
  match p with PGN _ => 0 | PLM _ _ => 1 | PDL _ => 2 end.

Lemma policy_kind : forall J f x bp l b p l1 qs g r,
  policy_solve w k J f x bp l = Ok (b, p, l1, qs, g, r) ->
  kind p = kind (snd bp).
Proof.
  intros J f x bp l b p l1 qs g r H. unfold policy_solve in H.
  destruct (snd bp) as [ | c s | s].
  - destruct (gn_solve _ _ _ _) as [[[? ?] ?] | | | ]; cbn [obind] in H;
      try discriminate. now injection H as <- <- <- <- <- <-.
  - destruct (lm_solve _ _ _ _ _ _ _ _) as [[[[[? ?] ?] ?] ?] | | | ];
      cbn [obind] in H; try discriminate.
    now injection H as <- <- <- <- <- <-.
  - destruct (dl_solve _ _ _ _ _ _ _ _) as [[[[? ?] ?] ?] | | | ];
      cbn [obind] in H; try discriminate.
    now injection H as <- <- <- <- <- <-.
Qed.

Lemma kind_reverts : forall p q : policy A,
  kind p = kind q -> reverts p = reverts q.
Proof. intros [ | | ] [ | | ]; cbn; congruence. Qed.

Lemma pass_kind : forall s s' e,
  pass_result s s' e -> kind (snd (pol s')) = kind (snd (pol s)).
Proof.
  intros s s' e H. destruct H; subst s'; cbn [pol snd];
    eapply policy_kind; eassumption.
Qed.

(** *** Kept costs never increase *)
Section Mono.
Variable leq : num -> num -> Prop.
Variable good : num -> Prop.
Hypothesis leq_refl : forall x, good x -> leq x x.
Hypothesis leq_trans : forall x y z, good x -> good y -> good z ->
  leq x y -> leq y z -> leq x z.
Hypothesis accept_leq : forall p j, good p -> good j ->
  lt A (sub A p j) (cst 0) = false -> leq j p.
Hypothesis costs_good : forall x, good (cost w x).

Definition monotone (x0 : list V) (s : ost) : Prop :=
  tracked x0 s /\ reverts (snd (pol s)) = true /\
  leq (opJ s) (cost w x0) /\
  (forall l1 e l2, log s = l1 ++ e :: l2 -> accepted e = true ->
     leq (ev_cost e) (kept_cost (cost w x0) l1)).

Lemma app_split_last : forall (X : Type) (l : list X) a l1 b l2,
  l ++ [a] = l1 ++ b :: l2 ->
  (l2 = [] /\ l1 = l /\ b = a) \/ (exists l3, l2 = l3 ++ [a] /\ l = l1 ++ b :: l3).
Proof.
  intros X l a l1 b l2 H.
  destruct l2 as [ | c r] using rev_ind.
  - left. apply app_inj_tail in H. destruct H as [-> ->]. auto.
  - right. clear IHr.
    change (b :: r ++ [c]) with ((b :: r) ++ [c]) in H.
    rewrite app_assoc in H. apply app_inj_tail in H. destruct H as [-> ->].
    exists r. auto.
Qed.

Lemma monotone_step : forall x0 s s' e,
  monotone x0 s -> pass_result s s' e -> monotone x0 s'.
Proof.
  intros x0 s s' e (H1 & H2 & H3 & H4) He.
  pose proof (tracked_step H1 He) as H1'.
  pose proof (kind_reverts _ _ (pass_kind He)) as HK.
  pose proof (pass_log He) as HL.
  destruct H1 as (T1 & T2 & T3 & T4).
  split; [assumption | ]. split; [congruence | ].
  assert (HA : accepted e = true -> leq (ev_cost e) (opJ s)).
  { destruct He; unfold accepted, solved; cbn [ev_step ev_kept andb ev_cost];
      try discriminate. intros _.
    apply accept_leq.
    - rewrite T2. apply costs_good.
    - apply costs_good.
    - apply L. subst s'. cbn [pol snd] in HK. congruence. }
  split.
  - destruct (accepted e) eqn:EA.
    + assert (E : opJ s' = ev_cost e /\ good (ev_cost e)).
      { destruct He; subst s'; unfold accepted, solved in EA;
          cbn [ev_step ev_kept andb] in EA; try discriminate.
        cbn [opJ ev_cost]. split; [reflexivity | apply costs_good]. }
      destruct E as [E G]. rewrite E.
      apply (leq_trans (y := opJ s)); auto.
      rewrite T2. apply costs_good.
    + assert (E : opJ s' = opJ s).
      { destruct He; subst s'; unfold accepted, solved in EA;
          cbn [ev_step ev_kept andb] in EA; try discriminate; reflexivity. }
      rewrite E. assumption.
  - intros l1 e1 l2 E EA. rewrite HL in E.
    destruct (app_split_last _ _ _ _ _ E) as [(-> & -> & ->) | (l3 & -> & E3)].
    + rewrite <- T3. auto.
    + eapply H4; eassumption.
Qed.

Lemma monotone_start : forall o p n ds s,
  start w k o p n ds = Ok s -> settled ds ->
  reverts (effective_policy k p) = true ->
  monotone (values ds) s.
Proof.
  intros o p n ds s H Hs Hr. apply start_cases in H. destruct H as (-> & _).
  unfold monotone, tracked.
  cbn [dvs opJ log pol snd kept_cost kept_values].
  repeat split; auto.
  - destruct (effective_policy k p); auto.
  - intros l1 e l2 E. destruct l1; discriminate.
Qed.
End Mono.

Lemma tracked_start : forall o p n ds s,
  start w k o p n ds = Ok s -> settled ds -> tracked (values ds) s.
Proof.
  intros o p n ds s H Hs. apply start_cases in H. destruct H as (-> & _).
  unfold tracked. cbn [dvs opJ log kept_cost kept_values]. auto.
Qed.

Lemma optimize_cases : forall o p n ds s r,
  optimize w k o p n ds = Ok (s, r) ->
  exists s0, start w k o p n ds = Ok s0 /\
    loop w (Z.to_nat (2 * max_iter o)) k o s0 = Ok s /\
    r = Result A (oJ s0) (opJ s) (iterations s) (failures s)
               (dX s) (dJ s) (solver_failed s).
Proof.
  intros o p n ds s r H. unfold optimize in H.
  destruct (start w k o p n ds) as [s0 | | | ] eqn:E0; try discriminate.
  cbn [obind] in H.
  destruct (loop w _ k o s0) as [s1 | | | ] eqn:E1; try discriminate.
  cbn [obind] in H. injection H as <- <-. exists s0. auto.
Qed.

(** *** When the loop goes on *)
Definition going (x0 : list V) (o : options A) (s : ost) : Prop :=
  tracked x0 s /\ counted o s /\
  forall l1 e l2, log s = l1 ++ e :: l2 ->
    Forall (fun e => solved e = true) (l1 ++ [e]) ->
    exists dx m, ev_step e = Some dx /\ maxabs A dx = Some m /\
      match l2 with
      | [] => dX s = m /\ dJ s = sub A (kept_cost (cost w x0) l1) (ev_cost e)
      | _ => lt A (conv_dX o) m = true /\
             lt A (conv_dJ o)
               (absv A (sub A (kept_cost (cost w x0) l1) (ev_cost e))) = true
      end.

Lemma all_solved : forall l : list event,
  Forall (fun e => solved e = true) l ->
  existsb (fun e => negb (solved e)) l = false.
Proof.
  induction 1 as [ | e r H1 H2 IH]; [reflexivity | ].
  cbn [existsb]. now rewrite H1, IH.
Qed.

Lemma going_step : forall x0 o s s' e,
  continues o s = true -> going x0 o s -> pass_result s s' e -> going x0 o s'.
Proof.
  intros x0 o s s' e Hc (H1 & H2 & H3) He.
  pose proof (pass_log He) as HL.
  split; [eapply tracked_step; eassumption | ].
  split; [eapply counted_step; eassumption | ].
  intros l1 e1 l2 E HF. rewrite HL in E.
  destruct (app_split_last _ _ _ _ _ E) as [(-> & -> & ->) | (l3 & -> & E3)].
  - assert (T3 : opJ s = kept_cost (cost w x0) (log s)) by apply H1.
    assert (Hs : solved e = true).
    { apply Forall_app in HF. destruct HF as [_ HF]. now inversion HF. }
    destruct He; subst s'; cbn [ev_step ev_cost dX dJ];
      unfold solved in Hs; cbn [ev_step] in Hs; try discriminate;
      (exists dx, m; rewrite <- T3; auto).
  - destruct (H3 _ _ _ E3 HF) as (dx & m & D1 & D2 & D3).
    exists dx, m. split; [assumption | split; [assumption | ]].
    destruct l3 as [ | e2 l3]; cbn [app]; [ | exact D3].
    destruct D3 as [D3 D4].
    unfold continues in Hc. apply andb_true_iff in Hc. destruct Hc as [_ Hc].
    destruct H2 as (_ & _ & HS & _).
    rewrite HS, E3, (all_solved HF), orb_false_r in Hc.
    apply andb_true_iff in Hc. rewrite D3, D4 in Hc. exact Hc.
Qed.

Lemma going_start : forall o p n ds s,
  start w k o p n ds = Ok s -> settled ds -> going (values ds) o s.
Proof.
  intros o p n ds s H Hs.
  split; [eapply tracked_start; eassumption | ].
  split; [eapply counted_start; eassumption | ].
  apply start_cases in H. destruct H as (-> & _). cbn [log].
  intros l1 e l2 E. destruct l1; discriminate.
Qed.

(** *** Reached states *)
Lemma reached_inv : forall (P : ost -> Prop) o p n ds,
  (forall s, start w k o p n ds = Ok s -> P s) ->
  (forall s s' e, continues o s = true -> P s -> pass_result s s' e -> P s') ->
  forall s, reached w k o p n ds s -> P s.
Proof.
  intros P o p n ds H0 H1 s H. induction H as [s H | s s' H IH Hc Hp]; auto.
  destruct (pass_cases _ Hp) as [e He]. eapply H1; eassumption.
Qed.

Lemma loop_reached : forall o p n ds f s s',
  reached w k o p n ds s -> loop w f k o s = Ok s' ->
  reached w k o p n ds s'.
Proof.
  intros o p n ds. induction f as [ | f IH]; intros s s' HR H; cbn [loop] in H.
  - destruct (continues o s); [discriminate | ]. now injection H as <-.
  - destruct (continues o s) eqn:E; [ | now injection H as <-].
    destruct (pass w k s) as [s1 | | | ] eqn:E1; try discriminate.
    cbn [obind] in H. apply (IH s1); [ | assumption].
    eapply Reached_pass; eassumption.
Qed.

Lemma optimize_reached : forall o p n ds s r,
  optimize w k o p n ds = Ok (s, r) -> reached w k o p n ds s.
Proof.
  intros o p n ds s r H. apply optimize_cases in H.
  destruct H as (s0 & H0 & H1 & _).
  eapply loop_reached; [apply Reached_start; eassumption | eassumption].
Qed.

(** *** What the linear solver holds *)
Lemma solve_keeps : forall l l' q a,
  lin_solve w k l = (l', q, a) ->
  res_at l' = res_at l /\ jac_at l' = jac_at l /\ rhs_res l' = rhs_res l /\
  augmented l' = augmented l /\ q_jac q = jac_at l /\
  (q_res q = rhs_res l \/ q_res q = res_at l) /\
  (k = SparseCholesky \/ k = BlockCholesky -> q_res q = rhs_res l) /\
  (k = SparseCholesky -> augmented l = true ->
     q_diag q = mul A (cond l) (cond l)).
Proof.
  intros l l' q a H. unfold lin_solve in H.
  destruct k; injection H as <- <- <-;
    cbn [res_at jac_at rhs_res augmented q_jac q_res q_diag];
    repeat split; auto;
    try (intros [E | E]; discriminate E); try discriminate.
  intros _ E. now rewrite E.
Qed.

(** *** Gauss-Newton *)
Definition gn_fresh (s : ost) : Prop :=
  kind (snd (pol s)) = 0%nat /\ res_at (ls s) = values (dvs s) /\
  Forall (fun e => Forall (fresh e) (ev_queries e)) (log s).

Lemma gn_policy : forall J f x bp l b p l1 qs g r,
  kind (snd bp) = 0%nat -> res_at l = x ->
  policy_solve w k J f x bp l = Ok (b, p, l1, qs, g, r) ->
  res_at l1 = x /\ Forall (fun q => q_jac q = x /\ q_res q = x) qs.
Proof.
  intros J f x [b0 [ | c s | s]] l b p l1 qs g r HK HX H; try discriminate HK.
  unfold policy_solve in H. cbn [snd fst] in H. unfold gn_solve in H.
  destruct (lin_solve w k (lin_build x l)) as [[l2 q] [ok dx]] eqn:E.
  cbn [obind] in H. injection H as <- <- <- <- <- <-.
  destruct (solve_keeps E) as (R1 & R2 & R3 & R4 & R5 & R6 & _).
  cbn [lin_build res_at jac_at rhs_res] in *.
  split; [congruence | ].
  constructor; [ | constructor]. split; [assumption | ].
  destruct R6; congruence.
Qed.

Lemma gn_fresh_step : forall s s' e,
  gn_fresh s -> pass_result s s' e -> gn_fresh s'.
Proof.
  intros s s' e (H1 & H2 & H3) He.
  pose proof (pass_log He) as HL. pose proof (pass_kind He) as HK.
  split; [congruence | ]. rewrite HL.
  assert (HQ : Forall (fresh e) (ev_queries e) /\ res_at (ls s') = values (dvs s')).
  { destruct He;
      (pose proof S as Q; apply gn_policy in Q; [ | assumption | assumption]; destruct Q as [Q1 Q2]);
      subst s'; unfold fresh; cbn [ev_queries ev_at ls dvs]; split; auto.
    exfalso.
    apply policy_kind in S. rewrite H1 in S. destruct p; discriminate. }
  destruct HQ as [HQ HX]. split; [assumption | ].
  apply Forall_app. split; [assumption | ]. constructor; [assumption | constructor].
Qed.

(** *** Dog leg *)
Definition dl_fresh (s : ost) : Prop :=
  kind (snd (pol s)) = 2%nat /\
  (prev_failed s = false -> res_at (ls s) = values (dvs s)) /\
  Forall (fun e => Forall (fresh e) (ev_queries e)) (log s).

Lemma dl_policy : forall J f x bp l b p l1 qs g r,
  kind (snd bp) = 2%nat -> (f = false -> res_at l = x) ->
  policy_solve w k J f x bp l = Ok (b, p, l1, qs, g, r) ->
  Forall (fun q => q_jac q = x /\ q_res q = x) qs.
Proof.
  intros J f x [b0 [ | c s | s]] l b p l1 qs g r HK HX H; try discriminate HK.
  unfold policy_solve in H. cbn [snd fst] in H.
  set (bb := base_solve J f b0) in *.
  destruct (dl_solve w k J bb f x s l) as [[[[s1 l2] qs2] r2] | | | ] eqn:E;
    cbn [obind] in H; try discriminate.
  injection H as <- <- <- <- <- <-.
  unfold dl_solve in E.
  match type of E with (if ?c then _ else _) = _ => destruct c end.
  - injection E as <- <- <- <-. constructor.
  - destruct f.
    + destruct (dl_choose _ _ _ _) as [s2 | | | ]; cbn [obind] in E;
        try discriminate. injection E as <- <- <- <-. constructor.
    + destruct (lin_solve w k (lin_build x l)) as [[l3 q] [ok dx]] eqn:EL.
      destruct (solve_keeps EL) as (R1 & R2 & R3 & R4 & R5 & R6 & _).
      cbn [lin_build res_at jac_at rhs_res] in *.
      assert (HQ : q_jac q = x /\ q_res q = x).
      { split; [assumption | ]. specialize (HX eq_refl). destruct R6; congruence. }
      destruct ok.
      * destruct (dl_choose _ _ _ _) as [s2 | | | ]; cbn [obind] in E;
          try discriminate. injection E as <- <- <- <-. auto.
      * injection E as <- <- <- <-. auto.
Qed.

Lemma dl_fresh_step : forall s s' e,
  dl_fresh s -> pass_result s s' e -> dl_fresh s'.
Proof.
  intros s s' e (H1 & H2 & H3) He.
  pose proof (pass_log He) as HL. pose proof (pass_kind He) as HK.
  split; [congruence | ]. rewrite HL.
  assert (HQ : Forall (fresh e) (ev_queries e) /\
               (prev_failed s' = false -> res_at (ls s') = values (dvs s'))).
  { destruct He;
      (pose proof S as Q; apply dl_policy in Q; [ | assumption | assumption]);
      subst s'; unfold fresh; cbn [ev_queries ev_at ls dvs prev_failed];
      split; auto; try discriminate. }
  destruct HQ as [HQ HX]. split; [assumption | ].
  apply Forall_app. split; [assumption | ]. constructor; [assumption | constructor].
Qed.

(** *** Levenberg-Marquardt with a Cholesky solver *)
Definition last_accepted (l : list event) : bool :=
  match rev l with [] => true | e :: _ => accepted e end.

Definition lm_fresh (s : ost) : Prop :=
  kind (snd (pol s)) = 1%nat /\ settled (dvs s) /\
  prev_failed s = negb (last_accepted (log s)) /\
  (first (fst (pol s)) = true <-> log s = []) /\
  (prev_failed s = false -> res_at (ls s) = values (dvs s)) /\
  (positive_gains (log s) ->
     (prev_failed s = true ->
        jac_at (ls s) = values (dvs s) /\ rhs_res (ls s) = values (dvs s)) /\
     Forall (fun e => Forall (fresh e) (ev_queries e)) (log s)).

Lemma lm_policy : forall J f x bp l b p l1 qs g r,
  (k = SparseCholesky \/ k = BlockCholesky) ->
  kind (snd bp) = 1%nat ->
  policy_solve w k J f x bp l = Ok (b, p, l1, qs, g, r) ->
  first b = false /\
  (first (fst bp) = true /\ jac_at l1 = x /\ rhs_res l1 = res_at l \/
   first (fst bp) = false /\ exists rho, g = Some rho /\
     ((f = true \/ le A rho (cst 0) = true) /\
        jac_at l1 = jac_at l /\ rhs_res l1 = rhs_res l \/
      (f = false /\ le A rho (cst 0) = false) /\
        jac_at l1 = x /\ rhs_res l1 = res_at l)) /\
  Forall (fun q => q_jac q = jac_at l1 /\ q_res q = rhs_res l1) qs.
Proof.
  intros J f x [b0 [ | c s | s]] l b p l1 qs g r HS HK H; try discriminate HK.
  unfold policy_solve in H. cbn [snd fst] in *.
  assert (HF : first (base_solve J f b0) = first b0) by (destruct f; reflexivity).
  set (bb := base_solve J f b0) in *.
  destruct (lm_solve w k c bb f x s l) as [[[[[s1 l2] qs2] g2] r2] | | | ] eqn:E;
    cbn [obind] in H; try discriminate.
  injection H as <- <- <- <- <- <-.
  split; [reflexivity | ].
  unfold lm_solve in E. rewrite HF in E.
  destruct (first b0) eqn:EF.
  - cbn [obind] in E.
    destruct (lin_solve w k _) as [[l3 q] [ok dx]] eqn:EL.
    injection E as <- <- <- <- <-.
    destruct (solve_keeps EL) as (R1 & R2 & R3 & R4 & R5 & R6 & R7 & _).
    cbn [lin_condition lin_build res_at jac_at rhs_res] in *.
    specialize (R7 HS).
    split; [auto | ]. constructor; [ | constructor]. split; congruence.
  - destruct (lm_rho w bb s l) as [rho | | | ]; cbn [obind] in E; try discriminate.
    destruct (lm_damp w c s rho f) as [[lam m] rb] eqn:ED. cbn [obind] in E.
    destruct (lin_solve w k _) as [[l3 q] [ok dx]] eqn:EL.
    injection E as <- <- <- <- <-.
    destruct (solve_keeps EL) as (R1 & R2 & R3 & R4 & R5 & R6 & R7 & _).
    specialize (R7 HS).
    split.
    + right. split; [reflexivity | ]. exists rho. split; [reflexivity | ].
      unfold lm_damp in ED. destruct f.
      { injection ED as <- <- <-. left.
        cbn [lin_condition lin_build res_at jac_at rhs_res] in *. auto. }
      destruct (le A rho (cst 0)).
      { injection ED as <- <- <-. left.
        cbn [lin_condition lin_build res_at jac_at rhs_res] in *. auto. }
      right. split; [auto | ].
      assert (rb = true)
        by (destruct (lt A (lambda_floor A) (lambda s)); now injection ED as <- <- <-).
      subst rb. cbn [lin_condition lin_build res_at jac_at rhs_res] in *. auto.
    + constructor; [ | constructor]. split; congruence.
Qed.

Lemma positive_gains_app : forall (l : list event) e,
  positive_gains (l ++ [e]) -> positive_gains l.
Proof.
  intros l e H l1 e0 e1 l2 g E. apply (H l1 e0 e1 (l2 ++ [e])).
  rewrite E, <- app_assoc. reflexivity.
Qed.

Lemma last_accepted_app : forall (l : list event) e,
  last_accepted (l ++ [e]) = accepted e.
Proof. intros. unfold last_accepted. now rewrite rev_app_distr. Qed.

Lemma last_accepted_split : forall (l : list event),
  last_accepted l = true -> l <> [] ->
  exists l1 e0, l = l1 ++ [e0] /\ accepted e0 = true.
Proof.
  intros l H N. destruct l as [ | e0 l1] using rev_ind; [congruence | ].
  exists l1, e0. rewrite last_accepted_app in H. auto.
Qed.

Lemma lm_fresh_step : forall s s' e,
  (k = SparseCholesky \/ k = BlockCholesky) ->
  lm_fresh s -> pass_result s s' e -> lm_fresh s'.
Proof.
  intros s s' e HS (H1 & Hset & H2 & H3 & H4 & H5) He.
  pose proof (pass_log He) as HL. pose proof (pass_kind He) as HK.
  assert (HR : reverts (snd (pol s)) = true).
  { destruct (snd (pol s)); cbn in H1 |- *; congruence. }
  pose proof (kind_reverts _ _ HK) as HKR. rewrite HR in HKR.
  split; [congruence | ].
  assert (HP : forall b p l1 qs g r,
    policy_solve w k (oJ s) (prev_failed s) (values (dvs s)) (pol s) (ls s)
      = Ok (b, p, l1, qs, g, r) ->
    positive_gains (log s ++ [e]) -> ev_gain e = g ->
    first b = false /\ jac_at l1 = values (dvs s) /\
    rhs_res l1 = values (dvs s) /\
    Forall (fun q => q_jac q = values (dvs s) /\ q_res q = values (dvs s)) qs).
  { intros b p l1 qs g r EP HG HE.
    pose proof EP as Q0. apply lm_policy in Q0; [ | assumption | assumption].
    destruct Q0 as (F & C & Q).
    assert (J : jac_at l1 = values (dvs s) /\ rhs_res l1 = values (dvs s)).
    { assert (HG0 : positive_gains (log s)) by (eapply positive_gains_app; eassumption).
      destruct (H5 HG0) as [H6 _].
      destruct C as [(C1 & C2 & C3) | (C1 & rho & C2 & C3)].
      - assert (prev_failed s = false)
          by (apply H3 in C1; rewrite H2, C1; reflexivity).
        rewrite C2, C3. auto.
      - destruct C3 as [(C3 & C4 & C5) | ((C3 & _) & C4 & C5)].
        + rewrite C4, C5. destruct (prev_failed s) eqn:PF; [auto | exfalso].
          destruct C3 as [C3 | C3]; [discriminate | ].
          assert (NE : log s <> []) by (intro N; apply H3 in N; congruence).
          destruct (@last_accepted_split (log s)) as (l3 & e0 & E0 & A0).
          * destruct (last_accepted (log s)); [reflexivity | discriminate].
          * assumption.
          * rewrite E0, <- app_assoc in HG. subst g.
            rewrite (HG l3 e0 e [] rho eq_refl A0) in C3; congruence.
        + rewrite C4, C5. auto. }
    destruct J as [J1 J2]. rewrite J1, J2 in Q. auto. }
  rewrite HL, last_accepted_app.
  assert (NE : log s ++ [e] <> []) by (destruct (log s); discriminate).
  assert (HF : first (fst (pol s')) = false).
  { destruct He; subst s'; cbn [pol fst];
      (pose proof S as Q0; apply lm_policy in Q0; [ | assumption | assumption];
       destruct Q0 as (F & _)); exact F. }
  assert (HX : forall q, q = true -> q = false -> False) by congruence.
  assert (HQ : positive_gains (log s ++ [e]) ->
     Forall (fresh e) (ev_queries e) /\
     (prev_failed s' = true -> jac_at (ls s') = values (dvs s') /\
        rhs_res (ls s') = values (dvs s'))).
  { intro HG. destruct He;
      (destruct (HP _ _ _ _ _ _ S HG eq_refl) as (F & J1 & J2 & Q));
      subst s'; unfold fresh;
      cbn [ev_queries ev_at ls dvs prev_failed lin_error fst jac_at rhs_res];
      (split; [assumption | ]).
    - auto.
    - edestruct apply_values as (E1 & _ & _); [exact U | exact Hset | ].
      rewrite E1. auto.
    - cbn [pol snd] in HKR. rewrite HKR. discriminate. }
  split.
  { destruct He; subst s'; cbn [dvs].
    - assumption.
    - apply revert_settled.
    - edestruct apply_values as (_ & E1 & _); [exact U | exact Hset | ]. exact E1. }
  split.
  { destruct He; subst s'; unfold accepted, solved;
      cbn [prev_failed ev_step ev_kept andb negb]; try reflexivity.
    cbn [pol snd] in HKR. now rewrite HKR. }
  split; [split; [congruence | intro N; elim (NE N)] | ].
  split.
  { destruct He; subst s'; cbn [prev_failed ls dvs lin_error fst res_at];
      try discriminate. reflexivity. }
  intro HG. destruct (HQ HG) as [Q1 Q2]. split; [assumption | ].
  apply Forall_app. split.
  - apply H5. eapply positive_gains_app. eassumption.
  - constructor; [assumption | constructor].
Qed.

Lemma fresh_start : forall o p n ds s,
  start w k o p n ds = Ok s ->
  res_at (ls s) = values (dvs s) /\ log s = [] /\ dvs s = ds /\
  prev_failed s = false /\ first (fst (pol s)) = true /\
  kind (snd (pol s)) = kind (effective_policy k p) /\
  augmented (ls s) = augmented (lin_init w k (wants_diagonal (effective_policy k p))).
Proof.
  intros o p n ds s H. apply start_cases in H. destruct H as (-> & _).
  cbn [res_at ls dvs log prev_failed pol fst snd first base_start lin_error augmented].
  repeat split. now destruct (effective_policy k p).
Qed.

Lemma gn_all_fresh : forall o p n ds s,
  reached w k o p n ds s -> kind (effective_policy k p) = 0%nat -> gn_fresh s.
Proof.
  intros o p n ds s H HK. revert H. apply reached_inv.
  - intros s0 H. apply fresh_start in H. destruct H as (F1 & F2 & F3 & F4 & F5 & F6 & _).
    split; [congruence | ]. split; [assumption | ]. rewrite F2. constructor.
  - intros. eapply gn_fresh_step; eassumption.
Qed.

Lemma dl_all_fresh : forall o p n ds s,
  reached w k o p n ds s -> kind (effective_policy k p) = 2%nat -> dl_fresh s.
Proof.
  intros o p n ds s H HK. revert H. apply reached_inv.
  - intros s0 H. apply fresh_start in H. destruct H as (F1 & F2 & F3 & F4 & F5 & F6 & _).
    split; [congruence | ]. split; [auto | ]. rewrite F2. constructor.
  - intros. eapply dl_fresh_step; eassumption.
Qed.

Lemma lm_all_fresh : forall o p n ds s,
  (k = SparseCholesky \/ k = BlockCholesky) -> settled ds ->
  reached w k o p n ds s -> kind (effective_policy k p) = 1%nat -> lm_fresh s.
Proof.
  intros o p n ds s HS Hset H HK. revert H. apply reached_inv.
  - intros s0 H. apply fresh_start in H. destruct H as (F1 & F2 & F3 & F4 & F5 & F6 & _).
    unfold lm_fresh. rewrite F2, F4, F5, F6, F3.
    split; [assumption | ]. split; [assumption | ]. split; [reflexivity | ].
    split; [split; auto | ]. split; [intros _; congruence | ].
    intros _. split; [discriminate | constructor].
  - intros. eapply lm_fresh_step; eassumption.
Qed.

(** *** The damping that reaches the solver *)
Lemma augmented_step : forall s s' e,
  pass_result s s' e -> augmented (ls s') = augmented (ls s).
Proof.
  assert (HP : forall J f x bp l b p l1 qs g r,
    policy_solve w k J f x bp l = Ok (b, p, l1, qs, g, r) ->
    augmented l1 = augmented l).
  { intros J f x [b0 [ | c s | s]] l b p l1 qs g r H;
      unfold policy_solve in H; cbn [snd fst] in H;
      set (bb := base_solve J f b0) in *.
    - unfold gn_solve in H.
      destruct (lin_solve w k (lin_build x l)) as [[l2 q] [ok dx]] eqn:E.
      cbn [obind] in H. injection H as <- <- <- <- <- <-.
      destruct (solve_keeps E) as (R1 & R2 & R3 & R4 & _). exact R4.
    - unfold lm_solve in H. destruct (first bb); cbn [obind] in H.
      + destruct (lin_solve w k _) as [[l2 q] [ok dx]] eqn:E.
        cbn [obind] in H. injection H as <- <- <- <- <- <-.
        destruct (solve_keeps E) as (R1 & R2 & R3 & R4 & _). exact R4.
      + destruct (lm_rho w bb s l); cbn [obind] in H; try discriminate.
        destruct (lm_damp _ _ _ _ _) as [[lam m] rb]. cbn [obind] in H.
        destruct (lin_solve w k _) as [[l2 q] [ok dx]] eqn:E.
        cbn [obind] in H. injection H as <- <- <- <- <- <-.
        destruct (solve_keeps E) as (R1 & R2 & R3 & R4 & _).
        rewrite R4. now destruct rb.
    - destruct (dl_solve w k J bb f x s l) as [[[[s1 l2] qs2] r2] | | | ] eqn:E;
        cbn [obind] in H; try discriminate.
      injection H as <- <- <- <- <- <-.
      unfold dl_solve in E.
      match type of E with (if ?c then _ else _) = _ => destruct c end.
      + injection E as <- <- <- <-. now destruct f.
      + destruct f.
        * destruct (dl_choose _ _ _ _); cbn [obind] in E; try discriminate.
          now injection E as <- <- <- <-.
        * destruct (lin_solve w k (lin_build x l)) as [[l3 q] [ok dx]] eqn:EL.
          destruct (solve_keeps EL) as (R1 & R2 & R3 & R4 & _).
          destruct ok.
          -- destruct (dl_choose _ _ _ _); cbn [obind] in E; try discriminate.
             now injection E as <- <- <- <-.
          -- now injection E as <- <- <- <-. }
  intros s s' e H. destruct H; subst s'; cbn [ls lin_error fst augmented];
    eapply HP; eassumption.
Qed.

Lemma lm_diag : forall J f x bp l b p l1 qs g r c m,
  k = SparseCholesky -> augmented l = true ->
  policy_solve w k J f x bp l = Ok (b, p, l1, qs, g, r) ->
  p = PLM c m ->
  Forall (fun q => q_diag q = mul A (lambda m) (lambda m)) qs.
Proof.
  intros J f x bp l b p l1 qs g r c m HS HA H HP.
  pose proof (policy_kind _ _ _ _ _ H) as HK. subst p.
  destruct bp as [b0 [ | c0 s | s]]; try discriminate HK.
  unfold policy_solve in H; cbn [snd fst] in H.
  set (bb := base_solve J f b0) in *.
  unfold lm_solve in H. destruct (first bb); cbn [obind] in H.
  - destruct (lin_solve w k _) as [[l2 q] [ok dx]] eqn:E.
    cbn [obind] in H. injection H as <- <- <- <- <- <- <-.
    destruct (solve_keeps E) as (_ & _ & _ & _ & _ & _ & _ & R).
    constructor; [ | constructor]. cbn [lambda]. apply R; assumption.
  - destruct (lm_rho w bb s l); cbn [obind] in H; try discriminate.
    destruct (lm_damp _ _ _ _ _) as [[lam mm] rb]. cbn [obind] in H.
    destruct (lin_solve w k _) as [[l2 q] [ok dx]] eqn:E.
    cbn [obind] in H. injection H as <- <- <- <- <- <- <-.
    destruct (solve_keeps E) as (_ & _ & _ & _ & _ & _ & _ & R).
    constructor; [ | constructor]. cbn [lambda]. apply R; [assumption | ].
    now destruct rb.
Qed.

(** *** Slices and inactive variables *)
Lemma apply_nth : forall ds st dx ds1 i d,
  apply_update w st ds dx = Some ds1 -> nth_error ds i = Some d ->
  nth_error ds1 i = Some
    (if active d && Nat.ltb 0 (dim d) then
       DV A (boxplus w (cur d)
             (map (fun v => mul A v (scale d))
                (firstn (dim d)
                   (skipn (st + columns (actives_before ds i)) dx))))
          (cur d) (dim d) (scale d) true
     else d) /\
  (active d = true ->
     st + columns (actives_before ds i) + dim d <= length dx)%nat.
Proof.
  induction ds as [ | d0 r IH]; intros st dx ds1 i d H Hi.
  - destruct i; discriminate.
  - cbn [apply_update] in H. destruct i as [ | i].
    + injection Hi as ->. unfold actives_before. cbn [firstn filter columns fold_right].
      rewrite Nat.add_0_r.
      destruct (active d) eqn:Ea.
      * destruct (Nat.leb (st + dim d) (length dx)) eqn:EL; [ | discriminate].
        apply Nat.leb_le in EL.
        destruct (apply_update w (st + dim d) r dx) as [r1 | ]; [ | discriminate].
        injection H as <-. cbn [nth_error andb].
        destruct (Nat.ltb 0 (dim d)); split; auto.
      * destruct (apply_update w st r dx) as [r1 | ]; [ | discriminate].
        injection H as <-. cbn [nth_error andb]. split; [reflexivity | discriminate].
    + cbn [nth_error] in Hi. unfold actives_before. cbn [firstn filter].
      destruct (active d0) eqn:Ea.
      * destruct (Nat.leb (st + dim d0) (length dx)) eqn:EL; [ | discriminate].
        destruct (apply_update w (st + dim d0) r dx) as [r1 | ] eqn:Er; [ | discriminate].
        injection H as <-. cbn [nth_error].
        cbn [columns fold_right]. rewrite Nat.add_assoc.
        apply (IH _ _ _ _ _ Er Hi).
      * destruct (apply_update w st r dx) as [r1 | ] eqn:Er; [ | discriminate].
        injection H as <-. cbn [nth_error].
        apply (IH _ _ _ _ _ Er Hi).
Qed.

Lemma layout_nth : forall (ds : list (dvar A V)) b c i d,
  nth_error ds i = Some d ->
  nth_error (layout b c ds) i = Some
    (if active d then Some ((b + length (actives_before ds i))%nat,
                            (c + columns (actives_before ds i))%nat)
     else None).
Proof.
  induction ds as [ | d0 r IH]; intros b c i d Hi.
  - destruct i; discriminate.
  - destruct i as [ | i].
    + injection Hi as ->. unfold actives_before.
      cbn [layout firstn filter columns fold_right length].
      rewrite !Nat.add_0_r. destruct (active d); reflexivity.
    + cbn [nth_error] in Hi. unfold actives_before. cbn [layout firstn filter].
      destruct (active d0); cbn [nth_error length columns fold_right].
      * rewrite (IH _ _ _ _ Hi). rewrite Nat.add_succ_comm, Nat.add_assoc. reflexivity.
      * apply (IH _ _ _ _ Hi).
Qed.

Lemma apply_length : forall ds st dx ds1,
  apply_update w st ds dx = Some ds1 -> length ds1 = length ds.
Proof.
  induction ds as [ | d r IH]; intros st dx ds1 H; cbn [apply_update] in H.
  - now injection H as <-.
  - destruct (active d).
    + destruct (Nat.leb _ _); [ | discriminate].
      destruct (apply_update w (st + dim d) r dx) eqn:E; [ | discriminate].
      injection H as <-. cbn [length]. f_equal. eapply IH. eassumption.
    + destruct (apply_update w st r dx) eqn:E; [ | discriminate].
      injection H as <-. cbn [length]. f_equal. eapply IH. eassumption.
Qed.

(** Inactive variables keep value and undo value; nobody changes dimension,
    scaling or activity. *)
Definition frozen (ds ds' : list (dvar A V)) : Prop :=
  Forall2 (fun d d' => active d' = active d /\ dim d' = dim d /\
                       scale d' = scale d /\
                       (active d = false -> d' = d)) ds ds'.

Lemma frozen_apply : forall ds0 ds st dx ds1,
  frozen ds0 ds -> apply_update w st ds dx = Some ds1 -> frozen ds0 ds1.
Proof.
  intros ds0 ds st dx ds1 H. revert st ds1.
  induction H as [ | d0 d r0 r (H1 & H2 & H3 & H4) H IH]; intros st ds1 E;
    cbn [apply_update] in E.
  - injection E as <-. constructor.
  - destruct (active d) eqn:Ea.
    + destruct (Nat.leb _ _); [ | discriminate].
      destruct (apply_update w (st + dim d) r dx) eqn:E1; [ | discriminate].
      injection E as <-. constructor; [ | eapply IH; eassumption].
      destruct (Nat.ltb 0 (dim d)); cbn [active dim scale];
        repeat split; auto; congruence.
    + destruct (apply_update w st r dx) eqn:E1; [ | discriminate].
      injection E as <-. constructor; [ | eapply IH; eassumption].
      repeat split; auto; congruence.
Qed.

Lemma frozen_revert : forall ds0 ds, frozen ds0 ds -> frozen ds0 (revert ds).
Proof.
  intros ds0 ds H. induction H as [ | d0 d r0 r (H1 & H2 & H3 & H4) H IH].
  - constructor.
  - unfold revert. cbn [map]. constructor; [ | assumption].
    destruct (active d) eqn:Ea; cbn [active dim scale];
      repeat split; auto; congruence.
Qed.

Lemma frozen_reached : forall o p n ds s,
  reached w k o p n ds s -> frozen ds (dvs s).
Proof.
  intros o p n ds s. apply (@reached_inv (fun s => frozen ds (dvs s)) o p n ds).
  - intros s0 H. apply fresh_start in H. destruct H as (_ & _ & -> & _).
    induction ds as [ | d r IH]; constructor; auto.
  - intros s1 s' e _ H He. destruct He; subst s'; cbn [dvs].
    + assumption.
    + apply frozen_revert. eapply frozen_apply; eassumption.
    + eapply frozen_apply; eassumption.
Qed.

End Proofs.
