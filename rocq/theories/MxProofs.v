(** * Lemmas on the mutex *)
From Coq Require Import ZArith List Bool Arith Lia.
From Verif Require Import Base MxModel MxSpec.
Import ListNotations.
Local Open Scope nat_scope.

Definition hold (s : mutex) (t : tid) : Z := if owns s t then Z.of_nat (locks s) else 0%Z.
Definition good (s : mutex) : Prop := locks s = O <-> owner s = None.
Definition served (s : mutex) : Prop := locks s = O -> Exists wants_lock (waiting s) -> woken s <> [].
Definition said (t : tid) (a : option (tid * answer)) : Z :=
  match a with Some (u, a) => if Nat.eqb u t then gain a else 0%Z | None => 0%Z end.

Lemma extract_more {A} i (x y : A) l :
  extract (S i) (x :: y :: l) = match extract i (y :: l) with Some (z, r) => Some (z, x :: r) | None => None end.
Proof. reflexivity. Qed.
Lemma extract_none {A} (l : list A) : forall i, extract i l = None -> l = [].
Proof.
  induction l as [|x l IH]; intros i; [reflexivity|]. destruct l as [|y l]; [intros H; discriminate H|].
  destruct i; [intros H; discriminate H|]. rewrite extract_more.
  destruct (extract i (y :: l)) as [[z r]|] eqn:E; [intros H; discriminate H|]. intros _.
  apply IH in E. discriminate E.
Qed.
Lemma extract_in {A} (l : list A) : forall i x r, extract i l = Some (x, r) -> forall y, In y r -> In y l.
Proof.
  induction l as [|a l IH]; intros i x r; [intros H; discriminate H|]. destruct l as [|b l].
  - intros [= <- <-] y H. destruct H.
  - destruct i.
    + intros [= <- <-] y H. now right.
    + rewrite extract_more. destruct (extract i (b :: l)) as [[z q]|] eqn:E; [|intros H; discriminate H].
      intros [= <- <-] y [<-|H]; [now left|]. right. eapply IH; eauto.
Qed.
Lemma signal_locks k s : locks (signal k s) = locks s.
Proof. unfold signal. destruct (extract k (waiting s)) as [[w r]|]; reflexivity. Qed.
Lemma signal_owner k s : owner (signal k s) = owner s.
Proof. unfold signal. destruct (extract k (waiting s)) as [[w r]|]; reflexivity. Qed.
Lemma signal_jammed k s : jammed (signal k s) = jammed s.
Proof. unfold signal. destruct (extract k (waiting s)) as [[w r]|]; reflexivity. Qed.
Lemma signal_served k s : served (signal k s).
Proof.
  unfold signal, served. destruct (extract k (waiting s)) as [[w r]|] eqn:E; cbn [locks waiting woken].
  - discriminate.
  - intros _ H. apply extract_none in E. rewrite E in H. inversion H.
Qed.
Lemma signal_good k s : good s -> good (signal k s).
Proof. unfold good. now rewrite signal_locks, signal_owner. Qed.
Lemma signal_hold k s t : hold (signal k s) t = hold s t.
Proof. unfold hold, owns. now rewrite signal_locks, signal_owner. Qed.
Lemma owns_self t n s : owns (own t n s) t = true.
Proof. unfold owns, own. cbn [owner]. apply Nat.eqb_refl. Qed.

Lemma unlock_keeps t k s s' : good s -> safe_unlock t k s = Some s' ->
  good s' /\ (served s' \/ locks s' <> O) /\ S (locks s') = locks s /\ jammed s' = jammed s /\ owns s t = true /\
  forall u, hold s' u = (hold s u + (if Nat.eqb t u then -1 else 0))%Z.
Proof.
  intros G. unfold safe_unlock. destruct (locks s =? 0) eqn:L; [discriminate|]. apply Nat.eqb_neq in L.
  destruct (owns s t) eqn:O; cbn [negb]; [|discriminate].
  assert (W : owner s = Some t).
  { unfold owns in O. destruct (owner s) as [v|]; [|discriminate]. apply Nat.eqb_eq in O. now subst. }
  destruct (locks s - 1 =? 0) eqn:N; intros [= <-].
  - apply Nat.eqb_eq in N. assert (E : locks s = 1) by lia.
    split; [apply signal_good; unfold good; cbn [locks owner]; split; [reflexivity | intros _; lia]|].
    split; [left; apply signal_served|]. rewrite signal_locks, signal_jammed. cbn [locks jammed].
    split; [lia|]. split; [reflexivity|]. split; [reflexivity|].
    intros u. rewrite signal_hold. unfold hold, owns. cbn [owner]. rewrite W, E. destruct (Nat.eqb t u); reflexivity.
  - apply Nat.eqb_neq in N. split; [unfold good, own; cbn [locks owner]; split; [intros H; lia | discriminate]|].
    split; [right; unfold own; cbn [locks]; lia|]. split; [unfold own; cbn [locks]; lia|]. split; [reflexivity|]. split; [reflexivity|].
    intros u. unfold hold, owns, own. cbn [owner locks]. rewrite W. destruct (Nat.eqb t u); lia.
Qed.

Lemma step_good r s e s' a : good s -> step r s e = Some (s', a) -> good s'.
Proof.
  intros G. unfold step. destruct (jammed s); [discriminate|]. destruct e as [t p|t k|t p k|t k|k|i k|i|i].
  - destruct (busy s t); [discriminate|]. unfold safe_lock.
    destruct (owns s t); [destruct r|destruct (locks s =? 0); [|destruct p]]; intros [= <- <-]; try exact G;
      unfold good, own; cbn [locks owner]; split; discriminate.
  - destruct (busy s t); [discriminate|]. destruct (safe_unlock t k s) as [s1|] eqn:U; intros [= <- <-]; [|exact G].
    now apply unlock_keeps in U.
  - destruct (busy s t); [discriminate|]. destruct p; intros [= <- <-]; [apply signal_good; exact G | exact G | exact G].
  - destruct (busy s t); [discriminate|]. destruct (safe_unlock t k s) as [s1|] eqn:U; intros [= <- <-]; [|exact G].
    apply unlock_keeps in U; [|exact G]. exact (proj1 U).
  - destruct (extract k (parked s)) as [[t q]|]; intros [= <- <-]; exact G.
  - destruct (extract i (woken s)) as [[w q]|]; [|discriminate]. cbn [locks].
    destruct (locks s =? 0); cbn [negb]; [destruct (aim w)|]; intros [= <- <-].
    + unfold good, own. cbn [locks owner]. split; discriminate.
    + apply signal_good. exact G.
    + exact G.
  - destruct (extract i (waiting s)) as [[w q]|]; [|discriminate]. destruct (how w); try discriminate. intros [= <- <-]. exact G.
  - destruct (extract i (waiting s)) as [[w q]|]; [|discriminate]. intros [= <- <-]. exact G.
Qed.

Lemma step_served r s e s' a : good s -> served s -> step r s e = Some (s', a) -> served s'.
Proof.
  intros G V. unfold step. destruct (jammed s); [discriminate|]. destruct e as [t p|t k|t p k|t k|k|i k|i|i].
  - destruct (busy s t); [discriminate|]. unfold safe_lock.
    destruct (owns s t); [destruct r|destruct (locks s =? 0) eqn:L; [|destruct p]]; intros [= <- <-]; try exact V;
      unfold served, own, enqueue; cbn [locks]; intros H; try discriminate; apply Nat.eqb_neq in L; contradiction.
  - destruct (busy s t); [discriminate|]. destruct (safe_unlock t k s) as [s1|] eqn:U; intros [= <- <-]; [|exact V].
    apply unlock_keeps in U; [|exact G]. destruct U as [_ [[U|U] _]]; [exact U | intros H; contradiction].
  - destruct (busy s t); [discriminate|].
    assert (Q : served (enqueue (Waiter t Watch p) s)).
    { unfold served, enqueue. cbn [locks waiting woken]. intros H X. apply V; [exact H|].
      apply Exists_app in X. destruct X as [X|X]; [exact X|]. inversion X as [w l Y|w l Y]; [discriminate Y | inversion Y]. }
    destruct p; intros [= <- <-]; [apply signal_served | exact Q | exact Q].
  - destruct (busy s t); [discriminate|]. destruct (safe_unlock t k s) as [s1|] eqn:U; intros [= <- <-]; [|exact V].
    apply unlock_keeps in U; [|exact G]. destruct U as [_ [[U|U] _]]; [exact U | intros H; contradiction].
  - destruct (extract k (parked s)) as [[t q]|]; intros [= <- <-]; [|exact V]. unfold served. cbn [woken]. discriminate.
  - destruct (extract i (woken s)) as [[w q]|]; [|discriminate]. cbn [locks].
    destruct (locks s =? 0) eqn:L; cbn [negb]; [destruct (aim w)|]; intros [= <- <-].
    + unfold served, own. cbn [locks]. discriminate.
    + apply signal_served.
    + apply Nat.eqb_neq in L. intros H. contradiction.
  - destruct (extract i (waiting s)) as [[w q]|] eqn:E; [|discriminate]. destruct (how w); try discriminate. intros [= <- <-].
    unfold served. cbn [locks waiting woken]. intros H X. apply V; [exact H|]. apply Exists_exists in X. destruct X as [y [I Y]].
    apply Exists_exists. exists y. split; [eapply extract_in; eauto | exact Y].
  - destruct (extract i (waiting s)) as [[w q]|]; [|discriminate]. intros [= <- <-]. unfold served. cbn [woken]. discriminate.
Qed.

Lemma hold_own t n s u : hold (own t n s) u = if Nat.eqb t u then Z.of_nat n else 0%Z.
Proof. reflexivity. Qed.
Lemma hold_owner s t u : owns s t = true -> hold s u = if Nat.eqb t u then Z.of_nat (locks s) else 0%Z.
Proof.
  intros O. unfold hold. unfold owns in O |- *. destruct (owner s) as [v|]; [|discriminate]. apply Nat.eqb_eq in O. now subst.
Qed.
Lemma hold_free s u : good s -> locks s = O -> hold s u = 0%Z.
Proof. intros G L. unfold hold. rewrite L. now destruct (owns s u). Qed.

Lemma step_hold r s e s' a t : patient e -> good s -> step r s e = Some (s', a) -> hold s' t = (hold s t + said t a)%Z.
Proof.
  intros P G. unfold step. destruct (jammed s); [discriminate|]. destruct e as [u p|u k|u p k|u k|k|i k|i|i].
  - destruct (busy s u); [discriminate|]. unfold safe_lock. destruct (owns s u) eqn:O.
    + destruct r; intros [= <- <-].
      * rewrite hold_own, (hold_owner s u t O). cbn [said gain]. destruct (Nat.eqb u t); lia.
      * cbn [said gain fst]. destruct (Nat.eqb u t); lia.
    + destruct (locks s =? 0) eqn:L.
      * intros [= <- <-]. apply Nat.eqb_eq in L. rewrite hold_own, (hold_free s t G L), L. cbn [said gain]. destruct (Nat.eqb u t); lia.
      * destruct p; [destruct P| |]; intros [= <- <-]; unfold said; change (hold (fst (enqueue (Waiter u Acquire Timed) s, @None answer)) t) with (hold s t); try (change (hold (enqueue (Waiter u Acquire Timed) s) t) with (hold s t)); try (change (hold (enqueue (Waiter u Acquire Eternal) s) t) with (hold s t)); lia.
  - destruct (busy s u); [discriminate|]. destruct (safe_unlock u k s) as [s1|] eqn:U; intros [= <- <-].
    + apply unlock_keeps in U; [|exact G]. destruct U as [_ [_ [_ [_ [_ U]]]]]. rewrite U. reflexivity.
    + cbn [said gain fst]. destruct (Nat.eqb u t); lia.
  - destruct (busy s u); [discriminate|]. destruct p; intros [= <- <-].
    + rewrite signal_hold. cbn [said gain]. destruct (Nat.eqb u t); lia.
    + change (hold (enqueue (Waiter u Watch Timed) s) t) with (hold s t). cbn [said]. lia.
    + change (hold (enqueue (Waiter u Watch Eternal) s) t) with (hold s t). cbn [said]. lia.
  - destruct (busy s u); [discriminate|]. destruct (safe_unlock u k s) as [s1|] eqn:U; intros [= <- <-].
    + apply unlock_keeps in U; [|exact G]. destruct U as [_ [_ [_ [_ [_ U]]]]]. specialize (U t). unfold hold, owns in *. cbn [owner locks].
      rewrite U. reflexivity.
    + unfold hold, owns. cbn [said gain fst owner locks]. destruct (Nat.eqb u t); lia.
  - destruct (extract k (parked s)) as [[u q]|]; intros [= <- <-]; unfold hold, owns; cbn [said owner locks]; lia.
  - destruct (extract i (woken s)) as [[w q]|]; [|discriminate]. cbn [locks].
    destruct (locks s =? 0) eqn:L; cbn [negb]; [destruct (aim w)|]; intros [= <- <-].
    + apply Nat.eqb_eq in L. rewrite hold_own, (hold_free s t G L), L. cbn [said gain]. destruct (Nat.eqb (who w) t); lia.
    + rewrite signal_hold. unfold hold, owns. cbn [said gain owner locks]. destruct (Nat.eqb (who w) t); lia.
    + unfold hold, owns, enqueue. cbn [said owner locks]. lia.
  - destruct (extract i (waiting s)) as [[w q]|]; [|discriminate]. destruct (how w); try discriminate. intros [= <- <-].
    unfold hold, owns. cbn [said gain owner locks]. destruct (Nat.eqb (who w) t); lia.
  - destruct (extract i (waiting s)) as [[w q]|]; [|discriminate]. intros [= <- <-]. unfold hold, owns. cbn [said owner locks]. lia.
Qed.

Lemma step_once s e s' a : patient e -> good s -> (locks s <= 1)%nat -> step false s e = Some (s', a) -> (locks s' <= 1)%nat.
Proof.
  intros P G B. unfold step. destruct (jammed s); [discriminate|]. destruct e as [u p|u k|u p k|u k|k|i k|i|i].
  - destruct (busy s u); [discriminate|]. unfold safe_lock. destruct (owns s u) eqn:O; [intros [= <- <-]; exact B|].
    destruct (locks s =? 0) eqn:L; [intros [= <- <-]; apply Nat.eqb_eq in L; unfold own; cbn [locks]; lia|].
    destruct p; [destruct P| |]; intros [= <- <-]; exact B.
  - destruct (busy s u); [discriminate|]. destruct (safe_unlock u k s) as [s1|] eqn:U; intros [= <- <-]; [|exact B].
    apply unlock_keeps in U; [|exact G]. destruct U as [_ [_ [U _]]]. lia.
  - destruct (busy s u); [discriminate|]. destruct p; intros [= <- <-]; [rewrite signal_locks; exact B | exact B | exact B].
  - destruct (busy s u); [discriminate|]. destruct (safe_unlock u k s) as [s1|] eqn:U; intros [= <- <-]; [|exact B].
    apply unlock_keeps in U; [|exact G]. destruct U as [_ [_ [U _]]]. cbn [locks]. lia.
  - destruct (extract k (parked s)) as [[u q]|]; intros [= <- <-]; exact B.
  - destruct (extract i (woken s)) as [[w q]|]; [|discriminate]. cbn [locks].
    destruct (locks s =? 0) eqn:L; cbn [negb]; [destruct (aim w)|]; intros [= <- <-].
    + apply Nat.eqb_eq in L. unfold own. cbn [locks]. lia.
    + rewrite signal_locks. exact B.
    + exact B.
  - destruct (extract i (waiting s)) as [[w q]|]; [|discriminate]. destruct (how w); try discriminate. intros [= <- <-]. exact B.
  - destruct (extract i (waiting s)) as [[w q]|]; [|discriminate]. intros [= <- <-]. exact B.
Qed.

Lemma holds_cons t a l : holds t (match a with Some a => a :: l | None => l end) = (said t a + holds t l)%Z.
Proof. destruct a as [[u a]|]; cbn [holds said]; lia. Qed.
Lemma schedule_keeps r es : forall s s' l, good s -> served s -> schedule r s es = Some (s', l) -> good s' /\ served s'.
Proof.
  induction es as [|e es IH]; intros s s' l G V; cbn [schedule]; [intros [= <- <-]; now split|].
  destruct (step r s e) as [[s1 a]|] eqn:E; [|discriminate]. destruct (schedule r s1 es) as [[s2 l2]|] eqn:F; [|discriminate].
  intros [= <- _]. eapply IH; [| |exact F]; [eapply step_good; eauto | eapply step_served; eauto].
Qed.
Lemma schedule_hold r es t : forall s s' l, Forall patient es -> good s -> schedule r s es = Some (s', l) ->
  hold s' t = (hold s t + holds t l)%Z.
Proof.
  induction es as [|e es IH]; intros s s' l P G; cbn [schedule]; [intros [= <- <-]; cbn [holds]; lia|].
  inversion P as [|e' es' P1 P2]; subst.
  destruct (step r s e) as [[s1 a]|] eqn:E; [|discriminate]. destruct (schedule r s1 es) as [[s2 l2]|] eqn:F; [|discriminate].
  intros [= <- <-]. rewrite holds_cons. rewrite (IH _ _ _ P2 (step_good _ _ _ _ _ G E) F), (step_hold _ _ _ _ _ t P1 G E). lia.
Qed.
Lemma schedule_once es : forall s s' l, Forall patient es -> good s -> (locks s <= 1)%nat -> schedule false s es = Some (s', l) -> (locks s' <= 1)%nat.
Proof.
  induction es as [|e es IH]; intros s s' l P G B; cbn [schedule]; [intros [= <- _]; exact B|].
  inversion P as [|e' es' P1 P2]; subst.
  destruct (step false s e) as [[s1 a]|] eqn:E; [|discriminate]. destruct (schedule false s1 es) as [[s2 l2]|] eqn:F; [|discriminate].
  intros [= <- _]. eapply IH; [exact P2| | |exact F]; [eapply step_good; eauto | eapply step_once; eauto].
Qed.
Lemma fresh_good : good fresh. Proof. split; reflexivity. Qed.
Lemma fresh_served : served fresh. Proof. intros _ H. inversion H. Qed.

(** A thread that watches a free mutex stays where it is. *)
Lemma watch_stays r t es : Forall internal es -> forall s s' l,
  locks s = O -> owner s = None -> waiting s = [Waiter t Watch Eternal] -> woken s = [] -> parked s = [] ->
  schedule r s es = Some (s', l) -> l = [].
Proof.
  induction 1 as [|e es I _ IH]; intros s s' l L O W K Q; cbn [schedule]; [intros [= _ <-]; reflexivity|].
  destruct (step r s e) as [[s1 a]|] eqn:E; [|discriminate]. destruct (schedule r s1 es) as [[s2 l2]|] eqn:F; [|discriminate].
  assert (X : s1 = s /\ a = None).
  { unfold step in E. destruct (jammed s); [discriminate|]. destruct e; try destruct I.
    - rewrite Q in E. cbn [extract] in E. injection E as <- <-. now split.
    - rewrite K in E. discriminate E.
    - rewrite W in E. cbn [extract how] in E. discriminate E. }
  destruct X as [-> ->]. intros [= _ <-]. eapply (IH s); eauto.
Qed.
