(** * C115: the mutex of the incremental calibration *)
From Coq Require Import ZArith List Bool Arith Lia.
From Verif Require Import Base MxModel MxSpec MxProofs.
Import ListNotations.
Local Open Scope nat_scope.

(** In every schedule in which no thread calls tryLock, at most one thread holds the mutex,
    and a mutex that is not recursive is held once. *)
Theorem C115_mutual_exclusion recursive es s l : Forall patient es -> schedule recursive fresh es = Some (s, l) ->
  (forall t u, (0 < holds t l -> 0 < holds u l -> t = u)%Z) /\
  (forall t, (0 <= holds t l)%Z /\ (recursive = false -> (holds t l <= 1)%Z)).
Proof.
  intros P E. assert (H : forall t, holds t l = hold s t).
  { intros t. rewrite (schedule_hold _ _ t _ _ _ P fresh_good E). unfold hold. cbn [fresh owns owner]. lia. }
  split.
  - intros t u. rewrite !H. unfold hold, owns. destruct (owner s) as [v|]; [|lia].
    destruct (Nat.eqb_spec v t); destruct (Nat.eqb_spec v u); lia.
  - intros t. rewrite H. split; [unfold hold; destruct (owns s t); lia|]. intros ->.
    assert (B : locks s <= 1) by (eapply schedule_once; [exact P | exact fresh_good | | exact E]; cbn; lia).
    unfold hold. destruct (owns s t); lia.
Qed.
Print Assumptions C115_mutual_exclusion.
Example C115_ex : schedule false fresh [Lock 1 Eternal; Lock 2 Timed; Lock 3 Eternal; Unlock 1 1; Lock 4 Timed; Run 0 0; Timeout 0; Unlock 4 0; Run 0 0] =
    Some (Mutex 1 (Some 3) [] [] [] false, [(1, Locked); (1, Unlocked); (4, Locked); (2, Refused); (4, Unlocked); (3, Locked)]).
Proof. reflexivity. Qed.

(** unlock succeeds exactly for the thread that holds the mutex; a refused one, and a second
    lock of a mutex that is not recursive, change nothing. *)
Theorem C115_unlock recursive es s l t pick s' a : Forall patient es -> schedule recursive fresh es = Some (s, l) ->
  step recursive s (Unlock t pick) = Some (s', a) ->
  (0 < holds t l)%Z /\ a = Some (t, Unlocked) \/ (holds t l = 0)%Z /\ a = Some (t, Threw) /\ s' = s.
Proof.
  intros P E. assert (H : holds t l = hold s t).
  { rewrite (schedule_hold _ _ t _ _ _ P fresh_good E). unfold hold. cbn [fresh owns owner]. lia. }
  destruct (schedule_keeps _ _ _ _ _ fresh_good fresh_served E) as [G _].
  rewrite H. unfold step. destruct (jammed s); [discriminate|]. destruct (busy s t); [discriminate|].
  destruct (safe_unlock t pick s) as [s1|] eqn:U; intros [= <- <-].
  - left. apply unlock_keeps in U; [|exact G]. destruct U as [_ [_ [N [_ [O _]]]]]. unfold hold. rewrite O. split; [lia | reflexivity].
  - right. split; [|split; reflexivity]. unfold safe_unlock in U. destruct (Nat.eqb_spec (locks s) 0) as [L|L].
    + unfold hold. rewrite L. now destruct (owns s t).
    + unfold hold. destruct (owns s t); [discriminate U | reflexivity].
Qed.
Print Assumptions C115_unlock.
Theorem C115_relock es s l t p s' a : Forall patient es -> schedule false fresh es = Some (s, l) -> (0 < holds t l)%Z ->
  step false s (Lock t p) = Some (s', a) -> a = Some (t, Threw) /\ s' = s.
Proof.
  intros P E. assert (H : holds t l = hold s t).
  { rewrite (schedule_hold _ _ t _ _ _ P fresh_good E). unfold hold. cbn [fresh owns owner]. lia. }
  rewrite H. intros K. assert (O : owns s t = true) by (unfold hold in K; destruct (owns s t); [reflexivity | lia]).
  unfold step. destruct (jammed s); [discriminate|]. destruct (busy s t); [discriminate|]. unfold safe_lock. rewrite O.
  intros [= <- <-]. now split.
Qed.
Print Assumptions C115_relock.
Example C115_relock_ex : exists s, schedule true fresh [Lock 1 Eternal; Lock 1 Eternal; Unlock 1 0] = Some (s, [(1, Locked); (1, Locked); (1, Unlocked)]) /\
  step true s (Unlock 2 0) = Some (s, Some (2, Threw)) /\
  schedule false fresh [Lock 1 Eternal; Lock 1 Eternal] = Some (s, [(1, Locked); (1, Threw)]).
Proof. eexists. split; [reflexivity|]. split; reflexivity. Qed.

(** No lost wake-up: in every schedule, if the mutex is free while a thread waits to lock it,
    some thread has been woken and will look at the mutex again. *)
Theorem C115_no_lost_wakeup recursive es s l : schedule recursive fresh es = Some (s, l) ->
  locks s = 0 -> Exists wants_lock (waiting s) -> woken s <> [].
Proof. intros E. exact (proj2 (schedule_keeps _ _ _ _ _ fresh_good fresh_served E)). Qed.
Print Assumptions C115_no_lost_wakeup.
Example C115_wakeup_ex : schedule false fresh [Lock 1 Eternal; WaitUnlock 2 Eternal 0; Lock 3 Eternal; Unlock 1 0] =
    Some (Mutex 0 None [Waiter 3 Acquire Eternal] [Waiter 2 Watch Eternal] [] false, [(1, Locked); (1, Unlocked)]).
Proof. reflexivity. Qed.

(** tryLock on a mutex that another thread holds succeeds, and the holder cannot unlock it
    any more. *)
Theorem C115_trylock_refuted recursive s t u pick : jammed s = false -> owner s = Some u -> u <> t -> busy s t = false -> busy s u = false ->
  exists s', step recursive s (Lock t Zero) = Some (s', Some (t, Locked)) /\ step recursive s' (Unlock u pick) = Some (s', Some (u, Threw)).
Proof.
  intros J O N B C. assert (Ot : owns s t = false) by (unfold owns; rewrite O; now apply Nat.eqb_neq).
  exists (own t (S (locks s)) s). split.
  - unfold step. rewrite J, B. unfold safe_lock. rewrite Ot. now destruct (locks s =? 0).
  - assert (E : owns (own t (S (locks s)) s) u = false) by (unfold owns, own; cbn [owner]; apply Nat.eqb_neq; congruence).
    unfold step. change (jammed (own t (S (locks s)) s)) with (jammed s). change (busy (own t (S (locks s)) s) u) with (busy s u).
    rewrite J, C. unfold safe_unlock. rewrite E. reflexivity.
Qed.
Print Assumptions C115_trylock_refuted.
Example C115_trylock_ex : exists s, schedule false fresh [Lock 1 Eternal; Lock 2 Zero] = Some (s, [(1, Locked); (2, Locked)]) /\
  holds 1 [(1, Locked); (2, Locked)] = 1%Z /\ holds 2 [(1, Locked); (2, Locked)] = 1%Z.
Proof. eexists. split; [reflexivity|]. split; reflexivity. Qed.

(** waitUnlock on a mutex nobody holds waits for ever unless another thread locks and
    unlocks it (or the wait ends spuriously); without patience it reports a held mutex as
    unlocked. *)
Theorem C115_wait_unlock_refuted recursive t es s l pick : Forall internal es ->
  schedule recursive fresh (WaitUnlock t Eternal pick :: es) = Some (s, l) -> l = [].
Proof.
  intros I. cbn [schedule]. unfold step. cbn [jammed fresh busy waiting woken parked existsb orb fst snd].
  destruct (schedule _ _ es) as [[s1 l1]|] eqn:F; [|discriminate]. intros [= _ <-].
  eapply watch_stays; [exact I| | | | | |exact F]; reflexivity.
Qed.
Print Assumptions C115_wait_unlock_refuted.
Example C115_wait_unlock_ex : exists s, schedule false fresh [WaitUnlock 2 Eternal 0; Signal 0] = Some (s, []) /\
  exists q, schedule false fresh [Lock 1 Eternal; WaitUnlock 2 Zero 0] = Some (q, [(1, Locked); (2, Seen)]).
Proof. eexists. split; [reflexivity|]. eexists. reflexivity. Qed.

(** Waiting on a condition with a mutex the thread does not hold throws and blocks every
    later call on the mutex. *)
Theorem C115_jam_refuted recursive es s l t pick s' a : Forall patient es -> schedule recursive fresh es = Some (s, l) -> (holds t l = 0)%Z ->
  step recursive s (Wait t pick) = Some (s', a) -> a = Some (t, Threw) /\ forall e, step recursive s' e = None.
Proof.
  intros P E. assert (H : holds t l = hold s t).
  { rewrite (schedule_hold _ _ t _ _ _ P fresh_good E). unfold hold. cbn [fresh owns owner]. lia. }
  destruct (schedule_keeps _ _ _ _ _ fresh_good fresh_served E) as [G _].
  rewrite H. intros K. unfold step at 1. destruct (jammed s); [discriminate|]. destruct (busy s t); [discriminate|].
  destruct (safe_unlock t pick s) as [s1|] eqn:U; intros [= <- <-].
  - apply unlock_keeps in U; [|exact G]. destruct U as [_ [_ [N [_ [O _]]]]]. unfold hold in K. rewrite O in K. lia.
  - split; [reflexivity|]. intros e. reflexivity.
Qed.
Print Assumptions C115_jam_refuted.
Example C115_jam_ex : exists s, schedule false fresh [Lock 1 Eternal; Wait 2 0] = Some (s, [(1, Locked); (2, Threw)]) /\ step false s (Unlock 1 0) = None.
Proof. eexists. split; reflexivity. Qed.
