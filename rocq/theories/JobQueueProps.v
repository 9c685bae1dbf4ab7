(** Properties of the job queue (C10, C11). *)
From Coq Require Import ZArith List Lia Bool Permutation.
From Verif Require Import Base JobQueueModel JobQueueSpec JobQueueProofs.
Import ListNotations.
Open Scope nat_scope.

(** * C10 *)

(** For every schedule: the jobs started so far, in the order they were started,
    followed by the jobs still queued are exactly the jobs scheduled, in order. *)
Theorem C10_started_once_in_order : forall nclients sched s t,
  run (init nclients) sched = Some (s, t) -> started t ++ q s = scheduled t.
Proof. intros n l s t H. exact (Ififo _ _ (reachable_Inv _ _ _ _ H)). Qed.
Print Assumptions C10_started_once_in_order.

(** Every started job has finished or is being run by a worker, once. *)
Theorem C10_started_finish_once : forall nclients sched s t,
  run (init nclients) sched = Some (s, t) -> Permutation (started t) (finished t ++ running (workers s)).
Proof. intros n l s t H. exact (Irun _ _ (reachable_Inv _ _ _ _ H)). Qed.
Print Assumptions C10_started_finish_once.

(** empty() answers true exactly when every scheduled job has been started. *)
Theorem C10_empty_means_all_started : forall nclients sched s t a s' c b,
  run (init nclients) sched = Some (s, t) -> step s a = Some (s', [EmptyReturned c b]) ->
  (b = true <-> started t = scheduled t).
Proof.
  intros n l s t a s' c b H Hs. rewrite <- (Ififo _ _ (reachable_Inv _ _ _ _ H)).
  destruct a as [d o|d|w|w|d]; step_cases Hs; subst b; [rewrite app_nil_r; split; reflexivity|].
  split; [discriminate|]. intros E. rewrite <- (app_nil_r (started t)) in E at 1. apply app_inv_head in E. discriminate.
Qed.
Print Assumptions C10_empty_means_all_started.

Example C10_ex : exists s, run (init 2)
  [ACall 0 (OpStart 2); ACall 0 (OpSchedule 7); AWorker 0; AWorker 0; AWorker 0; AClient 0; ACall 1 (OpSchedule 8); AClient 1;
   AWorker 0; AWorker 0; AWorker 1; AWorker 1; AWorker 1; AWorker 0] =
    Some (s, [Scheduled 7; Scheduled 8; Started 0 7; Started 1 8; Finished 1 8; Finished 0 7]).
Proof. eexists. vm_compute. reflexivity. Qed.

(** * C11 *)

(** When waitForEmptyQueue returns, every job scheduled before has finished. *)
Theorem C11_wait_returns_when_all_done : forall nclients sched s t a s' c,
  run (init nclients) sched = Some (s, t) -> step s a = Some (s', [WaitReturned c]) ->
  Permutation (finished t) (scheduled t).
Proof.
  intros n l s t a s' c H Hs. pose proof (reachable_Inv _ _ _ _ H) as I.
  rewrite <- (Ififo _ _ I), (Irun _ _ I).
  destruct a as [d o|d|w|w|d]; step_cases Hs.
  rewrite (idle_running (workers s)) by (rewrite <- (Iactive _ _ I); exact Ez). now rewrite !app_nil_r.
Qed.
Print Assumptions C11_wait_returns_when_all_done.

(** The threads inside the queue cannot run forever by themselves (spurious wake-ups aside). *)
Theorem C11_threads_come_to_rest : forall s, exists bound, forall l s' t,
  forallb internal l = true -> run s l = Some (s', t) -> (length l <= bound)%nat.
Proof. exact internal_bounded. Qed.
Print Assumptions C11_threads_come_to_rest.

(** With at least one worker and nobody stopping the queue: when all threads have come
    to rest, all jobs have finished and all calls, including waitForEmptyQueue, have
    returned.  (No wake-up is lost.) *)
Theorem C11_unstopped_queue_finishes : forall nclients sched s t l s' t',
  run (init nclients) sched = Some (s, t) ->
  workers s <> [] -> kill s = false -> Forall (fun p => stopping p = false) (clients s) ->
  forallb internal l = true -> run s l = Some (s', t') -> quiescent s' ->
  q s' = [] /\ Forall (fun p => p = CIdle) (clients s') /\ Permutation (finished (t ++ t')) (scheduled (t ++ t')).
Proof.
  intros n sched s t l s' t' H Hw Hk Hc Hi R Hq. apply cnt_zero in Hc.
  apply unstopped_quiescent; [eapply Inv_run; [exact (reachable_Inv _ _ _ _ H)|exact R]| |exact Hq].
  eapply unstopped_run; [exact Hi|exact R|]. split; auto.
Qed.
Print Assumptions C11_unstopped_queue_finishes.

Example C11_ex : exists s t s' t', run (init 2)
  [ACall 0 (OpStart 1); AWorker 0; AWorker 0; AWorker 0; ACall 0 (OpSchedule 5); ACall 1 OpWait; AClient 0; AClient 1] = Some (s, t) /\
  nth_error (clients s) 1 = Some CWaiting /\
  run s [AWorker 0; AWorker 0; AWorker 0; AWorker 0; AWorker 0; AWorker 0; AClient 1] = Some (s', t') /\
  t' = [Started 0 5; Finished 0 5; WaitReturned 1]%nat.
Proof. do 4 eexists. conj; vm_compute; reflexivity. Qed.

(** The destructor always returns: no schedule comes to rest inside it. *)
Theorem C11_destructor_returns : forall nclients sched s t,
  run (init nclients) sched = Some (s, t) -> quiescent s ->
  Forall (fun p => p <> CDestroy /\ p <> CDestroying /\ p <> CDestroy2) (clients s).
Proof. intros n l s t H Hq. eapply quiescent_no_destructor; [exact (reachable_Inv _ _ _ _ H)|exact Hq]. Qed.
Print Assumptions C11_destructor_returns.

(** When it returns, no worker is left running except workers that had not begun. *)
Theorem C11_destructor_waits_for_begun_workers : forall nclients sched s t a s' c,
  run (init nclients) sched = Some (s, t) -> step s a = Some (s', [Destroyed c]) ->
  Forall (fun p => p = WExit \/ p = WEnter) (workers s').
Proof.
  intros n l s t a s' c H Hs. pose proof (reachable_Inv _ _ _ _ H) as I.
  pose proof (Inv_step _ _ _ _ _ I Hs) as I'.
  assert (Hp : pool s' = 0%Z) by (destruct a as [d o|d|w|w|d]; step_cases Hs; assumption).
  rewrite (Ipool _ _ I') in Hp. apply cnt_zero in Hp. eapply Forall_impl; [|exact Hp].
  intros []; cbn; auto; discriminate.
Qed.
Print Assumptions C11_destructor_waits_for_begun_workers.

(** But the destructor may return while a worker has not begun: that worker then locks
    a destroyed mutex. *)
Theorem C11_destroyed_before_worker_begins_refuted : exists sched s t,
  run (init 1) sched = Some (s, t) /\ In (Destroyed 0) t /\ In WEnter (workers s).
Proof.
  exists [ACall 0 (OpStart 1); ACall 0 OpDestroy; AClient 0]. do 2 eexists.
  split; [vm_compute; reflexivity|]. cbn. auto.
Qed.
Print Assumptions C11_destroyed_before_worker_begins_refuted.

(** join() returns if, when it raises the flag, no worker stands between finding the
    queue empty and starting to wait - whatever the other threads do. *)
Theorem C11_join_returns : forall nclients sched s t c s1 t1 l s' t',
  run (init nclients) sched = Some (s, t) -> nth_error (clients s) c = Some CJoin1 ->
  ~ In WDecided (workers s) -> step s (AClient c) = Some (s1, t1) ->
  forallb (fun a => negb (match a with ACall d _ => Nat.eqb c d | _ => false end)) l = true ->
  run s1 l = Some (s', t') -> quiescent s' -> nth_error (clients s') c = Some CIdle.
Proof.
  intros n sched s t c s1 t1 l s' t' H Hj Hd E Hl R Hq.
  pose proof (Inv_step _ _ _ _ _ (reachable_Inv _ _ _ _ H) E) as I1.
  eapply (joinok_quiescent c); [eapply Inv_run; [exact I1|exact R]| |exact Hq].
  eapply (joinok_run c l); [exact I1|exact Hl|exact R|].
  cbn [step] in E. unfold client_step in E. rewrite Hj in E. injection E as <- <-.
  split; [reflexivity|]. cbn [set_c set_kill with_c workers clients]. split.
  - apply cnt_zero. apply Forall_forall. intros p Hp. destruct p; try reflexivity. contradiction.
  - left. rewrite nth_set, Nat.eqb_refl, Hj. reflexivity.
Qed.
Print Assumptions C11_join_returns.

Example C11_ex2 : exists s t s' t', run (init 1)
  [ACall 0 (OpStart 2); AWorker 0; AWorker 0; AWorker 0; ACall 0 OpJoin] = Some (s, t) /\
  nth_error (clients s) 0 = Some CJoin1 /\ workers s = [WWait; WEnter] /\
  run s [AClient 0; AClient 0; AWorker 0; AWorker 0; AWorker 1; AWorker 1; AClient 0] = Some (s', t') /\
  t' = [JoinReturned 0]%nat.
Proof. do 4 eexists. conj; vm_compute; reflexivity. Qed.

(** Otherwise the wake-up is lost: join() and the worker wait for each other. *)
Theorem C11_join_deadlock_refuted : exists sched s t,
  run (init 1) sched = Some (s, t) /\ clients s = [CJoin3] /\ workers s = [WWait] /\ quiescent s.
Proof.
  exists [ACall 0 (OpStart 1); AWorker 0; AWorker 0; ACall 0 OpJoin; AClient 0; AClient 0; AWorker 0]. do 2 eexists.
  split; [vm_compute; reflexivity|]. split; [reflexivity|]. split; [reflexivity|].
  intros a Ha. destruct a as [d o|[|d]|[|w]|w|d]; try discriminate Ha; try reflexivity; [destruct d|destruct w]; reflexivity.
Qed.
Print Assumptions C11_join_deadlock_refuted.

(** waitForEmptyQueue() never returns when the queue is stopped with jobs left, and
    start() after join() does not resume work. *)
Theorem C11_wait_after_stop_refuted : exists sched s t,
  run (init 2) sched = Some (s, t) /\ In CWaiting (clients s) /\ workers s = [WExit] /\ quiescent s.
Proof.
  exists [ACall 0 (OpStart 1); ACall 0 (OpSchedule 1); AClient 0; ACall 0 OpStop; AClient 0; AWorker 0; AWorker 0; ACall 0 OpJoin;
          AClient 0; AClient 0; AClient 0; ACall 0 (OpStart 4); ACall 1 OpWait; AClient 1]. do 2 eexists.
  split; [vm_compute; reflexivity|]. split; [cbn; auto|]. split; [reflexivity|].
  intros a Ha. destruct a as [d o|[|[|d]]|[|w]|w|d]; try discriminate Ha; try reflexivity; [destruct d|destruct w]; reflexivity.
Qed.
Print Assumptions C11_wait_after_stop_refuted.
