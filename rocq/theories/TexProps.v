(** * C125: corners extracted by several processes *)
From Coq Require Import List Arith Bool Lia.
From Verif Require Import TexModel TexSpec TexProofs.
Import ListNotations.

(** If no process is killed, whatever the order of their steps, the result is
    that of the extraction without processes. *)
Theorem C125_same : forall (img obs : Type) (det : img -> option obs) n images sched r,
  1 <= n -> kills sched = 0 -> result (run det sched (start n images)) = Some r -> r = sequential det images.
Proof.
  intros img obs det n images sched r N K H.
  destruct (result_lost det n images sched r) as [lost [L R]]; [rewrite K; exact N | exact H |].
  rewrite K in L. destruct lost as [|x lost]; [| simpl in L; lia]. rewrite R. apply found_none.
Qed.
Print Assumptions C125_same.

(** If some process is not killed, each one that is killed costs at most the
    image it was working on; the others are delivered in order. *)
Theorem C125_killed : forall (img obs : Type) (det : img -> option obs) n images sched r,
  kills sched < n -> result (run det sched (start n images)) = Some r ->
  exists lost, length lost <= kills sched /\ r = found_but det lost 0 images.
Proof. intros img obs det n images sched r. exact (result_lost det n images sched r). Qed.
Print Assumptions C125_killed.

(** The parent waits exactly as long as a process is alive, and the processes
    can only do a bounded number of steps: two for each image and one each. *)
Theorem C125_ends : forall (img obs : Type) (det : img -> option obs) n images sched,
  proper det (start n images) sched ->
  length sched <= 2 * length images + n /\
  (result (run det sched (start n images)) = None <-> exists w, alive (run det sched (start n images)) w).
Proof.
  intros img obs det n images sched P. split; [| apply waiting].
  rewrite <- (measure_start (obs := obs)). apply (measure_run det). exact P.
Qed.
Print Assumptions C125_ends.

(** Known violation: what a killed process was working on is missing from the
    result, which is delivered as if nothing had happened. *)
Theorem C125_killed_refuted : exists (det : nat -> option nat) n images sched r,
  1 <= n /\ kills sched = 1 /\ proper det (start n images) sched /\
  result (run det sched (start n images)) = Some r /\ length r < length (sequential det images).
Proof.
  exists (fun x => Some x), 2, [7; 8; 9], [Run 0; Run 1; Kill 0; Run 1; Run 1; Run 1; Run 1], [8; 9].
  split; [lia |]. split; [reflexivity |]. split.
  - simpl. split; [exists Idle; split; reflexivity |]. split; [exists Idle; split; reflexivity |].
    split; [exists (Busy (0, 7)); split; reflexivity |]. split; [exists (Busy (1, 8)); split; reflexivity |].
    split; [exists Idle; split; reflexivity |]. split; [exists (Busy (2, 9)); split; reflexivity |].
    split; [exists Idle; split; reflexivity | exact I].
  - split; [reflexivity | simpl; lia].
Qed.
Print Assumptions C125_killed_refuted.

(** The second process is done first; the second image shows no target. *)
Example C125_ex : let det := fun x => if x =? 8 then None else Some x in
  let sched := [Run 0; Run 1; Run 1; Run 1; Run 1; Run 0; Run 1; Run 0] in
  kills sched = 0 /\ resultq (run det sched (start 2 [7; 8; 9])) = [(2, 9); (0, 7)] /\
  result (run det sched (start 2 [7; 8; 9])) = Some [7; 9] /\ sequential det [7; 8; 9] = [7; 9] /\
  result (run det [Run 0; Run 1] (start 2 [7; 8; 9])) = None.
Proof. cbv zeta. split; [reflexivity |]. split; [reflexivity |]. split; [reflexivity |]. split; reflexivity. Qed.
