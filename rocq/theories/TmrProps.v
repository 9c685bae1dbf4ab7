(** * C105: named timers *)
From Flocq Require Import Core.
From Coq Require Import Reals ZArith List String Bool Arith Lra Lia.
From Verif Require Import TmrModel TmrSpec TmrProofs.
Import ListNotations.
Local Open Scope R_scope.
Local Open Scope string_scope.

(** Whatever is done with timers, every answer is the one of the book that keeps, for
    every name in order of first mention, the intervals measured under it: each start
    with the next stop of the same object, deleted objects stopped, nothing mixed up
    between names. *)
Theorem C105_refines : forall ops, snd (run init ops) = snd (spec_run empty ops).
Proof. intros ops. apply run_rel. exact rel_init. Qed.
Print Assumptions C105_refines.

(** Extremes are samples and bounds. *)
Theorem C105_extremes : forall l m, (s_min (summary l) = Some m -> In m l /\ forall x, In x l -> m <= x) /\ (s_max (summary l) = Some m -> In m l /\ forall x, In x l -> x <= m).
Proof. intros l m. split; intros E; [ apply least_spec | apply greatest_spec ]; exact E. Qed.
Print Assumptions C105_extremes.

(** A handle once given stands for its name for ever, and no other name gets it. *)
Theorem C105_handles : forall ops ops' tag tag' h, let w := fst (run init ops) in snd (step w (GetHandle tag)) = Handle h ->
  let w' := fst (run (fst (step w (GetHandle tag))) ops') in
  snd (step w' (GetHandle tag)) = Handle h /\ snd (step w' (GetTag h)) = Tag tag /\ (snd (step w' (GetHandle tag')) = Handle h -> tag = tag').
Proof.
  intros ops ops' tag tag' h w H w'. destruct (reached ops) as [b Rl]. fold w in Rl. exact (handle_kept w b tag tag' h ops' Rl H).
Qed.
Print Assumptions C105_handles.

(** Violation: a running timer may be copied, and the interval then counts twice. *)
Theorem C105_copy_refuted : exists ops, snd (run init ops) = [Done; Done; Done; Done; Statistics (summary [2; 1])] /\
  ops = [NewTag 0 "solve" false 0; Copy 1 0; Delete 1 1; Delete 0 2; QueryTag "solve"].
Proof.
  exists [NewTag 0 "solve" false 0; Copy 1 0; Delete 1 1; Delete 0 2; QueryTag "solve"]. split; [ | reflexivity ]. rewrite C105_refines.
  cbn. replace (2 - 0) with 2 by ring. replace (1 - 0) with 1 by ring. reflexivity.
Qed.
Print Assumptions C105_copy_refuted.

(** What is measured is the time that passed plus the change of the offset to universal
    time; violation: it can be negative. *)
Theorem C105_clock : forall offset o tag t0 t1, snd (run init [NewTag o tag false (local offset t0); Stop o (local offset t1); QueryTag tag]) =
  [Done; Done; Statistics (summary [(t1 - t0) + (offset t1 - offset t0)])].
Proof.
  intros offset o tag t0 t1. rewrite C105_refines. cbn [spec_run spec_step empty running mention known existsb order put app snd]. rewrite !Nat.eqb_refl.
  cbn [record put snd]. unfold mention, known. cbn [order existsb app put record samples]. rewrite !String.eqb_refl. cbn [order existsb app put record samples orb]. rewrite ?String.eqb_refl. unfold local.
  replace (t1 + offset t1 - (t0 + offset t0)) with (t1 - t0 + (offset t1 - offset t0)) by ring. reflexivity.
Qed.
Print Assumptions C105_clock.
Theorem C105_clock_refuted : exists offset t0 t1, t0 < t1 /\ exists s, snd (run init [NewTag 0 "solve" false (local offset t0); Stop 0 (local offset t1); QueryTag "solve"]) = [Done; Done; Statistics s] /\ s_total s < 0.
Proof.
  exists (fun t => if Rlt_dec t 1 then 7200 else 3600), 0, 2. split; [ lra | ]. eexists. split; [ apply C105_clock | ]. cbn [s_total summary]. unfold sum. cbn [fold_right].
  destruct (Rlt_dec 2 1) as [X | _]; [ lra | ]. destruct (Rlt_dec 0 1) as [_ | X]; lra.
Qed.
Print Assumptions C105_clock_refuted.

(** Printed times are right to half a millionth of a second, with less than sixty minutes;
    violation: the seconds can be printed as 60. *)
Theorem C105_string : forall s, 0 <= s -> let '(h, m, u) := time_string s in
  (0 <= h)%Z /\ (0 <= m < 60)%Z /\ (0 <= u <= 60000000)%Z /\ Rabs (seconds_of (time_string s) - s) <= 1 / 2000000.
Proof. intros s S. pose proof (time_string_val s S) as H. unfold seconds_of. destruct (time_string s) as [[h m] u]. exact H. Qed.
Print Assumptions C105_string.
Theorem C105_string_refuted : exists s, s < 60 /\ time_string s = (0, 0, 60000000)%Z.
Proof. exists (599999999 / 10000000). split; [ lra | exact string_sixty ]. Qed.
Print Assumptions C105_string_refuted.

Example C105_ex : snd (run init [NewTag 3 "a" false 0; NewTag 4 "b" true 0; Start 4 1; Stop 3 2; Start 3 3; Start 3 4; Stop 3 7; Delete 4 9; QueryTag "a"; QueryHandle 1; GetTag 2; GetHandle "b"])
  = [Done; Done; Done; Done; Done; Throws; Done; Done; Statistics (Stats 2 6 (Some 3) (Some 1) (Some 2) (Some 4) (Some (1 / 3))); Statistics (Stats 1 8 (Some 8) (Some 0) (Some 8) (Some 8) (Some (1 / 8))); Throws; Handle 1].
Proof.
  rewrite C105_refines. cbn [spec_run spec_step empty running order samples known existsb put mention Nat.eqb String.eqb Ascii.eqb Bool.eqb orb andb record app nth_error snd position fst].
  replace (7 - 3) with 4 by ring. replace (2 - 0) with 2 by ring. replace (9 - 1) with 8 by ring.
  unfold summary, average, sum. cbn [map fold_right List.length firstn least greatest]. 
  replace (4 + (2 + 0)) with 6 by ring. replace (8 + 0) with 8 by ring. replace (INR 2) with 2 by (cbn; ring). replace (INR 1) with 1 by reflexivity.
  rewrite Rmin_left, Rmax_right by lra. replace (6 / 2) with 3 by field. replace (8 / 1) with 8 by field.
  replace (((4 - 3) * (4 - 3) + ((2 - 3) * (2 - 3) + 0)) / 2) with 1 by field. replace (((8 - 8) * (8 - 8) + 0) / 1) with 0 by field.
  destruct (Req_EM_T 3 0) as [X | _]; [ lra | ]. destruct (Req_EM_T 8 0) as [X | _]; [ lra | ]. reflexivity.
Qed.
