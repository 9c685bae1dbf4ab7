(** * C106: logging *)
From Coq Require Import ZArith List String Bool Arith Lia.
From Verif Require Import LgModel LgSpec LgProofs.
Import ListNotations.
Local Open Scope Z_scope.
Local Open Scope string_scope.

(** Whatever settings are changed in whatever order, before or after a statement is hit
    for the first time, the messages that reach the logger are exactly those whose level
    and stream are enabled at that moment (and that are due), with their own stream, level
    and text. *)
Theorem C106_filter : forall nm ops, Forall (one_name nm) ops -> Forall tame ops -> snd (run init ops) = snd (spec_run defaults ops).
Proof. intros nm ops A B. apply (run_good nm); [ apply init_good | exact A | exact B ]. Qed.
Print Assumptions C106_filter.

(** A statement of the kind "once" gets through at most once. *)
Theorem C106_once : forall nm ops, Forall (one_name nm) ops -> Forall tame ops ->
  forall i j s ti tj li lj ni nj mi mj bi bj ei ej, (i < j)%nat ->
  nth_error ops i = Some (Hit s ti li ni Once mi bi) -> nth_error ops j = Some (Hit s tj lj nj Once mj bj) ->
  nth_error (snd (run init ops)) i = Some (Some ei) -> nth_error (snd (run init ops)) j = Some (Some ej) -> False.
Proof.
  intros nm ops A B i j s ti tj li lj ni nj mi mj bi bj ei ej L Hi Hj Ei Ej. rewrite (C106_filter nm ops A B) in Ei, Ej.
  exact (once_twice ops i j ei ej s ti tj li lj ni nj mi mj bi bj L Hi Hj Ei Ej).
Qed.
Print Assumptions C106_once.

(** Two messages of a throttled statement are at least the rate of the later one apart. *)
Theorem C106_throttle : forall nm ops, Forall (one_name nm) ops -> Forall tame ops ->
  forall s, (forall th lvl name rate now msg b, In (Hit s th lvl name (Throttle rate now) msg b) ops -> 0 <= rate) ->
  forall i j ti tj li lj ni nj mi mj bi bj ri rj ai aj ei ej, (i < j)%nat ->
  nth_error ops i = Some (Hit s ti li ni (Throttle ri ai) mi bi) -> nth_error ops j = Some (Hit s tj lj nj (Throttle rj aj) mj bj) ->
  nth_error (snd (run init ops)) i = Some (Some ei) -> nth_error (snd (run init ops)) j = Some (Some ej) -> ai + rj <= aj.
Proof.
  intros nm ops A B s P i j ti tj li lj ni nj mi mj bi bj ri rj ai aj ei ej L Hi Hj Ei Ej. rewrite (C106_filter nm ops A B) in Ei, Ej.
  exact (throttle_apart ops i j ei ej s ti tj li lj ni nj mi mj bi bj ri rj ai aj L Hi Hj P Ei Ej).
Qed.
Print Assumptions C106_throttle.

(** Violation: a statement whose stream is computed keeps the one of its first hit, is
    filtered by it and printed under it. *)
Theorem C106_name_refuted : exists ops, Forall tame ops /\ snd (run init ops) <> snd (spec_run defaults ops) /\
  ops = [Hit 0 0 8 "sm" (Cond true) "first" Returns; Hit 0 0 8 "sm.other" (Cond true) "second" Returns].
Proof.
  exists [Hit 0 0 8 "sm" (Cond true) "first" Returns; Hit 0 0 8 "sm.other" (Cond true) "second" Returns].
  split; [ constructor; [ discriminate | constructor; [ discriminate | constructor ] ] | ]. split; [ | reflexivity ]. vm_compute. discriminate.
Qed.
Print Assumptions C106_name_refuted.

(** Violation: after a logger threw something else than a std::exception the thread's
    messages are dropped. *)
Theorem C106_muted_refuted : forall n, let ops := Hit 0 5 8 "sm" (Cond true) "first" ThrowsOther :: repeat (Hit 0 5 8 "sm" (Cond true) "next" Returns) n in
  Forall (one_name (fun _ => "sm")) ops /\ snd (run init ops) = Some (Event "sm" 8 "first") :: repeat None n /\ snd (spec_run defaults ops) = Some (Event "sm" 8 "first") :: repeat (Some (Event "sm" 8 "next")) n.
Proof.
  intros n ops. split; [ constructor; [ reflexivity | apply Forall_forall; intros x X; apply repeat_spec in X; subst x; reflexivity ] | ]. split; unfold ops.
  - cbn [run]. set (w1 := fst (step init (Hit 0 5 8 "sm" (Cond true) "first" ThrowsOther))).
    assert (E : step init (Hit 0 5 8 "sm" (Cond true) "first" ThrowsOther) = (w1, Some (Event "sm" 8 "first"))) by reflexivity. rewrite E.
    assert (F : step w1 (Hit 0 5 8 "sm" (Cond true) "next" Returns) = (w1, None)) by reflexivity. clearbody w1. clear E.
    assert (K : forall m, run w1 (repeat (Hit 0 5 8 "sm" (Cond true) "next" Returns) m) = (w1, repeat None m)).
    { induction m as [ | m IH]; [ reflexivity | ]. cbn [repeat run]. rewrite F, IH. reflexivity. }
    rewrite K. reflexivity.
  - assert (K : forall m, spec_run defaults (repeat (Hit 0 5 8 "sm" (Cond true) "next" Returns) m) = (defaults, repeat (Some (Event "sm" 8 "next")) m)).
    { induction m as [ | m IH]; [ reflexivity | ]. cbn [repeat spec_run]. assert (F : spec_step defaults (Hit 0 5 8 "sm" (Cond true) "next" Returns) = (defaults, Some (Event "sm" 8 "next"))) by reflexivity. rewrite F, IH. reflexivity. }
    cbn [spec_run]. assert (F : spec_step defaults (Hit 0 5 8 "sm" (Cond true) "first" ThrowsOther) = (defaults, Some (Event "sm" 8 "first"))) by reflexivity. rewrite F, K. reflexivity.
Qed.
Print Assumptions C106_muted_refuted.

(** Any number of threads may log, change the level and ask for streams at the same time
    without ever blocking each other for good, as long as none changes the set of enabled
    streams; or change that set, as long as none is looking at a statement meanwhile. *)
Theorem C106_no_deadlock : forall p ts, (forall cs c, In cs p -> In c cs -> changes_streams c = false) \/ (forall cs c, In cs p -> In c cs -> looks_at_locations c = false) ->
  reach p ts -> ~ stuck ts.
Proof.
  intros p ts [H | H] Rc.
  - apply (fine_not_stuck rank1), (reach_fine rank1 p); [ intros cs c I J; apply order1, (H cs c I J) | exact Rc ].
  - apply (fine_not_stuck rank2), (reach_fine rank2 p); [ intros cs c I J; apply order2, (H cs c I J) | exact Rc ].
Qed.
Print Assumptions C106_no_deadlock.
(** Violation: one thread that enables a stream and one that hits a statement for the
    first time can block each other for ever. *)
Theorem C106_deadlock_refuted : exists ts, reach [[CallEnable 0]; [CallInit true]] ts /\ stuck ts.
Proof.
  exists [Thread [Streams] [Acq Locations; Rel Locations; Rel Streams]; Thread [Locations] [Acq Streams; Rel Streams; Rel Locations]]. split.
  - apply (reach_step _ [Thread [Streams] [Acq Locations; Rel Locations; Rel Streams]; Thread [] [Acq Locations; Acq Streams; Rel Streams; Rel Locations]] 1); [ | reflexivity ].
    apply (reach_step _ (start [[CallEnable 0]; [CallInit true]]) 0); [ apply reach_start | reflexivity ].
  - split; [ eexists; split; [ left; reflexivity | discriminate ] | ]. intros [ | [ | [ | i]]]; reflexivity.
Qed.
Print Assumptions C106_deadlock_refuted.

Example C106_ex : snd (run init [Hit 1 0 6 "sm" (Cond true) "a" Returns; SetLevel 6; Hit 1 0 6 "sm" (Cond true) "b" Returns; Hit 2 0 8 "sm.x" (Cond true) "c" Returns; Enable "sm.x";
    Hit 2 0 8 "sm.x" (Cond true) "d" ThrowsStd; Disable "sm"; Hit 1 0 9 "sm" (Cond true) "e" Returns; Hit 3 1 8 "sm.x" Once "f" Returns; Hit 3 1 8 "sm.x" Once "g" Returns;
    Hit 4 0 8 "" (Throttle 5 10) "h" Returns; Hit 4 0 8 "" (Throttle 5 14) "i" Returns; Hit 4 0 8 "" (Throttle 5 15) "j" Returns; Shutdown; Hit 2 0 10 "sm.x" (Cond true) "k" Returns])
  = [None; None; Some (Event "sm" 6 "b"); None; None; Some (Event "sm.x" 8 "d"); None; None; Some (Event "sm.x" 8 "f"); None; Some (Event "" 8 "h"); None; Some (Event "" 8 "j"); None; None].
Proof. reflexivity. Qed.
Example C106_ex_locks : exists ts, reach [[CallInit true; CallPrint]; [CallNotify 2]] ts /\ ts = [Thread [Locations] [Acq Streams; Rel Streams; Rel Locations; Acq Printer; Rel Printer]; Thread [] (acts (CallNotify 2))] /\ lock_step ts 1 = None.
Proof.
  exists [Thread [Locations] [Acq Streams; Rel Streams; Rel Locations; Acq Printer; Rel Printer]; Thread [] (acts (CallNotify 2))]. split; [ | split; reflexivity ].
  apply (reach_step _ (start [[CallInit true; CallPrint]; [CallNotify 2]]) 0); [ apply reach_start | reflexivity ].
Qed.
