(** * Extracting target corners with several processes

    Models multicoreExtractionWrapper and extractCornersFromDataset of
    aslam_offline_calibration/kalibr/python/kalibr_common/TargetExtractor.py
    (lines 11-108).  The detector is a parameter that answers for each image,
    so that its copies (line 54) answer alike; an image stands for itself and
    its stamp.  The two queues belong to managers, whose operations are atomic.
    Left out are the progress bar and the printed messages.  The result is a list
    where the code returns a tuple or a list. *)
From Coq Require Import List Arith Bool.
Import ListNotations.

Section Extract.
  Variables img obs : Type.
  Variable det : img -> option obs.

  (** One process: about to ask for a task, working on one, returned at line 16,
      or ended from outside. *)
  Inductive wst := Idle | Busy (t : nat * img) | Exited | Died.

  Record st := mkSt { taskq : list (nat * img); workers : list wst; resultq : list (nat * obs) }.

  (** Lines 44-57: all tasks are queued before the processes start. *)
  Definition start (n : nat) (images : list img) : st :=
    mkSt (combine (seq 0 (length images)) images) (repeat Idle n) [].

  Fixpoint set_nth (w : nat) (x : wst) (l : list wst) : list wst :=
    match l, w with
    | [], _ => []
    | _ :: r, O => x :: r
    | y :: r, S k => y :: set_nth k x r
    end.

  (** A process does its next step, or it is killed. *)
  Inductive event := Run (w : nat) | Kill (w : nat).

  (** Lines 12-29. *)
  Definition step (s : st) (e : event) : st :=
    match e with
    | Run w =>
        match nth_error (workers s) w with
        | Some Idle =>
            match taskq s with
            | [] => mkSt [] (set_nth w Exited (workers s)) (resultq s)
            | t :: r => mkSt r (set_nth w (Busy t) (workers s)) (resultq s)
            end
        | Some (Busy t) =>
            mkSt (taskq s) (set_nth w Idle (workers s))
                 (match det (snd t) with Some o => resultq s ++ [(fst t, o)] | None => resultq s end)
        | _ => s
        end
    | Kill w =>
        match nth_error (workers s) w with
        | Some Idle | Some (Busy _) => mkSt (taskq s) (set_nth w Died (workers s)) (resultq s)
        | _ => s
        end
    end.

  Definition run (sched : list event) (s : st) : st := fold_left step sched s.

  (** [not p.is_alive()], line 62. *)
  Definition gone (w : wst) : bool := match w with Exited | Died => true | _ => false end.

  (** [sorted(..., key=lambda tup: tup[0])], line 82. *)
  Fixpoint insert (x : nat * obs) (l : list (nat * obs)) : list (nat * obs) :=
    match l with
    | [] => [x]
    | y :: r => if fst x <=? fst y then x :: l else y :: insert x r
    end.
  Definition isort (l : list (nat * obs)) : list (nat * obs) := fold_right insert [] l.

  (** Lines 60-84; [None] while the parent still waits. *)
  Definition result (s : st) : option (list obs) :=
    if forallb gone (workers s) then Some (map snd (isort (resultq s))) else None.

  (** Lines 88-97, without processes. *)
  Fixpoint sequential (images : list img) : list obs :=
    match images with
    | [] => []
    | im :: r => match det im with Some o => o :: sequential r | None => sequential r end
    end.
End Extract.
Arguments Idle {img}. Arguments Busy {img}. Arguments Exited {img}. Arguments Died {img}.
Arguments mkSt {img obs}. Arguments taskq {img obs}. Arguments workers {img obs}. Arguments resultq {img obs}.
Arguments start {img obs}. Arguments set_nth {img}. Arguments step {img obs}. Arguments run {img obs}.
Arguments gone {img}. Arguments insert {obs}. Arguments isort {obs}. Arguments result {img obs}.
Arguments sequential {img obs}.
