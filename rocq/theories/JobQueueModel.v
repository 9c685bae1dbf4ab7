(** Model of sm::JobQueue (Schweizer-Messer/sm_boost/src/JobQueue.cpp,
    include/sm_boost/JobQueue.hpp) under every interleaving.

    One [step] is one atomic action of one thread; an [action] names the thread that
    the scheduler picks, so a list of actions is a schedule.  A critical section is a
    single step unless it can be observed half-way: a worker keeps the mutex between
    testing its wait condition and starting to wait, and [stop] writes the flag
    without the mutex in that window.
    Simplifications: memory is sequentially consistent (the flag is a [volatile bool]
    written without a lock); [start] creates its threads in one step; jobs return
    normally and are opaque numbers (a job that calls [scheduleWork] is covered: any
    client may call at any time); Boost's condition variables may wake spuriously;
    [scheduleFuture] is [scheduleWork] of a packaged task. *)
From Coq Require Import ZArith List Lia Bool.
From Verif Require Import Base.
Import ListNotations.
Open Scope Z_scope.

Definition job := nat.

(** Where a worker stands in exec_loop (JobQueue.cpp:58-80). *)
Inductive wpc :=
| WEnter          (* 59: wants the mutex for the first time *)
| WLoop           (* 62: holds the mutex, about to test the conditions *)
| WDecided        (* 62-63: holds the mutex, has seen "no job, not killed" *)
| WWait           (* 63: waiting on condition_, mutex released *)
| WWake           (* 63: notified, wants the mutex back *)
| WRun (j : job)  (* 75: running f without the mutex *)
| WRelock         (* 76: f returned, wants the mutex *)
| WExit.          (* 67: returned *)

(** Where a client thread stands. *)
Inductive cpc :=
| CIdle
| CSched (j : job)  (* 16: wants the mutex *)
| CStop             (* 33 *)
| CJoin1            (* 38 *)
| CJoin2            (* 39 *)
| CJoin3            (* 40: blocked in join_all *)
| CEmpty            (* 45 *)
| CWait             (* 51 or woken in 54: wants the mutex *)
| CWaiting          (* 54: waiting on workCondition_ *)
| CDestroy          (* 7: wants the mutex *)
| CDestroying       (* 11: waiting on condition_ *)
| CDestroy2.        (* 11: woken, wants the mutex *)

Inductive op := OpSchedule (j : job) | OpStop | OpJoin | OpEmpty | OpWait | OpDestroy | OpStart (n : nat).

(** What an observer sees. *)
Inductive event :=
| Scheduled (j : job) | Started (w : nat) (j : job) | Finished (w : nat) (j : job)
| JoinReturned (c : nat) | WaitReturned (c : nat) | EmptyReturned (c : nat) (b : bool)
| Destroyed (c : nat).

Inductive action :=
| ACall (c : nat) (o : op)     (* an idle client enters a public method *)
| AClient (c : nat)            (* a client takes its next step *)
| AWorker (w : nat)            (* a worker takes its next step *)
| ASpuriousW (w : nat)         (* spurious wake-up of a worker *)
| ASpuriousC (c : nat).        (* spurious wake-up of a client *)

(** JobQueue.hpp:63-71.  [lock]: the worker that holds the mutex between steps. *)
Record state := State {
  kill : bool; pool : Z; active : Z; q : list job; lock : option nat;
  created : bool; (* work_ is non-null *)
  workers : list wpc; clients : list cpc }.

Definition init (nclients : nat) : state := State false 0 0 [] None false [] (repeat CIdle nclients).

Fixpoint set {A} (l : list A) (i : nat) (x : A) : list A :=
  match l, i with
  | [], _ => []
  | _ :: r, O => x :: r
  | y :: r, S i' => y :: set r i' x
  end.

(** condition_.notify_all() *)
Definition wake_w (p : wpc) : wpc := match p with WWait => WWake | _ => p end.
Definition wake_d (p : cpc) : cpc := match p with CDestroying => CDestroy2 | _ => p end.
(** workCondition_.notify_all() *)
Definition wake_c (p : cpc) : cpc := match p with CWaiting => CWait | _ => p end.

Definition with_w s ws := State (kill s) (pool s) (active s) (q s) (lock s) (created s) ws (clients s).
Definition with_c s cs := State (kill s) (pool s) (active s) (q s) (lock s) (created s) (workers s) cs.
Definition set_w s w p := with_w s (set (workers s) w p).
Definition set_c s c p := with_c s (set (clients s) c p).
Definition set_lock s l := State (kill s) (pool s) (active s) (q s) l (created s) (workers s) (clients s).
Definition set_kill s := State true (pool s) (active s) (q s) (lock s) (created s) (workers s) (clients s).
Definition set_pool s n := State (kill s) n (active s) (q s) (lock s) (created s) (workers s) (clients s).
Definition set_active s n := State (kill s) (pool s) n (q s) (lock s) (created s) (workers s) (clients s).
Definition set_q s l := State (kill s) (pool s) (active s) l (lock s) (created s) (workers s) (clients s).
Definition notify s := with_c (with_w s (map wake_w (workers s))) (map wake_d (clients s)).
Definition notify_work s := with_c s (map wake_c (clients s)).

Definition exited (p : wpc) : bool := match p with WExit => true | _ => false end.

(** JobQueue.cpp:58-80  exec_loop *)
Definition worker_step (s : state) (w : nat) : option (state * list event) :=
  match nth_error (workers s) w with
  | Some WEnter =>
      match lock s with
      | None => Some (set_w (set_pool (set_lock s (Some w)) (pool s + 1)) w WLoop, [])
      | Some _ => None
      end
  | Some WLoop =>
      if kill s then
        Some (notify (set_lock (set_pool (set_w s w WExit) (pool s - 1)) None), [])
      else
        match q s with
        | [] => Some (set_w s w WDecided, [])
        | j :: r => Some (set_lock (set_active (set_q (set_w s w (WRun j)) r) (active s + 1)) None, [Started w j])
        end
  | Some WDecided => Some (set_lock (set_w s w WWait) None, [])
  | Some WWait => None
  | Some WWake =>
      match lock s with
      | None => Some (set_w (set_lock s (Some w)) w WLoop, [])
      | Some _ => None
      end
  | Some (WRun j) => Some (set_w s w WRelock, [Finished w j])
  | Some WRelock =>
      match lock s with
      | None => Some (notify_work (set_w (set_active (set_lock s (Some w)) (active s - 1)) w WLoop), [])
      | Some _ => None
      end
  | Some WExit => None
  | None => None
  end.

(** The other methods of JobQueue.cpp; see the constructors of [cpc] for the lines. *)
Definition client_step (s : state) (c : nat) : option (state * list event) :=
  match nth_error (clients s) c with
  | Some (CSched j) =>
      match lock s with
      | None => Some (set_c (notify (set_q s (q s ++ [j]))) c CIdle, [Scheduled j])
      | Some _ => None
      end
  | Some CStop => Some (set_c (set_kill s) c CIdle, [])
  | Some CJoin1 => Some (set_c (set_kill s) c CJoin2, [])
  | Some CJoin2 => Some (set_c (notify s) c CJoin3, [])
  | Some CJoin3 =>
      if forallb exited (workers s) then Some (set_c s c CIdle, [JoinReturned c]) else None
  | Some CEmpty =>
      match lock s with
      | None => Some (set_c s c CIdle, [EmptyReturned c (match q s with [] => true | _ => false end)])
      | Some _ => None
      end
  | Some CWait =>
      match lock s with
      | None =>
          if negb (active s =? 0) || match q s with [] => false | _ => true end
          then Some (set_c s c CWaiting, [])
          else Some (set_c s c CIdle, [WaitReturned c])
      | Some _ => None
      end
  | Some CDestroy =>
      match lock s with
      | None =>
          let s' := notify (set_kill s) in
          if pool s =? 0 then Some (set_c s' c CIdle, [Destroyed c])
          else Some (set_c s' c CDestroying, [])
      | Some _ => None
      end
  | Some CDestroy2 =>
      match lock s with
      | None =>
          if pool s =? 0 then Some (set_c s c CIdle, [Destroyed c])
          else Some (set_c s c CDestroying, [])
      | Some _ => None
      end
  | Some CIdle | Some CWaiting | Some CDestroying | None => None
  end.

(** Entering a method.  [start] (JobQueue.cpp:21-30) does nothing when called again;
    [join] before [start] dereferences a null pointer (not a step: see
    [join_is_ub]). *)
Definition join_is_ub (s : state) (o : op) : bool :=
  match o with OpJoin => negb (created s) | _ => false end.

Definition call_step (s : state) (c : nat) (o : op) : option (state * list event) :=
  match nth_error (clients s) c with
  | Some CIdle =>
      if join_is_ub s o then None else
      match o with
      | OpSchedule j => Some (set_c s c (CSched j), [])
      | OpStop => Some (set_c s c CStop, [])
      | OpJoin => Some (set_c s c CJoin1, [])
      | OpEmpty => Some (set_c s c CEmpty, [])
      | OpWait => Some (set_c s c CWait, [])
      | OpDestroy => Some (set_c s c CDestroy, [])
      | OpStart n =>
          if created s then Some (s, [])
          else Some (State (kill s) (pool s) (active s) (q s) (lock s) true (repeat WEnter n) (clients s), [])
      end
  | _ => None
  end.

Definition step (s : state) (a : action) : option (state * list event) :=
  match a with
  | ACall c o => call_step s c o
  | AClient c => client_step s c
  | AWorker w => worker_step s w
  | ASpuriousW w =>
      match nth_error (workers s) w with
      | Some WWait => Some (set_w s w WWake, [])
      | _ => None
      end
  | ASpuriousC c =>
      match nth_error (clients s) c with
      | Some CWaiting => Some (set_c s c CWait, [])
      | Some CDestroying => Some (set_c s c CDestroy2, [])
      | _ => None
      end
  end.

(** A schedule; [None] if some picked thread cannot move. *)
Fixpoint run (s : state) (l : list action) : option (state * list event) :=
  match l with
  | [] => Some (s, [])
  | a :: r =>
      match step s a with
      | Some (s1, t1) =>
          match run s1 r with
          | Some (s2, t2) => Some (s2, t1 ++ t2)
          | None => None
          end
      | None => None
      end
  end.
