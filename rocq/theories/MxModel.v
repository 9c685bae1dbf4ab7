(** * Mutex and condition of the incremental calibration

    /repo/aslam_incremental_calibration/aslam_incremental_calibration/src/base/Mutex.cpp and
    Condition.cpp.

    A Mutex is a condition variable together with a POSIX mutex that protects its members
    during each call.  The calls are modelled between the points where that POSIX mutex is
    released, so every event below is one atomic step and a schedule is a list of events.
    pthread_cond_signal wakes one waiter, chosen by the event.  One Condition object is used
    with the mutex.  Simplifications: POSIX calls do not fail except for time-outs; the states
    of registered Thread objects (safeSetState) are left out; a wait of zero or negative
    seconds is [Zero], Timer::eternal() is [Eternal], another wait [Timed]. *)
From Coq Require Import List Bool Arith.
From Verif Require Import Base.
Import ListNotations.

Definition tid := nat.
Inductive patience := Zero | Timed | Eternal.
(** What a waiting thread does once the mutex is free: lock it (safeLock, Condition::wait)
    or return (waitUnlock). *)
Inductive goal := Acquire | Watch.
Record waiter := Waiter { who : tid; aim : goal; how : patience }.
Record mutex := Mutex {
  locks : nat;                (* mNumLocks *)
  owner : option tid;         (* mOwner, None for 0 *)
  waiting : list waiter;      (* in pthread_cond_wait on the mutex's condition variable *)
  woken : list waiter;        (* signalled, about to look at mNumLocks again *)
  parked : list tid;          (* in Condition::wait *)
  jammed : bool               (* the POSIX mutex was left locked *)
}.
Definition fresh : mutex := Mutex 0 None [] [] [] false.

Inductive answer := Locked | Refused | Unlocked | Seen | Threw.
Inductive event :=
| Lock (t : tid) (p : patience)               (* lock(wait), tryLock() with Zero *)
| Unlock (t : tid) (pick : nat)               (* unlock() *)
| WaitUnlock (t : tid) (p : patience) (pick : nat)
| Wait (t : tid) (pick : nat)                 (* Condition::wait(mutex), without time-out *)
| Signal (pick : nat)                         (* Condition::signal() *)
| Run (i : nat) (pick : nat)                  (* a woken thread goes on *)
| Timeout (i : nat)                           (* a timed wait ends *)
| Spurious (i : nat).                         (* a wait ends for no reason *)

(** The element at [i], or the last one, and the others. *)
Fixpoint extract {A} (i : nat) (l : list A) {struct l} : option (A * list A) :=
  match l with
  | [] => None
  | [x] => Some (x, [])
  | x :: l => match i with
              | O => Some (x, l)
              | S i => match extract i l with Some (y, r) => Some (y, x :: r) | None => None end
              end
  end.
Definition busy (s : mutex) (t : tid) : bool :=
  existsb (fun w => who w =? t) (waiting s) || existsb (fun w => who w =? t) (woken s) ||
  existsb (Nat.eqb t) (parked s).
Definition owns (s : mutex) (t : tid) : bool := match owner s with Some u => u =? t | None => false end.
(** Condition::signal of the mutex: Condition.cpp 46-51. *)
Definition signal (pick : nat) (s : mutex) : mutex :=
  match extract pick (waiting s) with
  | Some (w, r) => Mutex (locks s) (owner s) r (w :: woken s) (parked s) (jammed s)
  | None => s
  end.
Definition own (t : tid) (n : nat) (s : mutex) : mutex :=
  Mutex n (Some t) (waiting s) (woken s) (parked s) (jammed s).
Definition enqueue (w : waiter) (s : mutex) : mutex :=
  Mutex (locks s) (owner s) (waiting s ++ [w]) (woken s) (parked s) (jammed s).
(** safeLock, with Condition::safeWait: Mutex.cpp 144-161, Condition.cpp 71-98; a wait of
    zero seconds does not wait and returns true. *)
Definition safe_lock (recursive : bool) (t : tid) (p : patience) (s : mutex) : mutex * option answer :=
  if owns s t then
    if recursive then (own t (S (locks s)) s, Some Locked) else (s, Some Threw)
  else if locks s =? 0 then (own t (S (locks s)) s, Some Locked)
  else match p with
       | Zero => (own t (S (locks s)) s, Some Locked)
       | _ => (enqueue (Waiter t Acquire p) s, None)
       end.
(** safeUnlock: Mutex.cpp 163-173. *)
Definition safe_unlock (t : tid) (pick : nat) (s : mutex) : option mutex :=
  if locks s =? 0 then None
  else if negb (owns s t) then None
  else
    let n := locks s - 1 in
    Some (if n =? 0 then signal pick (Mutex n None (waiting s) (woken s) (parked s) (jammed s)) else own t n s).
(** One step; [None] if it cannot happen. *)
Definition step (recursive : bool) (s : mutex) (e : event) : option (mutex * option (tid * answer)) :=
  if jammed s then None
  else
    let say (t : tid) (r : mutex * option answer) :=
      Some (fst r, match snd r with Some a => Some (t, a) | None => None end) in
    match e with
    | Lock t p => if busy s t then None else say t (safe_lock recursive t p s)
    | Unlock t pick =>
        if busy s t then None
        else match safe_unlock t pick s with
             | Some s' => say t (s', Some Unlocked)
             | None => say t (s, Some Threw)
             end
    (* Mutex.cpp 111-123, Condition.cpp 100-117: waits before it looks at mNumLocks *)
    | WaitUnlock t p pick =>
        if busy s t then None
        else match p with
             | Zero => say t (signal pick s, Some Seen)
             | _ => say t (enqueue (Waiter t Watch p) s, None)
             end
    (* Condition.cpp 53-69: what safeUnlock throws leaves the POSIX mutex locked *)
    | Wait t pick =>
        if busy s t then None
        else match safe_unlock t pick s with
             | Some s' => say t (Mutex (locks s') (owner s') (waiting s') (woken s') (parked s' ++ [t]) (jammed s'), Some Unlocked)
             | None => say t (Mutex (locks s) (owner s) (waiting s) (woken s) (parked s) true, Some Threw)
             end
    | Signal pick =>
        match extract pick (parked s) with
        | Some (t, r) => Some (Mutex (locks s) (owner s) (waiting s) (Waiter t Acquire Eternal :: woken s) r (jammed s), None)
        | None => Some (s, None)
        end
    (* the loops of safeEternalWait and safeWaitUntil: Mutex.cpp 175-191 *)
    | Run i pick =>
        match extract i (woken s) with
        | Some (w, r) =>
            let s := Mutex (locks s) (owner s) (waiting s) r (parked s) (jammed s) in
            if negb (locks s =? 0) then Some (enqueue w s, None)
            else match aim w with
                 | Acquire => say (who w) (own (who w) (S (locks s)) s, Some Locked)
                 | Watch => say (who w) (signal pick s, Some Seen)
                 end
        | None => None
        end
    | Timeout i =>
        match extract i (waiting s) with
        | Some (w, r) =>
            match how w with
            | Timed => say (who w) (Mutex (locks s) (owner s) r (woken s) (parked s) (jammed s), Some Refused)
            | _ => None
            end
        | None => None
        end
    | Spurious i =>
        match extract i (waiting s) with
        | Some (w, r) => Some (Mutex (locks s) (owner s) r (w :: woken s) (parked s) (jammed s), None)
        | None => None
        end
    end.
(** A schedule, and the answers the threads get. *)
Fixpoint schedule (recursive : bool) (s : mutex) (es : list event) : option (mutex * list (tid * answer)) :=
  match es with
  | [] => Some (s, [])
  | e :: es =>
      match step recursive s e with
      | Some (s, a) =>
          match schedule recursive s es with
          | Some (s, l) => Some (s, match a with Some a => a :: l | None => l end)
          | None => None
          end
      | None => None
      end
  end.
