(** * What a mutex has to guarantee *)
From Coq Require Import ZArith List Bool Arith.
From Verif Require Import Base MxModel.
Import ListNotations.

(** How often a thread holds the mutex, from the answers it got. *)
Definition gain (a : answer) : Z := match a with Locked => 1 | Unlocked => -1 | _ => 0 end.
Fixpoint holds (t : tid) (l : list (tid * answer)) : Z :=
  match l with
  | [] => 0
  | (u, a) :: l => ((if Nat.eqb u t then gain a else 0) + holds t l)%Z
  end.
(** No thread tries to lock without waiting. *)
Definition patient (e : event) : Prop := match e with Lock _ Zero => False | _ => True end.
(** A thread that waits to lock. *)
Definition wants_lock (w : waiter) : Prop := aim w = Acquire.
(** Events other than calls of the threads. *)
Definition internal (e : event) : Prop :=
  match e with Run _ _ | Timeout _ | Signal _ => True | _ => False end.
