(** What the job queue promises, in terms of the events an observer sees. *)
From Coq Require Import ZArith List Bool Permutation.
From Verif Require Import JobQueueModel.
Import ListNotations.

(** Jobs scheduled, started, finished in a trace, in order. *)
Definition scheduled (t : list event) : list job :=
  flat_map (fun e => match e with Scheduled j => [j] | _ => [] end) t.
Definition started (t : list event) : list job :=
  flat_map (fun e => match e with Started _ j => [j] | _ => [] end) t.
Definition finished (t : list event) : list job :=
  flat_map (fun e => match e with Finished _ j => [j] | _ => [] end) t.
(** Jobs being executed. *)
Definition running (ws : list wpc) : list job :=
  flat_map (fun p => match p with WRun j => [j] | _ => [] end) ws.

(** Actions of threads already inside the queue's code, without spurious wake-ups. *)
Definition internal (a : action) : bool :=
  match a with AClient _ | AWorker _ => true | _ => false end.
(** No thread inside the queue's code can move. *)
Definition quiescent (s : state) : Prop :=
  forall a, internal a = true -> step s a = None.
(** A client is stopping or destroying the queue. *)
Definition stopping (p : cpc) : bool :=
  match p with CStop | CJoin1 | CJoin2 | CJoin3 | CDestroy | CDestroying | CDestroy2 => true | _ => false end.
Definition destroying (p : cpc) : bool :=
  match p with CDestroying | CDestroy2 => true | _ => false end.
