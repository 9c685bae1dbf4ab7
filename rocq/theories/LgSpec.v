(** * What is logged *)
From Coq Require Import ZArith List String Bool Arith.
From Verif Require Import LgModel.
Import ListNotations.
Local Open Scope Z_scope.

(** The settings, and per statement whether it was hit and when it was last let through;
    nothing is remembered about enabled statements. *)
Record settings := Settings { threshold : Z; on : string -> bool; once : nat -> bool; latest : nat -> Z; down : bool }.
Definition defaults : settings := Settings 7 (String.eqb "sm") (fun _ => false) (fun _ => 0) false.
Definition wanted (c : settings) (lvl : Z) (name : string) : bool := Z.leb (threshold c) lvl && (String.eqb name "" || on c name).
Definition due (c : settings) (s : nat) (k : kind) : bool :=
  match k with Cond b => b | Once => negb (once c s) | Throttle rate now => Z.leb (latest c s + rate) now end.
Definition note (c : settings) (s : nat) (k : kind) : settings :=
  match k with
  | Cond _ => c
  | Once => Settings (threshold c) (on c) (fun x => if Nat.eqb x s then true else once c x) (latest c) (down c)
  | Throttle _ now => Settings (threshold c) (on c) (once c) (fun x => if Nat.eqb x s then now else latest c x) (down c)
  end.
Definition spec_step (c : settings) (o : op) : settings * option event :=
  match o with
  | SetLevel l => (Settings l (on c) (once c) (latest c) (down c), None)
  | Enable n => (Settings (threshold c) (fun m => String.eqb m n || on c m) (once c) (latest c) (down c), None)
  | Disable n => (Settings (threshold c) (fun m => negb (String.eqb m n) && on c m) (once c) (latest c) (down c), None)
  | Shutdown => (Settings (threshold c) (on c) (once c) (latest c) true, None)
  | Hit s _ lvl name k msg _ =>
      if wanted c lvl name && due c s k then (note c s k, if down c then None else Some (Event name lvl msg)) else (c, None)
  end.
Fixpoint spec_run (c : settings) (l : list op) : settings * list (option event) :=
  match l with [] => (c, []) | o :: r => let (c1, x) := spec_step c o in let (c2, xs) := spec_run c1 r in (c2, x :: xs) end.

(** Every statement always uses the same stream. *)
Definition one_name (nm : nat -> string) (o : op) : Prop := match o with Hit s _ _ name _ _ _ => name = nm s | _ => True end.
(** Loggers throw nothing but std::exception. *)
Definition tame (o : op) : Prop := match o with Hit _ _ _ _ _ _ b => b <> ThrowsOther | _ => True end.

(** No thread can go on although not all have finished. *)
Definition stuck (ts : list thread) : Prop := (exists t, In t ts /\ todo t <> []) /\ forall i, lock_step ts i = None.
(** Calls that change which streams are enabled *)
Definition changes_streams (c : call) : bool := match c with CallEnable _ | CallDisable (Some _) => true | _ => false end.
(** Calls that take the lock of the locations first *)
Definition looks_at_locations (c : call) : bool := match c with CallInit true | CallCheck true => true | CallNotify (S _) => true | _ => false end.
