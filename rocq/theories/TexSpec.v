(** * What several processes should find *)
From Coq Require Import List Arith Bool.
From Verif Require Import TexModel.
Import ListNotations.

(** How often a schedule kills a process. *)
Fixpoint kills (sched : list event) : nat :=
  match sched with
  | [] => 0
  | Kill _ :: r => S (kills r)
  | Run _ :: r => kills r
  end.

(** What is found in order, the images numbered in [lost] left out; the first
    has number [k]. *)
Fixpoint found_but {img obs : Type} (det : img -> option obs) (lost : list nat) (k : nat) (images : list img) : list obs :=
  match images with
  | [] => []
  | im :: r =>
      let rest := found_but det lost (S k) r in
      if in_dec Nat.eq_dec k lost then rest
      else match det im with Some o => o :: rest | None => rest end
  end.

(** The process an event is about, and whether it is still alive. *)
Definition who (e : event) : nat := match e with Run w => w | Kill w => w end.
Definition alive {img obs : Type} (s : st img obs) (w : nat) : Prop :=
  exists x, nth_error (workers s) w = Some x /\ gone x = false.

(** Every event of the schedule happens to a process that is alive then. *)
Fixpoint proper {img obs : Type} (det : img -> option obs) (s : st img obs) (sched : list event) : Prop :=
  match sched with
  | [] => True
  | e :: r => alive s (who e) /\ proper det (step det s e) r
  end.
