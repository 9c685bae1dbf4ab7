(** * What the table of views should say *)
From Coq Require Import ZArith List Arith Bool.
From Verif Require Import OdbModel.
Import ListNotations.
Local Open Scope Z_scope.

(** The observations of one camera among those added, in order. *)
Definition of_cam (cam : nat) (l : list (nat * obs)) : list obs :=
  map snd (filter (fun e => Nat.eqb (fst e) cam) l).

(** Number [id] of camera [cam] is entered in view number [i], which is at time [T]. *)
Definition entered (d : db) (i : nat) (T : Z) (cam id : nat) : Prop :=
  exists es, nth_error (views d) i = Some (T, es) /\ In (cam, id) es.

(** View number [i] at [T] is nearest to [t]. *)
Definition is_nearest (d : db) (t : Z) (i : nat) (T : Z) : Prop :=
  (exists es, nth_error (views d) i = Some (T, es)) /\
  forall j T' es, nth_error (views d) j = Some (T', es) -> Z.abs (T - t) <= Z.abs (T' - t).

(** The three things that adding can do, in terms of the old table: a new
    view when none is near, a place in the nearest view, or nothing but an error
    when the camera has its place there already. *)
Inductive outcome (delta : Z) (d : db) (cam : nat) (o : obs) (d' : db) : Prop :=
| New : (forall i T es, nth_error (views d) i = Some (T, es) -> delta < Z.abs (T - otime o)) ->
    views d' = views d ++ [(otime o, [(cam, length (archive d cam))])] -> errors d' = errors d ->
    outcome delta d cam o d'
| Joined i T es : is_nearest d (otime o) i T -> nth_error (views d) i = Some (T, es) ->
    Z.abs (T - otime o) <= delta -> ~ In cam (map fst es) ->
    nth_error (views d') i = Some (T, es ++ [(cam, length (archive d cam))]) ->
    (forall j, j <> i -> nth_error (views d') j = nth_error (views d) j) -> errors d' = errors d ->
    outcome delta d cam o d'
| Dropped i T es : is_nearest d (otime o) i T -> nth_error (views d) i = Some (T, es) ->
    Z.abs (T - otime o) <= delta -> In cam (map fst es) ->
    views d' = views d -> errors d' = S (errors d) ->
    outcome delta d cam o d'.

(** The number of entries of a table. *)
Fixpoint filled (l : list view) : nat :=
  match l with [] => 0 | v :: r => (length (snd v) + filled r)%nat end.

(** What camera [cam] saw, if anything, according to the entries of a view. *)
Definition saw (l : list (nat * obs)) (es : list (nat * nat)) (cam : nat) (r : option obs) : Prop :=
  forall o, r = Some o <-> exists id, In (cam, id) es /\ nth_error (of_cam cam l) id = Some o.
