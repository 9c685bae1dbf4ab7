(** * Grouping the target observations of several cameras by time

    Models ObservationDatabase of
    aslam_offline_calibration/kalibr/python/kalibr_camera_calibration/ObsDb.py
    (lines 22-71 and the queries of lines 97-139).  Times are integers in place
    of doubles, an observation is its time and a name, and the sets of observed
    corners are left out, being those of the observation.  A table of views is
    the list of its entries in the order of insertion.  A tolerance is not
    negative; for an empty table lines 45-47 make sure of a new view. *)
From Coq Require Import ZArith List Arith Bool.
Import ListNotations.
Local Open Scope Z_scope.

Record obs := mkObs { otime : Z; name : nat }.
Definition view : Type := (Z * list (nat * nat))%type.

(** [observations], [targetViews] and the number of errors logged. *)
Record db := mkDb { archive : nat -> list obs; views : list view; errors : nat }.
Definition empty : db := mkDb (fun _ => []) [] 0.

(** [min(timestamps_table, key=lambda x: abs(x-timestamp_obs))], line 49: the
    first of the nearest. *)
Definition nearer (t a b : Z) : Z := if Z.abs (b - t) <? Z.abs (a - t) then b else a.
Definition nearest (t : Z) (l : list Z) : option Z :=
  match l with [] => None | x :: r => Some (fold_left (nearer t) r x) end.

Definition lookup (T : Z) (l : list view) : option view := find (fun v => fst v =? T) l.
Definition add_entry (T : Z) (e : nat * nat) (l : list view) : list view :=
  map (fun v => if fst v =? T then (fst v, snd v ++ [e]) else v) l.
Definition has_cam (cam : nat) (v : view) : bool := existsb (fun e => Nat.eqb (fst e) cam) (snd v).

(** addObservation, lines 31-71. *)
Definition add (delta : Z) (d : db) (cam : nat) (o : obs) : db :=
  let idx := length (archive d cam) in
  let arch := fun c => if Nat.eqb c cam then archive d c ++ [o] else archive d c in
  let t := otime o in
  let fresh := mkDb arch (views d ++ [(t, [(cam, idx)])]) (errors d) in
  match nearest t (map fst (views d)) with
  | None => fresh
  | Some T =>
      if Z.abs (T - t) <=? delta then
        match lookup T (views d) with
        | None => fresh
        | Some v =>
            if has_cam cam v then mkDb arch (views d) (S (errors d))
            else mkDb arch (add_entry T (cam, idx) (views d)) (errors d)
        end
      else fresh
  end.

Definition add_all (delta : Z) (l : list (nat * obs)) : db :=
  fold_left (fun d e => add delta d (fst e) (snd e)) l empty.

(** getObservationAtTime, lines 97-103, on a view; [None] is the KeyError. *)
Definition obs_of (d : db) (v : view) (cam : nat) : option obs :=
  match find (fun e => Nat.eqb (fst e) cam) (snd v) with
  | None => None
  | Some e => nth_error (archive d cam) (snd e)
  end.

(** getAllObsTwoCams, lines 112-126, and getAllObsCam, lines 129-139. *)
Definition two_cams (d : db) (a b : nat) : list (option obs * option obs) :=
  filter (fun p => match p with (None, None) => false | _ => true end)
         (map (fun v => (obs_of d v a, obs_of d v b)) (views d)).
Definition one_cam (d : db) (cam : nat) : list obs :=
  flat_map (fun v => match obs_of d v cam with Some o => [o] | None => [] end) (views d).
