(** * The graph of cameras that see the target together

    Models MulticamCalibrationGraph of
    aslam_offline_calibration/kalibr/python/kalibr_camera_calibration/
    MulticamGraph.py: the construction of the graph (lines 30-76), the chaining of
    the baselines along a path (lines 198-216), the pose of the target (lines
    237-255) and the mutual observations (lines 258-270).  A set of corners is the
    list of answers for corner 0, 1, ...; the cameras of a view come in the order of
    its list.  Transformations are a parameter.  The pair calibrations, the paths
    chosen by igraph and the last refinement are left out. *)
From Coq Require Import List Arith Bool.
Import ListNotations.

(** Camera, number of the observation, corners. *)
Definition entry : Type := (nat * (nat * list bool))%type.
Definition cam (e : entry) : nat := fst e.
Definition oid (e : entry) : nat := fst (snd e).
Definition corners (e : entry) : list bool := snd (snd e).

(** [len(corners_A & corners_B)], lines 56 and 69. *)
Fixpoint common (a b : list bool) : nat :=
  match a, b with
  | x :: a', y :: b' => (if x && y then 1 else 0) + common a' b'
  | _, _ => 0
  end.

(** [itertools.combinations(..., 2)], line 45. *)
Fixpoint pairs (v : list entry) : list (entry * entry) :=
  match v with [] => [] | x :: r => map (fun y => (x, y)) r ++ pairs r end.

(** An undirected edge by its lower and higher camera, with weight and
    observations. *)
Definition edge : Type := ((nat * nat) * (nat * list (nat * nat)))%type.
Definition key (p : entry * entry) : nat * nat :=
  if cam (fst p) <? cam (snd p) then (cam (fst p), cam (snd p)) else (cam (snd p), cam (fst p)).
Definition ids (p : entry * entry) : nat * nat :=
  if cam (fst p) <? cam (snd p) then (oid (fst p), oid (snd p)) else (oid (snd p), oid (fst p)).
Definition same (k l : nat * nat) : bool := (fst k =? fst l) && (snd k =? snd l).

Fixpoint upsert (k : nat * nat) (w : nat) (i : nat * nat) (g : list edge) : list edge :=
  match g with
  | [] => [(k, (w, [i]))]
  | (l, (w0, is)) :: r => if same k l then (l, (w0 + w, is ++ [i])) :: r else (l, (w0, is)) :: upsert k w i r
  end.

(** Lines 47-70. *)
Definition add_pair (g : list edge) (p : entry * entry) : list edge :=
  let c := common (corners (fst p)) (corners (snd p)) in
  if c =? 0 then g else upsert (key p) c (ids p) g.
Definition build (vs : list (list entry)) : list edge :=
  fold_left (fun g v => fold_left add_pair (pairs v) g) vs [].

(** [G.get_eid] and the attributes of the edge. *)
Fixpoint lookup (k : nat * nat) (g : list edge) : option (nat * list (nat * nat)) :=
  match g with [] => None | (l, x) :: r => if same k l then Some x else lookup k r end.

(** getAllMutualObsBetweenTwoCams, lines 258-270, for the lower camera first. *)
Definition mutual (g : list edge) (a b : nat) : list nat * list nat :=
  match lookup (a, b) g with
  | None => ([], [])
  | Some (_, is) => (map fst is, map snd is)
  end.

Section Chain.
  Variable T : Type.
  Variables (mul : T -> T -> T) (inv : T -> T) (one : T).
  Variable baseline_HL : nat -> nat -> T.   (* stored for lower and higher camera *)

  (** Lines 207-210. *)
  Definition directed (s t : nat) : T := if s <? t then baseline_HL s t else inv (baseline_HL t s).
  (** Lines 203-213; [acc] is the transformation so far. *)
  Fixpoint chain (acc : T) (path : list nat) : T :=
    match path with
    | s :: ((t :: _) as r) => chain (mul (directed s t) acc) r
    | _ => acc
    end.

  (** Lines 249-253. *)
  Definition target_pose (T_t_cN : T) (n : nat) (baselines : list T) : T :=
    mul T_t_cN (fold_left (fun acc b => mul b acc) (firstn n baselines) one).
End Chain.
Arguments directed {T}. Arguments chain {T}. Arguments target_pose {T}.
