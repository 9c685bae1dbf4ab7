(** * Reading the images of a bag in time order

    Models BagImageDatasetReader of
    aslam_offline_calibration/kalibr/python/kalibr_common/ImageDatasetReader.py
    (lines 28-113); BagImuDatasetReader of ImuDatasetReader.py has the same
    methods.  A bag is the list of the header stamps of the topic's messages, as
    stored, in nanoseconds.  Simplified: the reader computes with doubles, which
    cannot tell stamps apart that differ by less than a few hundred nanoseconds;
    here times are exact.  The correction of time stamps is left out. *)
From Coq Require Import ZArith List Arith Bool.
Import ListNotations.
Local Open Scope Z_scope.

Definition stamp (bag : list Z) (i : nat) : Z := nth i bag 0.

(** [sorted] of the pairs of stamp and position, lines 70-71. *)
Definition before (a b : Z * nat) : bool :=
  (fst a <? fst b) || ((fst a =? fst b) && (snd a <=? snd b)%nat).
Fixpoint insert (x : Z * nat) (l : list (Z * nat)) : list (Z * nat) :=
  match l with
  | [] => [x]
  | y :: r => if before x y then x :: l else y :: insert x r
  end.
Fixpoint isort (l : list (Z * nat)) : list (Z * nat) :=
  match l with [] => [] | x :: r => insert x (isort r) end.

(** sortByTime, lines 59-72, of all positions (line 49). *)
Definition sort_by_time (bag : list Z) : list nat :=
  map snd (isort (map (fun i => (stamp bag i, i)) (seq 0 (length bag)))).

(** [min(timestamps)]. *)
Definition minimum (l : list Z) : Z :=
  match l with [] => 0 | x :: r => fold_left Z.min r x end.

(** The loop of lines 96-98, [idx] counting from [k]. *)
Fixpoint valid (lo hi : Z) (k : nat) (ts : list Z) : list nat :=
  match ts with
  | [] => []
  | t :: r => if (lo <=? t) && (t <=? hi) then k :: valid lo hi (S k) r else valid lo hi (S k) r
  end.

(** truncateIndicesFromTime, lines 74-101; [None] is the exception. *)
Definition truncate (bag : list Z) (indices : list nat) (from to : Z) : option (list nat) :=
  let ts := map (stamp bag) indices in
  let start := minimum ts in
  if to <=? from then None else Some (valid (start + from) (start + to) 0 ts).

(** The constructor, lines 29-56: [self.indices]. *)
Definition open (bag : list Z) (span : option (Z * Z)) : option (list nat) :=
  let indices := sort_by_time bag in
  match span with
  | None => Some indices
  | Some (from, to) => truncate bag indices from to
  end.

(** readDataset, lines 107-108, and readDatasetShuffle, lines 110-113, which
    shuffles the reader's own list: the messages delivered and the list after. *)
Definition read (indices : list nat) : list nat * list nat := (indices, indices).
Definition read_shuffle (shuffle : list nat -> list nat) (indices : list nat) : list nat * list nat :=
  let i := shuffle indices in (i, i).
