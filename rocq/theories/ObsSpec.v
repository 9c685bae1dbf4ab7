(** What an observation of a calibration target is: which points of the target
    were seen, and where. *)
From Coq Require Import ZArith Reals List Bool Sorted Permutation.
From Verif Require Import Base Arith RArith CcmModel TgtModel.
Import ListNotations.
Open Scope nat_scope.

Section ObsSpec.
Variable A : Arith.
Variable T : Type.
Notation pt2 := (num A * num A)%type.

(** The image position of every point seen. *)
Definition sighting := nat -> option pt2.
Definition none_seen : sighting := fun _ => None.
Definition seen_at (f : sighting) (i : nat) : bool := match f i with Some _ => true | None => false end.
(** The points seen, in increasing order. *)
Definition visible (t : target A) (f : sighting) : list nat := filter (seen_at f) (seq 0 (tsize t)).

(** A target with all its points. *)
Definition target_ok (t : target A) : Prop := length (tpoints t) = tsize t.

(** What every query has to answer. *)
Record answers (o : observation A T) (t : target A) (f : sighting) : Prop := Answers {
  a_target : otarget o = t;
  a_idx : corners_idx A T o = Ok (visible t f);
  a_image : exists ps, corners_image A T o = Ok ps /\ map Some ps = map f (visible t f);
  a_corner : exists ps, corners_target A T o = Ok ps /\
    Forall2 (fun i q => exists x y z, point t i = Ok (x, y, z) /\ q = (x, y, of_Z A 0)) (visible t f) ps;
  a_in : forall i, i < tsize t -> exists p, image_point A T i o = Ok (seen_at f i, p) /\
                                            forall q, f i = Some q -> p = q;
  a_out : forall i, tsize t <= i -> image_point A T i o = Throw;
  a_has : has_observation A T o = true <-> exists i p, i < tsize t /\ f i = Some p }.

(** A history of changes. *)
Inductive change := Update (i : nat) (p : pt2) | Remove (i : nat) | Retarget (t : target A).
(** What it means for the points seen. *)
Definition see (c : change) (s : target A * sighting) : target A * sighting :=
  let (t, f) := s in
  match c with
  | Update i p => (t, fun k => if (k =? i) && (i <? tsize t) then Some p else f k)
  | Remove i => (t, fun k => if k =? i then None else f k)
  | Retarget t' => (t', none_seen)
  end.
(** What the library does; a refused change leaves the observation as it was. *)
Definition apply_change (c : change) (o : observation A T) : outcome (observation A T) :=
  match c with
  | Update i p => match update_point A T i p o with Throw => Ok o | r => r end
  | Remove i => match remove_point A T i o with Throw => Ok o | r => r end
  | Retarget t' => Ok (set_target A T t' o)
  end.
Fixpoint apply_changes (cs : list change) (o : observation A T) : outcome (observation A T) :=
  match cs with [] => Ok o | c :: r => do o' <- apply_change c o; apply_changes r o' end.
Definition change_ok (c : change) : Prop := match c with Retarget t => target_ok t | _ => True end.
End ObsSpec.
Arguments none_seen {A}. Arguments seen_at {A}. Arguments visible {A}. Arguments target_ok {A}.
Arguments Update {A}. Arguments Remove {A}. Arguments Retarget {A}. Arguments see {A}.

(** Statistics of a list of reals. *)
Section Statistics.
Open Scope R_scope.
Fixpoint sum (l : list R) : R := match l with [] => 0 | x :: r => x + sum r end.
Definition mean (l : list R) : R := sum l / INR (length l).
Definition deviation (l : list R) : R :=
  sqrt (sum (map (fun x => (x - mean l) ^ 2) l) / INR (length l)).
Definition gap (p q : R * R) : R := sqrt ((fst p - fst q) ^ 2 + (snd p - snd q) ^ 2).
End Statistics.
