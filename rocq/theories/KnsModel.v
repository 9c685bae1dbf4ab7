(** * Refining the knots of a rolling-shutter calibration

    Models aslam_offline_calibration/kalibr/python/kalibr_rs_camera_calibration/
    ReprojectionErrorKnotSequenceUpdateStrategy.py (lines 26-182).  Times and
    errors are integers in place of doubles, so a middle is rounded down.  The
    segments disabled for want of improvement (lines 168-190) are a parameter,
    and the errors come in time order (lines 84-97). *)
From Coq Require Import ZArith List Arith Bool.
Import ListNotations.
Local Open Scope Z_scope.

(** __time2KnotSection, lines 150-158; [None] is (-1,-1). *)
Fixpoint sect (t : Z) (i : nat) (l : list Z) : option nat :=
  match l with
  | a :: ((b :: _) as r) => if (a <? t) && (t <? b) then Some i else sect t (S i) r
  | _ => None
  end.
Definition time2section (t : Z) (knots : list Z) (prev : option nat) : option nat :=
  let i := match prev with Some i => i | None => 0%nat end in sect t i (skipn i knots).

(** [errorPerSegment[k] += e] and [errorTermsPerSegment[k] += 1], lines 107-108;
    the index -1 is the last. *)
Fixpoint bump (k : nat) (e : Z) (l : list (Z * Z)) : list (Z * Z) :=
  match l, k with
  | [], _ => []
  | (x, n) :: r, O => (x + e, n + 1) :: r
  | y :: r, S k' => y :: bump k' e r
  end.

(** __getErrorPerSegment, lines 99-110. *)
Fixpoint per_segment_from (data : list (Z * Z)) (knots : list Z) (prev : option nat) (acc : list (Z * Z)) : list (Z * Z) :=
  match data with
  | [] => acc
  | (t, e) :: r =>
      let s := time2section t knots prev in
      let k := match s with Some i => i | None => (length acc - 1)%nat end in
      per_segment_from r knots s (bump k e acc)
  end.
Definition per_segment (data : list (Z * Z)) (knots : list Z) : list (Z * Z) :=
  per_segment_from data knots None (repeat (0, 0) (length knots)).

(** __removeSegmentsWithoutObservations, lines 112-125: the knots kept. *)
Fixpoint kept_from (n i : nat) (p : Z) (errs knots : list Z) : list Z :=
  match errs, knots with
  | e :: es, k :: ks =>
      if (p =? 0) && (e =? 0) && (6 <? i)%nat && (i <? n - 6)%nat then kept_from n (S i) e es ks
      else k :: kept_from n (S i) e es ks
  | _, _ => []
  end.
Definition kept (errs knots : list Z) : list Z := kept_from (length errs) 0 0 errs knots.

(** The segments disabled by it, line 120. *)
Fixpoint disabled_from (n i : nat) (p : Z) (errs knots : list Z) (all : list Z) : list (Z * Z) :=
  match errs, knots with
  | e :: es, _ :: ks =>
      (if (p =? 0) && (e =? 0) && (6 <? i)%nat && (i <? n - 6)%nat
       then [(nth (i - 1) all 0, nth (i + 1) all 0)] else []) ++ disabled_from n (S i) e es ks all
  | _, _ => []
  end.

(** __isSegmentDisabled, lines 162-166. *)
Definition is_disabled (dis : list (Z * Z)) (t : Z) : bool :=
  existsb (fun seg => (t <? snd seg) && (fst seg <=? t)) dis.

(** __generateKnotSequence, lines 127-148. *)
Definition extra (maxk : Z) (dis : list (Z * Z)) (en : Z * Z) (a : Z) (ks : list Z) : list Z :=
  match ks with
  | [] => []
  | b :: _ =>
      let m := (a + b) / 2 in
      if (snd en <? fst en) && negb (m - a <=? maxk) && negb (is_disabled dis m) then [m] else []
  end.
Fixpoint gen (maxk : Z) (dis : list (Z * Z)) (errs : list (Z * Z)) (knots : list Z) : list Z :=
  match errs, knots with
  | en :: es, a :: ks => a :: extra maxk dis en a ks ++ gen maxk dis es ks
  | _, _ => []
  end.

(** generateKnotList, lines 26-53. *)
Definition knot_list (maxk : Z) (data : list (Z * Z)) (knots : list Z) (dis : list (Z * Z)) : list Z :=
  let errs := map fst (per_segment data knots) in
  let dis' := dis ++ disabled_from (length errs) 0 0 errs knots knots in
  gen maxk dis' (per_segment data (kept errs knots)) knots.

(** getUpdatedSpline, lines 65-76: the knots of the new spline; [None] is the
    IndexError of a loop that runs off the list. *)
Fixpoint before (x : Z) (l : list Z) : option (list Z) :=
  match l with
  | [] => None
  | y :: r => if y <? x then match before x r with Some p => Some (y :: p) | None => None end else Some []
  end.
Fixpoint after (x : Z) (rev_old acc : list Z) : option (list Z) :=
  match rev_old with
  | [] => None
  | y :: r => if x <? y then after x r (y :: acc) else Some (y :: acc)
  end.
Definition extended (old knots : list Z) : option (list Z) :=
  match knots with
  | [] => None
  | k :: _ =>
      match before k old with
      | None => None
      | Some p =>
          match after (last knots 0) (rev old) [] with
          | None => None
          | Some q => Some (p ++ knots ++ q)
          end
      end
  end.
