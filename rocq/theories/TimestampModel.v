(** Model of sm::timing::TimestampCorrector
    (Schweizer-Messer/sm_timing/include/sm_timing/implementation/TimestampCorrector.hpp,
    TimestampCorrector.hpp).
    Simplification: the time type is exact rationals (the code uses double: no
    rounding is modelled). *)
From Coq Require Import ZArith QArith List Bool.
From Verif Require Import Base.
Import ListNotations.
Open Scope Q_scope.

(** TimestampCorrector.hpp:85-100 *)
Notation point := (Q * Q)%type.   (* remote time x, local time y *)
Definition px (p : point) : Q := fst p.
Definition py (p : point) : Q := snd p.

Definition ltb (a b : Q) : bool := negb (Qle_bool b a).

(** State: the vector _convexHull with its back first, and _midpointSegmentIndex. *)
Record corrector := Corrector { hull : list point; mid : nat }.
(** implementation/TimestampCorrector.hpp:7 *)
Definition fresh : corrector := Corrector [] 0.

(** implementation/TimestampCorrector.hpp:121-130 *)
Definition is_above_line (l1 l2 p : point) : bool :=
  let v1x := px l2 - px l1 in let v1y := py l2 - py l1 in
  let v2x := px p - px l1 in let v2y := py p - py l1 in
  Qle_bool 0 (v1x * v2y - v1y * v2x).

(** 106-119 *)
Definition is_above_top_line (h : list point) (p : point) : bool :=
  match h with
  | t1 :: t2 :: _ => is_above_line t2 t1 p
  | _ => true
  end.

(** 35-38: the pop loop *)
Fixpoint pop_loop (h : list point) (p : point) : list point :=
  match h with
  | t1 :: (t2 :: _) as r => if is_above_line t2 p t1 then pop_loop r p else h
  | _ => h
  end.

(** 29-42 *)
Definition push (h : list point) (p : point) : list point :=
  p :: (if is_above_top_line h p then h else pop_loop h p).

(** std::lower_bound on the vector (front first), by its contract on sorted ranges:
    the number of leading elements with x < m. *)
Fixpoint lower_bound (l : list point) (m : Q) : nat :=
  match l with
  | [] => 0
  | a :: r => if ltb (px a) m then S (lower_bound r m) else 0
  end.

(** 92-104: getLocalTime; the indexing is unchecked. *)
Definition segment (c : corrector) : outcome (point * point) :=
  let v := rev (hull c) in
  match nth_error v (mid c), nth_error v (S (mid c)) with
  | Some l1, Some l2 => Ok (l1, l2)
  | _, _ => UB
  end.
Definition enough (c : corrector) : bool := (2 <=? length (hull c))%nat.
Definition get_local_time (c : corrector) (remote : Q) : outcome Q :=
  if enough c then
    do '(l1, l2) <- segment c;
    Ok (py l1 + ((remote - px l1) * (py l2 - py l1) / (px l2 - px l1)))
  else Throw.
(** 68-78 *)
Definition get_slope (c : corrector) : outcome Q :=
  if enough c then
    do '(l1, l2) <- segment c; Ok ((py l2 - py l1) / (px l2 - px l1))
  else Throw.
(** 80-89 *)
Definition get_offset (c : corrector) : outcome Q :=
  if enough c then
    do '(l1, l2) <- segment c; Ok (py l1 + (- px l1 * (py l2 - py l1) / (px l2 - px l1)))
  else Throw.

(** 44-66: the midpoint index; [lbit - begin - 1] is unsigned and wraps below zero. *)
Definition mid_index (h : list point) (remote : Q) : outcome nat :=
  match rev h with
  | [] => UB
  | first :: _ =>
      match lower_bound (rev h) ((px first + remote) / 2) with
      | O => UB
      | S k => Ok k
      end
  end.

(** 21-66  correctTimestamp *)
Definition correct (c : corrector) (remote local : Q) : outcome (corrector * Q) :=
  let ok := match hull c with [] => true | top :: _ => ltb (px top) remote end in
  if ok then
    let h := push (hull c) (remote, local) in
    if (3 <=? length h)%nat then
      do m <- mid_index h remote;
      let c' := Corrector h m in
      do v <- get_local_time c' remote;
      Ok (c', v)
    else Ok (Corrector h (mid c), local)
  else Throw.

(** A history of calls; a call that throws leaves the object as it was (the check
    comes first). *)
Fixpoint feed (c : corrector) (samples : list point) : outcome corrector :=
  match samples with
  | [] => Ok c
  | (x, y) :: r =>
      match correct c x y with
      | Ok (c', _) => feed c' r
      | Throw => feed c r
      | UB => UB
      | Hang => Hang
      end
  end.
