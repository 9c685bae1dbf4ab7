(** * Named timers and their statistics (sm_timing/Timer.hpp, src/Timer.cpp)

    Times are reals (seconds of the clock that is read). boost::accumulators is modelled
    by what it keeps: the number, the sum, the sum of squares, the least and greatest
    value and the last fifty values. The registry is the singleton [Timing::instance()];
    threads are left out. *)
From Flocq Require Import Core.
From Coq Require Import Reals ZArith List String Bool Arith.
Import ListNotations.
Local Open Scope R_scope.

(** Timer.hpp:34-48 *)
Record acc := Acc { a_count : nat; a_sum : R; a_squares : R; a_min : option R; a_max : option R; a_window : list R }.
Definition no_samples : acc := Acc 0 0 0 None None [].
Definition acc_add (a : acc) (x : R) : acc :=
  Acc (S (a_count a)) (a_sum a + x) (a_squares a + x * x)
      (Some (match a_min a with None => x | Some m => Rmin m x end))
      (Some (match a_max a with None => x | Some m => Rmax m x end))
      (firstn 50 (x :: a_window a)).

(** Timer.hpp:83-86 *)
Record timer := Timer { m_timing : bool; m_handle : nat; m_time : R }.
(** The registry (Timer.hpp:120-130) and the timers that exist. *)
Record world := World { tag_map : list (string * nat); timers : list acc; objects : nat -> option timer }.
Definition init : world := World [] [] (fun _ => None).

Fixpoint find_tag (tag : string) (l : list (string * nat)) : option nat :=
  match l with [] => None | (t, h) :: r => if String.eqb t tag then Some h else find_tag tag r end.
Fixpoint find_handle (h : nat) (l : list (string * nat)) : option string :=
  match l with [] => None | (t, k) :: r => if Nat.eqb k h then Some t else find_handle h r end.
Fixpoint replace {A} (n : nat) (f : A -> A) (l : list A) : list A :=
  match l, n with [] , _ => [] | x :: r, 0%nat => f x :: r | x :: r, S m => x :: replace m f r end.
Definition set (m : nat -> option timer) (o : nat) (v : option timer) : nat -> option timer := fun k => if Nat.eqb k o then v else m k.

(** Timing::getHandle, Timer.cpp:28-42 *)
Definition get_handle (tag : string) (w : world) : nat * world :=
  match find_tag tag (tag_map w) with
  | Some h => (h, w)
  | None => let h := List.length (timers w) in (h, World ((tag, h) :: tag_map w) (timers w ++ [no_samples]) (objects w))
  end.
(** Timer::start, Timer.cpp:91-101; [None] is the exception *)
Definition start (t : R) (x : timer) : option timer := if m_timing x then None else Some (Timer true (m_handle x) t).
(** Timer::stop, Timer.cpp:103-119, and Timing::addTime, :127-129 *)
Definition stop (t : R) (x : timer) (w : world) : option (timer * world) :=
  if m_timing x then
    Some (Timer false (m_handle x) (m_time x), World (tag_map w) (replace (m_handle x) (fun a => acc_add a (t - m_time x)) (timers w)) (objects w))
  else None.

(** What a query gives: number of samples, total, mean, variance, least, greatest, Hz;
    no number stands for a division by zero or for the limits of an empty accumulator. *)
Record stats := Stats { n_samples : nat; s_total : R; s_mean : option R; s_variance : option R; s_min : option R; s_max : option R; s_hz : option R }.
Definition quotient (a b : R) : option R := if Req_EM_T b 0 then None else Some (a / b).
(** Timer.cpp:131-182 *)
Definition query (a : acc) : stats :=
  let n := INR (a_count a) in
  Stats (a_count a) (a_sum a) (quotient (a_sum a) n)
        (match quotient (a_squares a) n, quotient (a_sum a) n with Some m2, Some m => Some (m2 - m * m) | _, _ => None end)
        (a_min a) (a_max a)
        (match quotient (fold_right Rplus 0 (a_window a)) (INR (List.length (a_window a))) with Some m => quotient 1 m | None => None end).

Inductive op :=
| NewTag (o : nat) (tag : string) (stopped : bool) (t : R)
| NewHandle (o : nat) (h : nat) (stopped : bool) (t : R)
| Start (o : nat) (t : R) | Stop (o : nat) (t : R) | Delete (o : nat) (t : R) | Copy (o : nat) (src : nat)
| ResetTag (tag : string) | ResetHandle (h : nat)
| GetHandle (tag : string) | GetTag (h : nat)
| QueryTag (tag : string) | QueryHandle (h : nat).
(** [NotAnObject]: there is no such timer (or there is one already), not a call the
    program can make *)
Inductive result := Done | Handle (h : nat) | Tag (t : string) | Statistics (s : stats) | Throws | NotAnObject.

Definition with_object (w : world) (o : nat) (v : option timer) : world := World (tag_map w) (timers w) (set (objects w) o v).
Definition step (w : world) (c : op) : world * result :=
  match c with
  (* Timer.cpp:78-84 *)
  | NewTag o tag stopped t =>
      match objects w o with Some _ => (w, NotAnObject) | None =>
        let (h, w1) := get_handle tag w in
        (with_object w1 o (Some (if stopped then Timer false h 0 else Timer true h t)), Done)
      end
  (* Timer.cpp:67-76 *)
  | NewHandle o h stopped t =>
      match objects w o with Some _ => (w, NotAnObject) | None =>
        if Nat.ltb h (List.length (timers w)) then (with_object w o (Some (if stopped then Timer false h 0 else Timer true h t)), Done)
        else (w, Throws)
      end
  | Start o t =>
      match objects w o with None => (w, NotAnObject) | Some x =>
        match start t x with Some y => (with_object w o (Some y), Done) | None => (w, Throws) end
      end
  | Stop o t =>
      match objects w o with None => (w, NotAnObject) | Some x =>
        match stop t x w with Some (y, w1) => (with_object w1 o (Some y), Done) | None => (w, Throws) end
      end
  (* Timer.cpp:86-89 *)
  | Delete o t =>
      match objects w o with None => (w, NotAnObject) | Some x =>
        match stop t x w with Some (_, w1) => (with_object w1 o None, Done) | None => (with_object w o None, Done) end
      end
  (* the copy constructor the compiler supplies *)
  | Copy o src =>
      match objects w o, objects w src with None, Some x => (with_object w o (Some x), Done) | _, _ => (w, NotAnObject) end
  (* Timer.cpp:189-197 *)
  | ResetHandle h =>
      if Nat.ltb h (List.length (timers w)) then (World (tag_map w) (replace h (fun _ => no_samples) (timers w)) (objects w), Done) else (w, Throws)
  | ResetTag tag =>
      let (h, w1) := get_handle tag w in
      (World (tag_map w1) (replace h (fun _ => no_samples) (timers w1)) (objects w1), Done)
  | GetHandle tag => let (h, w1) := get_handle tag w in (w1, Handle h)
  (* Timer.cpp:45-62 *)
  | GetTag h => (w, match find_handle h (tag_map w) with Some t => Tag t | None => Throws end)
  | QueryHandle h => (w, match nth_error (timers w) h with Some a => Statistics (query a) | None => Throws end)
  | QueryTag tag =>
      let (h, w1) := get_handle tag w in
      (w1, match nth_error (timers w1) h with Some a => Statistics (query a) | None => Throws end)
  end.
Fixpoint run (w : world) (l : list op) : world * list result :=
  match l with [] => (w, []) | c :: r => let (w1, x) := step w c in let (w2, xs) := run w1 r in (w2, x :: xs) end.

(** Timing::secondsToTimeString, Timer.cpp:199-214: hours, minutes and the seconds as
    printed with six decimals, in millionths; [%09.6f] rounds to the nearest *)
Definition time_string (s : R) : Z * Z * Z :=
  let secs := s - 60 * IZR (Ztrunc (s / 60)) in
  let minutes := Ztrunc (s / 60) in
  let hours := Ztrunc (s / 3600) in
  (hours, (minutes - hours * 60)%Z, ZnearestE (secs * 1000000)).
