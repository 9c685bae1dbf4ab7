(** * The logging system (sm_logging: LoggingGlobals.cpp, console.hpp)

    Two models: what the calls do, one after the other ([step]), and which locks they
    take, in any interleaving of threads ([lock_step]). Times and rates are whole numbers
    of one unit (the clock gives whole microseconds); formatting of messages, the text of
    warnings on stderr and statements hit by the logger itself are left out. *)
From Coq Require Import ZArith List String Bool Arith.
Import ListNotations.
Local Open Scope Z_scope.

(** ** Sequential behaviour *)
(** LogLocation.hpp:6-15, once it is initialised *)
Record location := Loc { l_name : string; l_level : Z; l_enabled : bool }.
(** LoggingGlobals.hpp:78-100; [hit] and [last_hit] are the static variables of the
    statements (console.hpp:136, :170) *)
Record world := World { level : Z; names : list string; locs : nat -> option location; registered : list nat;
  hit : nat -> bool; last_hit : nat -> Z; shutting_down : bool; printing : option nat }.
Definition upd {A} (f : nat -> A) (k : nat) (v : A) : nat -> A := fun x => if Nat.eqb x k then v else f x.

(** LoggingGlobals.cpp:100-105 *)
Definition named_enabled (w : world) (n : string) : bool := existsb (String.eqb n) (names w).
(** checkLogLocationEnabledNoLock, LoggingGlobals.cpp:42-44 *)
Definition check (w : world) (l : location) : location :=
  Loc (l_name l) (l_level l) (Z.leb (level w) (l_level l) && (String.eqb (l_name l) "" || named_enabled w (l_name l))).
Definition set_loc (w : world) (s : nat) (l : location) : world :=
  World (level w) (names w) (upd (locs w) s (Some l)) (registered w) (hit w) (last_hit w) (shutting_down w) (printing w).
(** notifyLoggerLevelsChanged, LoggingGlobals.cpp:86-97 *)
Definition notify (w : world) : world :=
  fold_left (fun w s => match locs w s with Some l => set_loc w s (check w l) | None => w end) (registered w) w.
(** initializeLogLocation, LoggingGlobals.cpp:46-62 *)
Definition initialize (w : world) (s : nat) (name : string) (lvl : Z) : world :=
  match locs w s with
  | Some _ => w
  | None => let w1 := World (level w) (names w) (locs w) (registered w ++ [s]) (hit w) (last_hit w) (shutting_down w) (printing w) in
            set_loc w1 s (check w1 (Loc name lvl false))
  end.
(** LoggingGlobals.cpp:107-121, :239-247, constructor :11-18 ("sm" is the default name) *)
Definition enable (w : world) (n : string) : world :=
  notify (World (level w) (if existsb (String.eqb n) (names w) then names w else n :: names w) (locs w) (registered w) (hit w) (last_hit w) (shutting_down w) (printing w)).
Definition disable (w : world) (n : string) : world :=
  if existsb (String.eqb n) (names w)
  then notify (World (level w) (filter (fun m => negb (String.eqb n m)) (names w)) (locs w) (registered w) (hit w) (last_hit w) (shutting_down w) (printing w))
  else w.
Definition set_level (w : world) (l : Z) : world :=
  if Z.eqb l (level w) then w else notify (World l (names w) (locs w) (registered w) (hit w) (last_hit w) (shutting_down w) (printing w)).
Definition init : world := enable (World 7 [] (fun _ => None) [] (fun _ => false) (fun _ => 0) false None) "sm".

(** The kinds of logging statements: SM_LOG_COND, _ONCE, _THROTTLE (console.hpp:102-189) *)
Inductive kind := Cond (c : bool) | Once | Throttle (rate now : Z).
(** What the logger does with a message: returns, throws a std::exception, or throws
    something else *)
Inductive behaviour := Returns | ThrowsStd | ThrowsOther.
Record event := Event { e_stream : string; e_level : Z; e_message : string }.
Inductive op :=
| Hit (s : nat) (thread : nat) (lvl : Z) (name : string) (k : kind) (msg : string) (b : behaviour)
| SetLevel (l : Z) | Enable (n : string) | Disable (n : string) | Shutdown.

(** SMCONSOLE_DEFINE_LOCATION, console.hpp:67-78 *)
Definition define_location (w : world) (s : nat) (lvl : Z) (name : string) : world :=
  let w1 := initialize w s name lvl in
  match locs w1 s with
  | Some l => if Z.eqb (l_level l) lvl then w1 else set_loc w1 s (check w1 (Loc (l_name l) lvl (l_enabled l)))
  | None => w1
  end.
(** LoggingGlobals::print, LoggingGlobals.cpp:165-229: an exception that is not a
    std::exception leaves [_printing_thread_id] as it is *)
Definition print (w : world) (thread : nat) (e : event) (b : behaviour) : world * option event :=
  if shutting_down w then (w, None)
  else if match printing w with Some t => Nat.eqb t thread | None => false end then (w, None)
  else (World (level w) (names w) (locs w) (registered w) (hit w) (last_hit w) (shutting_down w) (match b with ThrowsOther => Some thread | _ => None end), Some e).
Definition step (w : world) (o : op) : world * option event :=
  match o with
  | SetLevel l => (set_level w l, None)
  | Enable n => (enable w n, None)
  | Disable n => (disable w n, None)
  | Shutdown => (World (level w) (names w) (locs w) (registered w) (hit w) (last_hit w) true (printing w), None)
  | Hit s thread lvl name k msg b =>
      let w1 := define_location w s lvl name in
      match locs w1 s with
      | None => (w1, None)
      | Some l =>
          let e := Event (l_name l) (l_level l) msg in
          match k with
          | Cond c => if l_enabled l && c then print w1 thread e b else (w1, None)
          | Once =>
              if l_enabled l && negb (hit w1 s)
              then print (World (level w1) (names w1) (locs w1) (registered w1) (upd (hit w1) s true) (last_hit w1) (shutting_down w1) (printing w1)) thread e b
              else (w1, None)
          | Throttle rate now =>
              if l_enabled l && Z.leb (last_hit w1 s + rate) now
              then print (World (level w1) (names w1) (locs w1) (registered w1) (hit w1) (upd (last_hit w1) s now) (shutting_down w1) (printing w1)) thread e b
              else (w1, None)
          end
      end
  end.
Fixpoint run (w : world) (l : list op) : world * list (option event) :=
  match l with [] => (w, []) | o :: r => let (w1, x) := step w o in let (w2, xs) := run w1 r in (w2, x :: xs) end.

(** ** Locks *)
Inductive lock := Locations | Streams | Printer.
Inductive act := Acq (l : lock) | Rel (l : lock).
(** [_named_stream_mutex] is a boost::recursive_mutex (LoggingGlobals.hpp:92), the others
    are not *)
Definition recursive (l : lock) : bool := match l with Streams => true | _ => false end.
(** Calls with the locks they take; [k] is how many locations have to ask for their
    stream (level high enough, name not empty) *)
Inductive call := IsEnabled | CallInit (first : bool) | CallSetLocLevel | CallCheck (asks : bool) | CallNotify (k : nat) | CallPrint | CallEnable (k : nat) | CallDisable (present : option nat).
Definition is_enabled_acts : list act := [Acq Streams; Rel Streams].
Fixpoint asks (k : nat) : list act := match k with O => [] | S j => is_enabled_acts ++ asks j end.
Definition notify_acts (k : nat) : list act := [Acq Locations] ++ asks k ++ [Rel Locations].
Definition acts (c : call) : list act :=
  match c with
  | IsEnabled => is_enabled_acts
  | CallInit first => [Acq Locations] ++ (if first then is_enabled_acts else []) ++ [Rel Locations]
  | CallSetLocLevel => [Acq Locations; Rel Locations]
  | CallCheck a => [Acq Locations] ++ (if a then is_enabled_acts else []) ++ [Rel Locations]
  | CallNotify k => notify_acts k
  | CallPrint => [Acq Printer; Rel Printer]
  | CallEnable k => [Acq Streams] ++ notify_acts k ++ [Rel Streams]
  | CallDisable p => [Acq Streams] ++ match p with Some k => notify_acts k | None => [] end ++ [Rel Streams]
  end.
(** A thread: the locks it holds (latest first) and what it still does. *)
Record thread := Thread { held : list lock; todo : list act }.
Definition lock_eqb (a b : lock) : bool := match a, b with Locations, Locations | Streams, Streams | Printer, Printer => true | _, _ => false end.
Definition holds (l : lock) (t : thread) : bool := existsb (lock_eqb l) (held t).
(** May thread [i] acquire [l]? Nobody else holds it, and it does not itself unless the
    lock is recursive. *)
Fixpoint free_for (l : lock) (i : nat) (ts : list thread) : bool :=
  match ts with
  | [] => true
  | t :: r => match i with
              | O => (negb (holds l t) || recursive l) && forallb (fun u => negb (holds l u)) r
              | S j => negb (holds l t) && free_for l j r
              end
  end.
Fixpoint remove1 (l : lock) (h : list lock) : list lock :=
  match h with [] => [] | x :: r => if lock_eqb l x then r else x :: remove1 l r end.
(** One action of thread [i], if it can be done now *)
Definition lock_step (ts : list thread) (i : nat) : option (list thread) :=
  match nth_error ts i with
  | Some (Thread h (Acq l :: r)) => if free_for l i ts then Some (firstn i ts ++ Thread (l :: h) r :: skipn (S i) ts) else None
  | Some (Thread h (Rel l :: r)) => if existsb (lock_eqb l) h then Some (firstn i ts ++ Thread (remove1 l h) r :: skipn (S i) ts) else None
  | _ => None
  end.
Definition start (p : list (list call)) : list thread := map (fun cs => Thread [] (flat_map acts cs)) p.
Inductive reach (p : list (list call)) : list thread -> Prop :=
| reach_start : reach p (start p)
| reach_step ts i ts' : reach p ts -> lock_step ts i = Some ts' -> reach p ts'.
