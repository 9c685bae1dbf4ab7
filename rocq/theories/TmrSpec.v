(** * Timers by tags: every tag has the list of its finished intervals *)
From Coq Require Import Reals ZArith List String Bool Arith.
From Verif Require Import TmrModel.
Import ListNotations.
Local Open Scope R_scope.

(** Tags in the order of their first use, the samples of every tag (newest first) and the
    existing timers: their tag and, if running, when they were started. *)
Record book := Book { order : list string; samples : string -> list R; running : nat -> option (string * option R) }.
Definition empty : book := Book [] (fun _ => []) (fun _ => None).
Definition known (tag : string) (b : book) : bool := existsb (String.eqb tag) (order b).
Definition mention (tag : string) (b : book) : book := if known tag b then b else Book (order b ++ [tag]) (samples b) (running b).
Fixpoint position (tag : string) (l : list string) : nat := match l with [] => 0%nat | t :: r => if String.eqb t tag then 0%nat else S (position tag r) end.
Definition record (tag : string) (f : list R -> list R) (b : book) : book :=
  Book (order b) (fun t => if String.eqb t tag then f (samples b t) else samples b t) (running b).
Definition put (o : nat) (v : option (string * option R)) (b : book) : book :=
  Book (order b) (samples b) (fun k => if Nat.eqb k o then v else running b k).

Definition sum (l : list R) : R := fold_right Rplus 0 l.
Definition average (l : list R) : option R := match l with [] => None | _ => Some (sum l / INR (List.length l)) end.
Fixpoint least (l : list R) : option R := match l with [] => None | x :: r => Some (match least r with None => x | Some m => Rmin m x end) end.
Fixpoint greatest (l : list R) : option R := match l with [] => None | x :: r => Some (match greatest r with None => x | Some m => Rmax m x end) end.
Definition summary (l : list R) : stats :=
  Stats (List.length l) (sum l) (average l)
        (match average l with None => None | Some m => average (map (fun x => (x - m) * (x - m)) l) end)
        (least l) (greatest l)
        (match average (firstn 50 l) with None => None | Some m => if Req_EM_T m 0 then None else Some (1 / m) end).

Definition spec_step (b : book) (c : op) : book * result :=
  match c with
  | NewTag o tag stopped t =>
      match running b o with Some _ => (b, NotAnObject) | None => (put o (Some (tag, if stopped then None else Some t)) (mention tag b), Done) end
  | NewHandle o h stopped t =>
      match running b o with Some _ => (b, NotAnObject) | None =>
        match nth_error (order b) h with Some tag => (put o (Some (tag, if stopped then None else Some t)) b, Done) | None => (b, Throws) end end
  | Start o t =>
      match running b o with None => (b, NotAnObject) | Some (tag, Some _) => (b, Throws) | Some (tag, None) => (put o (Some (tag, Some t)) b, Done) end
  | Stop o t =>
      match running b o with None => (b, NotAnObject) | Some (tag, None) => (b, Throws)
      | Some (tag, Some s) => (put o (Some (tag, None)) (record tag (cons (t - s)) b), Done) end
  | Delete o t =>
      match running b o with None => (b, NotAnObject) | Some (tag, None) => (put o None b, Done)
      | Some (tag, Some s) => (put o None (record tag (cons (t - s)) b), Done) end
  | Copy o src => match running b o, running b src with None, Some x => (put o (Some x) b, Done) | _, _ => (b, NotAnObject) end
  | ResetTag tag => (record tag (fun _ => []) (mention tag b), Done)
  | ResetHandle h => match nth_error (order b) h with Some tag => (record tag (fun _ => []) b, Done) | None => (b, Throws) end
  | GetHandle tag => let b1 := mention tag b in (b1, Handle (position tag (order b1)))
  | GetTag h => (b, match nth_error (order b) h with Some tag => Tag tag | None => Throws end)
  | QueryTag tag => (mention tag b, Statistics (summary (samples b tag)))
  | QueryHandle h => (b, match nth_error (order b) h with Some tag => Statistics (summary (samples b tag)) | None => Throws end)
  end.
Fixpoint spec_run (b : book) (l : list op) : book * list result :=
  match l with [] => (b, []) | c :: r => let (b1, x) := spec_step b c in let (b2, xs) := spec_run b1 r in (b2, x :: xs) end.

(** The clock that is read is local time: universal time plus an offset that changes (by
    3600 seconds, twice a year, in most places). *)
Definition local (offset : R -> R) (t : R) : R := t + offset t.
(** Seconds a printed time stands for *)
Definition seconds_of (p : Z * Z * Z) : R := let '(h, m, u) := p in 3600 * IZR h + 60 * IZR m + IZR u / 1000000.
