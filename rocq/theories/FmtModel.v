(** * Format strings of the logger

    /repo/Schweizer-Messer/sm_logging/src/Formatter.cpp and
    include/sm_logging/logging/Tokens.hpp.  A text is a list of characters.  The regular
    expression of init, "${" then letters or bars then "}", is modelled by hand; regex_search
    finds the leftmost match.  Simplifications: the number of the thread is given with the
    event; texts have no zero character (getString goes through c_str); colours and the end of
    the line, which print adds around the text, are left out. *)
From Coq Require Import Ascii String List Bool Arith ZArith.
From Verif Require Import Base.
Import ListNotations.
Local Open Scope nat_scope.

Definition text := list ascii.
Definition lit (s : string) : text := list_ascii_of_string s.
(** The class [a-z|A-Z]. *)
Definition name_char (c : ascii) : bool :=
  let n := nat_of_ascii c in
  ((97 <=? n) && (n <=? 122)) || ((65 <=? n) && (n <=? 90)) || (n =? 124).
(** The rest of a field, after "${" and [acc] reversed: letters up to "}". *)
Fixpoint field_rest (acc : text) (s : text) : option (text * text) :=
  match s with
  | [] => None
  | c :: s =>
      if name_char c then field_rest (c :: acc) s
      else if Ascii.eqb c "}" then match acc with [] => None | _ => Some (rev acc, s) end
      else None
  end.
Definition field_at (s : text) : option (text * text) :=
  match s with
  | a :: b :: s => if Ascii.eqb a "$" && Ascii.eqb b "{" then field_rest [] s else None
  | _ => None
  end.
(** regex_search: what is before the leftmost field, its name, and what is after it. *)
Fixpoint search (s : text) : option (text * text * text) :=
  match field_at s with
  | Some (n, r) => Some ([], n, r)
  | None =>
      match s with
      | [] => None
      | c :: s => match search s with Some (p, n, r) => Some (c :: p, n, r) | None => None end
      end
  end.
Inductive token := Fixed (t : text) | Field (n : text).
(** The loop of init, Formatter.cpp 57-73, with the text last left over. *)
Fixpoint tokens (fuel : nat) (s : text) (last : option text) : list token * option text :=
  match fuel with
  | O => ([], last)
  | S fuel =>
      match search s with
      | Some (p, n, r) => let '(l, e) := tokens fuel r (Some r) in (Fixed p :: Field n :: l, e)
      | None => ([], last)
      end
  end.
(** init, Formatter.cpp 47-83: appends to the tokens there are. *)
Definition init (old : list token) (fmt : text) : list token :=
  let '(l, e) := tokens (S (length fmt)) fmt None in
  old ++ l ++ [Fixed (match e with Some r => r | None => fmt end)].

Record event := Event {
  level : Z; message : text; time : text; thread : text; file : text; line : text; function : text; stream : text
}.
(** SeverityToken: Tokens.hpp 86-140. *)
Definition severity (l : Z) : text :=
  lit (if l =? 10 then "FATAL" else if l =? 9 then "ERROR" else if l =? 8 then " WARN" else if l =? 7 then " INFO"
       else if l =? 6 then "DEBUG" else if l =? 5 then " FINE" else if l =? 4 then "TRACE" else if l =? 3 then "FINER"
       else if l =? 2 then "VERBO" else if l =? 1 then "FINES" else if l =? 0 then "  ALL" else "UNKNO")%Z%string.
Definition text_eqb (a b : text) : bool := if list_eq_dec Ascii.ascii_dec a b then true else false.
(** createTokenFromType and the getString of the token made: Formatter.cpp 8-44, Tokens.hpp
    55-235; [extra] is the map of additional fields. *)
Definition field_value (extra : list (text * text)) (e : event) (n : text) : text :=
  if text_eqb n (lit "severity") then severity (level e)
  else if text_eqb n (lit "message") then message e
  else if text_eqb n (lit "time") then time e
  else if text_eqb n (lit "thread") then thread e
  else if text_eqb n (lit "file") then file e
  else if text_eqb n (lit "line") then line e
  else if text_eqb n (lit "function") then function e
  else if text_eqb n (lit "streamname") then stream e
  else match find (fun p => text_eqb n (fst p)) extra with
       | Some p => snd p
       | None => lit "${" ++ n ++ lit "}"
       end.
(** print, Formatter.cpp 137-142. *)
Definition print (v : text -> text) (l : list token) : text :=
  concat (map (fun t => match t with Fixed s => s | Field n => v n end) l).
