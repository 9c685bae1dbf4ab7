(** * What a format string stands for *)
From Coq Require Import Ascii String List Bool.
From Verif Require Import Base FmtModel.
Import ListNotations.

(** A small or capital letter, or a bar. *)
Definition letter (c : ascii) : Prop := In c (lit "abcdefghijklmnopqrstuvwxyz|ABCDEFGHIJKLMNOPQRSTUVWXYZ").
(** A field with its name. *)
Definition written (n : text) : text := lit "${" ++ n ++ lit "}".
Definition name (n : text) : Prop := n <> [] /\ Forall letter n.
(** The text begins with a field. *)
Definition begins (s n r : text) : Prop := name n /\ s = written n ++ r.
(** A format with each field, from the left, replaced by its value. *)
Inductive expands (v : text -> text) : text -> text -> Prop :=
| Done : expands v [] []
| Replace n s out : name n -> expands v s out -> expands v (written n ++ s) (v n ++ out)
| Copy c s out : (forall n r, ~ begins (c :: s) n r) -> expands v s out -> expands v (c :: s) (c :: out).
