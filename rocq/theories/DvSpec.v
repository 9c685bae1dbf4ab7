(** * Specification of design variables: one level of undo

    A history is read from its end.  The value after it depends on the last
    operation: a step moves the value before, setting parameters replaces it,
    a revert takes back the last of these, and reverting again has no further
    effect. *)

From Coq Require Import Reals List.
From Verif Require Import DvModel.
Import ListNotations.

Section History.
  Context {X : Type} (v0 : X) (apply : X -> list R -> X) (assign : list R -> X).

  (** [value_after l]: [l] is the history, most recent operation first. *)
  Fixpoint value_after (l : list op) : X :=
    let fix undone (l : list op) : X :=
      match l with
      | [] => v0
      | ORevert :: l' => undone l'
      | _ :: l' => value_after l'
      end in
    match l with
    | [] => v0
    | OUpdate d :: l' => apply (value_after l') d
    | OSet m :: l' => assign (mdata m)
    | ORevert :: l' => undone l'
    end.
End History.

(** The operations have the shapes the variable expects: steps of [n] and
    parameters of [p] numbers. *)
Definition well_sized (n p : nat) (o : op) : Prop :=
  match o with
  | OUpdate d => length d = n
  | ORevert => True
  | OSet m => mrows m = p /\ mcols m = 1%nat /\ length (mdata m) = p
  end.
