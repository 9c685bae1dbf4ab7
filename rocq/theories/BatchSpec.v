(** What a batch should contain after a history of calls, independently of how it is stored. *)
From Coq Require Import ZArith List Arith Bool.
From Verif Require Import BatchModel.
Import ListNotations.
Open Scope nat_scope.

Record contents := Contents {
  members : list (nat * nat);      (* variables with their groups, in order of addition *)
  errors : list nat;               (* error terms, in order of addition *)
  saved : nat -> option Z;         (* last saved value of each variable *)
  values : nat -> Z }.             (* current value of each variable *)

Definition member (d : nat) (c : contents) : bool := existsb (fun m => fst m =? d) (members c).

(** The variables of a group and the groups of a set of members. *)
Definition in_group (g : nat) (ms : list (nat * nat)) : list nat := map fst (filter (fun m => snd m =? g) ms).

Definition effect (uses : nat -> list nat) (c : contents) (o : op) : contents :=
  match o with
  | AddVariable (Some d) g =>
      if member d c then c else Contents (members c ++ [(d, g)]) (errors c) (saved c) (values c)
  | AddTerm (Some e) =>
      if existsb (Nat.eqb e) (errors c) then c
      else if forallb (fun d => member d c) (uses e) then Contents (members c) (errors c ++ [e]) (saved c) (values c)
      else c
  | Save => Contents (members c) (errors c) (fun d => if member d c then Some (values c d) else saved c d) (values c)
  | Restore => Contents (members c) (errors c) (saved c) (fun d => match saved c d with Some v => v | None => values c d end)
  | Clear => Contents [] [] (fun _ => None) (values c)
  | SetParameters d v => Contents (members c) (errors c) (saved c) (fun x => if x =? d then v else values c x)
  | _ => c
  end.
Definition contents_of (uses : nat -> list nat) (w0 : nat -> Z) (h : list op) : contents :=
  fold_left (effect uses) h (Contents [] [] (fun _ => None) w0).

(** When a call is accepted. *)
Definition accepted (uses : nat -> list nat) (c : contents) (o : op) : Prop :=
  match o with
  | AddVariable d _ => exists x, d = Some x /\ ~ In x (map fst (members c))
  | AddTerm e => exists x, e = Some x /\ ~ In x (errors c) /\ forall d, In d (uses x) -> In d (map fst (members c))
  | SetOrdering l => NoDup l /\ forall g, In g l <-> In g (map snd (members c))
  | _ => True
  end.
