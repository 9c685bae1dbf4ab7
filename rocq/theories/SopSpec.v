(** * What a user expects of the owner of variables and terms

    No control blocks and no counters: lists of objects, with a mark telling
    whether the list keeps the object alive. *)
From Coq Require Import List Arith Bool.
From Verif Require Import SopModel.
Import ListNotations.

(** The variables and the terms in the problem, in order and with the mark; the
    objects the user has pointers to; every object that was ever handed to an
    owner, once for each time. *)
Record book := mkBook { vars : list (nat * bool); terms : list (nat * bool);
                        mine : list nat; given : list nat }.
Definition blank : book := mkBook [] [] [] [].

Definition known (o : nat) (l : list nat) : bool := if in_dec Nat.eq_dec o l then true else false.

Fixpoint remove_one (o : nat) (l : list nat) : list nat :=
  match l with
  | [] => []
  | x :: r => if Nat.eq_dec x o then r else x :: remove_one o r
  end.

(** Whether a call is carried out. *)
Definition carried (b : book) (p : op) : bool :=
  match p with
  | AddDv o _ => negb (known o (map fst (vars b)))
  | AddDvShared o => known o (mine b) && negb (known o (map fst (vars b)))
  | AddEtShared o => known o (mine b)
  | Drop o => known o (mine b)
  | AddEt _ _ | Make _ | Clear => true
  end.

(** What a call that is carried out changes. *)
Definition enter (b : book) (p : op) : book :=
  let more own o := if own : bool then given b ++ [o] else given b in
  match p with
  | AddDv o own => mkBook (vars b ++ [(o, own)]) (terms b) (mine b) (more own o)
  | AddDvShared o => mkBook (vars b ++ [(o, true)]) (terms b) (mine b) (given b)
  | AddEt o own => mkBook (vars b) (terms b ++ [(o, own)]) (mine b) (more own o)
  | AddEtShared o => mkBook (vars b) (terms b ++ [(o, true)]) (mine b) (given b)
  | Make o => mkBook (vars b) (terms b) (o :: mine b) (more true o)
  | Drop o => mkBook (vars b) (terms b) (remove_one o (mine b)) (given b)
  | Clear => mkBook [] [] (mine b) (given b)
  end.
Definition account (b : book) (p : op) : book := if carried b p then enter b p else b.
Definition after (h : list op) : book := fold_left account h blank.

Fixpoint answers (b : book) (h : list op) : list bool :=
  match h with
  | [] => []
  | p :: h' => carried b p :: answers (account b p) h'
  end.

(** The object is kept alive by the problem or by a pointer of the user. *)
Definition kept (b : book) (o : nat) : Prop :=
  In (o, true) (vars b) \/ In (o, true) (terms b) \/ In o (mine b).

(** The program hands each object to an owner at most once. *)
Definition handed_once (h : list op) : Prop := NoDup (given (after h)).
