(** * What the Jacobians of scalar expressions have to be *)
From Coq Require Import Reals List Arith.
From Verif Require Import GsModel.
Import ListNotations.
Local Open Scope R_scope.

(** All design variables move along [d]. *)
Definition along (th : env) (d : env) (s : R) : env := fun i => th i + s * d i.
(** Row [r] of the sum over the blocks of Jacobian times motion. *)
Fixpoint applied (L : list (nat * list R)) (d : env) (r : nat) : R :=
  match L with
  | [] => 0
  | (i, J) :: L => nth r J 0 * d i + applied L d r
  end.
(** The blocks have as many rows as asked for. *)
Definition rows (m : nat) (L : list (nat * list R)) : Prop :=
  Forall (fun b => length (snd b) = m) L.
(** No quotient occurs. *)
Fixpoint without_quotients (e : gse) : Prop :=
  match e with
  | Gvar _ | Gconst _ => True
  | Gcast a | Gneg a => without_quotients a
  | Gmul a b | Gadd a b | Gsub a b => without_quotients a /\ without_quotients b
  | Gdiv _ _ => False
  end.
(** The design variable [i] occurs. *)
Fixpoint occurs (i : nat) (e : gse) : Prop :=
  match e with
  | Gvar j => i = j
  | Gconst _ => False
  | Gcast a | Gneg a => occurs i a
  | Gmul a b | Gdiv a b | Gadd a b | Gsub a b => occurs i a \/ occurs i b
  end.
