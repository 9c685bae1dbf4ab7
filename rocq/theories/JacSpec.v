(** What a Jacobian container means: a partial map from block index to
    matrix. *)
From Coq Require Import ZArith List Bool Sorted.
From Verif Require Import Base Arith OMap JacModel.
Import ListNotations.

Section Spec.
Variable A : Arith.

(** The Jacobian stored for a block. *)
Definition jac (c : container A) (b : Z) : option (mat A) :=
  option_map snd (mget Z.compare b (cmap c)).

(** The design variable an entry belongs to. *)
Definition owner (c : container A) (b : Z) : option dvref :=
  option_map fst (mget Z.compare b (cmap c)).

(** Sum of two Jacobians, where a missing one counts as zero. *)
Definition plus (a b : option (mat A)) : option (mat A) :=
  match a, b with
  | Some x, Some y => Some (madd A x y)
  | Some x, None => Some x
  | None, y => y
  end.

(** Entries in strictly increasing block order, each under the block index of
    its design variable and of the right shape. *)
Definition container_ok (c : container A) : Prop :=
  StronglySorted Z.lt (map fst (cmap c)) /\
  Forall (fun e => block (fst (snd e)) = fst e /\
                   is_active (fst (snd e)) = true /\
                   shaped A (crows c) (mindim (fst (snd e))) (snd (snd e)) = true)
         (cmap c).

(** Block indices determine dimensions: [lay b] is the dimension of the design
    variable at block [b].  This holds when every design variable has its own
    block index. *)
Definition laid_out (lay : Z -> nat) (c : container A) : Prop :=
  Forall (fun e => mindim (fst (snd e)) = lay (fst e)) (cmap c).

(** Operations an error term performs on a container. *)
Inductive cop :=
| OpOne (d : dvref) (J : mat A)          (* add(dv, J) *)
| OpAll (c : container A)                (* add(container) *)
| OpChain (cols : nat) (M : mat A).      (* applyChainRule *)

(** What a caller provides: dimensions in line with the layout, well-formed
    containers, rectangular matrices. *)
Definition op_ok (lay : Z -> nat) (op : cop) : Prop :=
  match op with
  | OpOne d J => is_active d = true -> mindim d = lay (block d)
  | OpAll c => container_ok c /\ laid_out lay c
  | OpChain n M => Forall (fun r => length r = n) M
  end.

(** Sizes the operations demand, and the row count they leave. *)
Fixpoint sizes_match (ops : list cop) (rows : nat) : Prop :=
  match ops with
  | [] => True
  | OpOne d J :: r => shaped A rows (mindim d) J = true /\ sizes_match r rows
  | OpAll c :: r => crows c = rows /\ sizes_match r rows
  | OpChain n M :: r => n = rows /\ sizes_match r (length M)
  end.

Definition apply (op : cop) (c : container A) : outcome (container A) :=
  match op with
  | OpOne d J => add_one A d J c
  | OpAll r => add_all A r c
  | OpChain n M => chain_rule A n M c
  end.

Fixpoint run (ops : list cop) (c : container A) : outcome (container A) :=
  match ops with
  | [] => Ok c
  | op :: r => do c' <- apply op c; run r c'
  end.
End Spec.
Arguments jac {A}. Arguments owner {A}. Arguments container_ok {A}.
Arguments laid_out {A}. Arguments op_ok {A}. Arguments sizes_match {A}. Arguments run {A}. Arguments apply {A}. Arguments plus {A}.
Arguments OpOne {A}. Arguments OpAll {A}. Arguments OpChain {A}.
