(** What a block matrix stands for. *)
From Coq Require Import ZArith List Bool.
From Verif Require Import Base Arith OMap JacModel SbmModel.
Import ListNotations.
Open Scope nat_scope.

(** A layout lists the end index of every block; block [b] covers the scalar
    indices from [base_of l b] up to [base_of l (S b)]. *)
Definition layout (l : list nat) : Prop :=
  forall b, b < length l -> base_of l b <= base_of l (S b).

(** The layout after moving block [i] to place [pinv i]. *)
Definition perm_layout (l pinv lay : list nat) : Prop :=
  length lay = length l /\ layout lay /\
  forall i, i < length l -> size_of lay (nth i pinv 0) = size_of l i.

Section Spec.
Variable A : Arith.
Notation num := (num A).
Notation zero := (of_Z A 0).
Notation mat := (mat A).
Notation sbm := (sbm A).

(** The block stored at block row [r] and block column [c]. *)
Definition blk (m : sbm) (r c : nat) : option mat :=
  match nth_error (bcols m) c with
  | Some col => mget Nat.compare r col
  | None => None
  end.

(** The invariant of a block matrix. *)
Record wf (m : sbm) : Prop := {
  wf_cols : length (bcols m) = length (cbi m);
  wf_rlay : layout (rbi m);
  wf_clay : layout (cbi m);
  wf_keys : Forall (sorted Nat.compare) (bcols m);
  wf_blk : forall r c B, blk m r c = Some B ->
             r < length (rbi m) /\
             shaped A (size_of (rbi m) r) (size_of (cbi m) c) B = true }.

(** Element (i, j) of block (r, c); a block that is not stored is zero. *)
Definition val_at (m : sbm) (r i c j : nat) : num :=
  match blk m r c with
  | Some B => nth j (nth i B []) zero
  | None => zero
  end.

(** What operator() returns, as a total function. *)
Definition el (m : sbm) (r c : nat) : num :=
  match entry A m r c with Ok v => v | _ => zero end.

(** Only blocks on or above the diagonal. *)
Definition upper_only (m : sbm) : Prop := forall r c, blk m r c <> None -> r <= c.
(** Equal row and column layout. *)
Definition square (m : sbm) : Prop := rbi m = cbi m.
(** The symmetric matrix whose upper triangle [m] holds. *)
Definition sym (m : sbm) (r c : nat) : num := if r <=? c then el m r c else el m c r.

(** A bijection of the block indices below [n], as an array. *)
Definition permutation (pinv : list nat) (n : nat) : Prop :=
  length pinv = n /\ NoDup pinv /\ Forall (fun p => p < n) pinv.
End Spec.
Arguments blk {A}.
Arguments wf {A}.
Arguments val_at {A}.
Arguments el {A}.
Arguments upper_only {A}.
Arguments square {A}.
Arguments sym {A}.
