(** * Symmetric block matrices and their solutions *)
From Coq Require Import Reals ZArith List Arith Bool Sorted.
From Verif Require Import PcgModel.
Import ListNotations.
Local Open Scope R_scope.

Fixpoint total (n : nat) (f : nat -> R) : R := match n with 0%nat => 0 | S m => total m f + f m end.
Definition apply (n : nat) (M : nat -> nat -> R) (x : nat -> R) (i : nat) : R := total n (fun j => M i j * x j).
Definition inner (n : nat) (x y : nat -> R) : R := total n (fun i => x i * y i).

(** Blocks of the given sizes one after the other. *)
Definition off (sizes : list nat) (k : nat) : nat := list_sum (firstn k sizes).
Definition size (sizes : list nat) (k : nat) : nat := nth k sizes 0%nat.
Fixpoint lookup (r : nat) (col : list (nat * nat)) : option nat :=
  match col with [] => None | (k, p) :: rest => if Nat.eqb k r then Some p else lookup r rest end.
Definition column (A : matrix) (c : nat) : list (nat * nat) := nth c (columns A) [].

(** A square block matrix: block rows and columns of the same sizes, every block column
    with its diagonal block and blocks of the right sizes above it. *)
Definition well_formed (sizes : list nat) (mem : memory) (A : matrix) : Prop :=
  row_ends A = map (fun k => off sizes (S k)) (seq 0 (length sizes)) /\
  col_ends A = map (fun k => off sizes (S k)) (seq 0 (length sizes)) /\
  length (columns A) = length sizes /\
  forall c, (c < length sizes)%nat ->
    StronglySorted lt (map fst (column A c)) /\ lookup c (column A c) <> None /\
    forall r p, (r <= c)%nat -> lookup r (column A c) = Some p -> b_rows (mem p) = size sizes r /\ b_cols (mem p) = size sizes c.
(** [M] is the symmetric matrix whose blocks on and above the diagonal are stored. *)
Definition stored (sizes : list nat) (mem : memory) (A : matrix) (M : nat -> nat -> R) : Prop :=
  (forall i j, (i < list_sum sizes)%nat -> (j < list_sum sizes)%nat -> M i j = M j i) /\
  forall r c a b, (r <= c)%nat -> (c < length sizes)%nat -> (a < size sizes r)%nat -> (b < size sizes c)%nat ->
    M (off sizes r + a)%nat (off sizes c + b)%nat = match lookup r (column A c) with Some p => b_at (mem p) a b | None => 0 end.
Definition positive_definite (n : nat) (M : nat -> nat -> R) : Prop :=
  forall x, (exists i, (i < n)%nat /\ x i <> 0) -> 0 < inner n x (apply n M x).
(** [inv] inverts the diagonal blocks. *)
Definition inverts (sizes : list nat) (mem : memory) (A : matrix) (inv : block -> block) : Prop :=
  forall c p, (c < length sizes)%nat -> lookup c (column A c) = Some p ->
    b_rows (inv (mem p)) = size sizes c /\ b_cols (inv (mem p)) = size sizes c /\
    forall a b, (a < size sizes c)%nat -> (b < size sizes c)%nat ->
      total (size sizes c) (fun k => b_at (mem p) a k * b_at (inv (mem p)) k b) = if Nat.eqb a b then 1 else 0.

(** The size of a residual: [q] is r . w where w solves the system of the diagonal
    blocks of M for r. *)
Fixpoint block_of (sizes : list nat) (i : nat) : nat :=
  match sizes with [] => 0%nat | s :: t => if Nat.ltb i s then 0%nat else S (block_of t (i - s)) end.
Definition diagonal_part (sizes : list nat) (M : nat -> nat -> R) (i j : nat) : R :=
  if Nat.eqb (block_of sizes i) (block_of sizes j) then M i j else 0.
Definition residual_size (sizes : list nat) (M : nat -> nat -> R) (r : nat -> R) (q : R) : Prop :=
  exists w, (forall i, (i < list_sum sizes)%nat -> apply (list_sum sizes) (diagonal_part sizes M) w i = r i) /\ q = inner (list_sum sizes) r w.
Definition energy (n : nat) (M : nat -> nat -> R) (b x : nat -> R) : R := 1 / 2 * inner n x (apply n M x) - inner n b x.
