(** * The systems before and after the elimination *)
From Coq Require Import Reals List Arith Bool Sorted.
From Verif Require Import BsplModel SchModel.
Import ListNotations.
Local Open Scope R_scope.

(** The block at row [r] and column [c] of a stored matrix, zero if missing. *)
Definition at_ (H : nat -> col) (r c : nat) : mat :=
  match find (fun e => Nat.eqb (fst e) r) (H c) with
  | Some e => snd e
  | None => fun _ _ => 0
  end.

(** The symmetric matrix given by the blocks on and above the diagonal. *)
Definition symm (A : bmat) : bmat :=
  fun r c p q => if Nat.leb r c then A r c p q else A c r q p.

(** Row [p] of block row [r] of the product with a vector of [n] blocks. *)
Definition times (dims : nat -> nat) (n : nat) (A : bmat) (x : bvec) (r p : nat) : R :=
  bsum n (fun c => bsum (dims c) (fun q => A r c p q * x c q)).

(** [x] solves the damped system of all [n] blocks. *)
Definition solves_full (dims : nat -> nat) (n : nat) (H : nat -> col) (mu : R) (rhs x : bvec) : Prop :=
  forall r p, (r < n)%nat -> (p < dims r)%nat ->
    times dims n (symm (at_ H)) x r p + mu * x r p = rhs r p.

Definition solves (dims : nat -> nat) (n : nat) (A : bmat) (b x : bvec) : Prop :=
  forall r p, (r < n)%nat -> (p < dims r)%nat -> times dims n (symm A) x r p = b r p.

Definition ident (p q : nat) : R := if Nat.eqb p q then 1 else 0.
Definition are_inverse (n : nat) (M L : mat) : Prop :=
  forall p q, (p < n)%nat -> (q < n)%nat ->
    bsum n (fun k => M p k * L k q) = ident p q /\ bsum n (fun k => L p k * M k q) = ident p q.

Definition damped (mu : R) (V : mat) : mat := fun p q => V p q + mu * ident p q.

(** Rows in increasing order; marginalized variables are not coupled with each
    other; their own blocks are symmetric and can be inverted. *)
Record system (inverse : nat -> mat -> mat) (dims : nat -> nat) (H : nat -> col) (mu : R) (na nm : nat) : Prop := {
  s_sorted : forall c, StronglySorted lt (map fst (H c));
  s_free : forall r c p q, (na <= r)%nat -> (r < c)%nat -> (c < na + nm)%nat ->
    (p < dims r)%nat -> (q < dims c)%nat -> at_ H r c p q = 0;
  s_symm : forall c p q, (na <= c)%nat -> (c < na + nm)%nat ->
    (p < dims c)%nat -> (q < dims c)%nat -> at_ H c c p q = at_ H c c q p;
  s_inv : forall c M, (na <= c)%nat -> (c < na + nm)%nat ->
    (forall p q, M p q = damped mu (at_ H c c) p q) -> are_inverse (dims c) M (inverse (dims c) M) }.

(** The step of all variables: the kept ones as solved, the others put in. *)
Definition join (na : nat) (dx : bvec) (ds : nat -> vec) : bvec :=
  fun r => if Nat.ltb r na then dx r else ds (r - na)%nat.

(** One row and column each: the inverse of Eigen for 1 by 1 matrices. *)
Definition inv1 (n : nat) (M : mat) : mat := fun _ _ => / M 0%nat 0%nat.
