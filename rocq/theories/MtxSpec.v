(** * What a step of a patterned matrix is *)
From Coq Require Import Reals ZArith List Bool.
From Verif Require Import Base MtxModel.
Import ListNotations.
Local Open Scope R_scope.

(** A pattern of nine zeros and ones. *)
Definition zero_one (pat : list Z) : Prop := length pat = 9%nat /\ Forall (fun p => p = 0%Z \/ p = 1%Z) pat.
(** How many entries before entry [i] are free. *)
Definition rank (pat : list Z) (i : nat) : nat := count_occ Z.eq_dec (firstn i pat) 1%Z.
(** The sum of the products of the entries. *)
Fixpoint dot (u v : list R) : R := match u, v with x :: u, y :: v => x * y + dot u v | _, _ => 0 end.
Definition dot3 (c v : R * R * R) : R :=
  let '(c0, c1, c2) := c in let '(x, y, z) := v in c0 * x + c1 * y + c2 * z.
Definition add3 (u v : R * R * R) : R * R * R :=
  let '(a, b, c) := u in let '(x, y, z) := v in (a + x, b + y, c + z).
Definition list3 (v : R * R * R) : list R := let '(x, y, z) := v in [x; y; z].
