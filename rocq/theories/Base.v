(** Shared vocabulary: outcomes of C++ calls and machine integers. *)
From Coq Require Import ZArith List Lia Bool.
Import ListNotations.
Open Scope Z_scope.

(** Outcome of a modelled C++ call.
    [Ok v]  : normal return;  [Throw] : a C++ exception leaves the function;
    [UB]    : undefined behaviour (signed overflow, out-of-bounds access,
              division by zero, read of an indeterminate value);
    [Hang]  : a modelled loop does not terminate. *)
Inductive outcome (A : Type) : Type :=
| Ok (a : A)
| Throw
| UB
| Hang.
Arguments Ok {A} a.
Arguments Throw {A}.
Arguments UB {A}.
Arguments Hang {A}.

Definition obind {A B} (m : outcome A) (f : A -> outcome B) : outcome B :=
  match m with
  | Ok a => f a
  | Throw => Throw
  | UB => UB
  | Hang => Hang
  end.

Notation "'do' x <- m ; f" := (obind m (fun x => f))
  (at level 200, x name, m at level 100, f at level 200, right associativity).
Notation "'do' ' p <- m ; f" := (obind m (fun p => f))
  (at level 200, p pattern, m at level 100, f at level 200, right associativity).

Definition omap {A B} (f : A -> B) (m : outcome A) : outcome B :=
  do x <- m; Ok (f x).

(** LP64 integer limits. *)
Definition INT_MIN : Z := -2147483648.
Definition INT_MAX : Z := 2147483647.
Definition UINT_MAX : Z := 4294967295.
Definition INT64_MIN : Z := -9223372036854775808.
Definition INT64_MAX : Z := 9223372036854775807.
Definition UINT64_MAX : Z := 18446744073709551615.

Definition in_i32 (x : Z) : Prop := INT_MIN <= x <= INT_MAX.
Definition in_u32 (x : Z) : Prop := 0 <= x <= UINT_MAX.
Definition in_i64 (x : Z) : Prop := INT64_MIN <= x <= INT64_MAX.
Definition in_u64 (x : Z) : Prop := 0 <= x <= UINT64_MAX.

Definition in_i32b (x : Z) : bool := (INT_MIN <=? x) && (x <=? INT_MAX).
Definition in_i64b (x : Z) : bool := (INT64_MIN <=? x) && (x <=? INT64_MAX).

(** Narrowing casts (modular, as GCC and Clang define them). *)
Definition cast_u32 (x : Z) : Z := x mod 4294967296.
Definition cast_i32 (x : Z) : Z := (x + 2147483648) mod 4294967296 - 2147483648.
Definition cast_u64 (x : Z) : Z := x mod 18446744073709551616.
Definition cast_i64 (x : Z) : Z :=
  (x + 9223372036854775808) mod 18446744073709551616 - 9223372036854775808.

(** Signed arithmetic result: undefined when it does not fit. *)
Definition ret_i32 (x : Z) : outcome Z := if in_i32b x then Ok x else UB.
Definition ret_i64 (x : Z) : outcome Z := if in_i64b x then Ok x else UB.

Lemma in_i32b_iff x : in_i32b x = true <-> in_i32 x.
Proof. unfold in_i32b, in_i32. rewrite andb_true_iff, !Z.leb_le. tauto. Qed.

Lemma in_i64b_iff x : in_i64b x = true <-> in_i64 x.
Proof. unfold in_i64b, in_i64. rewrite andb_true_iff, !Z.leb_le. tauto. Qed.

Lemma cast_u32_id x : in_u32 x -> cast_u32 x = x.
Proof. unfold in_u32, UINT_MAX, cast_u32. intros. apply Z.mod_small. lia. Qed.

Lemma cast_i32_id x : in_i32 x -> cast_i32 x = x.
Proof.
  unfold in_i32, INT_MIN, INT_MAX, cast_i32. intros.
  rewrite Z.mod_small; lia.
Qed.

Lemma cast_u64_id x : in_u64 x -> cast_u64 x = x.
Proof. unfold in_u64, UINT64_MAX, cast_u64. intros. apply Z.mod_small. lia. Qed.

Lemma cast_i64_id x : in_i64 x -> cast_i64 x = x.
Proof.
  unfold in_i64, INT64_MIN, INT64_MAX, cast_i64. intros.
  rewrite Z.mod_small; lia.
Qed.

Lemma ret_i32_ok x : in_i32 x -> ret_i32 x = Ok x.
Proof. intros H. unfold ret_i32. apply in_i32b_iff in H. now rewrite H. Qed.

Lemma ret_i32_inv x y : ret_i32 x = Ok y -> y = x /\ in_i32 x.
Proof.
  unfold ret_i32. destruct (in_i32b x) eqn:E; [|discriminate].
  intros [= <-]. split; auto. now apply in_i32b_iff.
Qed.

(** Split conjunctions only. *)
Ltac conj := repeat match goal with |- _ /\ _ => split end.
