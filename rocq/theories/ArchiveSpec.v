(** Specification vocabulary for the portable binary archives. *)
From Coq Require Import ZArith List.
From Verif Require Import Base ArchiveModel.
Import ListNotations.
Open Scope Z_scope.

(** The library was compiled so that the byte-order macro matches the host. *)
Definition consistent (c : config) : Prop := macro_big c = host_big c.

(** Types with 1, 2, 4 or 8 bytes. *)
Definition good_type (t : itype) : Prop := width t = 1 \/ width t = 2 \/ width t = 4 \/ width t = 8.

(** A value of its type; the 64-bit pattern of -2^63 excluded. *)
Definition good_val (tv : itype * Z) : Prop :=
  let '(t, v) := tv in
  good_type t /\
  (if is_signed t then - 2 ^ (8 * width t - 1) <= v < 2 ^ (8 * width t - 1)
   else 0 <= v < 2 ^ (8 * width t)) /\
  v <> - 2 ^ 63 /\ v <> 2 ^ 63.

Definition byte (b : Z) : Prop := 0 <= b < 256.

(** Minimal-length big-endian digits of a positive number, base 256: the byte
    layout of the format, stated without the writer's loops. *)
Definition digits_big (m : Z) (ds : list Z) : Prop :=
  fold_left (fun a d => 256 * a + d) ds 0 = m /\ Forall byte ds /\
  match ds with d :: _ => d <> 0 | [] => False end.
