(** * What times as floating-point seconds mean *)
From Coq Require Import Reals ZArith.
From Flocq Require Import Core.
From Verif Require Import TimeModel.
Local Open Scope Z_scope.

(** The nanoseconds a time or a duration stands for *)
Definition time_ns (t : time) : Z := tsec t * 1000000000 + tnsec t.
Definition duration_ns (d : duration) : Z := dsec d * 1000000000 + dnsec d.
(** A proper time: nanoseconds less than a second *)
Definition proper_time (t : time) : Prop := 0 <= tsec t < 4294967295 /\ 0 <= tnsec t < 1000000000.
(** A double: an integer of 53 bits times a power of two *)
Definition double (x : R) : Prop := exists m e, Z.abs m < 2 ^ 53 /\ x = (IZR m * bpow radix2 e)%R.
