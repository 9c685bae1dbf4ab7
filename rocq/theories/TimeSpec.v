(** Specification vocabulary for aslam_time, independent of the model's helpers. *)
From Coq Require Import ZArith List.
From Verif Require Import Base TimeModel.
Import ListNotations.
Open Scope Z_scope.

(** The instant / span, in nanoseconds, that a pair of fields stands for. *)
Definition ns_time (t : time) : Z := tsec t * 10 ^ 9 + tnsec t.
Definition ns_dur (d : duration) : Z := dsec d * 10 ^ 9 + dnsec d.

(** Fields fit the C++ member types. *)
Definition fits_time (t : time) : Prop :=
  0 <= tsec t < 2 ^ 32 /\ 0 <= tnsec t < 2 ^ 32.
Definition fits_dur (d : duration) : Prop :=
  - 2 ^ 31 <= dsec d < 2 ^ 31 /\ - 2 ^ 31 <= dnsec d < 2 ^ 31.

(** Canonical form: nanoseconds in [0, 10^9). *)
Definition canonical_time (t : time) : Prop :=
  0 <= tsec t < 2 ^ 32 /\ 0 <= tnsec t < 10 ^ 9.
Definition canonical_dur (d : duration) : Prop :=
  - 2 ^ 31 <= dsec d < 2 ^ 31 /\ 0 <= dnsec d < 10 ^ 9.

(** Values a client can obtain through the integer part of the public API
    (constructors from seconds/nanoseconds, fromNSec, arithmetic). *)
Inductive api_time : time -> Prop :=
| at_zero : api_time (Tm 0 0)
| at_mk s n t : 0 <= s < 2 ^ 32 -> 0 <= n < 2 ^ 32 -> mk_time s n = Ok t -> api_time t
| at_fromNSec n t : 0 <= n < 2 ^ 64 -> time_fromNSec n = Ok t -> api_time t
| at_add t d t' : api_time t -> api_dur d -> time_add t d = Ok t' -> api_time t'
| at_sub t d t' : api_time t -> api_dur d -> time_sub t d = Ok t' -> api_time t'
with api_dur : duration -> Prop :=
| ad_zero : api_dur (Dn 0 0)
| ad_mk s n d : - 2 ^ 31 <= s < 2 ^ 31 -> - 2 ^ 31 <= n < 2 ^ 31 ->
    mk_duration s n = Ok d -> api_dur d
| ad_fromNSec n d : - 2 ^ 63 <= n < 2 ^ 63 -> duration_fromNSec n = Ok d -> api_dur d
| ad_diff a b d : api_time a -> api_time b -> time_diff a b = Ok d -> api_dur d
| ad_add a b d : api_dur a -> api_dur b -> duration_add a b = Ok d -> api_dur d
| ad_sub a b d : api_dur a -> api_dur b -> duration_sub a b = Ok d -> api_dur d
| ad_neg a d : api_dur a -> duration_neg a = Ok d -> api_dur d.

Scheme api_time_mut := Induction for api_time Sort Prop
with api_dur_mut := Induction for api_dur Sort Prop.
Combined Scheme api_mut from api_time_mut, api_dur_mut.

(** Nanoseconds a history of [+=] / [-=] should add. *)
Definition incr_arg (o : incr) : duration := match o with IPlus d => d | IMinus d => d end.
Definition incr_ns (o : incr) : Z := match o with IPlus d => ns_dur d | IMinus d => - ns_dur d end.

(** Reading a decimal numeral: [[-]digits.digits].  [reads s num k] means the
    text [s] denotes the number num / 10^k. *)
Definition digit_val (acc d : Z) : Z := 10 * acc + d.
Definition is_digit (d : Z) : Prop := 0 <= d <= 9.

Inductive reads : list ch -> Z -> nat -> Prop :=
| reads_pos ip fp :
    ip <> [] -> Forall is_digit ip -> Forall is_digit fp ->
    reads (map Digit ip ++ [Dot] ++ map Digit fp) (fold_left digit_val (ip ++ fp) 0) (length fp)
| reads_neg ip fp :
    ip <> [] -> Forall is_digit ip -> Forall is_digit fp ->
    reads (Minus :: map Digit ip ++ [Dot] ++ map Digit fp)
          (- fold_left digit_val (ip ++ fp) 0) (length fp).

(** The text denotes [n] nanoseconds. *)
Definition denotes_ns (s : list ch) (n : Z) : Prop :=
  exists num k, reads s num k /\ num * 10 ^ 9 = n * 10 ^ Z.of_nat k.
