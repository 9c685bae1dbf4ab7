(** Properties of aslam_time (C01-C06).  Statements only; proofs in TimeProofs. *)
From Coq Require Import ZArith List Lia.
From Verif Require Import Base TimeModel TimeSpec TimeProofs.
Import ListNotations.
Open Scope Z_scope.

(** * C01: Time plus / minus Duration is exact or is refused. *)

Theorem C01_time_plus_duration_exact_or_throws : forall t d,
  fits_time t -> fits_dur d ->
  match time_add t d with
  | Ok t' => ns_time t' = ns_time t + ns_dur d /\ canonical_time t' /\
             0 <= ns_time t + ns_dur d < 2 ^ 31 * 10 ^ 9
  | Throw => ns_time t + ns_dur d < 0 \/ 2 ^ 31 * 10 ^ 9 <= ns_time t + ns_dur d
  | UB | Hang => False
  end.
Proof.
  intros t d Ht Hd. pose proof (time_add_spec t d Ht Hd) as H.
  destruct (time_add t d); unfold canonical_time; intuition lia.
Qed.
Print Assumptions C01_time_plus_duration_exact_or_throws.

Example C01_ex : time_add (Tm 5 999999999) (Dn (-3) 2) = Ok (Tm 3 1)
  /\ time_add (Tm 5 0) (Dn (-6) 2) = Throw.
Proof. split; vm_compute; reflexivity. Qed.

Theorem C01_time_minus_duration_exact_or_throws : forall t d,
  fits_time t -> canonical_dur d -> - 2 ^ 31 < dsec d ->
  match time_sub t d with
  | Ok t' => ns_time t' = ns_time t - ns_dur d /\ 0 <= tnsec t' < 10 ^ 9 /\
             0 <= ns_time t - ns_dur d < 2 ^ 31 * 10 ^ 9
  | Throw => ns_time t - ns_dur d < 0 \/ 2 ^ 31 * 10 ^ 9 <= ns_time t - ns_dur d
  | UB | Hang => False
  end.
Proof. exact time_sub_spec. Qed.
Print Assumptions C01_time_minus_duration_exact_or_throws.

Example C01_ex2 : time_sub (Tm 5 1) (Dn 3 2) = Ok (Tm 1 999999999).
Proof. vm_compute; reflexivity. Qed.

(** A user may also expect every representable sum to be returned; it is not:
    sums of 2^31 seconds or more throw although a Time could hold them. *)
Theorem C01_representable_sum_rejected_refuted : exists t d t',
  canonical_time t /\ canonical_dur d /\ canonical_time t' /\
  ns_time t' = ns_time t + ns_dur d /\ time_add t d = Throw.
Proof.
  exists (Tm 2147483648 5), (Dn 0 1), (Tm 2147483648 6).
  unfold canonical_time, canonical_dur, ns_time, ns_dur; cbn [tsec tnsec dsec dnsec].
  conj; try lia; vm_compute; reflexivity.
Qed.
Print Assumptions C01_representable_sum_rejected_refuted.

(** * C02: differences. *)

Theorem C02_time_difference_exact : forall a b,
  canonical_time a -> canonical_time b -> tsec a < 2 ^ 31 -> tsec b < 2 ^ 31 ->
  exists d, time_diff a b = Ok d /\ ns_dur d = ns_time a - ns_time b /\ canonical_dur d.
Proof. exact time_diff_spec. Qed.
Print Assumptions C02_time_difference_exact.

Theorem C02_time_difference_undone_by_addition : forall a b,
  canonical_time a -> canonical_time b -> tsec a < 2 ^ 31 -> tsec b < 2 ^ 31 ->
  exists d, time_diff a b = Ok d /\ time_add b d = Ok a.
Proof. exact time_add_diff. Qed.
Print Assumptions C02_time_difference_undone_by_addition.

Example C02_ex : time_diff (Tm 3 5) (Tm 7 900000000) = Ok (Dn (-5) 100000005)
  /\ time_add (Tm 7 900000000) (Dn (-5) 100000005) = Ok (Tm 3 5).
Proof. split; vm_compute; reflexivity. Qed.

(** Past 2^31 seconds the subtraction can be signed overflow, and can silently
    return a wrong difference. *)
Theorem C02_time_difference_overflow_refuted : exists a b,
  canonical_time a /\ canonical_time b /\ time_diff a b = UB.
Proof.
  exists (Tm 2147483648 0), (Tm 1 0).
  unfold canonical_time; cbn [tsec tnsec]. conj; try lia; vm_compute; reflexivity.
Qed.
Print Assumptions C02_time_difference_overflow_refuted.

Theorem C02_time_difference_wrong_value_refuted : exists a b d,
  canonical_time a /\ canonical_time b /\ time_diff a b = Ok d /\
  ns_dur d <> ns_time a - ns_time b.
Proof.
  exists (Tm 4294967295 0), (Tm 1 0), (Dn (-2) 0).
  unfold canonical_time, ns_dur, ns_time; cbn [tsec tnsec dsec dnsec].
  conj; try lia; vm_compute; reflexivity.
Qed.
Print Assumptions C02_time_difference_wrong_value_refuted.

(** * C03: comparison operators. *)

Theorem C03_time_comparisons_order_instants : forall a b,
  api_time a -> api_time b ->
  (time_lt a b = true <-> ns_time a < ns_time b) /\
  (time_gt a b = true <-> ns_time a > ns_time b) /\
  (time_le a b = true <-> ns_time a <= ns_time b) /\
  (time_ge a b = true <-> ns_time a >= ns_time b) /\
  (time_eq a b = true <-> ns_time a = ns_time b) /\
  (time_eq a b = true <-> a = b).
Proof.
  intros a b Ha Hb. apply time_cmp_spec; now apply (proj1 api_canonical).
Qed.
Print Assumptions C03_time_comparisons_order_instants.

Example C03_ex : api_time (Tm 8 5) /\ api_time (Tm 7 999999999).
Proof.
  split.
  - apply (at_mk 5 3000000005); [lia|lia|vm_compute; reflexivity].
  - apply (at_fromNSec 7999999999); [lia|vm_compute; reflexivity].
Qed.

(** For Durations only those in canonical form compare correctly ... *)
Theorem C03_duration_comparisons_order_spans_partial : forall a b,
  canonical_dur a -> canonical_dur b ->
  (duration_lt a b = true <-> ns_dur a < ns_dur b) /\
  (duration_gt a b = true <-> ns_dur a > ns_dur b) /\
  (duration_le a b = true <-> ns_dur a <= ns_dur b) /\
  (duration_ge a b = true <-> ns_dur a >= ns_dur b) /\
  (duration_eq a b = true <-> ns_dur a = ns_dur b) /\
  (duration_eq a b = true <-> a = b).
Proof. exact duration_cmp_spec. Qed.
Print Assumptions C03_duration_comparisons_order_spans_partial.

Example C03_ex2 : canonical_dur (Dn (-4) 999999999) /\ duration_lt (Dn (-4) 999999999) (Dn (-3) 0) = true.
Proof. split; [unfold canonical_dur; cbn [dsec dnsec]; lia|vm_compute; reflexivity]. Qed.

(** ... and arithmetic on canonical Durations leaves canonical form: half a
    second plus half a second is not equal to one second, and is "less". *)
Theorem C03_duration_comparisons_refuted : exists a b,
  api_dur a /\ api_dur b /\ ns_dur a = ns_dur b /\
  duration_eq a b = false /\ duration_lt a b = true.
Proof.
  assert (H : api_dur (Dn 0 500000000)).
  { apply (ad_mk 0 500000000); [lia|lia|vm_compute; reflexivity]. }
  exists (Dn 0 1000000000), (Dn 1 0). conj.
  - apply (ad_add (Dn 0 500000000) (Dn 0 500000000)); auto.
  - apply (ad_mk 1 0); [lia|lia|vm_compute; reflexivity].
  - reflexivity.
  - reflexivity.
  - reflexivity.
Qed.
Print Assumptions C03_duration_comparisons_refuted.

(** What the API does guarantee about every reachable value. *)
Theorem C03_reachable_values_are_nearly_canonical :
  (forall t, api_time t -> canonical_time t) /\
  (forall d, api_dur d -> - 2 ^ 31 <= dsec d < 2 ^ 31 /\ 0 <= dnsec d <= 10 ^ 9).
Proof. exact api_canonical. Qed.
Print Assumptions C03_reachable_values_are_nearly_canonical.

(** * C04: nanosecond conversions. *)

Theorem C04_time_nanoseconds_roundtrip : forall t,
  canonical_time t -> time_fromNSec (time_toNSec t) = Ok t.
Proof. exact time_nsec_roundtrip1. Qed.
Print Assumptions C04_time_nanoseconds_roundtrip.

Theorem C04_time_from_nanoseconds : forall n, 0 <= n < 2 ^ 64 ->
  exists t, time_fromNSec n = Ok t /\ canonical_time t /\ ns_time t = n mod (2 ^ 32 * 10 ^ 9).
Proof. exact time_fromNSec_spec. Qed.
Print Assumptions C04_time_from_nanoseconds.

Theorem C04_time_to_nanoseconds_inverse : forall n, 0 <= n < 2 ^ 32 * 10 ^ 9 ->
  exists t, time_fromNSec n = Ok t /\ time_toNSec t = n /\ canonical_time t.
Proof. exact time_nsec_roundtrip2. Qed.
Print Assumptions C04_time_to_nanoseconds_inverse.

Theorem C04_duration_nanoseconds_roundtrip : forall d,
  canonical_dur d -> duration_fromNSec (duration_toNSec d) = Ok d.
Proof. exact duration_nsec_roundtrip1. Qed.
Print Assumptions C04_duration_nanoseconds_roundtrip.

Theorem C04_duration_from_nanoseconds : forall n, - 2 ^ 31 * 10 ^ 9 <= n < 2 ^ 31 * 10 ^ 9 ->
  exists d, duration_fromNSec n = Ok d /\ ns_dur d = n /\ canonical_dur d.
Proof. exact duration_fromNSec_spec. Qed.
Print Assumptions C04_duration_from_nanoseconds.

Example C04_ex : time_fromNSec 4294967295999999999 = Ok (Tm 4294967295 999999999)
  /\ duration_fromNSec (-1) = Ok (Dn (-1) 999999999).
Proof. split; vm_compute; reflexivity. Qed.

(** * C05: Duration arithmetic. *)

Theorem C05_duration_sum_exact : forall a b, fits_dur a -> fits_dur b ->
  match duration_add a b with
  | Ok d => ns_dur d = ns_dur a + ns_dur b /\ - 2 ^ 31 <= dsec d < 2 ^ 31 /\ 0 <= dnsec d <= 10 ^ 9
  | Throw => ns_dur a + ns_dur b < - 2 ^ 31 * 10 ^ 9 \/ 2 ^ 31 * 10 ^ 9 <= ns_dur a + ns_dur b
  | UB => ~ in_i32 (dsec a + dsec b) \/ ~ in_i32 (dnsec a + dnsec b)
  | Hang => False
  end.
Proof. exact duration_add_spec. Qed.
Print Assumptions C05_duration_sum_exact.

Theorem C05_duration_difference_exact : forall a b, fits_dur a -> fits_dur b ->
  match duration_sub a b with
  | Ok d => ns_dur d = ns_dur a - ns_dur b /\ - 2 ^ 31 <= dsec d < 2 ^ 31 /\ 0 <= dnsec d <= 10 ^ 9
  | Throw => ns_dur a - ns_dur b < - 2 ^ 31 * 10 ^ 9 \/ 2 ^ 31 * 10 ^ 9 <= ns_dur a - ns_dur b
  | UB => ~ in_i32 (dsec a - dsec b) \/ ~ in_i32 (dnsec a - dnsec b)
  | Hang => False
  end.
Proof. exact duration_sub_spec. Qed.
Print Assumptions C05_duration_difference_exact.

Theorem C05_duration_negation_exact : forall a, fits_dur a ->
  match duration_neg a with
  | Ok d => ns_dur d = - ns_dur a /\ - 2 ^ 31 <= dsec d < 2 ^ 31 /\ 0 <= dnsec d <= 10 ^ 9
  | Throw => - ns_dur a < - 2 ^ 31 * 10 ^ 9 \/ 2 ^ 31 * 10 ^ 9 <= - ns_dur a
  | UB => dsec a = - 2 ^ 31 \/ dnsec a = - 2 ^ 31
  | Hang => False
  end.
Proof. exact duration_neg_spec. Qed.
Print Assumptions C05_duration_negation_exact.

Theorem C05_duration_history_exact : forall a ops r,
  api_dur a -> Forall (fun o => api_dur (incr_arg o)) ops -> duration_run a ops = Ok r ->
  ns_dur r = ns_dur a + fold_right Z.add 0 (map incr_ns ops).
Proof.
  intros a ops r Ha Hds. apply duration_run_exact.
  - now apply (proj2 api_canonical).
  - eapply Forall_impl; [|exact Hds]. intros; now apply (proj2 api_canonical).
Qed.
Print Assumptions C05_duration_history_exact.

Theorem C05_time_history_exact : forall t ops r,
  api_time t -> Forall (fun o => api_dur (incr_arg o)) ops -> time_run t ops = Ok r ->
  ns_time r = ns_time t + fold_right Z.add 0 (map incr_ns ops).
Proof.
  intros t ops r Ha Hds. apply time_run_exact.
  - now apply (proj1 api_canonical).
  - eapply Forall_impl; [|exact Hds]. intros; now apply (proj2 api_canonical).
Qed.
Print Assumptions C05_time_history_exact.

Example C05_ex : duration_run (Dn 1 0) [IPlus (Dn 0 600000000); IPlus (Dn 0 600000000); IMinus (Dn 3 0)] = Ok (Dn (-1) 200000000)
  /\ duration_add (Dn INT_MAX 0) (Dn 1 0) = UB /\ duration_add (Dn INT_MAX 999999999) (Dn 0 2) = Throw.
Proof. conj; vm_compute; reflexivity. Qed.

(** Negating the smallest public constant is undefined behaviour. *)
Theorem C05_negate_DURATION_MIN_refuted :
  exists d, DURATION_MIN = Ok d /\ duration_neg d = UB.
Proof. exists (Dn INT_MIN 0); split; vm_compute; reflexivity. Qed.
Print Assumptions C05_negate_DURATION_MIN_refuted.

(** * C06: printed text. *)

Theorem C06_printed_time_denotes_value : forall t, api_time t ->
  denotes_ns (print_time t) (ns_time t).
Proof.
  intros t Ht. destruct (proj1 api_canonical t Ht) as [H1 H2].
  exact (print_fields_denotes (tsec t) (tnsec t) H1 H2).
Qed.
Print Assumptions C06_printed_time_denotes_value.

Theorem C06_printed_nonnegative_duration_denotes_value_partial : forall d, canonical_dur d -> 0 <= dsec d ->
  denotes_ns (print_duration d) (ns_dur d).
Proof.
  intros d [H1 H2] H3. apply print_fields_denotes; [lia|exact H2].
Qed.
Print Assumptions C06_printed_nonnegative_duration_denotes_value_partial.

Example C06_ex : print_time (Tm 12 34) =
  [Digit 1; Digit 2; Dot; Digit 0; Digit 0; Digit 0; Digit 0; Digit 0; Digit 0; Digit 0; Digit 3; Digit 4].
Proof. vm_compute. reflexivity. Qed.

(** Minus half a second prints as -1.500000000. *)
Theorem C06_printed_negative_duration_refuted : exists d,
  api_dur d /\ ns_dur d = - 5 * 10 ^ 8 /\ denotes_ns (print_duration d) (- 15 * 10 ^ 8) /\
  ~ denotes_ns (print_duration d) (ns_dur d).
Proof.
  exists (Dn (-1) 500000000).
  assert (Hr : reads (print_duration (Dn (-1) 500000000)) (- 1500000000) 9).
  { change (print_duration (Dn (-1) 500000000)) with
      (Minus :: map Digit [1] ++ [Dot] ++ map Digit [5;0;0;0;0;0;0;0;0]).
    apply (reads_neg [1] [5;0;0;0;0;0;0;0;0]); [discriminate| |];
      repeat constructor; unfold is_digit; lia. }
  split; [|split; [reflexivity|split]].
  - apply (ad_mk 0 (-500000000)); [lia|lia|vm_compute; reflexivity].
  - exists (-1500000000), 9%nat. split; [exact Hr|reflexivity].
  - apply (not_denotes _ _ _ _ Hr). vm_compute. discriminate.
Qed.
Print Assumptions C06_printed_negative_duration_refuted.

(** One second reached by carrying prints as 0.1000000000. *)
Theorem C06_printed_carry_duration_refuted : exists d,
  api_dur d /\ ns_dur d = 10 ^ 9 /\ ~ denotes_ns (print_duration d) (ns_dur d).
Proof.
  exists (Dn 0 1000000000).
  assert (Hr : reads (print_duration (Dn 0 1000000000)) 1000000000 10).
  { change (print_duration (Dn 0 1000000000)) with
      (map Digit [0] ++ [Dot] ++ map Digit [1;0;0;0;0;0;0;0;0;0]).
    apply (reads_pos [0] [1;0;0;0;0;0;0;0;0;0]); [discriminate| |];
      repeat constructor; unfold is_digit; lia. }
  split; [|split; [reflexivity|]].
  - apply (ad_mk 0 1000000000); [lia|lia|vm_compute; reflexivity].
  - apply (not_denotes _ _ _ _ Hr). vm_compute. discriminate.
Qed.
Print Assumptions C06_printed_carry_duration_refuted.
