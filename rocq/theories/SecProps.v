(** * C97: times as floating-point seconds *)
From Coq Require Import Reals Lra Lia ZArith Bool.
From Flocq Require Import Core.
From Verif Require Import Base TimeModel SecModel SecSpec SecProofs.
Local Open Scope R_scope.

(** Seconds become the nearest time, up to a millionth of a nanosecond, for every
    number of seconds that fits. *)
Theorem C97_time : forall x, 0 <= x < 4294967296 ->
  exists t, time_fromSec x = Ok t /\ (0 <= tsec t <= 4294967295)%Z /\ (0 <= tnsec t <= 1000000000)%Z /\
    Rabs (IZR (time_ns t) - x * 1000000000) <= / 2 + / 1000000 /\
    (x - IZR (Zfloor x) <= 999999999 / 1000000000 -> (tnsec t < 1000000000)%Z).
Proof.
  intros x X. destruct (time_from x X) as (n & T & N & S & _ & A & B). exists (Tm (Zfloor x) n). split; [ exact T | ]. unfold time_ns. cbn [tsec tnsec]. split; [ exact S | split; [ exact N | ] ].
  apply abs_split in A. split.
  - rewrite plus_IZR, mult_IZR. apply abs_split. lra.
  - intros L. apply lt_IZR. lra.
Qed.
Print Assumptions C97_time.

(** A time of less than 2^21 seconds, some 24 days, survives the way to seconds and
    back; any time comes back within 478 nanoseconds. *)
Theorem C97_time_trip : forall t, proper_time t -> exists t', time_fromSec (time_toSec t) = Ok t' /\
  ((tsec t < 2097152)%Z -> t' = t) /\
  IZR (Z.abs (time_ns t' - time_ns t)) <= 1 + (IZR (tsec t) + 1) * 1000000000 / 9007199254740992 /\ (Z.abs (time_ns t' - time_ns t) < 478)%Z.
Proof.
  intros t [S N]. destruct (time_trip t S N) as (t' & T & E & X). exists t'. split; [ exact T | split; [ exact X | ] ]. fold (time_ns t') in E. fold (time_ns t) in E. split; [ exact E | ].
  apply lt_IZR. assert (0 <= IZR (tsec t) <= 4294967294) by (split; apply IZR_le; lia). unfold u in E. lra.
Qed.
Print Assumptions C97_time_trip.

(** Neither way ever exchanges two times. *)
Theorem C97_order :
  (forall t t', proper_time t -> proper_time t' -> (time_ns t <= time_ns t')%Z -> time_toSec t <= time_toSec t') /\
  (forall x y t t', 0 <= x <= y -> y < 4294967296 -> time_fromSec x = Ok t -> time_fromSec y = Ok t' -> (time_ns t <= time_ns t')%Z).
Proof.
  split.
  - intros t t' [S N] [S' N'] L. unfold time_ns in L. unfold time_toSec. apply rnd_le. assert (NP : 0 <= nano) by (pose proof nano_err; unfold u in *; lra).
    destruct (Z_lt_le_dec (tsec t) (tsec t')) as [C | C].
    + assert (R1 : rnd (nano * IZR (tnsec t)) <= 1).
      { apply Rle_trans with (rnd 1); [ apply rnd_le | rewrite (rnd_int 1) by reflexivity; lra ]. assert (IZR (tnsec t) <= 999999999) by (apply IZR_le; lia). assert (0 <= IZR (tnsec t)) by (apply IZR_le; lia).
        apply Rle_trans with (nano * 999999999); [ apply Rmult_le_compat_l; lra | ]. pose proof nano_err. unfold u in *. lra. }
      assert (R2 : 0 <= rnd (nano * IZR (tnsec t'))) by (rewrite <- rnd_0; apply rnd_le; apply Rmult_le_pos; [ exact NP | apply IZR_le; lia ]).
      assert (IZR (tsec t) + 1 <= IZR (tsec t')) by (rewrite <- plus_IZR; apply IZR_le; lia). lra.
    + assert (E : tsec t = tsec t') by lia. rewrite E. apply Rplus_le_compat_l. apply rnd_le. apply Rmult_le_compat_l; [ exact NP | ]. apply IZR_le. lia.
  - intros x y t t' X Y T T'. destruct (time_from x ltac:(lra)) as (n & E & N & S & RN & _). destruct (time_from y ltac:(lra)) as (n' & E' & N' & S' & RN' & _).
    assert (t = Tm (Zfloor x) n) by congruence. assert (t' = Tm (Zfloor y) n') by congruence. subst t t'. unfold time_ns. cbn [tsec tnsec].
    assert (F : (Zfloor x <= Zfloor y)%Z) by (apply Zfloor_le; lra). destruct (Z_lt_le_dec (Zfloor x) (Zfloor y)) as [C | C]; [ lia | ]. assert (Q : Zfloor x = Zfloor y) by lia. rewrite Q in *.
    assert (n <= n')%Z; [ | lia ]. set (z := rnd (rnd (x - IZR (Zfloor y)) * 1000000000)) in *. set (z' := rnd (rnd (y - IZR (Zfloor y)) * 1000000000)) in *.
    assert (ZZ : z <= z') by (apply rnd_le; apply Rmult_le_compat_r; [ lra | apply rnd_le; lra ]). rewrite RN, RN'.
    pose proof (Zfloor_lb x) as FL. rewrite Q in FL.
    assert (Z0 : 0 <= z) by (unfold z; rewrite <- rnd_0; apply rnd_le; apply Rmult_le_pos; [ rewrite <- rnd_0; apply rnd_le; lra | lra ]).
    unfold round_half. destruct (Rle_dec 0 z); [ | lra ]. destruct (Rle_dec 0 z'); [ | lra ]. apply Zfloor_le. lra.
Qed.
Print Assumptions C97_order.

(** Seconds can become a time that is not proper: the double 1 - 2^-40 becomes zero
    seconds and 10^9 nanoseconds, which compares as less than one second. *)
Theorem C97_proper_refuted : let x := 1 - / 1099511627776 in
  double x /\ time_fromSec x = Ok (Tm 0 1000000000) /\ time_ns (Tm 0 1000000000) = time_ns (Tm 1 0) /\
  time_eq (Tm 0 1000000000) (Tm 1 0) = false /\ time_lt (Tm 0 1000000000) (Tm 1 0) = true.
Proof.
  cbv zeta. split; [ | split; [ apply not_normal | split; [ reflexivity | split; reflexivity ] ] ].
  exists 1099511627775%Z, (-40)%Z. split; [ reflexivity | ]. change (bpow radix2 (-40)) with (/ IZR (2 ^ 40)). change (2 ^ 40)%Z with 1099511627776%Z. lra.
Qed.
Print Assumptions C97_proper_refuted.

(** Seconds become a duration within a nanosecond, rounded toward zero, with parts
    of the same sign; and the way to seconds and back changes a duration of less
    than 2^21 seconds by at most a nanosecond. *)
Theorem C97_duration :
  (forall x, -2147483648 <= x < 2147483648 -> exists d, duration_fromSec x = Ok d /\ Rabs (IZR (duration_ns d) - x * 1000000000) < 1 + / 1000000 /\
     (0 <= x -> (0 <= dsec d)%Z /\ (0 <= dnsec d <= 1000000000)%Z) /\ (x < 0 -> (dsec d <= 0)%Z /\ (-1000000000 <= dnsec d <= 0)%Z)) /\
  (forall d, (-2097152 < dsec d < 2097152)%Z -> (-1000000000 <= dnsec d <= 1000000000)%Z ->
     exists d', duration_fromSec (duration_toSec d) = Ok d' /\ (Z.abs (duration_ns d' - duration_ns d) <= 1)%Z).
Proof.
  split; [ | apply duration_trip ]. intros x X. destruct (duration_from x X) as (s & n & E & S & N & NR & A & B). exists (Dn s n). split; [ exact E | ]. unfold duration_ns. cbn [dsec dnsec]. split.
  - apply abs_split in A. apply Rabs_def2 in B. rewrite plus_IZR, mult_IZR. apply Rabs_def1; lra.
  - split; intros L; destruct (Rle_dec 0 x) as [L' | L']; try lra; (split; [ | exact NR ]); rewrite S.
    + pose proof (Zfloor_le 0 x L) as F. rewrite Zfloor_IZR in F. exact F.
    + assert (Zfloor x < 0)%Z; [ | lia ]. apply lt_IZR. pose proof (Zfloor_lb x). lra.
Qed.
Print Assumptions C97_duration.

(** A duration times a factor: the exact product up to the rounding of doubles and
    the nanosecond cut off. *)
Theorem C97_scale : forall d k, (-2147483648 <= dsec d <= 2147483647)%Z -> (-1000000000 <= dnsec d <= 1000000000)%Z ->
  let v := IZR (duration_ns d) / 1000000000 in let slack := Rabs k * (2 * Rabs (IZR (dsec d)) + 13) / 9007199254740992 in
  Rabs (v * k) + slack < 2147483648 ->
  exists d', duration_scale d k = Ok d' /\ Rabs (IZR (duration_ns d') - IZR (duration_ns d) * k) < 1 + / 1000000 + slack * 1000000000.
Proof.
  intros [s n] k S N v slack H. unfold duration_ns in *. cbn [dsec dnsec] in *. unfold duration_scale, duration_toSec. cbn [dsec dnsec].
  assert (NR : Rabs (IZR n) <= 2000000000) by (apply abs_split; split; [ apply Rle_trans with (IZR (-1000000000)); [ lra | apply IZR_le; lia ] | apply Rle_trans with (IZR 1000000000); [ apply IZR_le; lia | lra ] ]).
  pose proof (sum_err s n (Rabs (IZR s) + 3) NR ltac:(lra)) as E. set (x := rnd (IZR s + rnd (nano * IZR n))) in *.
  assert (V : v = IZR s + IZR n / 1000000000) by (unfold v; rewrite plus_IZR, mult_IZR; field). rewrite <- V in E. set (A := Rabs (IZR s)) in *. assert (A0 : 0 <= A) by apply Rabs_pos.
  assert (U : 0 < u <= / 1000) by (unfold u; lra). assert (K0 := Rabs_pos k).
  assert (XV : Rabs (x - v) <= u * (A + 9)) by (apply abs_split; lra).
  assert (VB : Rabs v <= A + 2). { rewrite V. eapply Rle_trans; [ apply Rabs_triang | ]. fold A. apply Rplus_le_compat_l. apply abs_split in NR. apply abs_split. lra. }
  assert (UA : 0 <= u * A) by (apply Rmult_le_pos; lra). assert (UA2 : u * A <= A / 1000) by (replace (A / 1000) with (/ 1000 * A) by field; apply Rmult_le_compat_r; lra).
  assert (P : Rabs (x * k - v * k) <= u * (A + 9) * Rabs k). { replace (x * k - v * k) with ((x - v) * k) by ring. rewrite Rabs_mult. apply Rmult_le_compat_r; assumption. }
  pose proof (rnd_rel (x * k)) as Q.
  assert (XK : Rabs (x * k) <= Rabs k * (A + 4 + A / 500)).
  { rewrite Rabs_mult, Rmult_comm. apply Rmult_le_compat_l; [ exact K0 | ]. replace x with (x - v + v) by ring. eapply Rle_trans; [ apply Rabs_triang | ]. lra. }
  assert (T : Rabs (rnd (x * k) - v * k) <= slack).
  { replace (rnd (x * k) - v * k) with (rnd (x * k) - x * k + (x * k - v * k)) by ring. eapply Rle_trans; [ apply Rabs_triang | ].
    assert (Q2 : u * Rabs (x * k) <= u * (Rabs k * (A + 4))).
    { apply Rmult_le_compat_l; [ lra | ]. rewrite Rabs_mult, Rmult_comm. apply Rmult_le_compat_l; [ exact K0 | ]. replace x with (x - v + v) by ring. eapply Rle_trans; [ apply Rabs_triang | ]. 
      assert (SA : A <= 2147483648) by (unfold A; apply abs_split; split; [ apply Rle_trans with (IZR (-2147483648)); [ lra | apply IZR_le; lia ] | apply Rle_trans with (IZR 2147483647); [ apply IZR_le; lia | lra ] ]).
      assert (u * A <= u * 2147483648) by (apply Rmult_le_compat_l; lra). unfold u in *. lra. }
    replace slack with (u * (A + 9) * Rabs k + u * (Rabs k * (A + 4))) by (unfold slack, u; field). lra. }
  assert (SL : 0 <= slack) by (unfold slack; apply Rmult_le_pos; [ apply Rmult_le_pos; [ exact K0 | lra ] | lra ]).
  destruct (duration_value (rnd (x * k))) as (s' & n' & F & G).
  { apply abs_split in T. assert (Rabs (v * k) < 2147483648 - slack) by lra. apply Rabs_def2 in H0. lra. }
  exists (Dn s' n'). split; [ exact F | ]. cbn [dsec dnsec]. apply Rabs_def2 in G. apply abs_split in T.
  replace (IZR (s * 1000000000 + n) * k) with (v * k * 1000000000) by (unfold v; field). apply Rabs_def1; lra.
Qed.
Print Assumptions C97_scale.

(** The way to seconds and back is not exact: one second and two nanoseconds lose
    a nanosecond. *)
Theorem C97_duration_trip_refuted : duration_fromSec (duration_toSec (Dn 1 2)) = Ok (Dn 1 1) /\ duration_ns (Dn 1 1) <> duration_ns (Dn 1 2).
Proof. split; [ apply lost_nanosecond | discriminate ]. Qed.
Print Assumptions C97_duration_trip_refuted.

(** A negative duration given in seconds is not in normal form: a whole number of
    seconds [-k] becomes [1 - k] seconds and [-10^9] nanoseconds, which is neither
    equal to nor ordered as the duration of [-k] seconds. *)
Theorem C97_negative_refuted : forall k, (1 <= k <= 2147483647)%Z ->
  duration_fromSec (IZR (- k)) = Ok (Dn (1 - k) (-1000000000)) /\ mk_duration (- k) 0 = Ok (Dn (- k) 0) /\
  duration_ns (Dn (1 - k) (-1000000000)) = duration_ns (Dn (- k) 0) /\
  duration_eq (Dn (1 - k) (-1000000000)) (Dn (- k) 0) = false /\ duration_lt (Dn (- k) 0) (Dn (1 - k) (-1000000000)) = true.
Proof.
  intros k K. split; [ apply negative_whole; lia | split; [ | split; [ unfold duration_ns; cbn [dsec dnsec]; lia | ] ] ].
  - unfold mk_duration, normalize_signed32, normalize_signed64. change (norm_fuel 0) with 2%nat. cbn [loop_down_signed loop_up Z.gtb Z.ltb Z.compare obind G].
    unfold INT_MIN, INT_MAX. destruct (Z.ltb_spec (- k) (-2147483648)); [ lia | ]. rewrite Z.gtb_ltb. destruct (Z.ltb_spec 2147483647 (- k)); [ lia | ]. cbn [orb obind].
    f_equal. f_equal. unfold cast_i32. cbn. try lia. rewrite Z.mod_small by lia. lia.
  - unfold duration_eq, duration_lt. cbn [dsec dnsec]. destruct (Z.eqb_spec (1 - k) (- k)); [ lia | ]. destruct (Z.ltb_spec (- k) (1 - k)); [ | lia ]. split; reflexivity.
Qed.
Print Assumptions C97_negative_refuted.

(** Nanoseconds to seconds and back: off by at most five units of the rounding of
    doubles and the fraction of a nanosecond that is cut off. *)
Theorem C97_nsec : forall n, (Z.abs n <= 2 ^ 62)%Z -> exists m, secToNsec (nsecToSec n) = Ok m /\
  Rabs (IZR (m - n)) < 1 + 5 * IZR (Z.abs n) / 9007199254740992 /\ ((Z.abs n < 1000000000000000)%Z -> (Z.abs (m - n) <= 1)%Z).
Proof.
  intros n N. destruct (nsec_trip n N) as (m & M & E). exists m. split; [ exact M | ]. replace (5 * IZR (Z.abs n) / 9007199254740992) with (5 * u * IZR (Z.abs n)) by (unfold u; field). split; [ exact E | ].
  intros L. assert (IZR (Z.abs n) < 1000000000000000) by (apply IZR_lt; exact L). rewrite <- abs_IZR in E. assert (Z.abs (m - n) < 2)%Z; [ | lia ]. apply lt_IZR. unfold u in E. lra.
Qed.
Print Assumptions C97_nsec.

Example C97_ex : proper_time (Tm 2097151 999999999) /\ time_fromSec (time_toSec (Tm 2097151 999999999)) = Ok (Tm 2097151 999999999) /\
  proper_time (Tm 1600000000 123456789) /\ duration_fromSec (IZR (-1)) = Ok (Dn 0 (-1000000000)) /\
  Rabs (IZR (duration_ns (Dn 10 0)) / 1000000000 * 2) + Rabs 2 * (2 * Rabs (IZR 10) + 13) / 9007199254740992 < 2147483648.
Proof.
  assert (P : proper_time (Tm 2097151 999999999)) by (unfold proper_time; cbn [tsec tnsec]; lia). split; [ exact P | ]. split.
  - destruct (C97_time_trip _ P) as (t' & T & E & _). rewrite T. f_equal. apply E. reflexivity.
  - split; [ unfold proper_time; cbn [tsec tnsec]; lia | split; [ apply (negative_whole 1); lia | ] ]. unfold duration_ns. cbn [dsec dnsec]. change (10 * 1000000000 + 0)%Z with 10000000000%Z. rewrite !Rabs_right; lra.
Qed.
