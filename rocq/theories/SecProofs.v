(** * Proofs about times as floating-point seconds *)
From Coq Require Import Reals Lra Lia ZArith Bool.
From Flocq Require Import Core Relative.
From Verif Require Import Base TimeModel SecModel.
Local Open Scope R_scope.

Definition u : R := / 9007199254740992.
Lemma abs_split x y : Rabs x <= y <-> - y <= x <= y.
Proof. split; [ unfold Rabs; destruct (Rcase_abs x); lra | intros; apply Rabs_le; assumption ]. Qed.
Lemma rnd_rel x : Rabs (rnd x - x) <= u * Rabs x.
Proof.
  pose proof (relative_error_N_FLX radix2 53 ltac:(lia) (fun z => negb (Z.even z)) x) as H. unfold rnd. replace u with (/ 2 * bpow radix2 (-53 + 1)); [ exact H | ].
  unfold u. change (bpow radix2 (-53 + 1)) with (/ IZR (2 ^ 52)). change (2 ^ 52)%Z with 4503599627370496%Z. lra.
Qed.
(** A bound on the error from a bound on the argument *)
Lemma rnd_err x B : Rabs x <= B -> - (u * B) <= rnd x - x <= u * B.
Proof. intros H. apply abs_split. eapply Rle_trans; [ apply rnd_rel | ]. apply Rmult_le_compat_l; [ unfold u; lra | exact H ]. Qed.
Lemma rnd_le x y : x <= y -> rnd x <= rnd y.
Proof. intros H. unfold rnd. apply round_le; [ apply FLX_exp_valid; reflexivity | apply valid_rnd_N | exact H ]. Qed.
Lemma rnd_exact m e : (Z.abs m < 2 ^ 53)%Z -> rnd (IZR m * bpow radix2 e) = IZR m * bpow radix2 e.
Proof.
  intros M. unfold rnd. apply round_generic; [ apply valid_rnd_N | ]. apply generic_format_FLX. exists (Float radix2 m e); [ reflexivity | exact M ].
Qed.
Lemma rnd_int m : (Z.abs m < 2 ^ 53)%Z -> rnd (IZR m) = IZR m.
Proof. intros M. pose proof (rnd_exact m 0 M) as H. cbn [bpow] in H. rewrite Rmult_1_r in H. exact H. Qed.
Lemma rnd_0 : rnd 0 = 0.
Proof. apply (rnd_int 0). reflexivity. Qed.
Lemma nano_err : - (u / 1000000000) <= nano - / 1000000000 <= u / 1000000000.
Proof. unfold nano. apply (rnd_err (/ 1000000000) (/ 1000000000)). rewrite Rabs_right; lra. Qed.
(** The nanoseconds as seconds *)
Lemma part_err n B : Rabs (IZR n) <= B -> 0 <= B -> - (3 * u * B / 1000000000) <= rnd (nano * IZR n) - IZR n / 1000000000 <= 3 * u * B / 1000000000.
Proof.
  intros H HB. pose proof nano_err as E. assert (H' := H). apply abs_split in H'.
  assert (U : 0 < u <= / 4) by (unfold u; lra).
  assert (P : Rabs (nano * IZR n - IZR n / 1000000000) <= u / 1000000000 * B).
  { replace (nano * IZR n - IZR n / 1000000000) with ((nano - / 1000000000) * IZR n) by field. rewrite Rabs_mult. apply Rmult_le_compat; [ apply Rabs_pos | apply Rabs_pos | apply abs_split; exact E | exact H ]. }
  apply abs_split in P.
  assert (A : Rabs (nano * IZR n) <= 2 * B / 1000000000).
  { rewrite Rabs_mult. apply Rle_trans with (2 / 1000000000 * B); [ | right; field ]. apply Rmult_le_compat; [ apply Rabs_pos | apply Rabs_pos | | exact H ]. apply abs_split. lra. }
  pose proof (rnd_err _ _ A) as Q. assert (E3 : u * (2 * B / 1000000000) = 2 * (u / 1000000000 * B)) by field. assert (E4 : 3 * u * B / 1000000000 = 3 * (u / 1000000000 * B)) by field. rewrite E3 in Q. rewrite E4. lra.
Qed.
(** Seconds of a pair *)
Lemma sum_err s n B : Rabs (IZR n) <= 2000000000 -> Rabs (IZR s) + 3 <= B ->
  - (u * B + 6 * u) <= rnd (IZR s + rnd (nano * IZR n)) - (IZR s + IZR n / 1000000000) <= u * B + 6 * u.
Proof.
  intros N S. pose proof (part_err n 2000000000 N ltac:(lra)) as P. replace (3 * u * 2000000000 / 1000000000) with (6 * u) in P by field. apply abs_split in N.
  assert (U : 0 < u <= / 6) by (unfold u; lra).
  assert (A : Rabs (IZR s + rnd (nano * IZR n)) <= B). { eapply Rle_trans; [ apply Rabs_triang | ]. apply Rle_trans with (Rabs (IZR s) + 3); [ | exact S ]. apply Rplus_le_compat_l. apply abs_split. lra. }
  pose proof (rnd_err _ _ A). lra.
Qed.
(** The nanoseconds of a fraction of a second *)
Lemma frac_err y : Rabs y <= 1 -> Rabs (rnd (rnd y * 1000000000) - y * 1000000000) <= / 1000000.
Proof.
  intros Y. pose proof (rnd_err y 1 Y) as E. apply abs_split in Y. assert (U : 0 < u <= / 5000000000000000) by (unfold u; lra).
  assert (A : Rabs (rnd y * 1000000000) <= 2000000000) by (apply abs_split; lra). pose proof (rnd_err _ _ A). apply abs_split. lra.
Qed.
Lemma cast_ok (f : Z -> bool) z : f z = true -> cast f z = Ok z.
Proof. intros H. unfold cast. rewrite H. reflexivity. Qed.
Lemma u32_ok z : (0 <= z <= 4294967295)%Z -> in_u32b z = true.
Proof. intros H. unfold in_u32b. apply andb_true_iff. split; apply Z.leb_le; lia. Qed.
Lemma i32_ok z : (-2147483648 <= z <= 2147483647)%Z -> in_i32b z = true.
Proof. intros H. unfold in_i32b, INT_MIN, INT_MAX. apply andb_true_iff. split; apply Z.leb_le; lia. Qed.
Lemma floor_bounds x : IZR (Zfloor x) <= x < IZR (Zfloor x) + 1.
Proof. split; [ apply Zfloor_lb | apply Zfloor_ub ]. Qed.
Lemma trunc_bounds x : (0 <= x -> IZR (Ztrunc x) <= x < IZR (Ztrunc x) + 1) /\ (x <= 0 -> IZR (Ztrunc x) - 1 < x <= IZR (Ztrunc x)).
Proof.
  split; intros H.
  - rewrite Ztrunc_floor by exact H. apply floor_bounds.
  - rewrite Ztrunc_ceil by exact H. unfold Zceil. rewrite opp_IZR. pose proof (floor_bounds (- x)). lra.
Qed.

(** ** Times *)
Lemma time_from x : 0 <= x < 4294967296 -> exists n, time_fromSec x = Ok (Tm (Zfloor x) n) /\ (0 <= n <= 1000000000)%Z /\ (0 <= Zfloor x <= 4294967295)%Z /\
  n = round_half (rnd (rnd (x - IZR (Zfloor x)) * 1000000000)) /\ Rabs (rnd (rnd (x - IZR (Zfloor x)) * 1000000000) - (x - IZR (Zfloor x)) * 1000000000) <= / 1000000 /\
  IZR n - / 2 <= rnd (rnd (x - IZR (Zfloor x)) * 1000000000) <= IZR n + / 2.
Proof.
  intros X. pose proof (floor_bounds x) as F. set (s := Zfloor x) in *.
  assert (S : (0 <= s <= 4294967295)%Z). { assert (IZR s < 4294967296) by lra. assert (-1 < IZR s) by lra. split; [ assert (-1 < s)%Z by (apply lt_IZR; lra); lia | assert (s < 4294967296)%Z by (apply lt_IZR; lra); lia ]. }
  set (y := x - IZR s). assert (Y : 0 <= y < 1) by (unfold y; lra).
  assert (E : Rabs (rnd (rnd y * 1000000000) - y * 1000000000) <= / 1000000) by (apply frac_err, abs_split; lra).
  set (z := rnd (rnd y * 1000000000)) in *.
  assert (Z1 : 0 <= z <= 1000000000).
  { unfold z. split.
    - rewrite <- rnd_0. apply rnd_le. apply Rmult_le_pos; [ rewrite <- rnd_0; apply rnd_le; lra | lra ].
    - apply Rle_trans with (rnd 1000000000); [ | rewrite (rnd_int 1000000000) by reflexivity; lra ]. apply rnd_le.
      assert (rnd y <= 1) by (apply Rle_trans with (rnd 1); [ apply rnd_le; lra | rewrite (rnd_int 1) by reflexivity; lra ]). lra. }
  assert (R1 : round_half z = Zfloor (z + / 2)) by (unfold round_half; destruct (Rle_dec 0 z); [ reflexivity | lra ]). pose proof (floor_bounds (z + / 2)) as FZ. rewrite <- R1 in FZ. set (n := round_half z) in *.
  assert (N : (0 <= n <= 1000000000)%Z). { split; [ assert (-1 < n)%Z by (apply lt_IZR; lra); lia | assert (n < 1000000001)%Z by (apply lt_IZR; lra); lia ]. }
  exists n. split; [ | split; [ exact N | split; [ exact S | split; [ reflexivity | split; [ exact E | lra ] ] ] ] ].
  unfold time_fromSec. fold s. rewrite cast_ok by (apply u32_ok; exact S). cbn [obind]. fold y. fold z. fold n. rewrite cast_ok by (apply u32_ok; lia). reflexivity.
Qed.

Lemma time_trip t : (0 <= tsec t < 4294967295)%Z -> (0 <= tnsec t < 1000000000)%Z -> exists t', time_fromSec (time_toSec t) = Ok t' /\
  IZR (Z.abs (tsec t' * 1000000000 + tnsec t' - (tsec t * 1000000000 + tnsec t))) <= 1 + (IZR (tsec t) + 1) * 1000000000 * u /\
  ((tsec t < 2097152)%Z -> t' = t).
Proof.
  destruct t as [s n]. cbn [tsec tnsec]. intros S N. unfold time_toSec. cbn [tsec tnsec].
  assert (SR : 0 <= IZR s <= 4294967294) by (split; apply IZR_le; lia). assert (NR : 0 <= IZR n <= 999999999) by (split; apply IZR_le; lia).
  pose proof (sum_err s n (IZR s + 3)) as E. rewrite !Rabs_right in E by lra. specialize (E ltac:(lra) ltac:(lra)).
  set (x := rnd (IZR s + rnd (nano * IZR n))) in *. assert (U : 0 < u <= / 9000000000000000) by (unfold u; lra).
  assert (US : 0 <= u * IZR s <= / 9000000000000000 * 4294967294) by (split; [ apply Rmult_le_pos; lra | apply Rmult_le_compat; lra ]).
  replace (u * (IZR s + 3) + 6 * u) with (u * IZR s + 9 * u) in E by ring.
  assert (X0 : IZR s <= x). { apply Rle_trans with (rnd (IZR s)); [ rewrite rnd_int by lia; lra | ]. apply rnd_le. assert (0 <= rnd (nano * IZR n)) by (rewrite <- rnd_0; apply rnd_le; pose proof nano_err; apply Rmult_le_pos; lra). lra. }
  destruct (time_from x ltac:(lra)) as (m & T & M & FS & _ & FE & MR). exists (Tm (Zfloor x) m). split; [ exact T | ]. cbn [tsec tnsec].
  set (f := Zfloor x) in *. set (z := rnd (rnd (x - IZR f) * 1000000000)) in *. apply abs_split in FE.
  (* the total error in nanoseconds *)
  assert (TOT : Rabs (IZR (f * 1000000000 + m - (s * 1000000000 + n))) <= / 2 + / 1000000 + (u * IZR s + 9 * u) * 1000000000).
  { rewrite minus_IZR, !plus_IZR, !mult_IZR. apply abs_split. lra. }
  split.
  - rewrite abs_IZR. lra.
  - intros S2. assert (SR2 : IZR s <= 2097151) by (apply IZR_le; lia).
    assert (US2 : u * IZR s <= / 9000000000000000 * 2097151) by (apply Rmult_le_compat; lra).
    assert (D : (f * 1000000000 + m = s * 1000000000 + n)%Z). { rewrite <- abs_IZR in TOT. assert (Z.abs (f * 1000000000 + m - (s * 1000000000 + n)) < 1)%Z by (apply lt_IZR; lra). lia. }
    assert (FX : f = s). { unfold f. apply Zfloor_imp. rewrite plus_IZR. split; [ exact X0 | lra ]. }
    f_equal; lia.
Qed.

(** ** Durations *)
Lemma duration_from d : -2147483648 <= d < 2147483648 -> exists s n, duration_fromSec d = Ok (Dn s n) /\
  s = (if Rle_dec 0 d then Zfloor d else (Zfloor d + 1)%Z) /\ n = Ztrunc (rnd (rnd (d - IZR s) * 1000000000)) /\ (if Rle_dec 0 d then (0 <= n <= 1000000000)%Z else (-1000000000 <= n <= 0)%Z) /\
  Rabs (rnd (rnd (d - IZR s) * 1000000000) - (d - IZR s) * 1000000000) <= / 1000000 /\ Rabs (IZR n - rnd (rnd (d - IZR s) * 1000000000)) < 1.
Proof.
  intros D. pose proof (floor_bounds d) as F. set (f := Zfloor d) in *.
  assert (FR : (-2147483648 <= f <= 2147483647)%Z). { split; [ assert (-2147483649 < f)%Z by (apply lt_IZR; lra); lia | assert (f < 2147483648)%Z by (apply lt_IZR; lra); lia ]. }
  set (s := if Rle_dec 0 d then f else (f + 1)%Z). set (y := d - IZR s).
  assert (Y : if Rle_dec 0 d then 0 <= y < 1 else -1 <= y < 0 \/ y = 0). { unfold y, s. destruct (Rle_dec 0 d); rewrite ?plus_IZR; lra. }
  assert (Y1 : Rabs y <= 1) by (apply abs_split; destruct (Rle_dec 0 d); lra).
  pose proof (frac_err y Y1) as E. set (z := rnd (rnd y * 1000000000)) in *.
  assert (ZR : if Rle_dec 0 d then 0 <= z <= 1000000000 else -1000000000 <= z <= 0).
  { assert (U1 : y <= 1 -> z <= 1000000000). { intros H. apply Rle_trans with (rnd 1000000000); [ | rewrite (rnd_int 1000000000) by reflexivity; lra ]. apply rnd_le. assert (rnd y <= 1) by (apply Rle_trans with (rnd 1); [ apply rnd_le; lra | rewrite (rnd_int 1) by reflexivity; lra ]). lra. }
    assert (U2 : -1 <= y -> -1000000000 <= z). { intros H. apply Rle_trans with (rnd (-1000000000)); [ rewrite (rnd_int (-1000000000)) by reflexivity; lra | ]. apply rnd_le. assert (-1 <= rnd y) by (apply Rle_trans with (rnd (-1)); [ rewrite (rnd_int (-1)) by reflexivity; lra | apply rnd_le; lra ]). lra. }
    assert (U3 : 0 <= y -> 0 <= z). { intros H. rewrite <- rnd_0. apply rnd_le. apply Rmult_le_pos; [ rewrite <- rnd_0; apply rnd_le; lra | lra ]. }
    assert (U4 : y <= 0 -> z <= 0). { intros H. rewrite <- rnd_0. apply rnd_le. assert (rnd y <= 0) by (rewrite <- rnd_0; apply rnd_le; lra). lra. }
    destruct (Rle_dec 0 d); lra. }
  destruct (trunc_bounds z) as [T1 T2]. set (n := Ztrunc z) in *.
  assert (N : (if Rle_dec 0 d then (0 <= n <= 1000000000)%Z else (-1000000000 <= n <= 0)%Z) /\ Rabs (IZR n - z) < 1).
  { destruct (Rle_dec 0 d).
    - specialize (T1 ltac:(lra)). split; [ split; [ assert (-1 < n)%Z by (apply lt_IZR; lra); lia | apply le_IZR; lra ] | apply Rabs_def1; lra ].
    - specialize (T2 ltac:(lra)). split; [ split; [ apply le_IZR; lra | assert (n < 1)%Z by (apply lt_IZR; lra); lia ] | apply Rabs_def1; lra ]. }
  exists s, n. split; [ | split; [ reflexivity | split; [ reflexivity | split; [ exact (proj1 N) | split; [ exact E | exact (proj2 N) ] ] ] ] ].
  unfold duration_fromSec. fold f. rewrite cast_ok by (apply i32_ok; exact FR). cbn [obind]. cbv zeta. fold s. fold y. fold z. fold n. rewrite cast_ok; [ reflexivity | ]. apply i32_ok. destruct N as [N _]. destruct (Rle_dec 0 d); lia.
Qed.
Lemma duration_value d : -2147483648 <= d < 2147483648 -> exists s n, duration_fromSec d = Ok (Dn s n) /\ Rabs (IZR (s * 1000000000 + n) - d * 1000000000) < 1 + / 1000000.
Proof.
  intros D. destruct (duration_from d D) as (s & n & E & _ & _ & _ & A & B). exists s, n. split; [ exact E | ]. apply abs_split in A. apply Rabs_def2 in B. rewrite plus_IZR, mult_IZR. apply Rabs_def1; lra.
Qed.
Lemma duration_trip d : (-2097152 < dsec d < 2097152)%Z -> (-1000000000 <= dnsec d <= 1000000000)%Z -> exists d', duration_fromSec (duration_toSec d) = Ok d' /\
  (Z.abs (dsec d' * 1000000000 + dnsec d' - (dsec d * 1000000000 + dnsec d)) <= 1)%Z.
Proof.
  destruct d as [s n]. cbn [dsec dnsec]. intros S N. unfold duration_toSec. cbn [dsec dnsec].
  assert (SR : -2097151 <= IZR s <= 2097151) by (split; apply IZR_le; lia). assert (NR : -1000000000 <= IZR n <= 1000000000) by (split; apply IZR_le; lia).
  pose proof (sum_err s n 2097154 ltac:(apply abs_split; lra)) as E. assert (SA : Rabs (IZR s) <= 2097151) by (apply abs_split; lra). specialize (E ltac:(lra)).
  set (x := rnd (IZR s + rnd (nano * IZR n))) in *. assert (U : 0 < u <= / 9000000000000000) by (unfold u; lra).
  destruct (duration_value x ltac:(lra)) as (s' & n' & T & V). exists (Dn s' n'). split; [ exact T | ]. cbn [dsec dnsec].
  apply Rabs_def2 in V. rewrite plus_IZR, mult_IZR in V. assert (Z.abs (s' * 1000000000 + n' - (s * 1000000000 + n)) < 2)%Z; [ | lia ].
  apply lt_IZR. rewrite abs_IZR, minus_IZR, !plus_IZR, !mult_IZR. apply Rabs_def1; lra.
Qed.

(** ** Nanoseconds *)
Lemma scaled_err x e B : 0 <= B -> Rabs (x - e) <= B -> forall C, Rabs x <= C -> Rabs (rnd x - e) <= B + u * C.
Proof. intros HB H C HC. pose proof (rnd_err x C HC). apply abs_split in H. apply abs_split. lra. Qed.
Lemma nsec_trip n : (Z.abs n <= 2 ^ 62)%Z -> exists m, secToNsec (nsecToSec n) = Ok m /\ Rabs (IZR (m - n)) < 1 + 5 * u * IZR (Z.abs n).
Proof.
  intros H. rewrite abs_IZR. set (N := Rabs (IZR n)). assert (NN : 0 <= N) by apply Rabs_pos. assert (U : 0 < u <= / 1000) by (unfold u; lra).
  assert (NB : N <= 4611686018427387904) by (unfold N; rewrite <- abs_IZR; apply IZR_le; exact H).
  assert (UN : 0 <= u * N <= N / 1000) by (split; [ apply Rmult_le_pos; lra | ]; replace (N / 1000) with (/ 1000 * N) by field; apply Rmult_le_compat_r; lra).
  pose proof (rnd_rel (IZR n)) as A. fold N in A. set (a := rnd (IZR n)) in *.
  assert (AN : Rabs a <= 1001 / 1000 * N). { replace a with (a - IZR n + IZR n) by ring. eapply Rle_trans; [ apply Rabs_triang | ]. fold N. lra. }
  pose proof nano_err as NE. assert (NE' : Rabs (nano - / 1000000000) <= u / 1000000000) by (apply abs_split; exact NE).
  assert (P : Rabs (a * nano - IZR n / 1000000000) <= 2001 / 1000 * (u * N) / 1000000000).
  { replace (a * nano - IZR n / 1000000000) with (a * (nano - / 1000000000) + (a - IZR n) / 1000000000) by field. eapply Rle_trans; [ apply Rabs_triang | ].
    assert (Rabs (a * (nano - / 1000000000)) <= 1001 / 1000 * N * (u / 1000000000)) by (rewrite Rabs_mult; apply Rmult_le_compat; [ apply Rabs_pos | apply Rabs_pos | exact AN | exact NE' ]).
    assert (Rabs ((a - IZR n) / 1000000000) <= u * N / 1000000000). { unfold Rdiv. rewrite Rabs_mult, (Rabs_right (/ 1000000000)) by lra. apply Rmult_le_compat_r; lra. }
    replace (2001 / 1000 * (u * N) / 1000000000) with (1001 / 1000 * N * (u / 1000000000) + u * N / 1000000000) by field. lra. }
  assert (PC : Rabs (a * nano) <= 1004 / 1000 * N / 1000000000).
  { replace (a * nano) with (a * nano - IZR n / 1000000000 + IZR n / 1000000000) by ring. eapply Rle_trans; [ apply Rabs_triang | ].
    assert (Rabs (IZR n / 1000000000) = N / 1000000000) as -> by (unfold Rdiv; rewrite Rabs_mult, (Rabs_right (/ 1000000000)) by lra; reflexivity). lra. }
  assert (P0 : 0 <= 2001 / 1000 * (u * N) / 1000000000) by lra. pose proof (scaled_err _ _ _ P0 P _ PC) as Q. fold (nsecToSec n) in Q. unfold nsecToSec in Q |- *. fold a in Q |- *. set (b := rnd (a * nano)) in *.
  assert (UU : u * (1004 / 1000 * N / 1000000000) = 1004 / 1000 * (u * N) / 1000000000) by field. rewrite UU in Q.
  assert (V : Rabs (b * 1000000000 - IZR n) <= 3005 / 1000 * (u * N)). { replace (b * 1000000000 - IZR n) with ((b - IZR n / 1000000000) * 1000000000) by field. rewrite Rabs_mult, (Rabs_right 1000000000) by lra. lra. }
  assert (VC : Rabs (b * 1000000000) <= 1004 / 1000 * N). { replace (b * 1000000000) with (b * 1000000000 - IZR n + IZR n) by ring. eapply Rle_trans; [ apply Rabs_triang | ]. fold N. lra. }
  assert (V0 : 0 <= 3005 / 1000 * (u * N)) by lra. pose proof (scaled_err _ _ _ V0 V _ VC) as W. replace (u * (1004 / 1000 * N)) with (1004 / 1000 * (u * N)) in W by field. set (c := rnd (b * 1000000000)) in *.
  exists (Ztrunc c). assert (T : Rabs (IZR (Ztrunc c) - c) < 1). { destruct (trunc_bounds c) as [T1 T2]. destruct (Rle_lt_dec 0 c) as [L | L]; [ specialize (T1 L) | specialize (T2 ltac:(lra)) ]; apply Rabs_def1; lra. }
  apply Rabs_def2 in T. apply abs_split in W.
  assert (CB : - (102 / 100 * N) <= IZR n <= 102 / 100 * N) by (apply abs_split; fold N; lra).
  split.
  - unfold secToNsec. fold c. apply cast_ok. unfold in_i64b, INT64_MIN, INT64_MAX. apply andb_true_iff. split; apply Z.leb_le; apply le_IZR; lra.
  - rewrite minus_IZR. apply Rabs_def1; lra.
Qed.

(** ** Witnesses *)
Lemma not_normal : rnd (1 - / 1099511627776) = 1 - / 1099511627776 /\ time_fromSec (1 - / 1099511627776) = Ok (Tm 0 1000000000).
Proof.
  set (x := 1 - / 1099511627776).
  assert (X : x = IZR 1099511627775 * bpow radix2 (-40)). { unfold x. change (bpow radix2 (-40)) with (/ IZR (2 ^ 40)). change (2 ^ 40)%Z with 1099511627776%Z. lra. }
  split; [ rewrite X; apply rnd_exact; reflexivity | ].
  assert (F : Zfloor x = 0%Z) by (apply Zfloor_imp; rewrite plus_IZR; unfold x; lra).
  destruct (time_from x ltac:(unfold x; lra)) as (n & T & N & _ & _ & A & B). rewrite F in *. replace (x - IZR 0) with x in * by ring. rewrite T. apply abs_split in A.
  assert (999999999 < n)%Z by (apply lt_IZR; unfold x in *; lra). f_equal. f_equal. lia.
Qed.
Lemma negative_whole k : (1 <= k <= 2147483648)%Z -> duration_fromSec (IZR (- k)) = Ok (Dn (1 - k) (-1000000000)).
Proof.
  intros K. unfold duration_fromSec. assert (KR : IZR (- k) < 0) by (apply IZR_lt; lia).
  assert (F : Zfloor (IZR (- k)) = (- k)%Z) by apply Zfloor_IZR. rewrite F. rewrite cast_ok by (apply i32_ok; lia). cbn [obind]. destruct (Rle_dec 0 (IZR (- k))); [ lra | ].
  replace (- k + 1)%Z with (1 - k)%Z by lia. replace (IZR (- k) - IZR (1 - k)) with (-1) by (rewrite minus_IZR, opp_IZR; ring). rewrite (rnd_int (-1)) by reflexivity.
  replace (-1 * 1000000000) with (IZR (-1000000000)) by lra. rewrite (rnd_int (-1000000000)) by reflexivity. rewrite Ztrunc_IZR. reflexivity.
Qed.
Lemma lost_nanosecond : duration_fromSec (duration_toSec (Dn 1 2)) = Ok (Dn 1 1).
Proof.
  unfold duration_toSec. cbn [dsec dnsec]. pose proof (part_err 2 2 ltac:(rewrite Rabs_right; lra) ltac:(lra)) as P. set (r := rnd (nano * IZR 2)) in *.
  assert (U : 0 < u <= / 9000000000000000) by (unfold u; lra).
  assert (E : rnd (IZR 1 + r) = IZR 4503599636377695 * bpow radix2 (-52)).
  { unfold rnd. unfold round. assert (C : cexp radix2 (FLX_exp 53) (IZR 1 + r) = (-52)%Z).
    { unfold cexp, FLX_exp. rewrite (mag_unique_pos radix2 (IZR 1 + r) 1); [ reflexivity | ]. change (bpow radix2 (1 - 1)) with 1. change (bpow radix2 1) with 2. lra. }
    unfold scaled_mantissa. rewrite C. unfold F2R. cbn [Fnum Fexp]. f_equal. f_equal. apply Znearest_imp. change (bpow radix2 (- -52)) with (IZR (2 ^ 52)). change (2 ^ 52)%Z with 4503599627370496%Z. apply Rabs_def1; lra. }
  rewrite E. set (x := IZR 4503599636377695 * bpow radix2 (-52)).
  assert (B : bpow radix2 (-52) = / 4503599627370496) by (change (bpow radix2 (-52)) with (/ IZR (2 ^ 52)); reflexivity).
  assert (F : Zfloor x = 1%Z) by (apply Zfloor_imp; unfold x; rewrite B, plus_IZR; lra).
  assert (X : x - IZR 1 = IZR 9007199 * bpow radix2 (-52)) by (unfold x; rewrite B; lra).
  unfold duration_fromSec. rewrite F. rewrite cast_ok by reflexivity. cbn [obind]. destruct (Rle_dec 0 x) as [ | L ]; [ | exfalso; apply L; unfold x; rewrite B; lra ]. cbv zeta.
  rewrite X, rnd_exact by reflexivity. pose proof (rnd_err (IZR 9007199 * bpow radix2 (-52) * 1000000000) 2 ltac:(rewrite B; rewrite Rabs_right; lra)) as R1. rewrite B in *.
  assert (T : Ztrunc (rnd (9007199 * / 4503599627370496 * 1000000000)) = 1%Z) by (rewrite Ztrunc_floor by lra; apply Zfloor_imp; rewrite plus_IZR; lra).
  rewrite T. reflexivity.
Qed.
