From Coq Require Import ZArith List Lia Bool ZifyBool.
From Verif Require Import Base TimeModel TimeSpec.
Import ListNotations.
Open Scope Z_scope.
Ltac Zify.zify_post_hook ::= Z.div_mod_to_equations.

Ltac unf := unfold in_i32, in_u32, in_i64, in_u64, INT_MIN, INT_MAX, UINT_MAX,
  INT64_MIN, INT64_MAX, UINT64_MAX, G in *.

Lemma ret_i64_ok x : in_i64 x -> ret_i64 x = Ok x.
Proof. intros H. unfold ret_i64. apply in_i64b_iff in H. now rewrite H. Qed.

Lemma loop_down_signed_spec fuel : forall sec nsec,
  (Z.abs nsec / G < Z.of_nat fuel) ->
  - 2 ^ 62 <= sec <= 2 ^ 62 -> - 2 ^ 62 <= nsec <= 2 ^ 62 ->
  - 2 ^ 62 <= sec + Z.abs nsec / G + 1 <= 2 ^ 62 ->
  exists k, 0 <= k /\ loop_down_signed fuel sec nsec = Ok (sec + k, nsec - k * G) /\
    (nsec <= G -> k = 0) /\ (G < nsec -> 0 < nsec - k * G <= G).
Proof.
  induction fuel as [|f IH]; intros sec nsec Hf Hs Hn Hb.
  - unf; lia.
  - cbn [loop_down_signed]. destruct (Z.gtb_spec nsec G) as [Hgt|Hle].
    + rewrite ret_i64_ok by (unf; lia). cbn [obind].
      destruct (IH (sec + 1) (nsec - G)) as (k & Hk & He & H1 & H2); try (unf; lia).
      exists (k + 1). rewrite He.
      split; [lia|]. split; [f_equal; f_equal; lia|].
      split; unf; intros; destruct (Z.le_gt_cases (nsec - 1000000000) 1000000000); lia.
    + exists 0. rewrite Z.add_0_r, Z.mul_0_l, Z.sub_0_r.
      repeat split; try lia.
Qed.

Lemma loop_down_unsigned_spec fuel : forall sec nsec,
  (Z.abs nsec / G < Z.of_nat fuel) ->
  - 2 ^ 62 <= sec <= 2 ^ 62 -> - 2 ^ 62 <= nsec <= 2 ^ 62 ->
  - 2 ^ 62 <= sec + Z.abs nsec / G + 1 <= 2 ^ 62 ->
  exists k, 0 <= k /\ loop_down_unsigned fuel sec nsec = Ok (sec + k, nsec - k * G) /\
    (nsec < G -> k = 0) /\ (G <= nsec -> 0 <= nsec - k * G < G).
Proof.
  induction fuel as [|f IH]; intros sec nsec Hf Hs Hn Hb.
  - unf; lia.
  - cbn [loop_down_unsigned]. destruct (Z.geb_spec nsec G) as [Hgt|Hle].
    + rewrite ret_i64_ok by (unf; lia). cbn [obind].
      destruct (IH (sec + 1) (nsec - G)) as (k & Hk & He & H1 & H2); try (unf; lia).
      exists (k + 1). rewrite He.
      split; [lia|]. split; [f_equal; f_equal; lia|].
      split; unf; intros; destruct (Z.lt_ge_cases (nsec - 1000000000) 1000000000); lia.
    + exists 0. rewrite Z.add_0_r, Z.mul_0_l, Z.sub_0_r.
      repeat split; try lia.
Qed.

Lemma loop_up_spec fuel : forall sec nsec,
  (Z.abs nsec / G + 1 < Z.of_nat fuel \/ (0 <= nsec /\ 0 < Z.of_nat fuel)) ->
  - 2 ^ 62 <= sec <= 2 ^ 62 -> - 2 ^ 62 <= nsec <= 2 ^ 62 ->
  - 2 ^ 62 <= sec - Z.max 0 (G - 1 - nsec) / G <= 2 ^ 62 ->
  exists k, 0 <= k /\ loop_up fuel sec nsec = Ok (sec - k, nsec + k * G) /\
    (0 <= nsec -> k = 0) /\ (nsec < 0 -> 0 <= nsec + k * G < G).
Proof.
  induction fuel as [|f IH]; intros sec nsec Hf Hs Hn Hb.
  - unf; lia.
  - cbn [loop_up]. destruct (Z.ltb_spec nsec 0) as [Hgt|Hle].
    + rewrite ret_i64_ok by (unf; lia). cbn [obind].
      destruct (IH (sec - 1) (nsec + G)) as (k & Hk & He & H1 & H2); try (unf; lia).
      exists (k + 1). rewrite He.
      split; [lia|]. split; [f_equal; f_equal; lia|].
      split; unf; intros; destruct (Z.lt_ge_cases (nsec + 1000000000) 0); lia.
    + exists 0. rewrite Z.sub_0_r, Z.mul_0_l, Z.add_0_r.
      repeat split; try lia.
Qed.

(** Closed description of the signed normalisation for moderately sized inputs. *)
Lemma normalize_signed64_spec sec nsec :
  - 2 ^ 40 <= sec <= 2 ^ 40 -> - 2 ^ 40 <= nsec <= 2 ^ 40 ->
  match normalize_signed64 sec nsec with
  | Ok (s, n) => s * G + n = sec * G + nsec /\ 0 <= n <= G /\ in_i32 s
                 /\ (n = G -> nsec > 0 /\ nsec mod G = 0)
  | Throw => exists s n, s * G + n = sec * G + nsec /\ 0 <= n <= G /\ ~ in_i32 s /\ (n = G -> sec <= s)
  | _ => False
  end.
Proof.
  intros Hs Hn. unfold normalize_signed64.
  destruct (loop_down_signed_spec (norm_fuel nsec) sec nsec) as (k & Hk & He & H1 & H2).
  1-4: unfold norm_fuel; unf; lia.
  rewrite He. cbn [obind].
  destruct (loop_up_spec (norm_fuel nsec) (sec + k) (nsec - k * G)) as (j & Hj & He' & H1' & H2').
  { unfold norm_fuel; unf. destruct (Z.le_gt_cases nsec 0).
    - left. assert (k = 0) by lia. subst. lia.
    - right. lia. }
  1-3: unfold norm_fuel; unf; lia.
  rewrite He'. cbn [obind].
  destruct ((sec + k - j <? INT_MIN) || (sec + k - j >? INT_MAX)) eqn:E.
  - exists (sec + k - j), (nsec - k * G + j * G). unf. lia.
  - assert (Hi : in_i32 (sec + k - j)) by (unf; lia).
    split; [lia|]. split; [unf; lia|]. split; [exact Hi|].
    intros Hn0. unf. split; [lia|].
    assert (nsec = (k - j + 1) * 1000000000) by lia. subst nsec.
    apply Z_mod_mult.
Qed.

Lemma normalize_unsigned_spec sec nsec :
  - 2 ^ 40 <= sec <= 2 ^ 40 -> - 2 ^ 40 <= nsec <= 2 ^ 40 ->
  match normalize_unsigned sec nsec with
  | Ok (s, n) => s * G + n = sec * G + nsec /\ 0 <= n < G /\ 0 <= s < 2 ^ 31
  | Throw => exists s n, s * G + n = sec * G + nsec /\ 0 <= n < G /\ (s < 0 \/ 2 ^ 31 <= s)
  | _ => False
  end.
Proof.
  intros Hs Hn. unfold normalize_unsigned.
  destruct (loop_down_unsigned_spec (norm_fuel nsec) sec nsec) as (k & Hk & He & H1 & H2).
  1-4: unfold norm_fuel; unf; lia.
  rewrite He. cbn [obind].
  destruct (loop_up_spec (norm_fuel nsec) (sec + k) (nsec - k * G)) as (j & Hj & He' & H1' & H2').
  { unfold norm_fuel; unf. destruct (Z.le_gt_cases nsec 0).
    - left. assert (k = 0) by lia. subst. lia.
    - right. lia. }
  1-3: unfold norm_fuel; unf; lia.
  rewrite He'. cbn [obind].
  destruct ((sec + k - j <? 0) || (sec + k - j >? INT_MAX)) eqn:E.
  - exists (sec + k - j), (nsec - k * G + j * G). unf. lia.
  - unf. lia.
Qed.

Lemma normalize_u32_canon s n : 0 <= s < 2 ^ 32 -> 0 <= n < G ->
  normalize_u32 s n = Ok (Tm s n).
Proof.
  intros. unfold normalize_u32, normalize_u64.
  replace (n / G) with 0 by (unf; lia). replace (n mod G) with n by (unf; lia).
  cbn [obind]. rewrite Z.gtb_ltb. replace (UINT_MAX <? 0) with false by reflexivity.
  cbn [obind]. rewrite Z.add_0_r.
  rewrite cast_u64_id by (unf; lia). rewrite !cast_u32_id by (unf; lia). reflexivity.
Qed.

Lemma time_add_spec t d : fits_time t -> fits_dur d ->
  match time_add t d with
  | Ok t' => ns_time t' = ns_time t + ns_dur d /\ 0 <= tnsec t' < 10 ^ 9 /\ 0 <= tsec t' < 2 ^ 31
             /\ 0 <= ns_time t + ns_dur d < 2 ^ 31 * 10 ^ 9
  | Throw => ns_time t + ns_dur d < 0 \/ 2 ^ 31 * 10 ^ 9 <= ns_time t + ns_dur d
  | _ => False
  end.
Proof.
  unfold fits_time, fits_dur, ns_time, ns_dur. intros Ht Hd. unfold time_add.
  pose proof (normalize_unsigned_spec (tsec t + dsec d) (tnsec t + dnsec d)) as H.
  specialize (H ltac:(lia) ltac:(lia)).
  destruct (normalize_unsigned _ _) as [[s n]| | |]; cbn [obind]; try exact H.
  - unfold mk_time. rewrite !cast_u32_id by (unf; lia).
    rewrite normalize_u32_canon by (unf; lia). cbn [tsec tnsec]. unf. lia.
  - destruct H as (s & n & H). unf. lia.
Qed.

Lemma mk_duration_spec s n : - 2 ^ 31 <= s < 2 ^ 31 -> - 2 ^ 31 <= n < 2 ^ 31 ->
  match mk_duration s n with
  | Ok d => ns_dur d = s * 10 ^ 9 + n /\ - 2 ^ 31 <= dsec d < 2 ^ 31 /\ 0 <= dnsec d <= 10 ^ 9
            /\ (dnsec d = 10 ^ 9 -> n = 10 ^ 9 \/ n = 2 * 10 ^ 9)
  | Throw => s * 10 ^ 9 + n < - 2 ^ 31 * 10 ^ 9 \/ 2 ^ 31 * 10 ^ 9 <= s * 10 ^ 9 + n
  | _ => False
  end.
Proof.
  intros Hs Hn. unfold mk_duration, normalize_signed32, ns_dur.
  pose proof (normalize_signed64_spec s n ltac:(lia) ltac:(lia)) as H.
  destruct (normalize_signed64 s n) as [[s' n']| | |]; cbn [obind]; try exact H.
  - cbn [dsec dnsec]. rewrite !cast_i32_id by (unf; lia). unf.
    destruct H as (H1 & H2 & H3 & H4). repeat split; try lia.
  - destruct H as (s' & n' & H). unf. lia.
Qed.

Lemma duration_add_spec a b : fits_dur a -> fits_dur b ->
  match duration_add a b with
  | Ok d => ns_dur d = ns_dur a + ns_dur b /\ - 2 ^ 31 <= dsec d < 2 ^ 31 /\ 0 <= dnsec d <= 10 ^ 9
  | Throw => ns_dur a + ns_dur b < - 2 ^ 31 * 10 ^ 9 \/ 2 ^ 31 * 10 ^ 9 <= ns_dur a + ns_dur b
  | UB => ~ in_i32 (dsec a + dsec b) \/ ~ in_i32 (dnsec a + dnsec b)
  | Hang => False
  end.
Proof.
  unfold fits_dur. intros Ha Hb. unfold duration_add, ret_i32.
  destruct (in_i32b (dsec a + dsec b)) eqn:E1; cbn [obind].
  2:{ left. rewrite <- in_i32b_iff. congruence. }
  destruct (in_i32b (dnsec a + dnsec b)) eqn:E2; cbn [obind].
  2:{ right. rewrite <- in_i32b_iff. congruence. }
  apply in_i32b_iff in E1, E2.
  pose proof (mk_duration_spec (dsec a + dsec b) (dnsec a + dnsec b) ltac:(unf; lia) ltac:(unf; lia)) as H.
  destruct (mk_duration _ _); try exact H; unfold ns_dur in *; lia.
Qed.

Lemma duration_sub_spec a b : fits_dur a -> fits_dur b ->
  match duration_sub a b with
  | Ok d => ns_dur d = ns_dur a - ns_dur b /\ - 2 ^ 31 <= dsec d < 2 ^ 31 /\ 0 <= dnsec d <= 10 ^ 9
  | Throw => ns_dur a - ns_dur b < - 2 ^ 31 * 10 ^ 9 \/ 2 ^ 31 * 10 ^ 9 <= ns_dur a - ns_dur b
  | UB => ~ in_i32 (dsec a - dsec b) \/ ~ in_i32 (dnsec a - dnsec b)
  | Hang => False
  end.
Proof.
  unfold fits_dur. intros Ha Hb. unfold duration_sub, ret_i32.
  destruct (in_i32b (dsec a - dsec b)) eqn:E1; cbn [obind].
  2:{ left. rewrite <- in_i32b_iff. congruence. }
  destruct (in_i32b (dnsec a - dnsec b)) eqn:E2; cbn [obind].
  2:{ right. rewrite <- in_i32b_iff. congruence. }
  apply in_i32b_iff in E1, E2.
  pose proof (mk_duration_spec (dsec a - dsec b) (dnsec a - dnsec b) ltac:(unf; lia) ltac:(unf; lia)) as H.
  destruct (mk_duration _ _); try exact H; unfold ns_dur in *; lia.
Qed.

Lemma duration_neg_spec a : fits_dur a ->
  match duration_neg a with
  | Ok d => ns_dur d = - ns_dur a /\ - 2 ^ 31 <= dsec d < 2 ^ 31 /\ 0 <= dnsec d <= 10 ^ 9
  | Throw => - ns_dur a < - 2 ^ 31 * 10 ^ 9 \/ 2 ^ 31 * 10 ^ 9 <= - ns_dur a
  | UB => dsec a = - 2 ^ 31 \/ dnsec a = - 2 ^ 31
  | Hang => False
  end.
Proof.
  unfold fits_dur. intros Ha. unfold duration_neg, ret_i32.
  destruct (in_i32b (- dsec a)) eqn:E1; cbn [obind].
  2:{ left. assert (~ in_i32 (- dsec a)) by (rewrite <- in_i32b_iff; congruence). unf; lia. }
  destruct (in_i32b (- dnsec a)) eqn:E2; cbn [obind].
  2:{ right. assert (~ in_i32 (- dnsec a)) by (rewrite <- in_i32b_iff; congruence). unf; lia. }
  apply in_i32b_iff in E1, E2.
  pose proof (mk_duration_spec (- dsec a) (- dnsec a) ltac:(unf; lia) ltac:(unf; lia)) as H.
  destruct (mk_duration _ _); try exact H; unfold ns_dur in *; lia.
Qed.

Lemma time_sub_spec t d : fits_time t -> canonical_dur d -> - 2 ^ 31 < dsec d ->
  match time_sub t d with
  | Ok t' => ns_time t' = ns_time t - ns_dur d /\ 0 <= tnsec t' < 10 ^ 9
             /\ 0 <= ns_time t - ns_dur d < 2 ^ 31 * 10 ^ 9
  | Throw => ns_time t - ns_dur d < 0 \/ 2 ^ 31 * 10 ^ 9 <= ns_time t - ns_dur d
  | _ => False
  end.
Proof.
  intros Ht Hd Hm. unfold canonical_dur in Hd.
  pose proof (duration_neg_spec d) as Hn. unfold fits_dur in Hn.
  specialize (Hn ltac:(lia)). unfold time_sub.
  destruct (duration_neg d) as [nd| | |]; cbn [obind]; unfold ns_dur in Hn; try lia.
  pose proof (time_add_spec t nd Ht) as Ha. unfold fits_dur in Ha.
  specialize (Ha ltac:(lia)).
  unfold ns_time, ns_dur in *.
  destruct (time_add t nd); try exact Ha; lia.
Qed.

Lemma cast_i32_small x : 0 <= x < 2 ^ 31 -> cast_i32 x = x.
Proof. intros. apply cast_i32_id. unf; lia. Qed.

Lemma time_diff_spec a b :
  canonical_time a -> canonical_time b -> tsec a < 2 ^ 31 -> tsec b < 2 ^ 31 ->
  exists d, time_diff a b = Ok d /\ ns_dur d = ns_time a - ns_time b /\ canonical_dur d.
Proof.
  unfold canonical_time. intros Ha Hb Ha' Hb'. unfold time_diff.
  rewrite !cast_i32_small by lia.
  rewrite !ret_i32_ok by (unf; lia). cbn [obind].
  pose proof (mk_duration_spec (tsec a - tsec b) (tnsec a - tnsec b) ltac:(lia) ltac:(lia)) as H.
  destruct (mk_duration _ _) as [d| | |].
  - exists d. split; [reflexivity|]. unfold ns_dur, ns_time, canonical_dur in *.
    destruct H as (H1 & H2 & H3 & H4). repeat split; try lia.
  - lia.
  - contradiction.
  - contradiction.
Qed.

Lemma time_add_diff a b :
  canonical_time a -> canonical_time b -> tsec a < 2 ^ 31 -> tsec b < 2 ^ 31 ->
  exists d, time_diff a b = Ok d /\ time_add b d = Ok a.
Proof.
  intros Ha Hb Ha' Hb'.
  destruct (time_diff_spec a b Ha Hb Ha' Hb') as (d & Hd & Hn & Hc).
  exists d. split; [exact Hd|].
  pose proof (time_add_spec b d) as H.
  unfold fits_time, fits_dur, canonical_time, canonical_dur in *.
  specialize (H ltac:(lia) ltac:(lia)).
  destruct (time_add b d) as [t'| | |]; unfold ns_time, ns_dur in *; try lia; try contradiction.
  f_equal. destruct a as [s n], t' as [s' n']. cbn [tsec tnsec] in *. f_equal; lia.
Qed.

(* fromNSec *)
Lemma time_fromNSec_spec n : 0 <= n < 2 ^ 64 ->
  exists t, time_fromNSec n = Ok t /\ canonical_time t /\
    ns_time t = n mod (2 ^ 32 * 10 ^ 9).
Proof.
  intros Hn. unfold time_fromNSec.
  assert (Hc : forall x, cast_u32 (cast_i32 x) = x mod 2 ^ 32).
  { intros x. unfold cast_u32, cast_i32. lia. }
  rewrite !Hc.
  replace ((n mod G) mod 2 ^ 32) with (n mod G) by (unf; lia).
  rewrite normalize_u32_canon by (unf; lia).
  eexists. split; [reflexivity|]. unfold canonical_time, ns_time. cbn [tsec tnsec]. unf.
  split; [lia|]. lia.
Qed.

Lemma time_toNSec_eq t : fits_time t -> time_toNSec t = ns_time t.
Proof. unfold fits_time, time_toNSec, ns_time. intros. rewrite cast_u64_id; unf; lia. Qed.

Lemma time_nsec_roundtrip1 t : canonical_time t -> time_fromNSec (time_toNSec t) = Ok t.
Proof.
  intros Hc. unfold canonical_time in Hc. rewrite time_toNSec_eq by (unfold fits_time; lia).
  destruct (time_fromNSec_spec (ns_time t)) as (t' & He & Hc' & Hn).
  { unfold ns_time. lia. }
  rewrite He. f_equal. unfold canonical_time, ns_time in *.
  destruct t as [s n], t' as [s' n']. cbn [tsec tnsec] in *.
  f_equal; lia.
Qed.

Lemma time_nsec_roundtrip2 n : 0 <= n < 2 ^ 32 * 10 ^ 9 ->
  exists t, time_fromNSec n = Ok t /\ time_toNSec t = n /\ canonical_time t.
Proof.
  intros Hn. destruct (time_fromNSec_spec n) as (t & He & Hc & Hv); [lia|].
  exists t. split; [exact He|]. unfold canonical_time in Hc.
  rewrite time_toNSec_eq by (unfold fits_time; lia).
  rewrite Hv. split; [apply Z.mod_small; lia|exact Hc].
Qed.

Lemma duration_fromNSec_spec n : - 2 ^ 31 * 10 ^ 9 <= n < 2 ^ 31 * 10 ^ 9 ->
  exists d, duration_fromNSec n = Ok d /\ ns_dur d = n /\ canonical_dur d.
Proof.
  intros Hn. unfold duration_fromNSec.
  assert (Hq : n = G * Z.quot n G + Z.rem n G) by apply Z.quot_rem'.
  assert (Hr : Z.abs (Z.rem n G) < G).
  { pose proof (Z.rem_bound_abs n G). unf. lia. }
  assert (Hs : 0 <= n /\ 0 <= Z.rem n G \/ n <= 0 /\ Z.rem n G <= 0).
  { destruct (Z.le_gt_cases 0 n).
    - left. split; [lia|]. apply Z.rem_nonneg; unf; lia.
    - right. split; [lia|]. apply Z.rem_nonpos; unf; lia. }
  set (q := Z.quot n G) in *. set (r := Z.rem n G) in *. clearbody q r.
  rewrite !cast_i32_id by (unf; lia).
  pose proof (mk_duration_spec q r ltac:(unf; lia) ltac:(unf; lia)) as H.
  unfold mk_duration in H.
  destruct (normalize_signed32 q r) as [d| | |]; unf.
  - exists d. split; [reflexivity|]. unfold ns_dur, canonical_dur in *.
    destruct H as (H1 & H2 & H3 & H4). split; [lia|]. split; [lia|].
    assert (dnsec d <> 10 ^ 9) by (intros E; destruct (H4 E); lia). lia.
  - exfalso. unfold ns_dur in H. lia.
  - contradiction.
  - contradiction.
Qed.

Lemma duration_nsec_roundtrip1 d : canonical_dur d -> duration_fromNSec (duration_toNSec d) = Ok d.
Proof.
  intros Hc. destruct (duration_fromNSec_spec (duration_toNSec d)) as (d' & He & Hn & Hc').
  { unfold canonical_dur, duration_toNSec in *. unf. lia. }
  rewrite He. f_equal. unfold canonical_dur, ns_dur, duration_toNSec in *. unf.
  destruct d as [s n], d' as [s' n']. cbn [dsec dnsec] in *. f_equal; lia.
Qed.

(* comparisons *)
Ltac split_ifs := repeat match goal with
  | |- context [if ?b then _ else _] => destruct b eqn:?
  | H : context [if ?b then _ else _] |- _ => destruct b eqn:?
  end.

Lemma time_cmp_spec a b : canonical_time a -> canonical_time b ->
  (time_lt a b = true <-> ns_time a < ns_time b) /\
  (time_gt a b = true <-> ns_time a > ns_time b) /\
  (time_le a b = true <-> ns_time a <= ns_time b) /\
  (time_ge a b = true <-> ns_time a >= ns_time b) /\
  (time_eq a b = true <-> ns_time a = ns_time b) /\
  (time_eq a b = true <-> a = b).
Proof.
  destruct a as [s n], b as [s' n']. unfold canonical_time, ns_time, time_lt, time_gt, time_le, time_ge, time_eq.
  cbn [tsec tnsec]. intros Ha Hb.
  repeat split; intros; split_ifs; try lia.
  - assert (s = s' /\ n = n') as [-> ->] by lia. reflexivity.
  - injection H as -> ->. lia.
Qed.

Lemma duration_cmp_spec a b : canonical_dur a -> canonical_dur b ->
  (duration_lt a b = true <-> ns_dur a < ns_dur b) /\
  (duration_gt a b = true <-> ns_dur a > ns_dur b) /\
  (duration_le a b = true <-> ns_dur a <= ns_dur b) /\
  (duration_ge a b = true <-> ns_dur a >= ns_dur b) /\
  (duration_eq a b = true <-> ns_dur a = ns_dur b) /\
  (duration_eq a b = true <-> a = b).
Proof.
  destruct a as [s n], b as [s' n']. unfold canonical_dur, ns_dur, duration_lt, duration_gt, duration_le, duration_ge, duration_eq.
  cbn [dsec dnsec]. intros Ha Hb.
  repeat split; intros; split_ifs; try lia.
  - assert (s = s' /\ n = n') as [-> ->] by lia. reflexivity.
  - injection H as -> ->. lia.
Qed.

(* reachable values *)
Definition almost_canonical (d : duration) : Prop :=
  - 2 ^ 31 <= dsec d < 2 ^ 31 /\ 0 <= dnsec d <= 10 ^ 9.

Lemma mk_time_canon s n t : 0 <= s < 2 ^ 32 -> 0 <= n < 2 ^ 32 -> mk_time s n = Ok t -> canonical_time t.
Proof.
  intros Hs Hn. unfold mk_time, normalize_u32, normalize_u64.
  replace (n / G >? UINT_MAX) with false by (unf; lia). cbn [obind].
  intros [= <-]. unfold canonical_time, cast_u32; cbn [tsec tnsec]. unf. lia.
Qed.

Lemma almost_fits d : almost_canonical d -> fits_dur d.
Proof. unfold almost_canonical, fits_dur. lia. Qed.

Lemma canon_fits t : canonical_time t -> fits_time t.
Proof. unfold canonical_time, fits_time. lia. Qed.

Lemma time_add_canon t d t' : canonical_time t -> almost_canonical d -> time_add t d = Ok t' -> canonical_time t'.
Proof.
  intros Ht Hd E. pose proof (time_add_spec t d (canon_fits _ Ht) (almost_fits _ Hd)) as H.
  rewrite E in H. unfold canonical_time. lia.
Qed.

Lemma mk_dur_almost s n d : - 2 ^ 31 <= s < 2 ^ 31 -> - 2 ^ 31 <= n < 2 ^ 31 ->
  mk_duration s n = Ok d -> almost_canonical d.
Proof.
  intros Hs Hn E. pose proof (mk_duration_spec s n Hs Hn) as H. rewrite E in H.
  unfold almost_canonical. tauto.
Qed.

Lemma neg_almost a d : almost_canonical a -> duration_neg a = Ok d -> almost_canonical d.
Proof.
  intros Ha E. pose proof (duration_neg_spec a (almost_fits _ Ha)) as H. rewrite E in H.
  unfold almost_canonical. tauto.
Qed.

Lemma time_diff_almost a b d : time_diff a b = Ok d -> almost_canonical d.
Proof.
  unfold time_diff. intros e.
  destruct (ret_i32 (cast_i32 (tsec a) - cast_i32 (tsec b))) as [s| | |] eqn:E1; cbn [obind] in e; try discriminate.
  destruct (ret_i32 (cast_i32 (tnsec a) - cast_i32 (tnsec b))) as [n| | |] eqn:E2; cbn [obind] in e; try discriminate.
  apply ret_i32_inv in E1 as [-> E1]. apply ret_i32_inv in E2 as [-> E2]. unf.
  refine (mk_dur_almost _ _ _ _ _ e); lia.
Qed.

Lemma api_canonical :
  (forall t, api_time t -> canonical_time t) /\ (forall d, api_dur d -> almost_canonical d).
Proof.
  apply (api_mut (fun t _ => canonical_time t) (fun d _ => almost_canonical d)).
  - unfold canonical_time; cbn; lia.
  - intros s n t Hs Hn e. exact (mk_time_canon s n t Hs Hn e).
  - intros n t Hn e. destruct (time_fromNSec_spec n) as (t' & He & Hc & _); [lia|]. congruence.
  - intros t d t' _ Ht _ Hd e. exact (time_add_canon t d t' Ht Hd e).
  - intros t d t' _ Ht _ Hd e. unfold time_sub in e.
    destruct (duration_neg d) as [nd| | |] eqn:E; cbn [obind] in e; try discriminate.
    exact (time_add_canon t nd t' Ht (neg_almost _ _ Hd E) e).
  - unfold almost_canonical; cbn; lia.
  - intros s n d Hs Hn e. exact (mk_dur_almost s n d Hs Hn e).
  - intros n d Hn e. unfold duration_fromNSec in e.
    refine (mk_dur_almost _ _ _ _ _ e); unfold cast_i32; lia.
  - intros a b d _ _ _ _ e. exact (time_diff_almost a b d e).
  - intros a b d _ Ha _ Hb e.
    pose proof (duration_add_spec a b (almost_fits _ Ha) (almost_fits _ Hb)) as HH.
    rewrite e in HH. unfold almost_canonical. tauto.
  - intros a b d _ Ha _ Hb e.
    pose proof (duration_sub_spec a b (almost_fits _ Ha) (almost_fits _ Hb)) as HH.
    rewrite e in HH. unfold almost_canonical. tauto.
  - intros a d _ Ha e. exact (neg_almost a d Ha e).
Qed.

(* histories of additions *)
Lemma duration_run_exact ops : forall a r,
  almost_canonical a -> Forall (fun o => almost_canonical (incr_arg o)) ops ->
  duration_run a ops = Ok r ->
  ns_dur r = ns_dur a + fold_right Z.add 0 (map incr_ns ops).
Proof.
  induction ops as [|o ops IH]; cbn [duration_run map fold_right]; intros a r Ha Hds E.
  - injection E as <-. lia.
  - inversion Hds as [|? ? H1 H2]; subst. destruct o as [d|d]; cbn [incr_arg incr_ns] in *.
    + destruct (duration_add a d) as [a'| | |] eqn:Ea; cbn [obind] in E; try discriminate.
      pose proof (duration_add_spec a d (almost_fits _ Ha) (almost_fits _ H1)) as HH. rewrite Ea in HH.
      rewrite (IH a' r); auto; unfold almost_canonical; lia.
    + unfold duration_sub_assign in E.
      destruct (duration_neg d) as [nd| | |] eqn:En; cbn [obind] in E; try discriminate.
      pose proof (duration_neg_spec d (almost_fits _ H1)) as Hn. rewrite En in Hn.
      assert (Hnd : almost_canonical nd) by (unfold almost_canonical; lia).
      destruct (duration_add a nd) as [a'| | |] eqn:Ea; cbn [obind] in E; try discriminate.
      pose proof (duration_add_spec a nd (almost_fits _ Ha) (almost_fits _ Hnd)) as HH. rewrite Ea in HH.
      rewrite (IH a' r); auto; unfold almost_canonical; lia.
Qed.

Lemma time_run_exact ops : forall t r,
  canonical_time t -> Forall (fun o => almost_canonical (incr_arg o)) ops ->
  time_run t ops = Ok r ->
  ns_time r = ns_time t + fold_right Z.add 0 (map incr_ns ops).
Proof.
  induction ops as [|o ops IH]; cbn [time_run map fold_right]; intros a r Ha Hds E.
  - injection E as <-. lia.
  - inversion Hds as [|? ? H1 H2]; subst. destruct o as [d|d]; cbn [incr_arg incr_ns] in *.
    + destruct (time_add a d) as [a'| | |] eqn:Ea; cbn [obind] in E; try discriminate.
      pose proof (time_add_spec a d (canon_fits _ Ha) (almost_fits _ H1)) as HH. rewrite Ea in HH.
      rewrite (IH a' r); auto; unfold canonical_time; lia.
    + unfold time_sub_assign in E.
      destruct (duration_neg d) as [nd| | |] eqn:En; cbn [obind] in E; try discriminate.
      pose proof (duration_neg_spec d (almost_fits _ H1)) as Hn. rewrite En in Hn.
      assert (Hnd : almost_canonical nd) by (unfold almost_canonical; lia).
      destruct (time_add a nd) as [a'| | |] eqn:Ea; cbn [obind] in E; try discriminate.
      pose proof (time_add_spec a nd (canon_fits _ Ha) (almost_fits _ Hnd)) as HH. rewrite Ea in HH.
      rewrite (IH a' r); auto; unfold canonical_time; lia.
Qed.

(* printing *)
Lemma fold_digit_app l1 l2 a : fold_left digit_val (l1 ++ l2) a =
  fold_left digit_val l1 a * 10 ^ Z.of_nat (length l2) + fold_left digit_val l2 0.
Proof.
  rewrite fold_left_app. generalize (fold_left digit_val l1 a) as x. clear.
  induction l2 as [|d l2 IH]; intros x; cbn [fold_left length].
  - lia.
  - rewrite IH. rewrite (IH (digit_val 0 d)). unfold digit_val.
    rewrite Nat2Z.inj_succ, Z.pow_succ_r by lia. ring.
Qed.

Lemma digits_fuel_spec fuel : forall n acc, 0 <= n < 10 ^ Z.of_nat fuel -> Forall is_digit acc ->
  fold_left digit_val (digits_fuel fuel n acc) 0 =
    n * 10 ^ Z.of_nat (length acc) + fold_left digit_val acc 0
  /\ Forall is_digit (digits_fuel fuel n acc)
  /\ ((0 < fuel)%nat -> digits_fuel fuel n acc <> []).
Proof.
  induction fuel as [|f IH]; intros n acc Hn Hacc; cbn [digits_fuel].
  - change (10 ^ Z.of_nat 0) with 1 in Hn. assert (n = 0) by lia. subst. split; [lia|].
    split; [exact Hacc|lia].
  - rewrite Nat2Z.inj_succ, Z.pow_succ_r in Hn by lia.
    destruct (Z.ltb_spec n 10).
    + split; [|split].
      * change (n :: acc) with ([n] ++ acc). rewrite fold_digit_app. cbn [fold_left].
        unfold digit_val at 1. lia.
      * constructor; [unfold is_digit; lia|exact Hacc].
      * discriminate.
    + destruct (IH (n / 10) (n mod 10 :: acc)) as (H1 & H2 & H3).
      * split; [apply Z.div_pos; lia|]. apply Z.div_lt_upper_bound; lia.
      * constructor; [unfold is_digit; lia|exact Hacc].
      * split; [|split].
        -- rewrite H1. change (n mod 10 :: acc) with ([n mod 10] ++ acc) at 2.
           rewrite fold_digit_app. cbn [fold_left length]. unfold digit_val at 1.
           rewrite Nat2Z.inj_succ, Z.pow_succ_r by lia.
           rewrite (Z.div_mod n 10) at 3 by lia. ring.
        -- exact H2.
        -- intros _. destruct f; [|apply H3; lia]. cbn. discriminate.
Qed.

Lemma digits_spec n : 0 <= n < 10 ^ 20 ->
  fold_left digit_val (digits n) 0 = n /\ Forall is_digit (digits n) /\ digits n <> [].
Proof.
  intros Hn. destruct (digits_fuel_spec 20 n [] Hn (Forall_nil _)) as (H1 & H2 & H3).
  unfold digits. split; [|split; [exact H2|apply H3; lia]].
  rewrite H1. cbn [length fold_left]. change (10 ^ Z.of_nat 0) with 1. lia.
Qed.

Lemma digits_fuel_length fuel : forall n acc k, 0 <= n < 10 ^ Z.of_nat k -> (1 <= k)%nat -> (k <= fuel)%nat ->
  (length (digits_fuel fuel n acc) <= k + length acc)%nat.
Proof.
  induction fuel as [|f IH]; intros n acc k Hn Hk Hf; cbn [digits_fuel]; [lia|].
  destruct (Z.ltb_spec n 10); [cbn [length]; lia|].
  destruct k as [|k]; [lia|]. rewrite Nat2Z.inj_succ, Z.pow_succ_r in Hn by lia.
  assert (1 <= k)%nat.
  { destruct k; [|lia]. change (10 ^ Z.of_nat 0) with 1 in Hn. lia. }
  pose proof (IH (n / 10) (n mod 10 :: acc) k) as HH. cbn [length] in HH.
  assert (0 <= n / 10 < 10 ^ Z.of_nat k).
  { split; [apply Z.div_pos; lia|]. apply Z.div_lt_upper_bound; lia. }
  specialize (HH H1 ltac:(lia) ltac:(lia)). lia.
Qed.

Lemma fold_zeros k l : fold_left digit_val (repeat 0 k ++ l) 0 = fold_left digit_val l 0.
Proof. induction k; cbn [repeat app fold_left]; [reflexivity|]. unfold digit_val at 2. exact IHk. Qed.

Lemma map_repeat {A B} (f : A -> B) x k : map f (repeat x k) = repeat (f x) k.
Proof. induction k; cbn; congruence. Qed.

Lemma pad9_digits n : 0 <= n < 10 ^ 9 ->
  exists fp, pad9 (print_int n) = map Digit fp /\ length fp = 9%nat /\ Forall is_digit fp
    /\ fold_left digit_val fp 0 = n.
Proof.
  intros Hn. destruct (digits_spec n) as (H1 & H2 & H3); [lia|].
  assert (Hl : (length (digits n) <= 9)%nat).
  { pose proof (digits_fuel_length 20 n [] 9) as HH. unfold digits. cbn [length] in HH.
    change (Z.of_nat 9) with 9 in HH. specialize (HH Hn). lia. }
  exists (repeat 0 (9 - length (digits n)) ++ digits n).
  unfold pad9, print_int. destruct (Z.ltb_spec n 0); [lia|].
  rewrite map_app, map_repeat, map_length. split; [reflexivity|].
  split; [rewrite app_length, repeat_length; lia|].
  split; [|rewrite fold_zeros; exact H1].
  apply Forall_app. split; [|exact H2].
  apply Forall_forall. intros x Hx. apply repeat_spec in Hx. subst. unfold is_digit. lia.
Qed.

Lemma print_fields_denotes s n : 0 <= s < 2 ^ 32 -> 0 <= n < 10 ^ 9 ->
  denotes_ns (print_int s ++ [Dot] ++ pad9 (print_int n)) (s * 10 ^ 9 + n).
Proof.
  intros Hs Hn. destruct (pad9_digits n Hn) as (fp & -> & Hl & Hf & Hv).
  destruct (digits_spec s) as (H1 & H2 & H3); [lia|].
  exists (fold_left digit_val (digits s ++ fp) 0), (length fp). split.
  - unfold print_int. destruct (Z.ltb_spec s 0); [lia|]. now apply reads_pos.
  - rewrite fold_digit_app, H1, Hv, Hl. change (Z.of_nat 9) with 9. ring.
Qed.

Lemma digit_split_inj a : forall b c d,
  map Digit a ++ [Dot] ++ map Digit b = map Digit c ++ [Dot] ++ map Digit d -> a = c /\ b = d.
Proof.
  induction a as [|x a IH]; intros b c d H.
  - destruct c as [|y c]; cbn in H; [|discriminate].
    injection H as H. split; [reflexivity|].
    revert d H. induction b as [|z b IHb]; intros [|w d] H; cbn in H; try discriminate; [reflexivity|].
    injection H as -> H. f_equal. now apply IHb.
  - destruct c as [|y c]; cbn in H; [discriminate|].
    injection H as -> H. destruct (IH b c d H) as [-> ->]. auto.
Qed.

Lemma reads_fun s n1 k1 n2 k2 : reads s n1 k1 -> reads s n2 k2 -> n1 = n2 /\ k1 = k2.
Proof.
  intros H1 H2. destruct H1 as [ip fp Hi _ _|ip fp Hi _ _]; inversion H2 as [ip' fp' Hi' _ _ E|ip' fp' Hi' _ _ E]; subst.
  - apply digit_split_inj in E as [-> ->]. auto.
  - destruct ip; [congruence|discriminate].
  - destruct ip'; [congruence|discriminate].
  - apply digit_split_inj in E as [-> ->]. auto.
Qed.

Lemma not_denotes s num k n : reads s num k -> num * 10 ^ 9 <> n * 10 ^ Z.of_nat k -> ~ denotes_ns s n.
Proof.
  intros Hr Hne (num' & k' & Hr' & He).
  destruct (reads_fun _ _ _ _ _ Hr Hr') as [-> ->]. contradiction.
Qed.
