From Coq Require Import ZArith List Lia Bool ZifyBool ZifyNat.
From Verif Require Import Base ArchiveModel ArchiveSpec.
Import ListNotations.
Open Scope Z_scope.
Ltac Zify.zify_post_hook ::= Z.div_mod_to_equations.

Lemma le_bytes_length k : forall n, length (le_bytes k n) = k.
Proof. induction k; intros; cbn; auto. Qed.

Lemma le_val_bytes k : forall n, le_val (le_bytes k n) = n mod 256 ^ Z.of_nat k.
Proof.
  induction k as [|k IH]; intros n; cbn [le_bytes le_val].
  - cbn. symmetry. apply Z.mod_1_r.
  - rewrite IH, Nat2Z.inj_succ, Z.pow_succ_r by lia.
    rewrite Z.rem_mul_r by lia. reflexivity.
Qed.

Lemma le_bytes_firstn k : forall j n, (j <= k)%nat -> firstn j (le_bytes k n) = le_bytes j n.
Proof.
  induction k as [|k IH]; intros j n Hj.
  - assert (j = 0%nat) by lia. subst. reflexivity.
  - destruct j as [|j]; [reflexivity|]. cbn [le_bytes firstn]. f_equal. apply IH. lia.
Qed.

Lemma le_val_app a b : le_val (a ++ b) = le_val a + 256 ^ Z.of_nat (length a) * le_val b.
Proof.
  induction a as [|x a IH]; cbn [app le_val length].
  - rewrite Z.pow_0_r. lia.
  - rewrite IH, Nat2Z.inj_succ, Z.pow_succ_r by lia. lia.
Qed.

Lemma le_val_zeros k : le_val (repeat 0 k) = 0.
Proof. induction k; cbn [repeat le_val]; lia. Qed.

Lemma rev_repeat {A} (x : A) k : rev (repeat x k) = repeat x k.
Proof.
  induction k; [reflexivity|]. cbn [repeat rev]. rewrite IHk.
  clear. induction k; [reflexivity|]. cbn. now rewrite IHk.
Qed.

Lemma set_nth_length i : forall x l, length (set_nth i x l) = length l.
Proof. induction i; intros x [|y l]; cbn; auto. Qed.

Lemma nth_set_nth i : forall x l k, (i < length l)%nat ->
  nth k (set_nth i x l) 0 = if Nat.eqb k i then x else nth k l 0.
Proof.
  induction i; intros x [|y l] k Hl; cbn [set_nth length] in *; try lia.
  - destruct k; reflexivity.
  - destruct k; [reflexivity|]. cbn [nth Nat.eqb]. apply IHi. lia.
Qed.

Lemma reverse_loop_spec fuel : forall i j a, (j - i <= fuel)%nat -> (j < length a)%nat \/ (j <= i)%nat ->
  length (reverse_loop fuel i j a) = length a /\
  forall k, (i <= k <= j)%nat -> (j < length a)%nat -> nth k (reverse_loop fuel i j a) 0 = nth (i + j - k) a 0.
Proof.
  assert (Hout : forall fuel i j a k, (j < length a)%nat \/ (j <= i)%nat -> (k < i \/ k > j)%nat ->
            nth k (reverse_loop fuel i j a) 0 = nth k a 0).
  { induction fuel0 as [|f IH]; intros i j a k Hj Hk; cbn [reverse_loop]; [reflexivity|].
    destruct (Nat.ltb_spec i j); [|reflexivity].
    rewrite IH by (rewrite ?set_nth_length; lia).
    rewrite nth_set_nth by (rewrite set_nth_length; lia).
    destruct (Nat.eqb_spec k i); [lia|].
    rewrite nth_set_nth by lia. destruct (Nat.eqb_spec k j); [lia|reflexivity]. }
  induction fuel as [|f IH]; intros i j a Hf Hj; cbn [reverse_loop].
  - split; [reflexivity|]. intros k Hk Hl. f_equal. lia.
  - destruct (Nat.ltb_spec i j) as [Hij|Hij].
    + set (a2 := set_nth i (nth j a 0) (set_nth j (nth i a 0) a)).
      assert (Hl2 : length a2 = length a) by (unfold a2; now rewrite !set_nth_length).
      destruct (IH (S i) (j - 1)%nat a2) as [H1 H2]; [lia|rewrite Hl2; lia|].
      split; [congruence|]. intros k Hk Hl.
      assert (Ha2 : forall q, nth q a2 0 = if Nat.eqb q i then nth j a 0 else if Nat.eqb q j then nth i a 0 else nth q a 0).
      { intros q. unfold a2. rewrite nth_set_nth by (rewrite set_nth_length; lia).
        rewrite nth_set_nth by lia. reflexivity. }
      destruct (Nat.eq_dec k i) as [->|Hki].
      { rewrite Hout by (rewrite ?Hl2; lia). rewrite Ha2, Nat.eqb_refl. f_equal. lia. }
      destruct (Nat.eq_dec k j) as [->|Hkj].
      { rewrite Hout by (rewrite ?Hl2; lia). rewrite Ha2, Nat.eqb_refl.
        destruct (Nat.eqb_spec j i); [lia|]. f_equal. lia. }
      rewrite H2 by (rewrite ?Hl2; lia). rewrite Ha2.
      destruct (Nat.eqb_spec (S i + (j - 1) - k) i); [lia|].
      destruct (Nat.eqb_spec (S i + (j - 1) - k) j); [lia|]. f_equal. lia.
    + split; [reflexivity|]. intros k Hk Hl. f_equal. lia.
Qed.

Lemma reverse_bytes_rev a : reverse_bytes a = rev a.
Proof.
  unfold reverse_bytes.
  destruct a as [|x a]; [reflexivity|].
  set (l := x :: a). assert (Hl : (0 < length l)%nat) by (unfold l; cbn; lia).
  destruct (reverse_loop_spec (length l) 0 (length l - 1) l) as [H1 H2]; [lia|lia|].
  apply (nth_ext _ _ 0 0); [rewrite rev_length; exact H1|].
  intros k Hk. rewrite H1 in Hk. rewrite H2 by lia. rewrite rev_nth by lia. f_equal. lia.
Qed.

(** number of bytes *)
Lemma size_loop_spec fuel : forall ll s, 0 <= ll < 256 ^ Z.of_nat fuel -> (0 < fuel)%nat ->
  exists k, size_loop fuel ll s = Ok (s + Z.of_nat k) /\ (1 <= k <= fuel)%nat /\
    ll < 256 ^ Z.of_nat k /\ (forall j, (1 <= j)%nat -> ll < 256 ^ Z.of_nat j -> (k <= j)%nat).
Proof.
  induction fuel as [|f IH]; intros ll s Hll Hf; [lia|].
  cbn [size_loop]. rewrite Z.shiftr_div_pow2 by lia. change (2 ^ 8) with 256.
  destruct (Z.eqb_spec (ll / 256) 0) as [E|E].
  - exists 1%nat. split; [reflexivity|]. split; [lia|]. split; [change (256 ^ Z.of_nat 1) with 256; lia|].
    intros; lia.
  - rewrite Nat2Z.inj_succ, Z.pow_succ_r in Hll by lia.
    assert (Hlt : ll / 256 < 256 ^ Z.of_nat f) by (apply Z.div_lt_upper_bound; lia).
    assert (0 < f)%nat.
    { destruct f; [|lia]. change (256 ^ Z.of_nat 0) with 1 in Hlt. lia. }
    destruct (IH (ll / 256) (s + 1)) as (k & He & Hk & Hb & Hmin); [lia|lia|].
    exists (S k). split; [rewrite He; f_equal; lia|]. split; [lia|]. split.
    + rewrite Nat2Z.inj_succ, Z.pow_succ_r by lia.
      assert (ll < 256 * (ll / 256 + 1)) by lia. nia.
    + intros j Hj Hjb. destruct j as [|j]; [lia|].
      rewrite Nat2Z.inj_succ, Z.pow_succ_r in Hjb by lia.
      assert (ll / 256 < 256 ^ Z.of_nat j) by (apply Z.div_lt_upper_bound; lia).
      destruct j as [|j].
      { change (256 ^ Z.of_nat 0) with 1 in H0. lia. }
      specialize (Hmin (S j) ltac:(lia) H0). lia.
Qed.

(** Byte order actually produced in the stream. *)
Definition stream_big (c : config) (flags : Z) : bool :=
  if macro_big c then negb (has flags endian_little) else has flags endian_big.

Lemma skipn_rev' {A} (l : list A) n : (n <= length l)%nat ->
  skipn (length l - n) (rev l) = rev (firstn n l).
Proof.
  intros. rewrite skipn_rev. f_equal. f_equal. lia.
Qed.

Lemma save_impl_spec c flags l : consistent c -> - 2 ^ 63 < l < 2 ^ 63 -> l <> 0 ->
  exists k, (1 <= k <= 8)%nat /\ Z.abs l < 256 ^ Z.of_nat k /\
    (forall j, (1 <= j)%nat -> Z.abs l < 256 ^ Z.of_nat j -> (k <= j)%nat) /\
    save_impl c flags l = Ok ((if l <? 0 then 256 - Z.of_nat k else Z.of_nat k) ::
       (if stream_big c flags then rev (le_bytes k (Z.abs l)) else le_bytes k (Z.abs l))).
Proof.
  intros Hc Hl Hl0. unfold save_impl.
  destruct (Z.eqb_spec l 0) as [|_]; [contradiction|].
  replace (if l <? 0 then ret_i64 (- l) else Ok l) with (Ok (Z.abs l)).
  2:{ destruct (Z.ltb_spec l 0).
      - unfold ret_i64. replace (in_i64b (- l)) with true.
        + f_equal. lia.
        + symmetry. apply in_i64b_iff. unfold in_i64, INT64_MIN, INT64_MAX. lia.
      - f_equal. lia. }
  cbn [obind].
  destruct (size_loop_spec 9 (Z.abs l) 0) as (k & He & Hk & Hb & Hmin).
  { change (256 ^ Z.of_nat 9) with (2 ^ 72). lia. }
  { lia. }
  assert (Hk8 : (k <= 8)%nat).
  { apply Hmin; [lia|]. change (256 ^ Z.of_nat 8) with (2 ^ 64). lia. }
  rewrite He. cbn [obind]. rewrite Z.add_0_l, Nat2Z.id.
  exists k. split; [lia|]. split; [exact Hb|]. split; [exact Hmin|].
  assert (Hsz : (if l <? 0 then - Z.of_nat k else Z.of_nat k) mod 256 =
                (if l <? 0 then 256 - Z.of_nat k else Z.of_nat k)).
  { destruct (l <? 0); lia. }
  rewrite Hsz. do 2 f_equal. unfold mem_of, stream_big. unfold consistent in Hc. rewrite <- Hc.
  destruct (macro_big c).
  - replace (skipn (8 - k) (rev (le_bytes 8 (Z.abs l)))) with (rev (le_bytes k (Z.abs l))).
    2:{ rewrite <- (le_bytes_firstn 8 k) by lia.
        rewrite <- skipn_rev' by (rewrite le_bytes_length; lia). now rewrite le_bytes_length. }
    rewrite firstn_all2 by (rewrite rev_length, le_bytes_length; lia).
    destruct (has flags endian_little); cbn [negb].
    + now rewrite reverse_bytes_rev, rev_involutive.
    + reflexivity.
  - rewrite le_bytes_firstn by lia. destruct (has flags endian_big); [|reflexivity].
    apply reverse_bytes_rev.
Qed.

Lemma firstn_app_exact {A} (l r : list A) k : length l = k -> firstn k (l ++ r) = l.
Proof. intros <-. rewrite firstn_app, Nat.sub_diag, firstn_all, firstn_O. apply app_nil_r. Qed.

Lemma skipn_app_exact {A} (l r : list A) k : length l = k -> skipn k (l ++ r) = r.
Proof. intros <-. rewrite skipn_app, Nat.sub_diag, skipn_all. reflexivity. Qed.

Lemma val_of_part c k (m : Z) bs : consistent c -> (k <= 8)%nat -> 0 <= m < 2 ^ 63 -> m < 256 ^ Z.of_nat k ->
  bs = (if host_big c then rev (le_bytes k m) else le_bytes k m) ->
  val_of c (if macro_big c then repeat 0 (8 - k) ++ bs else bs ++ repeat 0 (8 - k)) = m.
Proof.
  intros Hc Hk Hm Hmk ->. unfold val_of. unfold consistent in Hc. rewrite Hc.
  assert (Hv : le_val (le_bytes k m ++ repeat 0 (8 - k)) = m).
  { rewrite le_val_app, le_val_zeros, le_val_bytes. rewrite Z.mod_small by lia. lia. }
  destruct (host_big c).
  - rewrite rev_app_distr, rev_involutive, rev_repeat, Hv.
    apply cast_i64_id. unfold in_i64, INT64_MIN, INT64_MAX. lia.
  - rewrite Hv. apply cast_i64_id. unfold in_i64, INT64_MIN, INT64_MAX. lia.
Qed.

(** Writer and reader may run on different hosts, if they agree on the byte
    order in the stream. *)
Lemma impl_roundtrip cw cr fw fr l maxsize rest :
  consistent cw -> consistent cr -> stream_big cw fw = stream_big cr fr ->
  - 2 ^ 63 < l < 2 ^ 63 -> 1 <= maxsize <= 8 -> Z.abs l < 256 ^ maxsize ->
  exists bs, save_impl cw fw l = Ok bs /\ load_impl cr fr maxsize (bs ++ rest) = Ok (l, rest).
Proof.
  intros Hcw Hcr Hs Hl Hms Habs.
  destruct (Z.eq_dec l 0) as [->|Hl0].
  { exists [0]. split; [reflexivity|]. reflexivity. }
  destruct (save_impl_spec cw fw l Hcw Hl Hl0) as (k & Hk & Hb & Hmin & He).
  eexists. split; [exact He|].
  assert (Hkm : Z.of_nat k <= maxsize).
  { specialize (Hmin (Z.to_nat maxsize)). rewrite Z2Nat.id in Hmin by lia. specialize (Hmin ltac:(lia) Habs). lia. }
  set (part := if stream_big cw fw then rev (le_bytes k (Z.abs l)) else le_bytes k (Z.abs l)).
  assert (Hpl : length part = k).
  { unfold part. destruct (stream_big cw fw); rewrite ?rev_length; apply le_bytes_length. }
  change ((?x :: part) ++ rest) with (x :: (part ++ rest)).
  cbn [app]. fold part. unfold load_impl.
  assert (Hsc : schar (if l <? 0 then 256 - Z.of_nat k else Z.of_nat k) = if l <? 0 then - Z.of_nat k else Z.of_nat k).
  { unfold schar. destruct (l <? 0).
    - destruct (Z.ltb_spec (256 - Z.of_nat k) 128); lia.
    - destruct (Z.ltb_spec (Z.of_nat k) 128); lia. }
  rewrite Hsc.
  assert (Hne : ((if l <? 0 then - Z.of_nat k else Z.of_nat k) =? 0) = false).
  { destruct (l <? 0); lia. }
  rewrite Hne.
  assert (Hneg : ((if l <? 0 then - Z.of_nat k else Z.of_nat k) <? 0) = (l <? 0)).
  { destruct (l <? 0); lia. }
  rewrite Hneg.
  assert (Hsize : (if l <? 0 then schar ((- (if l <? 0 then - Z.of_nat k else Z.of_nat k)) mod 256)
                   else if l <? 0 then - Z.of_nat k else Z.of_nat k) = Z.of_nat k).
  { destruct (l <? 0); [|reflexivity].
    rewrite Z.opp_involutive, Z.mod_small by lia. unfold schar. destruct (Z.ltb_spec (Z.of_nat k) 128); lia. }
  rewrite Hsize.
  replace (Z.of_nat k >? maxsize) with false by lia.
  replace (Z.of_nat k <? 0) with false by lia.
  rewrite Nat2Z.id.
  replace (Nat.ltb (length (part ++ rest)) k) with false.
  2:{ symmetry. apply Nat.ltb_ge. rewrite app_length. lia. }
  rewrite firstn_app_exact, skipn_app_exact by exact Hpl.
  set (bs := if (if macro_big cr then has fr endian_little else has fr endian_big) then reverse_bytes part else part).
  rewrite (val_of_part cr k (Z.abs l) bs Hcr); try lia.
  - destruct (Z.ltb_spec l 0).
    + unfold ret_i64. replace (in_i64b (- Z.abs l)) with true.
      * cbn [obind]. do 2 f_equal. lia.
      * symmetry. apply in_i64b_iff. unfold in_i64, INT64_MIN, INT64_MAX. lia.
    + cbn [obind]. do 2 f_equal. lia.
  - unfold bs. rewrite reverse_bytes_rev. unfold part. rewrite Hs. unfold stream_big.
    unfold consistent in Hcr. rewrite <- Hcr.
    destruct (macro_big cr); [destruct (has fr endian_little)|destruct (has fr endian_big)];
      cbn [negb]; rewrite ?rev_involutive; reflexivity.
Qed.

Lemma it_cast_cast t v : good_type t -> it_min t <= v <= it_max t -> it_cast t (cast_i64 v) = v.
Proof.
  unfold good_type, it_cast, it_min, it_max, cast_i64. intros Ht.
  destruct (is_signed t); destruct Ht as [H|[H|[H|H]]]; rewrite H;
    repeat match goal with |- context [?a ^ ?b] => let x := eval vm_compute in (a ^ b) in change (a ^ b) with x end; lia.
Qed.

Lemma cast_abs_bound t v : good_type t -> it_min t <= v <= it_max t -> cast_i64 v <> - 2 ^ 63 ->
  - 2 ^ 63 < cast_i64 v < 2 ^ 63 /\ Z.abs (cast_i64 v) < 256 ^ width t.
Proof.
  unfold good_type, it_min, it_max, cast_i64. intros Ht.
  destruct (is_signed t); destruct Ht as [H|[H|[H|H]]]; rewrite H;
    repeat match goal with |- context [?a ^ ?b] => let x := eval vm_compute in (a ^ b) in change (a ^ b) with x end; lia.
Qed.

Lemma int_roundtrip cw cr fw fr t v rest :
  consistent cw -> consistent cr -> stream_big cw fw = stream_big cr fr ->
  good_type t -> it_min t <= v <= it_max t -> cast_i64 v <> - 2 ^ 63 ->
  exists bs, save_int cw fw t v = Ok bs /\ load_int cr fr t (bs ++ rest) = Ok (v, rest).
Proof.
  intros Hcw Hcr Hs Ht Hv Hm.
  destruct (cast_abs_bound t v Ht Hv Hm) as [H1 H2].
  destruct (impl_roundtrip cw cr fw fr (cast_i64 v) (width t) rest) as (bs & He & Hl); auto.
  { unfold good_type in Ht. lia. }
  exists bs. split; [exact He|]. unfold load_int. rewrite Hl. cbn [obind].
  now rewrite it_cast_cast.
Qed.

Lemma good_val_inv t v : good_val (t, v) ->
  good_type t /\ it_min t <= v <= it_max t /\ cast_i64 v <> - 2 ^ 63.
Proof.
  unfold good_val, good_type, it_min, it_max, cast_i64. intros (Ht & Hr & H1 & H2).
  split; [exact Ht|].
  destruct (is_signed t); destruct Ht as [H|[H|[H|H]]]; rewrite H in *;
    repeat match goal with
    | |- context [?a ^ ?b] => let x := eval vm_compute in (a ^ b) in change (a ^ b) with x in *
    | H0 : context [?a ^ ?b] |- _ => let x := eval vm_compute in (a ^ b) in change (a ^ b) with x in *
    end; lia.
Qed.

Lemma ints_roundtrip cw cr fw fr vs : forall rest,
  consistent cw -> consistent cr -> stream_big cw fw = stream_big cr fr ->
  Forall good_val vs ->
  exists bs, save_ints cw fw vs = Ok bs /\
    load_ints cr fr (map fst vs) (bs ++ rest) = Ok (map snd vs, rest).
Proof.
  induction vs as [|[t v] vs IH]; intros rest Hcw Hcr Hs Hg.
  - exists []. split; reflexivity.
  - inversion Hg as [|? ? Hgv Hg']; subst. destruct (good_val_inv t v Hgv) as (Ht & Hv & Hm).
    destruct (IH rest Hcw Hcr Hs Hg') as (bs2 & E2 & L2).
    destruct (int_roundtrip cw cr fw fr t v (bs2 ++ rest)) as (bs1 & E1 & L1); auto.
    exists (bs1 ++ bs2). cbn [save_ints load_ints map fst snd].
    rewrite E1, E2. cbn [obind]. split; [reflexivity|].
    rewrite <- app_assoc, L1. cbn [obind]. rewrite L2. reflexivity.
Qed.

Lemma archive_roundtrip cw cr flags vs rest :
  consistent cw -> consistent cr ->
  (flags = endian_big \/ flags = endian_little \/ (flags = 0 /\ host_big cw = host_big cr)) ->
  Forall good_val vs ->
  exists bs, write_archive cw flags vs = Ok bs /\
    read_archive cr (map fst vs) (bs ++ rest) = Ok (map snd vs, rest).
Proof.
  intros Hcw Hcr Hf Hg. unfold consistent in *.
  assert (Hm : Z.land flags (Z.lor endian_big endian_little) = flags /\
               (flags =? Z.lor endian_big endian_little) = false /\
               Z.shiftl (Z.shiftr flags 8) 8 = flags).
  { destruct Hf as [-> | [-> | [-> _]]]; repeat split; reflexivity. }
  destruct Hm as (H1 & H2 & H3).
  destruct (ints_roundtrip cw cr flags flags vs rest) as (bs & E & L); auto.
  { unfold stream_big. rewrite Hcw, Hcr.
    destruct Hf as [Ha|[Ha|[Ha Hh]]]; subst flags; [| |now rewrite Hh];
      destruct (host_big cw), (host_big cr); reflexivity. }
  exists (Z.shiftr flags 8 :: bs). unfold write_archive. rewrite H1, H2, E. cbn [obind].
  split; [reflexivity|]. cbn [app read_archive]. rewrite H3. exact L.
Qed.

(** Bytes depend on the value and the flag only. *)
Lemma save_host_independent c1 c2 flags l :
  consistent c1 -> consistent c2 -> (flags = endian_big \/ flags = endian_little) ->
  - 2 ^ 63 < l < 2 ^ 63 -> save_impl c1 flags l = save_impl c2 flags l.
Proof.
  intros H1 H2 Hf Hl. destruct (Z.eq_dec l 0) as [->|Hl0]; [reflexivity|].
  destruct (save_impl_spec c1 flags l H1 Hl Hl0) as (k & Hk & Hb & Hm & ->).
  destruct (save_impl_spec c2 flags l H2 Hl Hl0) as (k' & Hk' & Hb' & Hm' & ->).
  assert (k = k').
  { apply Nat.le_antisymm; [apply Hm|apply Hm']; lia || assumption. }
  subst k'. unfold stream_big. unfold consistent in *. rewrite H1, H2.
  destruct Hf as [-> | ->]; destruct (host_big c1), (host_big c2); reflexivity.
Qed.

(** Robustness of the reader. *)
Lemma le_val_bound bs : Forall (fun b => 0 <= b < 256) bs -> 0 <= le_val bs < 256 ^ Z.of_nat (length bs).
Proof.
  induction 1 as [|b bs Hb _ IH]; cbn [le_val length]; [rewrite Z.pow_0_r; lia|].
  rewrite Nat2Z.inj_succ, Z.pow_succ_r by lia. lia.
Qed.

Lemma rev_bytes_ok bs : Forall (fun b => 0 <= b < 256) bs -> Forall (fun b => 0 <= b < 256) (rev bs).
Proof. rewrite !Forall_forall. intros H x Hx. apply H. now apply in_rev. Qed.

Lemma load_impl_safe c flags maxsize s :
  consistent c -> Forall (fun b => 0 <= b < 256) s -> 1 <= maxsize <= 8 ->
  match load_impl c flags maxsize s with
  | Ok (l, rest) => in_i64 l /\ exists used, s = used ++ rest /\ (1 <= length used)%nat /\ Z.of_nat (length used) <= 1 + maxsize
  | Throw => True
  | UB => (macro_big c = true /\ exists r, s = 128 :: r) \/
          (maxsize = 8 /\ exists p r, s = 248 :: p ++ r /\ length p = 8%nat)
  | Hang => False
  end.
Proof.
  intros Hc Hs Hm. unfold load_impl. destruct s as [|b rest]; [exact I|].
  inversion Hs as [|? ? Hb Hr]; subst.
  destruct (Z.eqb_spec (schar b) 0).
  { split; [unfold in_i64, INT64_MIN, INT64_MAX; lia|]. exists [b]. split; [reflexivity|]. cbn [length]. lia. }
  set (size := if schar b <? 0 then schar ((- schar b) mod 256) else schar b).
  assert (Hsz : (b = 128 /\ size = -128) \/ (1 <= size <= 127 /\ (b < 128 -> size = b) /\ (128 < b -> size = 256 - b) /\ b <> 128)).
  { unfold size, schar in *. destruct (Z.ltb_spec b 128).
    - destruct (Z.ltb_spec b 0); [lia|]. right. lia.
    - destruct (Z.ltb_spec (b - 256) 0); [|lia].
      replace ((- (b - 256)) mod 256) with (256 - b) by lia.
      destruct (Z.ltb_spec (256 - b) 128); lia. }
  destruct (size >? maxsize) eqn:Egt; [exact I|].
  destruct (Z.ltb_spec size 0).
  { destruct (macro_big c) eqn:Em; [|exact I]. left. split; [reflexivity|]. exists rest.
    f_equal. lia. }
  destruct (Nat.ltb_spec (length rest) (Z.to_nat size)); [exact I|].
  set (raw := firstn (Z.to_nat size) rest).
  set (swap := if macro_big c then has flags endian_little else has flags endian_big).
  set (part := if swap then reverse_bytes raw else raw).
  set (l := val_of c _).
  assert (Hl : in_i64 l).
  { unfold l, val_of, cast_i64, in_i64, INT64_MIN, INT64_MAX. lia. }
  assert (Hused : exists used, b :: rest = used ++ skipn (Z.to_nat size) rest /\
            (1 <= length used)%nat /\ Z.of_nat (length used) <= 1 + maxsize).
  { exists (b :: raw). unfold raw. split; [|split].
    - cbn [app]. now rewrite firstn_skipn.
    - cbn [length]. lia.
    - cbn [length]. rewrite firstn_length. lia. }
  destruct (Z.ltb_spec (schar b) 0) as [Hneg|Hpos].
  2:{ cbn [obind]. split; [exact Hl|exact Hused]. }
  unfold ret_i64. destruct (in_i64b (- l)) eqn:E; cbn [obind].
  { split; [now apply in_i64b_iff|exact Hused]. }
  right.
  assert (Hlmin : l = - 2 ^ 63).
  { assert (~ in_i64 (- l)) by (rewrite <- in_i64b_iff; congruence).
    unfold in_i64, INT64_MIN, INT64_MAX in *. lia. }
  assert (Hraw : Forall (fun b => 0 <= b < 256) raw).
  { unfold raw. rewrite Forall_forall in *. intros x Hx. apply Hr.
    rewrite <- (firstn_skipn (Z.to_nat size) rest). apply in_or_app. now left. }
  assert (Hrl : length raw = Z.to_nat size) by (unfold raw; rewrite firstn_length; lia).
  assert (Hpart : Forall (fun b => 0 <= b < 256) part /\ length part = Z.to_nat size).
  { unfold part. rewrite reverse_bytes_rev. destruct swap; split; auto.
    - now apply rev_bytes_ok.
    - now rewrite rev_length. }
  destruct Hpart as [Hp Hpl].
  assert (Hval : exists q, Forall (fun b => 0 <= b < 256) q /\ length q = Z.to_nat size /\ l = cast_i64 (le_val q)).
  { unfold l, val_of. unfold consistent in Hc. rewrite Hc. destruct (host_big c).
    - exists (rev part). rewrite rev_length. split; [now apply rev_bytes_ok|]. split; [exact Hpl|].
      rewrite rev_app_distr, rev_repeat, le_val_app, le_val_zeros. f_equal. lia.
    - exists part. split; [exact Hp|]. split; [exact Hpl|].
      rewrite le_val_app, le_val_zeros. f_equal. lia. }
  destruct Hval as (q & Hq & Hql & Hlq).
  pose proof (le_val_bound q Hq) as Hqb. rewrite Hql in Hqb.
  assert (Hs8 : size = 8).
  { assert (size <= 8) by lia. destruct (Z.eq_dec size 8) as [|Hn]; [assumption|exfalso].
    assert (256 ^ Z.of_nat (Z.to_nat size) <= 256 ^ 7) by (apply Z.pow_le_mono_r; lia).
    rewrite cast_i64_id in Hlq.
    - lia.
    - change (256 ^ 7) with (2 ^ 56) in H1. unfold in_i64, INT64_MIN, INT64_MAX. lia. }
  split; [lia|]. exists raw, (skipn (Z.to_nat size) rest).
  split; [|rewrite Hrl, Hs8; reflexivity].
  unfold raw. rewrite firstn_skipn. f_equal.
  unfold schar in Hneg. destruct (Z.ltb_spec b 128); lia.
Qed.

Lemma load_impl_oversized c flags maxsize b rest :
  1 <= maxsize <= 8 -> maxsize < b <= 127 \/ 129 <= b < 256 - maxsize ->
  load_impl c flags maxsize (b :: rest) = Throw.
Proof.
  intros Hm Hb. unfold load_impl.
  assert (Hs : schar b = if b <? 128 then b else b - 256) by reflexivity.
  destruct Hb as [Hb|Hb].
  - replace (schar b) with b by (rewrite Hs; destruct (Z.ltb_spec b 128); lia).
    replace (b =? 0) with false by lia. replace (b <? 0) with false by lia.
    replace (b >? maxsize) with true by lia. reflexivity.
  - replace (schar b) with (b - 256) by (rewrite Hs; destruct (Z.ltb_spec b 128); lia).
    replace (b - 256 =? 0) with false by lia. replace (b - 256 <? 0) with true by lia.
    replace ((- (b - 256)) mod 256) with (256 - b) by lia.
    replace (schar (256 - b)) with (256 - b) by (unfold schar; destruct (Z.ltb_spec (256 - b) 128); lia).
    replace (256 - b >? maxsize) with true by lia. reflexivity.
Qed.

Lemma load_impl_truncated c flags maxsize b rest :
  1 <= maxsize <= 8 -> 1 <= b <= maxsize \/ 256 - maxsize <= b <= 255 ->
  Z.of_nat (length rest) < (if b <? 128 then b else 256 - b) ->
  load_impl c flags maxsize (b :: rest) = Throw.
Proof.
  intros Hm Hb Hr. unfold load_impl.
  assert (Hs : schar b = if b <? 128 then b else b - 256) by reflexivity.
  destruct Hb as [Hb|Hb].
  - replace (b <? 128) with true in * by lia. rewrite Hs.
    replace (b =? 0) with false by lia. replace (b <? 0) with false by lia.
    replace (b >? maxsize) with false by lia. replace (b <? 0) with false by lia.
    destruct (Nat.ltb_spec (length rest) (Z.to_nat b)); [reflexivity|lia].
  - replace (b <? 128) with false in * by lia. rewrite Hs.
    replace (b - 256 =? 0) with false by lia. replace (b - 256 <? 0) with true by lia.
    replace ((- (b - 256)) mod 256) with (256 - b) by lia.
    replace (schar (256 - b)) with (256 - b) by (unfold schar; destruct (Z.ltb_spec (256 - b) 128); lia).
    replace (256 - b >? maxsize) with false by lia. replace (256 - b <? 0) with false by lia.
    destruct (Nat.ltb_spec (length rest) (Z.to_nat (256 - b))); [reflexivity|lia].
Qed.

(** The digits written are the minimal base-256 digits. *)
Lemma fold_big_app ds : forall a, fold_left (fun a d => 256 * a + d) ds a =
  256 ^ Z.of_nat (length ds) * a + le_val (rev ds).
Proof.
  induction ds as [|d ds IH]; intros a; cbn [fold_left rev length].
  - change (256 ^ Z.of_nat 0) with 1. cbn [le_val]. lia.
  - rewrite IH, le_val_app, rev_length, Nat2Z.inj_succ, Z.pow_succ_r by lia. cbn [le_val]. lia.
Qed.

Lemma le_bytes_byte k : forall n, Forall byte (le_bytes k n).
Proof. induction k; intros n; cbn [le_bytes]; constructor; auto. unfold byte. lia. Qed.

Lemma le_bytes_snoc k : forall n, le_bytes (S k) n = le_bytes k n ++ [n / 256 ^ Z.of_nat k mod 256].
Proof.
  induction k as [|k IH]; intros n.
  - cbn [le_bytes app]. change (256 ^ Z.of_nat 0) with 1. now rewrite Z.div_1_r.
  - change (le_bytes (S (S k)) n) with ((n mod 256) :: le_bytes (S k) (n / 256)).
    rewrite IH. cbn [le_bytes app]. do 3 f_equal.
    rewrite Nat2Z.inj_succ, Z.pow_succ_r by lia. rewrite Zdiv_Zdiv by lia. reflexivity.
Qed.

Lemma rev_le_digits k m : (1 <= k)%nat -> 0 < m < 256 ^ Z.of_nat k ->
  (forall j, (1 <= j)%nat -> m < 256 ^ Z.of_nat j -> (k <= j)%nat) ->
  digits_big m (rev (le_bytes k m)).
Proof.
  intros Hk Hm Hmin. unfold digits_big. split; [|split].
  - rewrite fold_big_app, rev_involutive, le_val_bytes, Z.mod_small by lia. lia.
  - apply Forall_rev. apply le_bytes_byte.
  - destruct k as [|k]; [lia|]. rewrite le_bytes_snoc, rev_app_distr. cbn [rev app].
    destruct (Nat.eq_dec k 0) as [->|Hk0].
    + change (256 ^ Z.of_nat 0) with 1. change (256 ^ Z.of_nat 1) with 256 in Hm. rewrite Z.div_1_r, Z.mod_small; lia.
    + assert (256 ^ Z.of_nat k <= m).
      { destruct (Z.lt_ge_cases m (256 ^ Z.of_nat k)) as [Hc|]; [|assumption].
        specialize (Hmin k ltac:(lia) Hc). lia. }
      assert (0 < 256 ^ Z.of_nat k) by (apply Z.pow_pos_nonneg; lia).
      rewrite Nat2Z.inj_succ, Z.pow_succ_r in Hm by lia.
      assert (1 <= m / 256 ^ Z.of_nat k) by (apply Z.div_le_lower_bound; lia).
      assert (m / 256 ^ Z.of_nat k < 256) by (apply Z.div_lt_upper_bound; lia).
      rewrite Z.mod_small; lia.
Qed.

Lemma save_impl_format c flags l : consistent c -> - 2 ^ 63 < l < 2 ^ 63 ->
  (flags = endian_big \/ flags = endian_little) ->
  (l = 0 /\ save_impl c flags l = Ok [0]) \/
  exists ds, digits_big (Z.abs l) ds /\ (1 <= length ds <= 8)%nat /\
    save_impl c flags l =
      Ok ((if l <? 0 then 256 - Z.of_nat (length ds) else Z.of_nat (length ds)) ::
          (if flags =? endian_big then ds else rev ds)).
Proof.
  intros Hc Hl Hf. destruct (Z.eq_dec l 0) as [->|Hl0]; [left; split; reflexivity|right].
  destruct (save_impl_spec c flags l Hc Hl Hl0) as (k & Hk & Hb & Hm & ->).
  exists (rev (le_bytes k (Z.abs l))). rewrite rev_length, le_bytes_length. split; [|split; [lia|]].
  - apply rev_le_digits; lia || assumption.
  - do 2 f_equal. rewrite rev_involutive. unfold stream_big.
    destruct Hf as [-> | ->]; destruct (macro_big c); reflexivity.
Qed.
