(** Proofs about string routines, hash ids and property trees. *)
From Coq Require Import ZArith List Lia Bool ZifyBool.
From Verif Require Import Base StringModel StringSpec.
Import ListNotations.
Open Scope Z_scope.

Lemma skipn_exact {A} (x y : list A) n : n = length x -> skipn n (x ++ y) = y.
Proof. intros ->. now rewrite skipn_app, skipn_all, Nat.sub_diag. Qed.
Lemma firstn_exact {A} (x y : list A) n : n = length x -> firstn n (x ++ y) = x.
Proof. intros ->. rewrite firstn_app, firstn_all, Nat.sub_diag. cbn. apply app_nil_r. Qed.

Lemma skipn_skipn {A} a b (l : list A) : skipn a (skipn b l) = skipn (a + b) l.
Proof.
  revert l. induction b as [|b IH]; intros l; [now rewrite Nat.add_0_r|].
  rewrite Nat.add_succ_r. destruct l; [now rewrite !skipn_nil|]. cbn. apply IH.
Qed.

(** * replace *)
Lemma find_char_split s c i :
  match find_char_from i s c with
  | None => ~ In c s
  | Some p => exists pre post, s = pre ++ c :: post /\ ~ In c pre /\ p = (i + length pre)%nat
  end.
Proof.
  revert i. induction s as [|x s IH]; intros i; cbn [find_char_from]; [intros []|].
  destruct (Z.eqb_spec x c) as [-> |N].
  - exists [], s. cbn. auto.
  - specialize (IH (S i)). destruct (find_char_from (S i) s c) as [p|].
    + destruct IH as (pre & post & -> & H & ->). exists (x :: pre), post. cbn. split; [reflexivity|]. split; [intros [E|E]; auto|lia].
    + cbn. intros [E|E]; auto.
Qed.

Lemma set_at_app pre c x post : set_at (length pre) x (pre ++ c :: post) = pre ++ x :: post.
Proof. induction pre; cbn; congruence. Qed.

Lemma ra_absent k t r s : ~ In t s -> replaced_after k t r s = s.
Proof.
  induction s as [|x s IH]; cbn; auto. intros H. destruct (Z.eq_dec x t); [tauto|]. now rewrite IH by tauto.
Qed.
Lemma ra_app k t r pre s : ~ In t pre -> replaced_after k t r (pre ++ s) = pre ++ replaced_after k t r s.
Proof.
  induction pre as [|x pre IH]; cbn; auto. intros H. destruct (Z.eq_dec x t); [tauto|]. now rewrite IH by tauto.
Qed.

Lemma occ_absent t s : ~ In t s <-> occurrences t s = 0%nat.
Proof. apply count_occ_not_In. Qed.
Lemma occ_app t a b : occurrences t (a ++ b) = (occurrences t a + occurrences t b)%nat.
Proof. apply count_occ_app. Qed.
Lemma occ_cons t x a : occurrences t (x :: a) = ((if Z.eq_dec x t then 1 else 0) + occurrences t a)%nat.
Proof. unfold occurrences. cbn. destruct (Z.eq_dec x t); lia. Qed.
Lemma occ_le t a : (occurrences t a <= length a)%nat.
Proof. apply count_occ_bound. Qed.

Lemma replace_spec t r : t <> r -> forall fuel done rest k, (occurrences t rest < fuel)%nat ->
  replace fuel (done ++ rest) t r k (length done) = Ok (done ++ replaced_after k t r rest).
Proof.
  intros N. induction fuel as [|fuel IH]; intros done rest k Hf; [lia|].
  cbn [replace]. unfold find_char. rewrite skipn_exact by reflexivity.
  pose proof (find_char_split rest t (length done)) as F.
  destruct (find_char_from (length done) rest t) as [p|].
  2:{ now rewrite ra_absent. }
  destruct F as (pre & post & -> & Hn & ->).
  rewrite occ_app, occ_cons in Hf. apply occ_absent in Hn as Hn'. destruct (Z.eq_dec t t) as [_|]; [|congruence].
  rewrite ra_app by exact Hn. cbn [replaced_after]. destruct (Z.eq_dec t t) as [_|]; [|congruence].
  destruct k as [|k].
  - rewrite app_assoc, <- app_length, set_at_app. rewrite IH.
    + cbn [replaced_after]. destruct (Z.eq_dec r t); [congruence|]. now rewrite <- app_assoc.
    + rewrite occ_cons. destruct (Z.eq_dec r t); [congruence|]. lia.
  - replace (done ++ pre ++ t :: post) with ((done ++ pre ++ [t]) ++ post) by (rewrite <- !app_assoc; reflexivity).
    replace (S (length done + length pre)) with (length (done ++ pre ++ [t])) by (rewrite !app_length; cbn; lia).
    rewrite IH by lia. now rewrite <- !app_assoc.
Qed.

Lemma replace_hangs t : forall fuel done rest k, (k < occurrences t rest)%nat ->
  replace fuel (done ++ rest) t t k (length done) = Hang.
Proof.
  induction fuel as [|fuel IH]; intros done rest k Hf; [reflexivity|].
  cbn [replace]. unfold find_char. rewrite skipn_exact by reflexivity.
  pose proof (find_char_split rest t (length done)) as F.
  destruct (find_char_from (length done) rest t) as [p|].
  2:{ apply occ_absent in F. lia. }
  destruct F as (pre & post & -> & Hn & ->).
  rewrite occ_app, occ_cons in Hf. apply occ_absent in Hn as Hn'. destruct (Z.eq_dec t t) as [_|]; [|congruence].
  destruct k as [|k].
  - rewrite app_assoc, <- app_length, set_at_app. apply IH.
    rewrite occ_cons. destruct (Z.eq_dec t t); [|congruence]. lia.
  - replace (done ++ pre ++ t :: post) with ((done ++ pre ++ [t]) ++ post) by (rewrite <- !app_assoc; reflexivity).
    replace (S (length done + length pre)) with (length (done ++ pre ++ [t])) by (rewrite !app_length; cbn; lia).
    apply IH. lia.
Qed.

(** * replace_reverse *)
Lemma rfind_split done c : forall rest,
  match rfind_below (rest ++ done) c (length rest) with
  | None => ~ In c rest
  | Some p => exists pre post, rest = pre ++ c :: post /\ ~ In c post /\ p = length pre
  end.
Proof.
  intros rest. revert done. induction rest as [|x rest IH] using rev_ind; intros done; [cbn; tauto|].
  rewrite app_length, Nat.add_1_r. cbn [rfind_below]. rewrite <- app_assoc. cbn [app].
  rewrite app_nth2, Nat.sub_diag by lia. cbn [nth].
  destruct (Z.eqb_spec x c) as [-> |N].
  - exists rest, []. auto.
  - specialize (IH (x :: done)). destruct (rfind_below (rest ++ x :: done) c (length rest)) as [p|].
    + destruct IH as (pre & post & -> & H & ->). exists pre, (post ++ [x]).
      split; [rewrite <- app_assoc; reflexivity|]. split; auto. rewrite in_app_iff. cbn. intuition.
    + rewrite in_app_iff. cbn. intuition.
Qed.

Definition starts_with (c : Z) (s : str) : Prop := match s with x :: _ => x = c | [] => False end.

Lemma replace_reverse_spec t r : t <> r -> forall fuel rest done k pos, (occurrences t rest < fuel)%nat ->
  match pos with None => length (rest ++ done) | Some p => Nat.min (S p) (length (rest ++ done)) end = length rest ->
  (k < occurrences t rest)%nat \/ ~ starts_with t rest ->
  replace_reverse fuel (rest ++ done) t r k pos = Ok (rev (replaced_after k t r (rev rest)) ++ done).
Proof.
  intros N. induction fuel as [|fuel IH]; intros rest done k pos Hf Hp Hc; [lia|].
  cbn [replace_reverse]. unfold rfind_char. rewrite Hp.
  pose proof (rfind_split done t rest) as F.
  destruct (rfind_below (rest ++ done) t (length rest)) as [p|].
  2:{ rewrite ra_absent, rev_involutive; [reflexivity|]. now rewrite <- in_rev. }
  destruct F as (pre & post & -> & Hn & ->).
  rewrite occ_app, occ_cons in Hf, Hc. apply occ_absent in Hn as Hn'. destruct (Z.eq_dec t t) as [_|]; [|congruence].
  rewrite rev_app_distr. cbn [rev]. rewrite <- !app_assoc. cbn [app].
  rewrite ra_app by (now rewrite <- in_rev). cbn [replaced_after]. destruct (Z.eq_dec t t) as [_|]; [|congruence].
  rewrite rev_app_distr, rev_involutive. destruct k as [|k].
  - cbn [rev]. rewrite set_at_app.
    replace (pre ++ r :: post ++ done) with ((pre ++ [r]) ++ post ++ done) by (rewrite <- !app_assoc; reflexivity).
    rewrite IH.
    + rewrite rev_app_distr. cbn [rev app replaced_after]. destruct (Z.eq_dec r t); [congruence|].
      cbn [rev]. rewrite <- !app_assoc. reflexivity.
    + rewrite occ_app, occ_cons. destruct (Z.eq_dec r t); [congruence|]. cbn. lia.
    + rewrite !app_length. cbn [length]. lia.
    + rewrite occ_app, occ_cons. destruct (Z.eq_dec r t); [congruence|]. cbn [occurrences count_occ].
      destruct pre as [|x pre]; [right; cbn; congruence|].
      destruct (Z.eq_dec x t) as [-> |Nx]; [left|right; exact Nx].
      rewrite occ_cons. destruct (Z.eq_dec t t); [lia|congruence].
  - cbn [rev].
    destruct pre as [|x pre].
    { exfalso. destruct Hc as [Hc|Hc]; [cbn in Hc; lia|]. apply Hc. reflexivity. }
    match goal with |- _ = Ok ?g => replace g with (rev (replaced_after k t r (rev (x :: pre))) ++ t :: post ++ done)
      by (cbn [rev]; rewrite <- !app_assoc; reflexivity) end.
    apply IH.
    + lia.
    + cbn [length app]. rewrite !app_length. cbn [length]. lia.
    + destruct Hc as [Hc|Hc]; [left; lia|]. right. exact Hc.
Qed.

(** * leading_pad *)
Lemma leading_pad_spec s n c : exists k, leading_pad s n c = repeat c k ++ s /\ length (leading_pad s n c) = Nat.max n (length s).
Proof.
  unfold leading_pad. destruct (Nat.ltb_spec (length s) n).
  - exists (n - length s)%nat. split; [reflexivity|]. rewrite app_length, repeat_length. lia.
  - exists 0%nat. split; [reflexivity|]. lia.
Qed.

(** * substituteEnvVars *)
Section Expand.
Context (env : str -> option str).

Lemma find_open_split t i :
  match find_open_from i t with
  | None => expands env t t
  | Some p => exists pre post, t = pre ++ c_dollar :: c_open :: post /\ p = (i + length pre)%nat /\
      forall o, expands env (c_dollar :: c_open :: post) o -> expands env t (pre ++ o)
  end.
Proof.
  revert i. induction t as [|x t IH]; intros i; [constructor|].
  destruct t as [|y t].
  - cbn. apply ex_char; [intros rest'; discriminate|constructor].
  - change (find_open_from i (x :: y :: t)) with
      (if (x =? c_dollar) && (y =? c_open) then Some i else find_open_from (S i) (y :: t)).
    destruct ((x =? c_dollar) && (y =? c_open)) eqn:E.
    + apply andb_true_iff in E. destruct E as [E1 E2]. apply Z.eqb_eq in E1, E2. subst x y.
      exists [], t. cbn. auto.
    + assert (Hx : forall rest', x :: y :: t <> [c_dollar; c_open] ++ rest').
      { intros rest' [= -> -> _]. discriminate E. }
      specialize (IH (S i)). destruct (find_open_from (S i) (y :: t)) as [p|].
      * destruct IH as (pre & post & E' & -> & H). exists (x :: pre), post. rewrite E'. cbn [app length].
        split; [reflexivity|]. split; [lia|]. intros o Ho. rewrite <- E'. apply ex_char; auto.
      * apply ex_char; auto.
Qed.

Lemma subst_loop_spec s : forall fuel pidx off out, (pidx <= off <= length s)%nat ->
  (length s - off + 1 < fuel)%nat ->
  exists o, subst_loop env fuel s pidx (find_open s off) out = Ok (out ++ firstn (off - pidx) (skipn pidx s) ++ o) /\
    expands env (skipn off s) o.
Proof.
  induction fuel as [|fuel IH]; intros pidx off out Ho Hf; [lia|].
  cbn [subst_loop]. unfold find_open at 1.
  pose proof (find_open_split (skipn off s) off) as F.
  assert (Sp : forall k, (k <= length s)%nat -> (pidx <= k)%nat -> skipn pidx s = firstn (k - pidx) (skipn pidx s) ++ skipn k s).
  { intros k H1 H2. rewrite <- (firstn_skipn (k - pidx) (skipn pidx s)) at 1. f_equal.
    rewrite skipn_skipn. f_equal. lia. }
  destruct (find_open_from off (skipn off s)) as [p|].
  2:{ exists (skipn off s). split; [|exact F]. rewrite <- Sp by lia. reflexivity. }
  destruct F as (pre & post & E & -> & H).
  assert (Ei : skipn (off + length pre) s = c_dollar :: c_open :: post).
  { rewrite Nat.add_comm, <- skipn_skipn, E. apply skipn_exact. reflexivity. }
  assert (Li : (off + length pre + 2 + length post = length s)%nat).
  { apply (f_equal (@length _)) in E. rewrite skipn_length, app_length in E. cbn [length] in E. lia. }
  unfold find_char. rewrite Ei.
  pose proof (find_char_split (c_dollar :: c_open :: post) c_close (off + length pre)) as G.
  destruct (find_char_from (off + length pre) (c_dollar :: c_open :: post) c_close) as [e|].
  2:{ destruct fuel as [|fuel]; [lia|]. cbn [subst_loop].
      exists (pre ++ c_dollar :: c_open :: post). split; [rewrite <- E, <- Sp by lia; reflexivity|].
      apply H. apply (ex_unclosed env post). cbn in G. tauto. }
  destruct G as (name2 & rest & G & Gn & ->).
  destruct name2 as [|d1 name2]; [discriminate G|]. injection G as <- G.
  destruct name2 as [|d2 name]; [discriminate G|]. injection G as <- G.
  assert (Hname : ~ In c_close name) by (cbn in Gn; tauto).
  replace (S (off + length pre + length (c_dollar :: c_open :: name))) with (off + length pre + 3 + length name)%nat by (cbn [length]; lia).
  assert (Er : skipn (off + length pre + 3 + length name) s = rest).
  { replace (off + length pre + 3 + length name)%nat with (3 + length name + (off + length pre))%nat by lia.
    rewrite <- skipn_skipn, Ei, G.
    replace (c_dollar :: c_open :: name ++ c_close :: rest) with ((c_dollar :: c_open :: name ++ [c_close]) ++ rest)
      by (cbn [app]; rewrite <- app_assoc; reflexivity).
    apply skipn_exact. cbn [length]. rewrite app_length. cbn [length]. lia. }
  assert (Ev : substr s (off + length pre + 2) (off + length pre + length (c_dollar :: c_open :: name) - (off + length pre) - 2) = name).
  { unfold substr. replace (off + length pre + 2)%nat with (2 + (off + length pre))%nat by lia.
    rewrite <- skipn_skipn, Ei, G. cbn [skipn length]. apply firstn_exact. lia. }
  rewrite Ev. clear Ev.
  assert (Lp : length post = S (length name + length rest)) by (rewrite G, app_length; cbn; lia).
  destruct (env name) as [v|] eqn:Env.
  - destruct (IH (off + length pre + 3 + length name)%nat (off + length pre + 3 + length name)%nat
      (out ++ substr s pidx (off + length pre - pidx) ++ v)) as (o & E1 & E2); [lia|lia|].
    rewrite Er in E2. exists (pre ++ v ++ o). split.
    + rewrite E1. f_equal. rewrite Nat.sub_diag. cbn [firstn app]. rewrite <- !app_assoc. f_equal.
      assert (X : substr s pidx (off + length pre - pidx) = firstn (off - pidx) (skipn pidx s) ++ pre).
      { unfold substr. rewrite (Sp off) at 1 by lia. rewrite firstn_app, firstn_firstn, firstn_length, skipn_length.
        replace (Nat.min (off + length pre - pidx) (off - pidx)) with (off - pidx)%nat by lia. f_equal.
        rewrite E. apply firstn_exact. lia. }
      rewrite X. now rewrite <- !app_assoc.
    + apply H. rewrite G. apply (ex_defined env name rest v o); auto.
  - destruct (IH pidx (off + length pre + 3 + length name)%nat out) as (o & E1 & E2); [lia|lia|].
    rewrite Er in E2. exists (pre ++ (c_dollar :: c_open :: name ++ c_close :: o)). split.
    + rewrite E1. f_equal. f_equal.
      assert (X : firstn (off + length pre + 3 + length name - pidx) (skipn pidx s) =
        firstn (off - pidx) (skipn pidx s) ++ pre ++ c_dollar :: c_open :: name ++ [c_close]).
      { rewrite (Sp off) at 1 by lia. rewrite firstn_app, firstn_firstn, firstn_length, skipn_length.
        replace (Nat.min (off + length pre + 3 + length name - pidx) (off - pidx)) with (off - pidx)%nat by lia. f_equal.
        rewrite E, G.
        replace (pre ++ c_dollar :: c_open :: name ++ c_close :: rest) with ((pre ++ c_dollar :: c_open :: name ++ [c_close]) ++ rest)
          by (rewrite <- !app_assoc; cbn; rewrite <- !app_assoc; reflexivity).
        apply firstn_exact. rewrite !app_length. cbn [length]. rewrite app_length. cbn. lia. }
      rewrite X. rewrite <- !app_assoc. cbn [app]. now rewrite <- !app_assoc.
    + apply H. rewrite G. apply (ex_undefined env name rest o); auto.
Qed.
End Expand.

(** expands is a function *)
Lemma split_close a b r1 r2 : ~ In c_close a -> ~ In c_close b -> a ++ c_close :: r1 = b ++ c_close :: r2 -> a = b /\ r1 = r2.
Proof.
  revert b. induction a as [|x a IH]; intros [|y b] Ha Hb; cbn; intros [= E].
  - auto.
  - subst y. cbn in Hb. tauto.
  - subst x. cbn in Ha. tauto.
  - destruct (IH b) as [-> ->]; cbn in Ha, Hb; try tauto. now subst.
Qed.

Lemma expands_det env s o : expands env s o -> forall o', expands env s o' -> o = o'.
Proof.
  induction 1 as [|name rest v out H1 H2 H IH|name rest out H1 H2 H IH|rest H1|c rest out H1 H IH]; intros o' H'.
  - inversion H'; subst; auto; discriminate.
  - inversion H' as [|n2 r2 v2 o2 G1 G2 G3 E|n2 r2 o2 G1 G2 G3 E|r2 G1 E|c2 r2 o2 G1 G3 E]; subst.
    + apply split_close in E; auto. destruct E as [-> ->]. assert (v = v2) by congruence. subst. f_equal. auto.
    + apply split_close in E; auto. destruct E as [-> ->]. congruence.
    + exfalso. apply G1. rewrite in_app_iff. right. left. reflexivity.
    + exfalso. eapply G1. reflexivity.
  - inversion H' as [|n2 r2 v2 o2 G1 G2 G3 E|n2 r2 o2 G1 G2 G3 E|r2 G1 E|c2 r2 o2 G1 G3 E]; subst.
    + apply split_close in E; auto. destruct E as [-> ->]. congruence.
    + apply split_close in E; auto. destruct E as [-> ->]. cbn. do 3 f_equal. f_equal. auto.
    + exfalso. apply G1. rewrite in_app_iff. right. left. reflexivity.
    + exfalso. eapply G1. reflexivity.
  - inversion H' as [|n2 r2 v2 o2 G1 G2 G3 E|n2 r2 o2 G1 G2 G3 E|r2 G1 E|c2 r2 o2 G1 G3 E]; subst; auto.
    + exfalso. apply H1. rewrite in_app_iff. right. left. reflexivity.
    + exfalso. apply H1. rewrite in_app_iff. right. left. reflexivity.
    + exfalso. eapply G1. reflexivity.
  - inversion H' as [|n2 r2 v2 o2 G1 G2 G3 E|n2 r2 o2 G1 G2 G3 E|r2 G1 E|c2 r2 o2 G1 G3 E]; subst.
    + exfalso. eapply H1. reflexivity.
    + exfalso. eapply H1. reflexivity.
    + exfalso. eapply H1. reflexivity.
    + f_equal. auto.
Qed.

(** * Hash ids *)
Lemma hex_digit_value d : 0 <= d < 16 -> hex_value (hex_digit d) = Some d.
Proof.
  intros H. unfold hex_digit, hex_value.
  destruct (Z.ltb_spec d 10).
  - rewrite (proj2 (Z.leb_le 48 (48 + d))), (proj2 (Z.leb_le (48 + d) 57)) by lia. cbn [andb]. f_equal. lia.
  - replace ((48 <=? 87 + d) && (87 + d <=? 57)) with false by lia.
    replace ((97 <=? 87 + d) && (87 + d <=? 102)) with true by lia. f_equal. lia.
Qed.
Lemma hex_digit_not_space d : 0 <= d -> is_space (hex_digit d) = false.
Proof. intros H. unfold is_space, hex_digit. destruct (d <? 10) eqn:E; lia. Qed.

Lemma parse_hex h : Forall (fun b => 0 <= b < 256) h -> parse_bytes (hex_string h) = Ok h.
Proof.
  induction 1 as [|b h Hb H IH]; [reflexivity|].
  cbn [hex_string flat_map app parse_bytes]. fold (hex_string h).
  pose proof (Z.div_mod b 16 ltac:(lia)). pose proof (Z.mod_pos_bound b 16 ltac:(lia)).
  assert (0 <= b / 16 < 16) by (split; [apply Z.div_pos; lia|apply Z.div_lt_upper_bound; lia]).
  unfold parse2. rewrite hex_digit_not_space by lia. rewrite !hex_digit_value by lia. cbn [obind].
  rewrite IH. cbn [obind]. f_equal. f_equal. rewrite Z.mod_small; lia.
Qed.

Lemma hex_length h : length (hex_string h) = (2 * length h)%nat.
Proof. induction h as [|b h IH]; [reflexivity|]. change (hex_string (b :: h)) with (hex_digit (b / 16) :: hex_digit (b mod 16) :: hex_string h). cbn [length]. rewrite IH. lia. Qed.

Lemma hex_char_value c : hex_char c -> exists v, hex_value c = Some v /\ 0 <= v < 16 /\ hex_digit v = lower c /\ is_space c = false.
Proof.
  unfold hex_char, hex_value, hex_digit, lower, is_space. intros H.
  destruct ((48 <=? c) && (c <=? 57)) eqn:E1; [|destruct ((97 <=? c) && (c <=? 102)) eqn:E2; [|destruct ((65 <=? c) && (c <=? 70)) eqn:E3; [|lia]]];
    eexists; (split; [reflexivity|]); (split; [lia|]); (split; [|lia]).
  - replace (c - 48 <? 10) with true by lia. replace ((65 <=? c) && (c <=? 90)) with false by lia. lia.
  - replace (c - 87 <? 10) with false by lia. replace ((65 <=? c) && (c <=? 90)) with false by lia. lia.
  - replace (c - 55 <? 10) with false by lia. replace ((65 <=? c) && (c <=? 90)) with true by lia. lia.
Qed.

Lemma parse_chars : forall n s, length s = (2 * n)%nat -> Forall hex_char s ->
  exists h, parse_bytes s = Ok h /\ length h = n /\ Forall (fun b => 0 <= b < 256) h /\ hex_string h = map lower s.
Proof.
  induction n as [|n IH]; intros s L H.
  - destruct s; [|discriminate]. exists []. auto.
  - destruct s as [|c1 [|c2 s]]; cbn [length] in L; try lia.
    inversion H as [|? ? H1 H']; subst. inversion H' as [|? ? H2 H'']; subst.
    destruct (IH s) as (h & E1 & E2 & E3 & E4); [lia|auto|].
    destruct (hex_char_value c1 H1) as (v1 & V1 & B1 & D1 & S1).
    destruct (hex_char_value c2 H2) as (v2 & V2 & B2 & D2 & _).
    exists (16 * v1 + v2 :: h). cbn [parse_bytes]. unfold parse2. rewrite S1, V1, V2. cbn [obind].
    rewrite E1. cbn [obind]. rewrite Z.mod_small by lia. split; [reflexivity|]. split; [cbn; lia|].
    split; [constructor; [lia|auto]|]. cbn [hex_string flat_map app map]. fold (hex_string h). rewrite E4.
    replace ((16 * v1 + v2) / 16) with v1 by (apply Z.div_unique with v2; lia).
    replace ((16 * v1 + v2) mod 16) with v2 by (apply Z.mod_unique with v1; lia).
    now rewrite D1, D2.
Qed.

Lemma le_value_inj a b : length a = length b -> Forall (fun x => 0 <= x < 256) a -> Forall (fun x => 0 <= x < 256) b ->
  le_value a = le_value b -> a = b.
Proof.
  revert b. induction a as [|x a IH]; intros [|y b] L Ha Hb E; try discriminate; auto.
  inversion Ha; inversion Hb; subst. cbn [le_value] in E. assert (x = y /\ le_value a = le_value b) by lia. destruct H as [-> H].
  f_equal. apply IH; auto.
Qed.
Lemma le_value_nonneg a : Forall (fun x => 0 <= x < 256) a -> 0 <= le_value a.
Proof. induction 1; cbn [le_value]; lia. Qed.

Lemma forall_cut {A} (P : A -> Prop) n l : Forall P l -> Forall P (firstn n l) /\ Forall P (skipn n l).
Proof. rewrite <- (firstn_skipn n l) at 1. apply Forall_app. Qed.

Lemma hash_eq_spec a b : hash_ok a -> hash_ok b -> (hash_eq a b = true <-> a = b).
Proof.
  intros [La Ha] [Lb Hb]. unfold hash_eq. rewrite andb_true_iff, !Z.eqb_eq. split; [|intros ->; auto].
  intros [E1 E2]. destruct (forall_cut _ 8 a Ha), (forall_cut _ 8 b Hb).
  rewrite <- (firstn_skipn 8 a), <- (firstn_skipn 8 b). f_equal.
  - apply le_value_inj; auto. rewrite !firstn_length. lia.
  - apply le_value_inj; auto. rewrite !skipn_length. lia.
Qed.

Lemma le_value_zero a : Forall (fun x => 0 <= x < 256) a -> (le_value a = 0 <-> Forall (eq 0) a).
Proof.
  induction 1 as [|x a Hx H IH]; cbn [le_value]; [split; auto|]. pose proof (le_value_nonneg a H). split.
  - intros E. constructor; [lia|]. apply IH. lia.
  - intros E. inversion E; subst. apply IH in H4. lia.
Qed.

(** * Property trees *)
Lemma ensure_trailing_last s : exists r, ensure_trailing s = r ++ [c_slash].
Proof.
  unfold ensure_trailing. destruct s as [|c s]; [now exists []|].
  destruct (Z.eqb_spec (last (c :: s) 0) c_slash) as [E|E].
  - destruct (exists_last (l := c :: s)) as (r & x & Er); [discriminate|]. rewrite Er in *.
    rewrite last_last in E. subst. eauto.
  - eauto.
Qed.

Lemma split_component cur c rest : ~ In c_slash c -> split_path cur (c ++ c_slash :: rest) = (cur ++ c) :: split_path [] rest.
Proof.
  revert cur. induction c as [|x c IH]; intros cur H; cbn [app split_path].
  - rewrite Z.eqb_refl. now rewrite app_nil_r.
  - destruct (Z.eqb_spec x c_slash) as [-> |N]; [cbn in H; tauto|]. rewrite IH by (cbn in H; tauto).
    now rewrite <- app_assoc.
Qed.
Lemma split_last cur c : ~ In c_slash c -> split_path cur c = match cur ++ c with [] => [] | x => [x] end.
Proof.
  revert cur. induction c as [|x c IH]; intros cur H; cbn [split_path].
  - rewrite app_nil_r. destruct cur; reflexivity.
  - destruct (Z.eqb_spec x c_slash) as [-> |N]; [cbn in H; tauto|]. rewrite IH by (cbn in H; tauto).
    rewrite <- app_assoc. reflexivity.
Qed.

Lemma path_joined cs : Forall component cs -> path_of (joined cs) = cs.
Proof.
  unfold path_of. induction 1 as [|c cs [Hc1 Hc2] H IH]; [reflexivity|].
  cbn [joined]. destruct cs as [|c' cs].
  - rewrite split_last by auto. destruct c; [now elim Hc1|reflexivity].
  - rewrite split_component by auto. now rewrite IH.
Qed.

Lemma joined_slashed a b : b <> [] -> slashed a ++ joined b = joined (a ++ b).
Proof.
  intros H. induction a as [|c a IH]; [reflexivity|]. cbn [slashed app joined].
  rewrite <- app_assoc. cbn [app]. rewrite IH. destruct (a ++ b) eqn:E; [|reflexivity].
  apply app_eq_nil in E. tauto.
Qed.

Lemma joined_nonempty cs : Forall component cs -> cs <> [] -> joined cs <> [] /\ forall c r, joined cs = c :: r -> c <> c_slash.
Proof.
  intros H N. destruct cs as [|c cs]; [congruence|]. inversion H as [|? ? [H1 H2] H3]; subst.
  destruct c as [|x c]; [congruence|]. assert (x <> c_slash) by (intros ->; cbn in H2; tauto).
  destruct cs; cbn [joined app]; (split; [discriminate|]); intros ? ? [= <- _]; auto.
Qed.

Lemma slashed_trailing a : a <> [] -> exists r, slashed a = r ++ [c_slash].
Proof.
  induction a as [|c a IH]; [congruence|]. intros _. cbn [slashed]. destruct a as [|c' a].
  - exists c. reflexivity.
  - destruct IH as (r & E); [discriminate|]. rewrite E. exists (c ++ c_slash :: r). now rewrite <- app_assoc.
Qed.
Lemma namespace_trailing a : exists r, namespace a = r ++ [c_slash].
Proof.
  unfold namespace. destruct a as [|c a]; [now exists []|].
  destruct (slashed_trailing (c :: a)) as (r & ->); [discriminate|]. now exists (c_slash :: r).
Qed.
Lemma ensure_trailing_id s r : s = r ++ [c_slash] -> ensure_trailing s = s.
Proof.
  intros ->. unfold ensure_trailing. destruct (r ++ [c_slash]) eqn:E; [destruct r; discriminate|].
  rewrite <- E, last_last. reflexivity.
Qed.
Lemma ensure_trailing_joined cs : Forall component cs -> cs <> [] -> ensure_trailing (joined cs) = slashed cs.
Proof.
  intros H N. assert (E : joined cs ++ [c_slash] = slashed cs /\ last (joined cs) 0 <> c_slash).
  { induction H as [|c cs [H1 H2] H IH]; [congruence|]. cbn [joined slashed]. destruct cs as [|c' cs].
    - split; [reflexivity|]. intros E. apply H2. destruct (exists_last H1) as (r & x & ->).
      rewrite last_last in E. subst. rewrite in_app_iff. right. left. reflexivity.
    - destruct IH as [E1 E2]; [discriminate|]. split.
      + rewrite <- app_assoc. cbn [app]. now rewrite E1.
      + intros E. apply E2. rewrite <- E.
        destruct (joined_nonempty (c' :: cs)) as [J _]; [auto|discriminate|].
        destruct (exists_last J) as (r & x & ->). rewrite last_last.
        change (c_slash :: r ++ [x]) with ((c_slash :: r) ++ [x]). rewrite app_assoc. now rewrite last_last. }
  destruct E as [E1 E2]. unfold ensure_trailing. destruct (joined_nonempty cs H N) as [J _].
  destruct (joined cs) eqn:Ej; [congruence|]. rewrite <- Ej in *. apply Z.eqb_neq in E2. now rewrite E2, E1.
Qed.

Lemma ensure_trailing_app p s : s <> [] -> ensure_trailing (p ++ s) = p ++ ensure_trailing s.
Proof.
  intros N. destruct (exists_last N) as (q & x & ->). unfold ensure_trailing.
  destruct (p ++ q ++ [x]) eqn:E; [destruct p, q; discriminate|]. rewrite <- E.
  destruct (q ++ [x]) eqn:E'; [destruct q; discriminate|]. rewrite <- E'.
  rewrite app_assoc, !last_last. destruct (x =? c_slash); now rewrite <- ?app_assoc.
Qed.

Lemma child_relative a cs : Forall component cs -> cs <> [] -> child_namespace (namespace a) (joined cs) = namespace (a ++ cs).
Proof.
  intros H N. unfold child_namespace. destruct (joined_nonempty cs H N) as [J1 J2].
  destruct (joined cs) as [|c r] eqn:Ej; [congruence|]. specialize (J2 _ _ eq_refl). apply Z.eqb_neq in J2. rewrite J2.
  rewrite <- Ej. pose proof (ensure_trailing_joined cs H N) as E.
  assert (X : ensure_trailing (namespace a ++ joined cs) = namespace a ++ slashed cs).
  { rewrite <- E. apply ensure_trailing_app. congruence. }
  rewrite X. unfold absolute, namespace. cbn. f_equal. clear. induction a as [|c a IH]; [reflexivity|].
  cbn [slashed app]. rewrite <- app_assoc. cbn [app]. now rewrite IH.
Qed.

Lemma tree_put_same p v t : tree_put p v t p = Some v.
Proof. unfold tree_put. destruct (path_eq_dec p p); congruence. Qed.
Lemma tree_put_other p q v t w : p <> q -> t q = Some w -> tree_put p v t q = Some w.
Proof. unfold tree_put. intros N E. destruct (path_eq_dec q p); [congruence|]. now rewrite E. Qed.
