(** Properties of string routines (C33), hash ids (C34) and property trees (C35). *)
From Coq Require Import ZArith List Lia Bool.
From Verif Require Import Base StringModel StringSpec StringProofs.
Import ListNotations.
Open Scope Z_scope.

(** * C33 *)

(** replace() with different characters terminates and changes exactly the occurrences
    after the skipped ones. *)
Theorem C33_replace : forall t r, t <> r -> forall s skip fuel, (length s < fuel)%nat ->
  replace fuel s t r skip 0 = Ok (replaced_after skip t r s).
Proof.
  intros t r N s k fuel H. apply (replace_spec t r N fuel [] s k). pose proof (occ_le t s). lia.
Qed.
Print Assumptions C33_replace.

(** replacing a character by itself never ends when there is something to replace *)
Theorem C33_replace_same_hangs : forall t s skip, (skip < occurrences t s)%nat ->
  forall fuel, replace fuel s t t skip 0 = Hang.
Proof. intros t s k H fuel. exact (replace_hangs t fuel [] s k H). Qed.
Print Assumptions C33_replace_same_hangs.

(** replace_reverse() counts from the end, if it does not run out of occurrences or the
    string does not begin with the target. *)
Theorem C33_replace_reverse : forall t r, t <> r -> forall s skip fuel, (length s < fuel)%nat ->
  (skip < occurrences t s)%nat \/ hd_error s <> Some t ->
  replace_reverse fuel s t r skip None = Ok (rev (replaced_after skip t r (rev s))).
Proof.
  intros t r N s k fuel H C. rewrite <- (app_nil_r s) at 1. rewrite <- (app_nil_r (rev (replaced_after _ _ _ _))).
  apply replace_reverse_spec; auto.
  - pose proof (occ_le t s). lia.
  - now rewrite app_nil_r.
  - destruct C as [C|C]; auto. right. destruct s; cbn in *; [tauto|congruence].
Qed.
Print Assumptions C33_replace_reverse.

Example C33_ex : replace 9 [1; 7; 2; 7; 7] 7 0 1 0 = Ok [1; 7; 2; 0; 0] /\
  replace_reverse 9 [7; 7; 2; 7; 1] 7 0 2 None = Ok [0; 7; 2; 7; 1].
Proof. split; reflexivity. Qed.

(** Otherwise characters that should be skipped are replaced. *)
Theorem C33_replace_reverse_refuted : exists s t r skip, t <> r /\
  replace_reverse 9 s t r skip None = Ok [r] /\ rev (replaced_after skip t r (rev s)) = [t].
Proof. exists [7], 7, 0, 1%nat. split; [discriminate|]. split; reflexivity. Qed.
Print Assumptions C33_replace_reverse_refuted.

Theorem C33_leading_pad : forall s n c, exists k, leading_pad s n c = repeat c k ++ s /\
  length (leading_pad s n c) = Nat.max n (length s).
Proof. exact leading_pad_spec. Qed.
Print Assumptions C33_leading_pad.

(** substituteEnvVars() terminates and replaces exactly the defined $(NAME)s. *)
Theorem C33_substitute : forall env s, exists out, substitute_env_vars env s = Ok out /\
  expands env s out /\ forall out', expands env s out' -> out' = out.
Proof.
  intros env s. destruct (subst_loop_spec env s (length s + 3) 0 0 [] ltac:(lia) ltac:(lia)) as (o & E1 & E2).
  exists o. split; [exact E1|]. split; [exact E2|]. intros o' H. exact (expands_det env s o' H o E2).
Qed.
Print Assumptions C33_substitute.

Example C33_ex2 : substitute_env_vars (fun n => if list_eq_dec Z.eq_dec n [65] then Some [36; 40; 65; 41] else None)
  [120; 36; 40; 65; 41; 36; 40; 66; 41; 36; 40; 65] = Ok [120; 36; 40; 65; 41; 36; 40; 66; 41; 36; 40; 65].
Proof. reflexivity. Qed.

(** * C34 *)

(** Printing and reading a hash id gives it back; printing is injective. *)
Theorem C34_round_trip : forall h old, hash_ok h ->
  from_hex_string (hex_string h) old = Ok (h, true) /\ length (hex_string h) = 32%nat.
Proof.
  intros h old [L H]. unfold from_hex_string. rewrite hex_length, L. cbn [Nat.mul Nat.add Nat.eqb].
  rewrite parse_hex by exact H. split; reflexivity.
Qed.
Print Assumptions C34_round_trip.

(** Any 32 hexadecimal digits, of either case, are read as the hash that prints as them
    in lower case; a string of another length is refused and changes nothing. *)
Theorem C34_reads_hex : forall s old,
  (length s = 32%nat -> Forall hex_char s ->
    exists h, from_hex_string s old = Ok (h, true) /\ hash_ok h /\ hex_string h = map lower s) /\
  (length s <> 32%nat -> from_hex_string s old = Ok (old, false)).
Proof.
  intros s old. split.
  - intros L H. destruct (parse_chars 16 s L H) as (h & E1 & E2 & E3 & E4). exists h.
    unfold from_hex_string. rewrite L, E1. split; [reflexivity|]. split; [split; auto|exact E4].
  - intros L. unfold from_hex_string. apply Nat.eqb_neq in L. now rewrite L.
Qed.
Print Assumptions C34_reads_hex.

(** But strings that are not hexadecimal are accepted too, ... *)
Theorem C34_accepts_garbage_refuted : exists s old h, ~ Forall hex_char s /\ from_hex_string s old = Ok (h, true) /\
  hash_valid h = false.
Proof.
  exists (repeat 122 32), hash_invalid, (repeat 0 16). split; [|split; reflexivity].
  intros H. inversion H as [|? ? X _]. unfold hex_char in X. lia.
Qed.
Print Assumptions C34_accepts_garbage_refuted.

(** ... and a pair of blanks makes it use an uninitialised number. *)
Theorem C34_blanks_refuted : exists s old, from_hex_string s old = UB.
Proof. exists (repeat 32 32), hash_invalid. reflexivity. Qed.
Print Assumptions C34_blanks_refuted.

(** The comparison operators are a strict total order that agrees with equality of the
    sixteen bytes. *)
Theorem C34_order : forall a b c, hash_ok a -> hash_ok b -> hash_ok c ->
  (hash_eq a b = true <-> a = b) /\
  hash_lt a a = false /\ hash_gt a b = hash_lt b a /\
  (hash_lt a b = true -> hash_lt b c = true -> hash_lt a c = true) /\
  (hash_lt a b = true \/ a = b \/ hash_gt a b = true) /\
  ~ (hash_lt a b = true /\ hash_gt a b = true).
Proof.
  intros a b c Ha Hb Hc. pose proof (hash_eq_spec a b Ha Hb) as E. unfold hash_lt, hash_gt. conj.
  - exact E.
  - rewrite Z.eqb_refl. apply Z.ltb_irrefl.
  - rewrite (Z.eqb_sym (u64_0 b)). destruct (u64_0 a =? u64_0 b); reflexivity.
  - destruct (Z.eqb_spec (u64_0 a) (u64_0 b)), (Z.eqb_spec (u64_0 b) (u64_0 c)), (Z.eqb_spec (u64_0 a) (u64_0 c));
      rewrite ?Z.ltb_lt; lia.
  - destruct (Z.eqb_spec (u64_0 a) (u64_0 b)) as [E0|E0]; rewrite ?Z.ltb_lt.
    + destruct (Z.lt_trichotomy (u64_1 a) (u64_1 b)) as [H|[H|H]]; auto. right. left. apply E.
      unfold hash_eq. rewrite E0, H. now rewrite !Z.eqb_refl.
    + destruct (Z.lt_trichotomy (u64_0 a) (u64_0 b)) as [H|[H|H]]; auto. congruence.
  - destruct (u64_0 a =? u64_0 b); rewrite !Z.ltb_lt; lia.
Qed.
Print Assumptions C34_order.

(** A hash is valid exactly when it is not the default one. *)
Theorem C34_valid : forall h, hash_ok h -> (hash_valid h = false <-> h = hash_invalid).
Proof.
  intros h Hh. assert (Hi : hash_ok hash_invalid) by (split; [reflexivity|]; unfold hash_invalid; cbn [repeat]; repeat (constructor; [lia|]); constructor).
  rewrite <- (hash_eq_spec h hash_invalid Hh Hi). unfold hash_valid, hash_eq.
  replace (u64_0 hash_invalid) with 0 by reflexivity. replace (u64_1 hash_invalid) with 0 by reflexivity.
  destruct (u64_0 h =? 0), (u64_1 h =? 0); cbn; intuition discriminate.
Qed.
Print Assumptions C34_valid.

Example C34_ex : hash_ok [0; 1; 2; 3; 4; 5; 6; 7; 8; 9; 171; 11; 12; 13; 14; 255] /\
  hex_string [0; 171; 255] = [48; 48; 97; 98; 102; 102].
Proof. split; [split; [reflexivity|repeat constructor; lia]|reflexivity]. Qed.

(** * C35 *)

(** Every namespace begins and ends with '/', so every qualified key begins with '/'
    and has a name; empty keys and "/" are refused. *)
Theorem C35_qualified : forall ns parent key,
  (exists m, base_namespace ns = m ++ [c_slash] /\ hd_error (base_namespace ns) = Some c_slash) /\
  (exists m, child_namespace parent ns = m ++ [c_slash] /\ hd_error (child_namespace parent ns) = Some c_slash) /\
  ((key = [] \/ key = [c_slash]) -> qualified (base_namespace ns) key = Throw) /\
  (key <> [] -> key <> [c_slash] -> exists c r, qualified (base_namespace ns) key = Ok (c_slash :: c :: r)).
Proof.
  intros ns parent key.
  assert (A : forall s, exists m, absolute (ensure_trailing s) = m ++ [c_slash] /\ hd_error (absolute (ensure_trailing s)) = Some c_slash).
  { intros s. destruct (ensure_trailing_last s) as (r & ->). unfold absolute.
    destruct (r ++ [c_slash]) as [|c l] eqn:E; [destruct r; discriminate|].
    destruct (Z.eqb_spec c c_slash) as [-> |N].
    - exists r. auto.
    - exists (c_slash :: r). rewrite <- E. auto. }
  conj.
  - exact (A ns).
  - unfold child_namespace. destruct ns as [|c ns]; [apply A|]. destruct (c =? c_slash); apply A.
  - intros [-> | ->]; reflexivity.
  - intros N1 N2. destruct key as [|c key]; [congruence|]. unfold qualified. destruct (Z.eqb_spec c c_slash) as [-> |N].
    + destruct key; [congruence|eauto].
    + destruct (A ns) as (m & _ & H). unfold base_namespace. destruct (absolute (ensure_trailing ns)) as [|x l]; [discriminate|].
      injection H as ->. destruct l; cbn; eauto.
Qed.
Print Assumptions C35_qualified.

(** A relative key in a child tree is the key below the child's namespace in its
    parent, for any depth of nesting; an absolute key is the same in every tree. *)
Theorem C35_child_keys : forall a cs key, Forall component cs -> cs <> [] -> Forall component key -> key <> [] ->
  child_namespace (namespace a) (joined cs) = namespace (a ++ cs) /\
  qualified (child_namespace (namespace a) (joined cs)) (joined key) = qualified (namespace a) (joined (cs ++ key)) /\
  qualified (namespace a) (joined key) = Ok (c_slash :: joined (a ++ key)) /\
  forall ns, qualified ns (c_slash :: joined key) = Ok (c_slash :: joined key).
Proof.
  intros a cs key Hc Nc Hk Nk.
  assert (Q : forall a k, Forall component k -> k <> [] -> qualified (namespace a) (joined k) = Ok (c_slash :: joined (a ++ k))).
  { clear. intros a k H N. destruct (joined_nonempty k H N) as [J1 J2]. unfold qualified.
    destruct (joined k) as [|c r] eqn:E; [congruence|]. specialize (J2 c r eq_refl). apply Z.eqb_neq in J2. rewrite J2.
    unfold namespace. cbn [app]. rewrite <- E. now rewrite joined_slashed. }
  conj.
  - now apply child_relative.
  - rewrite child_relative, !Q; auto; [now rewrite app_assoc| |].
    + apply Forall_app. auto.
    + destruct cs; [congruence|discriminate].
  - now apply Q.
  - intros ns. unfold qualified. rewrite Z.eqb_refl. destruct (joined_nonempty key Hk Nk) as [J1 _].
    destruct (joined key); [congruence|reflexivity].
Qed.
Print Assumptions C35_child_keys.
(** A child namespace that begins with '/' does not depend on the parent. *)
Theorem C35_absolute_child : forall parent cs, Forall component cs -> cs <> [] ->
  child_namespace parent (c_slash :: joined cs) = namespace cs.
Proof.
  intros parent cs H N. unfold child_namespace. rewrite Z.eqb_refl.
  change (c_slash :: joined cs) with ([c_slash] ++ joined cs). destruct (joined_nonempty cs H N) as [J _].
  rewrite (ensure_trailing_app [c_slash] (joined cs) J), (ensure_trailing_joined cs H N). reflexivity.
Qed.
Print Assumptions C35_absolute_child.

(** Setting a key makes it readable under every spelling with the same components and
    leaves the values of other existing keys alone; reading with a default does not
    change an existing value, and the non-const form stores the default. *)
Theorem C35_set_get : forall t a key v a' key', Forall component key -> key <> [] -> Forall component key' -> key' <> [] ->
  Forall component a -> Forall component a' ->
  exists t', set_string t (namespace a) (joined key) v = Ok t' /\
    (a' ++ key' = a ++ key -> get_string t' (namespace a') (joined key') = Ok v) /\
    (forall w, a' ++ key' <> a ++ key -> get_string t (namespace a') (joined key') = Ok w ->
       get_string t' (namespace a') (joined key') = Ok w) /\
    (forall w d, get_string t (namespace a) (joined key) = Ok w ->
       get_string_or t (namespace a) (joined key) d = Ok w /\
       get_string_or_set t (namespace a) (joined key) d = Ok (t, w)) /\
    (get_string t (namespace a) (joined key) = Throw ->
       get_string_or t (namespace a) (joined key) v = Ok v /\
       get_string_or_set t (namespace a) (joined key) v = Ok (t', v)).
Proof.
  intros t a key v a' key' Hk Nk Hk' Nk' Ha Ha'.
  assert (E : qualified (namespace a) (joined key) = Ok (c_slash :: joined (a ++ key))).
  { now apply (C35_child_keys a key key). }
  assert (E' : qualified (namespace a') (joined key') = Ok (c_slash :: joined (a' ++ key'))).
  { now apply (C35_child_keys a' key' key'). }
  unfold set_string, get_string, get_string_or, get_string_or_set. rewrite E, E'. cbn [obind].
  unfold imp_get, imp_set, imp_get_default, imp_get_default_const, imp_set. cbn [tl].
  rewrite !path_joined by (apply Forall_app; auto).
  eexists. split; [reflexivity|]. conj.
  - intros ->. now rewrite tree_put_same.
  - intros w N H. destruct (t (a' ++ key')) eqn:Et; [|discriminate]. injection H as ->.
    rewrite (tree_put_other _ _ _ _ w); auto.
  - intros w d H. destruct (t (a ++ key)); [|discriminate]. injection H as ->. auto.
  - intros H. destruct (t (a ++ key)); [discriminate|]. auto.
Qed.
Print Assumptions C35_set_get.

(** doesKeyExist() does not find keys that have been set: it throws. *)
Theorem C35_exists_throws : forall keys a key, 
  let t := fold_left (fun t kv => tree_put (fst kv) (snd kv) t) keys tree_empty in
  Forall (fun kv => Forall component (fst kv)) keys -> Forall component key -> key <> [] -> Forall component a ->
  key_exists t (namespace a) (joined key) = Throw.
Proof.
  intros keys a key t H Hk Nk Ha. unfold key_exists.
  assert (E : qualified (namespace a) (joined key) = Ok (c_slash :: joined (a ++ key))).
  { now apply (C35_child_keys a key key). }
  rewrite E. cbn [obind]. unfold imp_exists.
  assert (P : path_of (c_slash :: joined (a ++ key)) = [] :: path_of (joined (a ++ key))) by reflexivity.
  rewrite P.
  assert (G : forall keys t0, Forall (fun kv => Forall component (fst kv)) keys -> (forall p, t0 ([] :: p) = None) ->
     forall p, fold_left (fun t kv => tree_put (fst kv) (snd kv) t) keys t0 ([] :: p) = None).
  { clear. induction keys as [|[q v] keys IH]; intros t0 H H0 p; cbn [fold_left]; auto.
    inversion H as [|? ? Hq H']; subst. apply IH; auto. intros p'. unfold tree_put. cbn [fst snd] in *.
    destruct (path_eq_dec ([] :: p') q) as [<- |N].
    - inversion Hq as [|? ? [X _] _]. congruence.
    - rewrite H0. destruct q as [|x q]; cbn; auto. inversion Hq as [|? ? [X _] _]; subst.
      destruct x; [congruence|reflexivity]. }
  unfold t. rewrite G; auto.
Qed.
Print Assumptions C35_exists_throws.

(** A key that reads back its value "does not exist". *)
Theorem C35_exists_refuted : exists t key, set_string tree_empty (namespace []) key [120] = Ok t /\
  get_string t (namespace []) key = Ok [120] /\ key_exists t (namespace []) key = Throw.
Proof. eexists. exists [97]. split; [reflexivity|]. split; reflexivity. Qed.
Print Assumptions C35_exists_refuted.

Example C35_ex : Forall component [[97]; [98; 99]] /\ joined [[97]; [98; 99]] = [97; 47; 98; 99] /\
  namespace [[97]; [98; 99]] = [47; 97; 47; 98; 99; 47].
Proof.
  split; [|split; reflexivity]. repeat constructor; try discriminate; cbn; intuition discriminate.
Qed.
